(** Facts about degenerate simplices: the altitude is the distance from the
    plane of the opposite face. *)
From Coq Require Import Permutation Reals.
From Verif Require Import Base MultiIndex Fld FldInst LinSolve PolyEval Det Linalg VecFacts Simplicial SimplexGeo SimplexFacts GramSchmidt SimplexMetric SimplexInside SimplexVolume SimplexCenters Degenerate.
From Coq Require Import Field_theory Field.
Local Close Scope R_scope.

Section Degen.
  Context {Q : ofld} (ksqrt : Q -> Q).
  Add Field Kfield86 : (kth Q).
  Local Open Scope fld_scope.
  Hypothesis Hsqrt : sqrt_ok ksqrt.
  Notation norm := (norm2 ksqrt).

  Lemma norm_ge0 (v : list Q) : kle 0 (norm v). Proof. apply Hsqrt, dot_self_nonneg. Qed.
  Lemma norm_mono (u v : list Q) : kle (dot u u) (dot v v) -> kle (norm u) (norm v).
  Proof.
    intros H L. apply H. rewrite <- (norm_sq ksqrt Hsqrt u), <- (norm_sq ksqrt Hsqrt v). apply klt_sub. replace (norm u * norm u - norm v * norm v) with ((norm u - norm v) * (norm u + norm v)) by ring.
    apply klt_sub in L. apply klt_mul; [exact L|]. apply (klt_le_trans _ (norm u - norm v)); [exact L|]. apply kle_sub. replace (norm u + norm v - (norm u - norm v)) with (norm v + norm v) by ring. replace (0 : Q) with (0 + 0 : Q) by ring. apply kle_add2; apply norm_ge0.
  Qed.
  (** a functional that is constant on the points is constant on their affine combinations *)
  Lemma dot_comb d (u y : list Q) c f k : length u = d -> affine_comb d c f y -> (forall w, In w f -> length w = d) -> (forall w, In w f -> dot u w = k) -> dot u y = k.
  Proof.
    intros Lu (C1 & C2 & C3 & C4) HF HK. rewrite (dot_seq u y d Lu C2).
    rewrite (ksum_ext _ (fun j => ksum (seq 0 (length f)) (fun i => nth i c 0 * (nth j u 0 * ent f i j)))).
    2:{ intros j Hj. apply in_seq in Hj. rewrite C4 by lia. rewrite <- ksum_scale_l. apply ksum_ext. intros i _. ring. }
    rewrite ksum_swap. rewrite (ksum_ext _ (fun i => nth i c 0 * k)).
    2:{ intros i Hi. apply in_seq in Hi. rewrite ksum_scale_l. f_equal. rewrite <- (HK (nth i f [])) by (apply nth_In; lia). rewrite (dot_seq u _ d Lu) by (apply HF, nth_In; lia). reflexivity. }
    rewrite ksum_scale_r, <- C1, <- ksum_nth, C3. ring.
  Qed.
  Lemma comb_len d c (f : list (list Q)) y : affine_comb d c f y -> length y = d. Proof. intros H. apply H. Qed.
  (** the foot is the closest point of the plane *)
  Lemma foot_closest d (f g : list (list Q)) v x y c : foot d f v x -> Permutation f g -> length v = d -> (forall w, In w f -> length w = d) -> affine_comb d c g y -> kle (norm (vsub v x)) (norm (vsub v y)).
  Proof.
    intros ((cx & HX) & HO) P Lv HF HY. pose proof (comb_len _ _ _ _ HX) as Lx. pose proof (comb_len _ _ _ _ HY) as Ly. assert (Lu : length (vsub v x) = d) by (apply vsub_len; assumption).
    assert (K : forall w, In w f -> dot (vsub v x) w = dot (vsub v x) (nth 0 f [])).
    { intros w Hw. assert (L0 : length (nth 0 f []) = d) by (apply HF, nth_In; destruct f; [destruct Hw|cbn; lia]). destruct (In_nth f w [] Hw) as (i & Hi & Ei). specialize (HO i Hi). rewrite Ei in HO. rewrite (dot_vsub_r d) in HO by (try assumption; apply HF; assumption).
      apply (f_equal (fun z => z + dot (vsub v x) (nth 0 f []))) in HO. replace (dot (vsub v x) w) with (dot (vsub v x) w - dot (vsub v x) (nth 0 f []) + dot (vsub v x) (nth 0 f [])) by ring. rewrite HO. ring. }
    pose proof (dot_comb d _ x cx f _ Lu HX HF K) as E1.
    assert (E2 : dot (vsub v x) y = dot (vsub v x) (nth 0 f [])).
    { apply (dot_comb d _ y c g _ Lu HY); intros w Hw; apply Permutation_sym in P; pose proof (Permutation_in _ P Hw) as Hw'; auto. }
    rewrite <- E1 in E2. apply norm_mono. rewrite !dot_vsub_l in E2 by congruence.
    assert (X : dot (vsub v y) (vsub v y) = dot (vsub v x) (vsub v x) + dot (vsub x y) (vsub x y)).
    { rewrite !(dot_vsub_r d) by (try (apply vsub_len); assumption). rewrite !dot_vsub_l by congruence. rewrite (dot_comm y v), (dot_comm y x), (dot_comm x v).
      replace (dot v y) with (dot v y - dot x y + dot x y) by ring. rewrite E2. ring. }
    rewrite X. apply kle_sub. replace (dot (vsub v x) (vsub v x) + dot (vsub x y) (vsub x y) - dot (vsub v x) (vsub v x)) with (dot (vsub x y) (vsub x y)) by ring. apply dot_self_nonneg.
  Qed.
  Lemma div_lt (h d e : Q) : klt 0 d -> (klt (h / d) e <-> klt h (e * d)).
  Proof.
    intros Hd. assert (N : d <> 0) by (apply klt_neq0; exact Hd). split; intros H; apply klt_sub; apply klt_sub in H.
    - replace (e * d - h) with ((e - h / d) * d) by (field; exact N). apply klt_mul; assumption.
    - replace (e - h / d) with ((e * d - h) * (1 / d)) by (field; exact N). apply klt_mul; [exact H|]. apply klt_inv. exact Hd.
  Qed.
  (** some vertex is closer than [eps] times the diameter to the plane of the other vertices *)
  Definition near_face d (vs : list (list Q)) (eps : Q) : Prop :=
    exists i f c y, (i < length vs)%nat /\ Permutation vs (f ++ [nth i vs []]) /\ affine_comb d c f y /\ klt (norm (vsub (nth i vs []) y)) (eps * diameter ksqrt vs).
  Lemma mapM_ok_all {A B} (f : A -> result B) (l : list A) : (forall a, In a l -> exists b, f a = Ok b) -> exists bs, mapM f l = Ok bs /\ (forall b, In b bs <-> exists a, In a l /\ f a = Ok b).
  Proof.
    induction l as [|a l IH]; intros H; [exists []; split; [reflexivity|]; intros b; split; [intros []|intros (a & [] & _)]|]. destruct (H a (or_introl eq_refl)) as (b & Eb). destruct IH as (bs & E & HB); [intros; apply H; right; assumption|]. exists (b :: bs). split; [cbn [mapM]; rewrite Eb; cbn [bind]; rewrite E; reflexivity|].
    intros b'. split; [intros [<-|Hb]; [exists a; split; [left; reflexivity|exact Eb]|apply HB in Hb as (a' & Ha & Ea); exists a'; split; [right; exact Ha|exact Ea]]|].
    intros (a' & [<-|Ha] & Ea); [left; congruence|right; apply HB; exists a'; split; assumption].
  Qed.
  Lemma diameter_pos n d (vs : list (list Q)) i : (S n <= d)%nat -> rows_of (S (S n)) d vs -> affine_independent d vs -> (i <= S n)%nat ->
    exists h, altitude ksqrt vs i = Ok h /\ klt 0 h /\ kle h (diameter ksqrt vs).
  Proof.
    intros Hd HV HI Hi. destruct (altitude_spec ksqrt Hsqrt n d vs i Hd HV HI Hi) as (f & x & Ef & P & HF & EA & PA). eexists. split; [exact EA|]. split; [exact PA|].
    destruct f as [|w f]; [apply Permutation_length in P; rewrite (proj1 HV) in P; discriminate|].
    assert (HW : forall r, In r ((w :: f) ++ [nth i vs []]) -> In r vs) by (intros r Hr; apply Permutation_sym in P; exact (Permutation_in _ P Hr)).
    assert (Lw : length w = d) by (apply (proj2 HV), HW; left; reflexivity).
    apply (kle_trans _ (norm (vsub (nth i vs []) w))).
    - apply (foot_closest d (w :: f) (w :: f) _ x w (1 :: repeat 0 (length f)) HF (Permutation_refl _)); [apply (rows_len (S (S n)) d); [exact HV|lia]|intros r Hr; apply (proj2 HV), HW, in_or_app; left; exact Hr|].
      split; [cbn [length]; rewrite repeat_length; reflexivity|]. split; [exact Lw|]. split.
      + rewrite ksum_cons. rewrite (ksum_zero (fun x => x)); [ring|]. intros a Ha. apply repeat_spec in Ha. exact Ha.
      + intros j Hj. cbn [length]. rewrite ksum_S0. cbn [nth ent]. rewrite (ksum_zero (fun i0 => _)); [unfold ent; cbn [nth]; ring|]. intros k _. rewrite nth_repeat. ring.
    - apply (diameter_spec ksqrt Hsqrt vs d); [rewrite (proj1 HV); lia|apply HV|apply nth_In; rewrite (proj1 HV); lia|apply HW; left; reflexivity].
  Qed.
  Theorem is_degenerate_spec n d (vs : list (list Q)) eps : (S n <= d)%nat -> rows_of (S (S n)) d vs -> affine_independent d vs ->
    exists b, is_degenerate ksqrt vs eps = Ok b /\ (b = true <-> near_face d vs eps).
  Proof.
    intros Hd HV HI. pose proof (proj1 HV) as L. unfold is_degenerate. destruct (mapM_ok_all (altitude ksqrt vs) (seq 0 (length vs))) as (hs & E & HH).
    { intros i Hi. apply in_seq in Hi. destruct (diameter_pos n d vs i Hd HV HI ltac:(lia)) as (h & Eh & _). exists h. exact Eh. }
    assert (PD : klt 0 (diameter ksqrt vs)) by (destruct (diameter_pos n d vs 0 Hd HV HI ltac:(lia)) as (h & _ & H1 & H2); exact (klt_le_trans _ _ _ H1 H2)).
    destruct (kdec (diameter ksqrt vs) 0) as [D0|_]; [destruct (klt_neq0 _ PD D0)|]. rewrite andb_false_r.
    rewrite E. cbn [bind]. eexists. split; [reflexivity|]. rewrite existsb_exists. split.
    - intros (h & Hh & Lh). apply kltb_spec in Lh. apply (div_lt _ _ _ PD) in Lh. apply HH in Hh as (i & Hi & Ei). apply in_seq in Hi. destruct (altitude_spec ksqrt Hsqrt n d vs i Hd HV HI ltac:(lia)) as (f & x & Ef & P & ((c & HC) & _) & EA & _). exists i, f, c, x. split; [lia|]. split; [exact P|]. split; [exact HC|]. assert (EQ : h = norm (vsub (nth i vs []) x)) by congruence. rewrite <- EQ. exact Lh.
    - intros (i & f & c & y & Hi & P & HC & Lh). destruct (altitude_spec ksqrt Hsqrt n d vs i Hd HV HI ltac:(lia)) as (f' & x & Ef & P' & HF & EA & _).
      exists (norm (vsub (nth i vs []) x)). split; [apply HH; exists i; split; [apply in_seq; lia|exact EA]|]. apply kltb_spec, (div_lt _ _ _ PD). apply (kle_lt_trans _ (norm (vsub (nth i vs []) y))); [|exact Lh].
      apply (foot_closest d f' f _ x y c HF); [|apply (rows_len (S (S n)) d); [exact HV|lia]| |exact HC].
      + apply (Permutation_app_inv_r [nth i vs []]). exact (Permutation_trans (Permutation_sym P') P).
      + intros w Hw. apply (proj2 HV). apply Permutation_sym in P'. apply (Permutation_in _ P'), in_or_app. left. exact Hw.
  Qed.
  (** ** Similar simplices *)
  Definition move (s : Q) (t v : list Q) : list Q := vadd (vscale s v) t.
  Lemma move_len d s t v : length t = d -> length v = d -> length (move s t v) = d.
  Proof. intros Ht Hv. apply vadd_len; [apply vscale_len; exact Hv|exact Ht]. Qed.
  Lemma nth_move d s t v j : length t = d -> length v = d -> nth j (move s t v) 0 = s * nth j v 0 + nth j t 0.
  Proof. intros Ht Hv. unfold move. rewrite nth_vadd by (rewrite (vscale_len s v d Hv); symmetry; exact Ht). rewrite nth_vscale. reflexivity. Qed.
  Lemma move_dist d s t u v : length t = d -> length u = d -> length v = d -> norm (vsub (move s t u) (move s t v)) = kabs s * norm (vsub u v).
  Proof.
    intros Ht Hu Hv. assert (E : vsub (move s t u) (move s t v) = vscale s (vsub u v)).
    { apply (nth_ext _ _ 0 0); [rewrite (vsub_len _ _ d), (vscale_len _ _ d); auto using vsub_len, move_len|]. intros j _. rewrite nth_vsub by (rewrite !(move_len d); auto). rewrite !(nth_move d), nth_vscale, nth_vsub by congruence. ring. }
    rewrite E. assert (EQ : norm (vscale s (vsub u v)) * norm (vscale s (vsub u v)) = (kabs s * norm (vsub u v)) * (kabs s * norm (vsub u v))).
    { rewrite (norm_sq ksqrt Hsqrt). rewrite dot_vscale_l, (dot_vscale_r d) by (apply vsub_len; assumption). rewrite <- (norm_sq ksqrt Hsqrt). unfold kabs. destruct (kltb s 0); ring. }
    assert (P1 : kle 0 (kabs s * norm (vsub u v))).
    { apply kle_mul; [|apply norm_ge0]. unfold kabs. destruct (kltb s 0) eqn:B; [apply kltb_spec in B; apply klt_le; apply klt_sub in B; replace (- s) with (0 - s) by ring; exact B|apply kltb_false in B; exact B]. }
    pose proof (norm_ge0 (vscale s (vsub u v))) as P2. set (a := norm (vscale s (vsub u v))) in *. set (b := kabs s * norm (vsub u v)) in *. clearbody a b.
    destruct (klt_total Q a b) as [C|[C|C]]; [|exact C|]; exfalso; apply klt_sub in C.
    - apply (klt_irrefl Q 0). replace (0 : Q) with ((b - a) * (b + a)) at 2 by (replace ((b - a) * (b + a)) with (b * b - a * a) by ring; rewrite EQ; ring). apply klt_mul; [exact C|]. apply (klt_le_trans _ _ _ C). apply kle_sub. replace (b + a - (b - a)) with (a + a) by ring. replace (0 : Q) with (0 + 0 : Q) by ring. apply kle_add2; exact P2.
    - apply (klt_irrefl Q 0). replace (0 : Q) with ((a - b) * (a + b)) at 2 by (replace ((a - b) * (a + b)) with (a * a - b * b) by ring; rewrite EQ; ring). apply klt_mul; [exact C|]. apply (klt_le_trans _ _ _ C). apply kle_sub. replace (a + b - (a - b)) with (b + b) by ring. replace (0 : Q) with (0 + 0 : Q) by ring. apply kle_add2; exact P1.
  Qed.
  Lemma move_rows m d s t vs : length t = d -> rows_of m d vs -> rows_of m d (map (move s t) vs).
  Proof. intros Ht (L & HV). split; [rewrite map_length; exact L|]. intros r Hr. apply in_map_iff in Hr as (v & <- & Hv). apply move_len; auto. Qed.
  Lemma ent_move m d s t vs i j : length t = d -> rows_of m d vs -> (i < m)%nat -> ent (map (move s t) vs) i j = s * ent vs i j + nth j t 0.
  Proof.
    intros Ht HV Hi. unfold ent. rewrite (nth_indep _ [] (move s t [])) by (rewrite map_length, (proj1 HV); exact Hi). rewrite map_nth. apply (nth_move d); [exact Ht|]. apply (rows_len m d); [exact HV|exact Hi].
  Qed.
  Lemma move_comb m d s t vs c y : length t = d -> rows_of m d vs -> affine_comb d c vs y -> affine_comb d c (map (move s t) vs) (move s t y).
  Proof.
    intros Ht HV (C1 & C2 & C3 & C4). split; [rewrite map_length; exact C1|]. split; [apply move_len; assumption|]. split; [exact C3|]. intros j Hj. rewrite (nth_move d) by assumption. rewrite C4 by exact Hj. rewrite map_length.
    rewrite (ksum_ext (fun i => nth i c 0 * ent (map (move s t) vs) i j) (fun i => s * (nth i c 0 * ent vs i j) + nth i c 0 * nth j t 0)).
    2:{ intros i Hi. apply in_seq in Hi. rewrite (ent_move m d) by (try assumption; destruct HV; lia). ring. }
    rewrite ksum_plus, ksum_scale_l, ksum_scale_r, <- C1, <- (ksum_nth c), C3. ring.
  Qed.
  Lemma move_independent m d s t vs : s <> 0 -> length t = d -> rows_of m d vs -> affine_independent d vs -> affine_independent d (map (move s t) vs).
  Proof.
    intros Hs Ht HV HI c C1 C2. rewrite map_length in *. apply HI; [exact C1|]. intros j Hj. specialize (C2 j Hj).
    rewrite (ksum_ext (fun i => c i * ent (map (move s t) vs) i j) (fun i => s * (c i * ent vs i j) + c i * nth j t 0)) in C2.
    2:{ intros i Hi. apply in_seq in Hi. rewrite (ent_move m d) by (try assumption; destruct HV; lia). ring. }
    rewrite ksum_plus, ksum_scale_l, ksum_scale_r, C1 in C2. set (S0 := ksum (seq 0 (length vs)) (fun i => c i * ent vs i j)) in *. clearbody S0. replace S0 with (1 / s * (s * S0 + 0 * nth j t 0)) by (field; exact Hs). rewrite C2. ring.
  Qed.
  Lemma kabs_pos (s : Q) : s <> 0 -> klt 0 (kabs s).
  Proof.
    intros Hs. unfold kabs. destruct (kltb s 0) eqn:B; [apply kltb_spec in B; apply klt_sub in B; replace (- s) with (0 - s) by ring; exact B|]. apply kltb_false in B. destruct (kle_cases _ _ B) as [C|C]; [exact C|congruence].
  Qed.
  Lemma move_diameter m d s t vs : s <> 0 -> length t = d -> (2 <= m)%nat -> rows_of m d vs -> diameter ksqrt (map (move s t) vs) = kabs s * diameter ksqrt vs.
  Proof.
    intros Hs Ht Hm HV. pose proof (move_rows m d s t vs Ht HV) as HV'. destruct HV as (L & HL). destruct (diameter_spec ksqrt Hsqrt vs d ltac:(lia) HL) as (D1 & u & v & Hu & Hv & D2). destruct (diameter_spec ksqrt Hsqrt (map (move s t) vs) d ltac:(rewrite map_length; lia) (proj2 HV')) as (D1' & u' & v' & Hu' & Hv' & D2').
    apply kle_antisym.
    - rewrite D2'. apply in_map_iff in Hu' as (a & <- & Ha). apply in_map_iff in Hv' as (b & <- & Hb). rewrite (move_dist d) by auto. apply kle_scale; [apply klt_le, kabs_pos, Hs|]. apply D1; assumption.
    - rewrite D2. rewrite <- (move_dist d s t) by auto. apply D1'; apply in_map; assumption.
  Qed.
  Lemma move_near m d s t vs eps : s <> 0 -> length t = d -> (2 <= m)%nat -> rows_of m d vs -> near_face d vs eps -> near_face d (map (move s t) vs) eps.
  Proof.
    intros Hs Ht Hm HV (i & f & c & y & Hi & P & HC & HN). exists i, (map (move s t) f), c, (move s t y). assert (EN : nth i (map (move s t) vs) [] = move s t (nth i vs [])) by (rewrite (nth_indep _ [] (move s t [])) by (rewrite map_length; exact Hi); apply map_nth).
    assert (HF : rows_of (length f) d f) by (split; [reflexivity|]; intros r Hr; apply (proj2 HV); apply Permutation_sym in P; apply (Permutation_in _ P), in_or_app; left; exact Hr).
    split; [rewrite map_length; exact Hi|]. split; [rewrite EN; change [move s t (nth i vs [])] with (map (move s t) [nth i vs []]); rewrite <- map_app; apply Permutation_map; exact P|]. split; [exact (move_comb (length f) d s t f c y Ht HF HC)|].
    rewrite EN, (move_dist d), (move_diameter m d) by (try assumption; try (apply (rows_len m d); [exact HV|rewrite <- (proj1 HV); exact Hi]); exact (comb_len _ _ _ _ HC)).
    apply klt_sub. apply klt_sub in HN. replace (eps * (kabs s * diameter ksqrt vs) - kabs s * norm (vsub (nth i vs []) y)) with (kabs s * (eps * diameter ksqrt vs - norm (vsub (nth i vs []) y))) by ring. apply klt_mul; [apply kabs_pos, Hs|exact HN].
  Qed.
  Lemma move_back d s t (vs : list (list Q)) : s <> 0 -> length t = d -> (forall v, In v vs -> length v = d) -> map (move (1 / s) (vscale (- (1) / s) t)) (map (move s t) vs) = vs.
  Proof.
    intros Hs Ht HV. rewrite map_map. rewrite <- (map_id vs) at 2. apply map_ext_in. intros v Hv. specialize (HV v Hv). assert (Lt : length (vscale (- (1) / s) t) = d) by (apply vscale_len; exact Ht). apply (nth_ext _ _ 0 0); [rewrite (move_len d); [symmetry; exact HV|exact Lt|apply move_len; assumption]|].
    intros j _. rewrite (nth_move d) by (auto using move_len). rewrite (nth_move d), nth_vscale by assumption. field. exact Hs.
  Qed.
  Theorem is_degenerate_similar n d s t (vs : list (list Q)) eps : (S n <= d)%nat -> rows_of (S (S n)) d vs -> affine_independent d vs -> s <> 0 -> length t = d ->
    is_degenerate ksqrt (map (move s t) vs) eps = is_degenerate ksqrt vs eps.
  Proof.
    intros Hd HV HI Hs Ht. pose proof (move_rows _ d s t vs Ht HV) as HV'. destruct (is_degenerate_spec n d vs eps Hd HV HI) as (b & E & HB). destruct (is_degenerate_spec n d (map (move s t) vs) eps Hd HV' (move_independent _ d s t vs Hs Ht HV HI)) as (b' & E' & HB').
    rewrite E, E'. f_equal. assert (X : near_face d (map (move s t) vs) eps <-> near_face d vs eps).
    { split; [|apply (move_near (S (S n))); try assumption; lia]. intros H. rewrite <- (move_back d s t vs Hs Ht (proj2 HV)). apply (move_near (S (S n))); [|apply vscale_len; exact Ht|lia|exact HV'|exact H]. intros C. assert (C2 : s * (1 / s) = 0) by (rewrite C; ring). replace (s * (1 / s)) with (1 : Q) in C2 by (field; exact Hs). exact (klt_neq0 _ k01 C2). }
    destruct b, b'; try reflexivity; [exact (proj2 HB' (proj2 X (proj1 HB eq_refl)))|symmetry; exact (proj2 HB (proj1 X (proj1 HB' eq_refl)))].
  Qed.
  Theorem is_degenerate_extreme n d (vs : list (list Q)) eps : (S n <= d)%nat -> rows_of (S (S n)) d vs -> affine_independent d vs ->
    (klt 1 eps -> is_degenerate ksqrt vs eps = Ok true) /\ (kle eps 0 -> is_degenerate ksqrt vs eps = Ok false).
  Proof.
    intros Hd HV HI. destruct (is_degenerate_spec n d vs eps Hd HV HI) as (b & E & HB). destruct (diameter_pos n d vs 0 Hd HV HI ltac:(lia)) as (h & Eh & Ph & Lh). rewrite E. split; intros H; f_equal.
    - apply HB. destruct (altitude_spec ksqrt Hsqrt n d vs 0 Hd HV HI ltac:(lia)) as (f & x & Ef & P & ((c & HC) & _) & EA & _). exists 0%nat, f, c, x. split; [rewrite (proj1 HV); lia|]. split; [exact P|]. split; [exact HC|]. assert (EQ : h = norm (vsub (nth 0 vs []) x)) by congruence. rewrite <- EQ. apply (kle_lt_trans _ _ _ Lh).
      apply klt_sub in H. apply klt_sub. replace (eps * diameter ksqrt vs - diameter ksqrt vs) with ((eps - 1) * diameter ksqrt vs) by ring. apply klt_mul; [exact H|exact (klt_le_trans _ _ _ Ph Lh)].
    - destruct b; [|reflexivity]. exfalso. destruct (proj1 HB eq_refl) as (i & f & c & y & _ & _ & _ & HN). pose proof (norm_ge0 (vsub (nth i vs []) y)) as N0. apply (klt_irrefl Q 0). apply (kle_lt_trans _ _ _ N0). apply (klt_le_trans _ _ _ HN).
      intros C. apply H. assert (PD : klt 0 (diameter ksqrt vs)) by exact (klt_le_trans _ _ _ Ph Lh). replace eps with ((eps * diameter ksqrt vs) * (1 / diameter ksqrt vs)) by (field; apply klt_neq0; exact PD). apply klt_mul; [exact C|apply klt_inv; exact PD].
  Qed.
  (** ** Simplices without volume *)
  Lemma flat_altitude n (vs : list (list Q)) i : rows_of (S (S n)) (S n) vs -> ~ affine_independent (S n) vs -> (i <= S n)%nat ->
    (forall f, Permutation vs (f ++ [nth i vs []]) -> affine_independent (S n) f) -> altitude ksqrt vs i = Ok 0.
  Proof.
    intros HV ND Hi HF. unfold altitude. destruct (face_perm n vs i (proj1 HV) Hi) as (f & Ef & P). rewrite Ef. cbn [bind]. rewrite (volume_full ksqrt (S n) vs) by (auto; exact HV). cbn [bind].
    assert (RF : rows_of (S n) (S n) f).
    { split; [apply Permutation_length in P; rewrite app_length in P; cbn [length] in P; rewrite (proj1 HV) in P; lia|]. intros r Hr. apply (proj2 HV). apply Permutation_sym in P. apply (Permutation_in _ P), in_or_app. left. exact Hr. }
    destruct (vol_eq ksqrt Hsqrt n (S n) f ltac:(lia) RF (HF f P)) as (V & EV & PV & _). rewrite EV. cbn [bind]. f_equal.
    assert (D0 : det (S n) (edge vs) = 0).
    { destruct (kdec (det (S n) (edge vs)) 0) as [H|H]; [exact H|]. exfalso. apply ND. apply affine_independent_det; [discriminate|exact (proj1 HV)|exact H]. }
    rewrite D0. assert (V0 : V <> 0) by (apply klt_neq0; exact PV). replace (kabs (0 / kofnat (fact (S n)))) with (0 : Q); [field; exact V0|].
    assert (N0 : kofnat (fact (S n)) <> (0 : Q)) by (apply kofnat_neq; pose proof (fact_neq_0 (S n)); lia). replace (0 / kofnat (fact (S n))) with (0 : Q) by (field; exact N0). unfold kabs. destruct (kltb (0 : Q) 0); ring.
  Qed.
  Theorem is_degenerate_flat m (vs : list (list Q)) eps : rows_of (S (S (S m))) (S (S m)) vs -> ~ affine_independent (S (S m)) vs ->
    (forall i f, (i < length vs)%nat -> Permutation vs (f ++ [nth i vs []]) -> affine_independent (S (S m)) f) -> is_degenerate ksqrt vs eps = Ok (kltb 0 eps).
  Proof.
    intros HV ND HF. assert (PD : klt 0 (diameter ksqrt vs)).
    { destruct (face_perm (S m) vs 0 (proj1 HV) ltac:(lia)) as (f & Ef & P). assert (HP : forall r, In r f -> In r vs) by (intros r Hr; apply Permutation_sym in P; apply (Permutation_in _ P), in_or_app; left; exact Hr).
      assert (RF : rows_of (S (S m)) (S (S m)) f).
      { split; [apply Permutation_length in P; rewrite app_length in P; cbn [length] in P; rewrite (proj1 HV) in P; lia|]. intros r Hr. apply (proj2 HV), HP, Hr. }
      destruct (diameter_pos m (S (S m)) f 0 ltac:(lia) RF (HF 0%nat f ltac:(rewrite (proj1 HV); lia) P) ltac:(lia)) as (h & _ & P1 & P2). apply (klt_le_trans _ _ _ P1). apply (kle_trans _ _ _ P2).
      destruct (diameter_spec ksqrt Hsqrt f (S (S m)) ltac:(rewrite (proj1 RF); lia) (proj2 RF)) as (_ & u & v & Hu & Hv & ->). apply (diameter_spec ksqrt Hsqrt vs (S (S m))); [rewrite (proj1 HV); lia|exact (proj2 HV)|apply HP, Hu|apply HP, Hv]. }
    assert (D0 : diameter ksqrt vs <> 0) by (apply klt_neq0; exact PD).
    assert (EM : forall l, (forall i, In i l -> (i < length vs)%nat) -> mapM (altitude ksqrt vs) l = Ok (repeat 0 (length l))).
    { induction l as [|i l IH]; intros H; [reflexivity|]. cbn [mapM length repeat]. rewrite (flat_altitude (S m) vs i HV ND); [cbn [bind]; rewrite IH by (intros; apply H; right; assumption); reflexivity| |].
      - specialize (H i (or_introl eq_refl)). rewrite (proj1 HV) in H. lia.
      - intros f P. apply (HF i f); [apply H; left; reflexivity|exact P]. }
    unfold is_degenerate. destruct (kdec (diameter ksqrt vs) 0) as [C|_]; [contradiction|]. rewrite andb_false_r. rewrite EM by (intros i Hi; apply in_seq in Hi; lia). cbn [bind]. f_equal. rewrite seq_length, (proj1 HV).
    assert (Z : 0 / diameter ksqrt vs = 0) by (field; exact D0). assert (G : forall k, existsb (fun h => kltb (h / diameter ksqrt vs) eps) (repeat (0 : Q) (S k)) = kltb 0 eps).
    { induction k as [|k IH]; [cbn [repeat existsb]; rewrite Z; apply orb_false_r|]. change (repeat (0 : Q) (S (S k))) with ((0 : Q) :: repeat 0 (S k)). cbn [existsb] in *. rewrite IH, Z. apply orb_diag. }
    apply G.
  Qed.
  Theorem is_degenerate_coincident n (p : list Q) eps : is_degenerate ksqrt (repeat p (S (S n))) eps = Ok false.
  Proof.
    unfold is_degenerate. assert (D : diameter ksqrt (repeat p (S (S n))) = 0).
    { destruct (diameter_spec ksqrt Hsqrt (repeat p (S (S n))) (length p) ltac:(rewrite repeat_length; lia)) as (_ & u & v & Hu & Hv & ->); [intros v Hv; apply repeat_spec in Hv as ->; reflexivity|]. apply repeat_spec in Hu as ->. apply repeat_spec in Hv as ->.
      assert (N : norm (vsub p p) * norm (vsub p p) = 0) by (rewrite (norm_sq ksqrt Hsqrt), dot_vsub_l by reflexivity; ring). destruct (kdec (norm (vsub p p)) 0) as [H|H]; [exact H|]. replace (norm (vsub p p)) with (norm (vsub p p) * norm (vsub p p) * (1 / norm (vsub p p))) by (field; exact H). rewrite N. ring. }
    rewrite D. destruct (kdec 0 0) as [_|C]; [reflexivity|destruct (C eq_refl)].
  Qed.
End Degen.
