(** inside_simplex and the two ways to compute barycentric coordinates. *)
From Verif Require Import Base Fld FldInst LinSolve PolyEval Det Linalg VecFacts Simplicial SimplexGeo SimplexFacts GramSchmidt SimplexMetric.
From Coq Require Import Field_theory Field.

Section Inside.
  Context {Q : ofld} (ksqrt : Q -> Q).
  Add Field Kfield46 : (kth Q).
  Local Open Scope fld_scope.

  Lemma ksum_le_one (c : list Q) x : (forall y, In y c -> kle 0 y) -> In x c -> kle x (ksum c (fun y => y)).
  Proof.
    induction c as [|y c IH]; intros H Hx; [destruct Hx|]. rewrite ksum_cons.
    assert (P : kle 0 (ksum c (fun y => y))) by (apply ksum_nonneg; intros; apply H; right; assumption). assert (P0 : kle 0 y) by (apply H; left; reflexivity).
    destruct Hx as [<-|Hx].
    - apply kle_sub. replace (y + ksum c (fun y => y) - y) with (ksum c (fun y => y)) by ring. exact P.
    - apply (kle_trans _ (ksum c (fun y => y))); [apply IH; [intros; apply H; right; assumption|exact Hx]|]. apply kle_sub. replace (y + ksum c (fun y => y) - ksum c (fun y => y)) with y by ring. exact P0.
  Qed.
  Lemma ksum_lt_one (c : list Q) x : (forall y, In y c -> klt 0 y) -> In x c -> (2 <= length c)%nat -> klt x (ksum c (fun y => y)).
  Proof.
    intros H Hx L. destruct c as [|a [|b c]]; cbn [length] in L; try lia. assert (HL : forall y, In y (a :: b :: c) -> kle 0 y) by (intros; apply klt_le, H; assumption). rewrite ksum_cons.
    assert (P : klt 0 a) by (apply H; left; reflexivity). assert (P1 : klt 0 b) by (apply H; right; left; reflexivity). assert (PB : klt 0 (ksum (b :: c) (fun y => y))) by (apply (klt_le_trans _ b); [exact P1|apply ksum_le_one; [intros; apply HL; right; assumption|left; reflexivity]]).
    destruct Hx as [<-|Hx].
    - apply klt_sub. replace (a + ksum (b :: c) (fun y => y) - a) with (ksum (b :: c) (fun y => y)) by ring. exact PB.
    - apply (kle_lt_trans _ (ksum (b :: c) (fun y => y))); [apply ksum_le_one; [intros; apply HL; right; assumption|exact Hx]|]. apply klt_sub. replace (a + ksum (b :: c) (fun y => y) - ksum (b :: c) (fun y => y)) with a by ring. exact P.
  Qed.
  Lemma closed_range_all (c : list Q) : ksum c (fun x => x) = 1 -> (forallb (fun b => in_closed_range b 0 1) c = true <-> forall x, In x c -> kle 0 x).
  Proof.
    intros S1. rewrite forallb_forall. split.
    - intros H x Hx. specialize (H x Hx). unfold in_closed_range in H. apply andb_prop in H as [H _]. apply kleb_spec. exact H.
    - intros H x Hx. unfold in_closed_range. apply andb_true_intro. split; apply kleb_spec; [apply H; exact Hx|]. rewrite <- S1. apply ksum_le_one; assumption.
  Qed.
  Lemma open_range_all (c : list Q) : (2 <= length c)%nat -> ksum c (fun x => x) = 1 -> (forallb (fun b => in_open_range b 0 1) c = true <-> forall x, In x c -> klt 0 x).
  Proof.
    intros L S1. rewrite forallb_forall. split.
    - intros H x Hx. specialize (H x Hx). unfold in_open_range in H. apply andb_prop in H as [H _]. apply kltb_spec. exact H.
    - intros H x Hx. unfold in_open_range. apply andb_true_intro. split; apply kltb_spec; [apply H; exact Hx|]. rewrite <- S1. apply ksum_lt_one; assumption.
  Qed.
  Lemma some_negative (c : list Q) : ksum c (fun x => x) = 1 -> exists x, In x c /\ klt 0 x.
  Proof.
    intros S1. destruct (Exists_dec (fun x => klt 0 x) c (fun x => klt_dec 0 x)) as [H|H]; [apply Exists_exists in H; exact H|]. exfalso.
    assert (Z : kle (ksum c (fun x => x)) 0).
    { clear S1. induction c as [|y c IH]; [apply kle_refl|]. rewrite ksum_cons. replace (0 : Q) with (0 + 0 : Q) by ring. apply kle_add2; [intros E; apply H; left; exact E|apply IH; intros E; apply H; right; exact E]. }
    rewrite S1 in Z. exact (Z k01).
  Qed.

  (** orientation *)
  Lemma orientation_pos n (vs : list (list Q)) : n <> 0%nat -> rows_of (S n) n vs -> affine_independent n vs -> orientation vs = Ok 1%Z -> klt 0 (det n (edge vs)).
  Proof.
    intros Hn HV HI HO. apply (affine_independent_det n vs Hn (proj1 HV)) in HI. unfold orientation in HO. rewrite (signed_volume_eq n) in HO by assumption. cbn [bind] in HO. destruct (kleb 0 (det n (edge vs) / kofnat (fact n))) eqn:E; [|discriminate]. apply kleb_spec in E.
    destruct (klt_total Q 0 (det n (edge vs))) as [H|[H|H]]; [exact H|congruence|]. exfalso. apply E. apply klt_sub. apply klt_sub in H. replace (0 - det n (edge vs) / kofnat (fact n)) with ((0 - det n (edge vs)) / kofnat (fact n)) by (field; apply fact_neq). apply klt_div; [exact H|apply fact_pos].
  Qed.
  Lemma orientation_neg n (vs : list (list Q)) : n <> 0%nat -> rows_of (S n) n vs -> orientation vs = Ok (-1)%Z -> klt (det n (edge vs)) 0.
  Proof.
    intros Hn HV HO. unfold orientation in HO. rewrite (signed_volume_eq n) in HO by assumption. cbn [bind] in HO. destruct (kleb 0 (det n (edge vs) / kofnat (fact n))) eqn:E; [discriminate|]. apply kleb_false in E.
    apply klt_sub. apply klt_sub in E. replace (0 - det n (edge vs)) with ((0 - det n (edge vs) / kofnat (fact n)) * kofnat (fact n)) by (field; apply fact_neq). apply klt_mul; [exact E|apply fact_pos].
  Qed.
  Lemma det_neg_independent n (vs : list (list Q)) : n <> 0%nat -> length vs = S n -> klt (det n (edge vs)) 0 -> affine_independent n vs.
  Proof. intros Hn L H. apply (affine_independent_det n vs Hn L). intros E. rewrite E in H. exact (klt_irrefl Q 0 H). Qed.

  Theorem bary_positive eps n (vs : list (list Q)) : n <> 0%nat -> rows_of (S n) n vs -> affine_independent n vs -> orientation vs = Ok 1%Z ->
    (forall p, length p = n -> exists c, cartesian_to_barycentric ksqrt eps p vs = Ok c /\ affine_comb n c vs p /\ barycentric_to_cartesian c vs = p) /\
    (forall c, length c = S n -> ksum c (fun x => x) = 1 -> cartesian_to_barycentric ksqrt eps (barycentric_to_cartesian c vs) vs = Ok c).
  Proof.
    intros Hn HV HI HO. pose proof (orientation_pos n vs Hn HV HI HO) as HD. split.
    - intros p Lp. destruct (coords_exist n vs p Hn HV (klt_neq0 _ HD) Lp) as (c & HC). exists c. split; [exact (to_bary_pos ksqrt eps n vs c p Hn HV HD HC)|]. split; [exact HC|exact (barycentric_to_cartesian_comb n n vs c p HV HC)].
    - intros c Lc S1. apply (to_bary_pos ksqrt eps n vs c _ Hn HV HD). apply (barycentric_to_cartesian_spec n n); assumption.
  Qed.
  Theorem bary_negative eps n (vs : list (list Q)) : n <> 0%nat -> rows_of (S n) n vs -> orientation vs = Ok (-1)%Z ->
    forall p, length p = n -> exists c, affine_comb n c vs p /\ cartesian_to_barycentric ksqrt eps p vs = Ok (map (fun x => - x) c).
  Proof.
    intros Hn HV HO p Lp. pose proof (orientation_neg n vs Hn HV HO) as HD. assert (ND : det n (edge vs) <> 0) by (intros E; rewrite E in HD; exact (klt_irrefl Q 0 HD)).
    destruct (coords_exist n vs p Hn HV ND Lp) as (c & HC). exists c. split; [exact HC|exact (to_bary_neg ksqrt eps n vs c p Hn HV HD HC)].
  Qed.
  Theorem inside_negative eps n (vs : list (list Q)) p ib : n <> 0%nat -> rows_of (S n) n vs -> orientation vs = Ok (-1)%Z -> length p = n -> inside_simplex ksqrt eps p vs ib 0 = Ok false.
  Proof.
    intros Hn HV HO Lp. destruct (bary_negative eps n vs Hn HV HO p Lp) as (c & (_ & _ & S1 & _) & E). unfold inside_simplex. rewrite E. cbn [bind]. destruct (kdec 0 0) as [_|N]; [|destruct (N eq_refl)]. f_equal.
    destruct (some_negative c S1) as (x & Hx & Px). apply Bool.not_true_is_false. rewrite forallb_forall. intros H. specialize (H (- x) (in_map _ _ _ Hx)).
    assert (NX : klt (- x) 0) by (apply klt_sub; replace (0 - - x) with x by ring; exact Px).
    destruct ib; [unfold in_closed_range in H|unfold in_open_range in H]; apply andb_prop in H as [H _].
    - apply kleb_spec in H. exact (H NX).
    - apply kltb_spec in H. apply (klt_irrefl Q 0). exact (klt_trans _ _ _ _ H NX).
  Qed.
  Lemma inside_spec n c eps (vs : list (list Q)) p : n <> 0%nat -> length vs = S n -> affine_comb (length p) c vs p -> affine_independent (length p) vs -> cartesian_to_barycentric ksqrt eps p vs = Ok c ->
    (inside_simplex ksqrt eps p vs true 0 = Ok true <-> exists c', affine_comb (length p) c' vs p /\ forall x, In x c' -> kle 0 x) /\
    (inside_simplex ksqrt eps p vs false 0 = Ok true <-> exists c', affine_comb (length p) c' vs p /\ forall x, In x c' -> klt 0 x) /\
    (forall ib, exists b, inside_simplex ksqrt eps p vs ib 0 = Ok b).
  Proof.
    intros Hn L HC HI E. pose proof HC as (Lc & _ & S1 & _). unfold inside_simplex. rewrite E. cbn [bind]. destruct (kdec 0 0) as [_|N]; [|destruct (N eq_refl)]. split; [|split].
    - split.
      + intros H. injection H as H. exists c. split; [exact HC|]. apply closed_range_all; assumption.
      + intros (c' & HC' & Hx). rewrite (affine_comb_unique (length p) vs c c' p HI HC HC'). f_equal. apply closed_range_all; [apply HC'|exact Hx].
    - split.
      + intros H. injection H as H. exists c. split; [exact HC|]. apply open_range_all; try assumption. lia.
      + intros (c' & HC' & Hx). rewrite (affine_comb_unique (length p) vs c c' p HI HC HC'). f_equal. apply open_range_all; [destruct HC' as (L' & _); lia|apply HC'|exact Hx].
    - intros ib. eexists. reflexivity.
  Qed.
  Theorem inside_positive eps n (vs : list (list Q)) p : n <> 0%nat -> rows_of (S n) n vs -> affine_independent n vs -> orientation vs = Ok 1%Z -> length p = n ->
    (inside_simplex ksqrt eps p vs true 0 = Ok true <-> exists c, affine_comb n c vs p /\ forall x, In x c -> kle 0 x) /\
    (inside_simplex ksqrt eps p vs false 0 = Ok true <-> exists c, affine_comb n c vs p /\ forall x, In x c -> klt 0 x) /\
    (forall ib, exists b, inside_simplex ksqrt eps p vs ib 0 = Ok b).
  Proof.
    intros Hn HV HI HO Lp. destruct (proj1 (bary_positive eps n vs Hn HV HI HO) p Lp) as (c & E & HC & _). pose proof (inside_spec n c eps vs p Hn (proj1 HV)) as HS. rewrite Lp in HS. exact (HS HC HI E).
  Qed.

  Section Embedded.
    Hypothesis Hsqrt : sqrt_ok ksqrt.
    Lemma norm_zero (v : list Q) d : length v = d -> (forall j, (j < d)%nat -> nth j v 0 = 0) -> norm2 ksqrt v = 0.
    Proof.
      intros L H. unfold norm2. assert (E : dot v v = 0) by (rewrite (dot_seq v v d L L); apply ksum_zero; intros j Hj; apply in_seq in Hj; rewrite H by lia; ring). rewrite E. destruct (Hsqrt 0 (kle_refl 0)) as [_ E2].
      destruct (kdec (ksqrt 0) 0) as [|N]; [assumption|]. exfalso. exact (kmul_neq _ _ N N E2).
    Qed.
    Theorem bary_embedded eps k d (vs : list (list Q)) p : k <> 0%nat -> (k < d)%nat -> rows_of (S k) d vs -> affine_independent d vs -> length p = d ->
      exists c x, affine_comb d c vs x /\ (forall i, (i <= k)%nat -> dot (vsub p x) (vsub (nth i vs []) (nth 0 vs [])) = 0) /\
        cartesian_to_barycentric ksqrt eps p vs = if kleb (norm2 ksqrt (vsub p x)) eps then Ok c else Err AssertionError.
    Proof.
      intros Hk Hkd HV HI Lp. destruct (local_coords ksqrt Hsqrt k d vs HV Hk HI p) as (c & HC). exists c, (barycentric_to_cartesian c vs). split; [|split].
      - pose proof HC as (Lc & _ & S1 & _). rewrite (proj1 (local_rows ksqrt k d vs HV)) in Lc. apply (barycentric_to_cartesian_spec d k); assumption.
      - intros i Hi. exact (projection_orthogonal ksqrt Hsqrt k d vs HV Hk HI p c i Lp HC Hi).
      - exact (to_bary_embedded ksqrt Hsqrt eps k d vs p c Hk Hkd HV HI Lp HC).
    Qed.
    Theorem bary_embedded_hull eps k d (vs : list (list Q)) p c : k <> 0%nat -> (k < d)%nat -> rows_of (S k) d vs -> affine_independent d vs -> kle 0 eps -> affine_comb d c vs p ->
      cartesian_to_barycentric ksqrt eps p vs = Ok c /\ barycentric_to_cartesian c vs = p.
    Proof.
      intros Hk Hkd HV HI He HC. pose proof HC as (_ & Lp & _). pose proof (barycentric_to_cartesian_comb d k vs c p HV HC) as EB. split; [|exact EB].
      rewrite (to_bary_embedded ksqrt Hsqrt eps k d vs p c Hk Hkd HV HI Lp (loc_comb ksqrt Hsqrt k d vs HV Hk HI p c HC)). rewrite EB.
      rewrite (norm_zero (vsub p p) d (vsub_len _ _ d Lp Lp)) by (intros j _; rewrite nth_vsub by reflexivity; ring). apply kleb_spec in He. rewrite He. reflexivity.
    Qed.
    Theorem inside_embedded eps k d (vs : list (list Q)) p c0 : k <> 0%nat -> (k < d)%nat -> rows_of (S k) d vs -> affine_independent d vs -> kle 0 eps -> affine_comb d c0 vs p ->
      (inside_simplex ksqrt eps p vs true 0 = Ok true <-> exists c, affine_comb d c vs p /\ forall x, In x c -> kle 0 x) /\
      (inside_simplex ksqrt eps p vs false 0 = Ok true <-> exists c, affine_comb d c vs p /\ forall x, In x c -> klt 0 x) /\
      (forall ib, exists b, inside_simplex ksqrt eps p vs ib 0 = Ok b).
    Proof.
      intros Hk Hkd HV HI He HC. pose proof HC as (_ & Lp & _). destruct (bary_embedded_hull eps k d vs p c0 Hk Hkd HV HI He HC) as [E _]. pose proof (inside_spec k c0 eps vs p Hk (proj1 HV)) as HS. rewrite Lp in HS. exact (HS HC HI E).
    Qed.
    (** [p] is outside the plane of the simplex *)
    Lemma norm_le_zero (v : list Q) d : length v = d -> kle (norm2 ksqrt v) 0 -> forall j, (j < d)%nat -> nth j v 0 = 0.
    Proof.
      intros L H. destruct (Hsqrt (dot v v) (dot_self_nonneg v)) as [H1 H2]. apply (dot_self_zero d v L). assert (E : ksqrt (dot v v) = 0) by (apply kle_antisym; assumption). rewrite <- H2, E. ring.
    Qed.
    Theorem in_subspace_spec tol k d (vs : list (list Q)) p : k <> 0%nat -> (k < d)%nat -> rows_of (S k) d vs -> affine_independent d vs -> length p = d ->
      exists b, in_subspace ksqrt p vs tol = Ok b /\ (b = true <-> exists c x, affine_comb d c vs x /\ kle (norm2 ksqrt (vsub p x)) tol).
    Proof.
      intros Hk Hkd HV HI Lp. destruct (local_coords ksqrt Hsqrt k d vs HV Hk HI p) as (c & HC). exists (kleb (norm2 ksqrt (vsub p (barycentric_to_cartesian c vs))) tol).
      split; [exact (in_subspace_eq ksqrt Hsqrt k d vs HV Hk HI p c tol Hkd Lp HC)|].
      pose proof HC as (Lc & _ & S1 & _). rewrite (proj1 (local_rows ksqrt k d vs HV)) in Lc. pose proof (barycentric_to_cartesian_spec d k vs c HV Lc S1) as HB.
      rewrite kleb_spec. split; [intros H; exists c, (barycentric_to_cartesian c vs); split; assumption|].
      intros (c' & x & HX & Hx). apply (kle_trans _ (norm2 ksqrt (vsub p x))); [|exact Hx]. set (y := barycentric_to_cartesian c vs) in *.
      pose proof HB as (_ & Ly & _ & Hy). pose proof HX as (Lc' & Lx & S1' & Hx').
      (* Pythagoras *)
      assert (O : dot (vsub p y) (vsub y x) = 0).
      { rewrite ksum_nth, Lc in S1. rewrite ksum_nth, Lc' in S1'. rewrite (proj1 HV) in *.
        rewrite (dot_lin d (vsub p y) (vsub y x) k (fun i => nth (S i) c 0 - nth (S i) c' 0) (edges_of k vs) (vsub_len _ _ d Lp Ly) (vsub_len _ _ d Ly Lx) (edges_rows k d vs HV)).
        - apply ksum_zero. intros i Hi. apply in_seq in Hi. rewrite nth_edges by lia. pose proof (projection_orthogonal ksqrt Hsqrt k d vs HV Hk HI p c (S i) Lp HC ltac:(lia)) as OO. fold y in OO. rewrite OO. ring.
        - intros j Hj. rewrite nth_vsub by congruence. rewrite Hy, Hx' by exact Hj. rewrite (ksum_ext (fun i => (nth (S i) c 0 - nth (S i) c' 0) * ent (edges_of k vs) i j) (fun i => nth (S i) c 0 * edge vs i j - nth (S i) c' 0 * edge vs i j)) by (intros i Hi; apply in_seq in Hi; rewrite (ent_edges k d vs HV) by lia; ring).
          rewrite ksum_minus. rewrite (edge_comb k vs (fun i => nth i c 0) j), (edge_comb k vs (fun i => nth i c' 0) j), S1, S1'. ring. }
      assert (PY : dot (vsub p x) (vsub p x) = dot (vsub p y) (vsub p y) + dot (vsub y x) (vsub y x)).
      { assert (E : vsub p x = vadd (vsub p y) (vsub y x)).
        { apply (vec_ext _ _ d); [apply vsub_len; assumption|apply vadd_len; apply vsub_len; assumption|]. intros j Hj. rewrite nth_vadd by (rewrite !(vsub_len _ _ d) by assumption; reflexivity). rewrite !nth_vsub by congruence. ring. }
        assert (A : forall w, length w = d -> dot (vsub p x) w = dot (vsub p y) w + dot (vsub y x) w).
        { intros w Lw. rewrite !dot_vsub_l by congruence. ring. }
        rewrite A by (apply vsub_len; assumption). rewrite (dot_comm (vsub p y)), (dot_comm (vsub y x) (vsub p x)), !A by (apply vsub_len; assumption). rewrite (dot_comm (vsub y x) (vsub p y)), O. ring. }
      assert (N1 := Hsqrt _ (dot_self_nonneg (vsub p y))). assert (N2 := Hsqrt _ (dot_self_nonneg (vsub p x))). destruct N1 as [N1 N1'], N2 as [N2 N2']. unfold norm2.
      intros H. (* sqrt a > sqrt b but a <= b *)
      assert (B : klt (dot (vsub p x) (vsub p x)) (dot (vsub p y) (vsub p y))).
      { rewrite <- N1', <- N2'. set (s := ksqrt (dot (vsub p y) (vsub p y))) in *. set (t := ksqrt (dot (vsub p x) (vsub p x))) in *. apply klt_sub. replace (s * s - t * t) with ((s - t) * (s + t)) by ring. apply klt_mul; [exact (proj1 (klt_sub t s) H)|]. apply (kle_lt_trans _ t); [exact N2|].
        apply klt_sub. replace (s + t - t) with s by ring. apply (kle_lt_trans _ t); assumption. }
      rewrite PY in B. pose proof (dot_self_nonneg (vsub y x)) as P. apply P. apply klt_sub. apply klt_sub in B. replace (0 - dot (vsub y x) (vsub y x)) with (dot (vsub p y) (vsub p y) - (dot (vsub p y) (vsub p y) + dot (vsub y x) (vsub y x))) by ring. exact B.
    Qed.
  End Embedded.

  (** _cartesian_to_barycentric_basis *)
  Theorem bary_basis k d (vs : list (list Q)) p c : k <> 0%nat -> rows_of (S k) d vs -> affine_independent d vs -> affine_comb d c vs p -> cartesian_to_barycentric_basis p vs = Ok c.
  Proof.
    intros Hk HV HI (Lc & Lp & S1 & Hp). rewrite (proj1 HV) in *. pose proof S1 as S1'. rewrite ksum_nth, Lc in S1.
    assert (Hd : d <> 0%nat).
    { intros E. pose proof (affine_independent_edges k d vs (proj1 HV) HI (fun _ => 1)) as Z. assert (Y : (1 : Q) = 0) by (apply Z with (i := 0%nat); [intros; lia|lia]). exact (k1_neq_0 (F := Q) Y). }
    unfold cartesian_to_barycentric_basis. rewrite (basis_eq k d vs HV Hk). cbn [bind]. assert (L0 : length (vtx vs 0) = d) by (apply (lenv k d vs HV); lia).
    rewrite (transform_comb d k (edges_of k vs) (vsub p (vtx vs 0)) (fun i => nth (S i) c 0) Hk Hd (edges_rows k d vs HV) (edges_indep k d vs HV HI) (vsub_len _ _ d Lp L0)).
    - cbn [bind]. f_equal. destruct c as [|c0 c]; [discriminate Lc|]. cbn [length] in Lc. assert (E : map (fun i => nth (S i) (c0 :: c) 0) (seq 0 k) = c).
      { apply (vec_ext _ _ k); [rewrite map_length, seq_length; reflexivity|lia|]. intros j Hj. rewrite nth_map_seq0 by exact Hj. reflexivity. }
      rewrite E. f_equal. rewrite ksum_cons in S1'. rewrite <- S1'. ring.
    - intros j Hj. rewrite nth_vsub by congruence. rewrite Hp by exact Hj. rewrite (ksum_ext (fun i => nth (S i) c 0 * ent (edges_of k vs) i j) (fun i => nth (S i) c 0 * edge vs i j)) by (intros i Hi; apply in_seq in Hi; rewrite (ent_edges k d vs HV) by lia; reflexivity).
      rewrite (edge_comb k vs (fun i => nth i c 0) j), S1. unfold vtx, ent. ring.
  Qed.
  Theorem bary_point eps d (v p : list Q) : (0 < d)%nat -> length v = d -> length p = d ->
    cartesian_to_barycentric ksqrt eps p [v] = if kleb (norm2 ksqrt (vsub p v)) eps then Err TypeError else Err AssertionError.
  Proof.
    intros Hd Lv Lp. unfold cartesian_to_barycentric, dimension, embedding_dimension. cbn [length hd Nat.sub]. rewrite Lv. apply Nat.ltb_lt in Hd. rewrite Hd. unfold in_subspace, dimension, embedding_dimension. cbn [length hd Nat.sub]. rewrite Lv, Lp, Nat.eqb_refl. cbn [assert_ bind].
    apply Nat.ltb_lt in Hd. destruct (Nat.eqb_spec d 0); [lia|]. cbn [Nat.eqb bind]. unfold vtx. cbn [nth]. destruct (kleb _ eps); reflexivity.
  Qed.
End Inside.
