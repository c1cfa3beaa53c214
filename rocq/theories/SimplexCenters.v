(** Trilinear coordinates, incenter, circumcenter, normals, diameter and the
    equilateral simplex. *)
From Coq Require Import Permutation.
From Verif Require Import Base Fld FldInst LinSolve PolyEval Det Linalg VecFacts Simplicial SimplicialFacts SimplexGeo SimplexFacts GramSchmidt SimplexMetric SimplexInside SimplexVolume.
From Coq Require Import Field_theory Field.

Section Centers.
  Context {Q : ofld} (ksqrt : Q -> Q).
  Add Field Kfield48 : (kth Q).
  Local Open Scope fld_scope.
  Hypothesis Hsqrt : sqrt_ok ksqrt.

  Lemma kabs_nn (x : Q) : kle 0 (kabs x).
  Proof.
    unfold kabs. destruct (kltb x 0) eqn:E; [apply kltb_spec in E; apply klt_le; apply klt_sub in E; replace (- x) with (0 - x) by ring; exact E|]. apply kltb_false in E. exact E.
  Qed.
  Lemma kabs_sq (x : Q) : kabs x * kabs x = x * x. Proof. unfold kabs. destruct (kltb x 0); ring. Qed.
  Lemma kabs_mul_pos (x h : Q) : klt 0 h -> kabs (x * h) = kabs x * h.
  Proof.
    intros H. apply square_inj; [apply kabs_nn|apply kle_mul; [apply kabs_nn|apply klt_le; exact H]|]. rewrite kabs_sq. transitivity (kabs x * kabs x * (h * h)); [rewrite kabs_sq; ring|ring].
  Qed.
  Lemma norm_nn (v : list Q) : kle 0 (norm2 ksqrt v). Proof. apply Hsqrt, dot_self_nonneg. Qed.
  Lemma norm_sq (v : list Q) : norm2 ksqrt v * norm2 ksqrt v = dot v v. Proof. apply Hsqrt, dot_self_nonneg. Qed.
  Lemma norm_scale d c (v : list Q) : length v = d -> norm2 ksqrt (vscale c v) = kabs c * norm2 ksqrt v.
  Proof.
    intros L. apply square_inj; [apply norm_nn|apply kle_mul; [apply kabs_nn|apply norm_nn]|]. rewrite norm_sq, dot_vscale_l, (dot_vscale_r d) by assumption.
    transitivity (kabs c * kabs c * (norm2 ksqrt v * norm2 ksqrt v)); [rewrite kabs_sq, norm_sq; ring|ring].
  Qed.

  (** ** Faces by vertex numbers *)
  Lemma face_idx n (vs : list (list Q)) i : length vs = S (S n) -> (i <= S n)%nat -> exists g, face vs i = Ok (map (vtx vs) g) /\ Permutation (seq 0 (S (S n))) (g ++ [i]).
  Proof.
    intros L Hi. unfold face. rewrite L, simplex_boundary_ok by discriminate. cbn [bind]. unfold get.
    assert (L1 : (1 < length (seq 0 (S (S n))))%nat) by (rewrite seq_length; lia).
    rewrite (nth_error_nth' (faces (seq 0 (S (S n)))) []) by (rewrite faces_length by exact L1; rewrite seq_length; lia). cbn [bind]. rewrite faces_nth by (try exact L1; rewrite seq_length; lia).
    exists (face_of (seq 0 (S (S n))) i). split; [reflexivity|].
    assert (Hi' : (i < length (seq 0 (S (S n))))%nat) by (rewrite seq_length; lia).
    pose proof (delete_at_perm _ i 0%nat Hi') as DP. rewrite seq_nth in DP by lia. cbn [Nat.add] in DP.
    apply (Permutation_trans DP). apply (Permutation_trans (Permutation_cons_append _ _)). apply Permutation_app_tail. apply face_of_perm. exact Hi'.
  Qed.
  Lemma map_vtx_seq (vs : list (list Q)) : map (vtx vs) (seq 0 (length vs)) = vs.
  Proof. apply (nth_ext _ _ [] []); [rewrite map_length, seq_length; reflexivity|]. intros j Hj. rewrite map_length, seq_length in Hj. rewrite nth_map_seq0 by exact Hj. reflexivity. Qed.
  Lemma affine_comb_map d g (vs : list (list Q)) (b : nat -> Q) p : length p = d -> ksum g b = 1 -> (forall j, (j < d)%nat -> nth j p 0 = ksum g (fun m => b m * ent vs m j)) -> affine_comb d (map b g) (map (vtx vs) g) p.
  Proof.
    intros Lp S1 H. split; [rewrite !map_length; reflexivity|]. split; [exact Lp|]. split; [rewrite ksum_map; exact S1|]. intros j Hj. rewrite H by exact Hj. rewrite (ksum_list 0%nat), map_length. apply ksum_ext. intros i Hi. apply in_seq in Hi.
    rewrite (nth_indep (map b g) 0 (b 0%nat)) by (rewrite map_length; lia). rewrite map_nth. unfold ent. rewrite (nth_indep (map (vtx vs) g) [] (vtx vs 0%nat)) by (rewrite map_length; lia). rewrite map_nth. reflexivity.
  Qed.
  (** the foot on face [i] of a combination of the vertices *)
  Lemma foot_point n d (vs : list (list Q)) i g b p x : rows_of (S (S n)) d vs -> Permutation (seq 0 (S (S n))) (g ++ [i]) -> affine_comb d b vs p -> foot d (map (vtx vs) g) (nth i vs []) x ->
    foot d (map (vtx vs) g) p (vsub p (vscale (nth i b 0) (vsub (nth i vs []) x))) /\ norm2 ksqrt (vsub p (vsub p (vscale (nth i b 0) (vsub (nth i vs []) x)))) = kabs (nth i b 0) * norm2 ksqrt (vsub (nth i vs []) x).
  Proof.
    intros HV P (Lb & Lp & S1 & Hp) [(c & Lc & Lx & Sc & Hx) HO]. rewrite (proj1 HV) in Lb, Hp. assert (Hi : (i <= S n)%nat) by (assert (In i (seq 0 (S (S n)))) as Hin by (apply (Permutation_in i (Permutation_sym P)), in_or_app; right; left; reflexivity); apply in_seq in Hin; lia).
    assert (Lv : length (nth i vs []) = d) by (apply (rows_len (S (S n)) d); [exact HV|lia]). assert (Ld : length (vsub (nth i vs []) x) = d) by (apply vsub_len; assumption). assert (Ls : length (vscale (nth i b 0) (vsub (nth i vs []) x)) = d) by (apply vscale_len; exact Ld).
    assert (E : vsub p (vsub p (vscale (nth i b 0) (vsub (nth i vs []) x))) = vscale (nth i b 0) (vsub (nth i vs []) x)).
    { apply (vec_ext _ _ d); [repeat apply vsub_len; assumption|exact Ls|]. intros j Hj. rewrite !nth_vsub by (rewrite ?(vsub_len _ _ d); congruence). ring. }
    split.
    - split.
      + rewrite map_length in Lc. rewrite map_length in Hx.
        exists (map (fun j => nth (nth j g 0%nat) b 0 + nth i b 0 * nth j c 0) (seq 0 (length g))). split; [rewrite !map_length, seq_length; reflexivity|]. split; [apply vsub_len; assumption|].
        assert (T : forall h : nat -> Q, ksum (seq 0 (S (S n))) h = ksum (seq 0 (length g)) (fun j => h (nth j g 0%nat)) + h i).
        { intros h. rewrite (ksum_perm h _ _ P), ksum_app, ksum_cons, ksum_nil. rewrite (ksum_list 0%nat g). ring. }
        split.
        * rewrite ksum_map, ksum_plus, ksum_scale_l. rewrite ksum_nth, Lb, T in S1. rewrite ksum_nth, Lc in Sc. rewrite Sc. refine (eq_trans _ S1). ring.
        * intros j Hj. rewrite map_length. rewrite nth_vsub by congruence. rewrite nth_vscale, nth_vsub by congruence. rewrite Hp, T by exact Hj. rewrite Hx by exact Hj.
          rewrite (ksum_ext (fun i0 => nth i0 (map _ _) 0 * _) (fun m => nth (nth m g 0%nat) b 0 * ent vs (nth m g 0%nat) j + nth i b 0 * (nth m c 0 * ent (map (vtx vs) g) m j))).
          -- rewrite ksum_plus, ksum_scale_l. unfold ent at 2. ring.
          -- intros m Hm. apply in_seq in Hm. rewrite nth_map_seq0 by lia. unfold ent. rewrite (nth_indep (map (vtx vs) g) [] (vtx vs 0%nat)) by (rewrite map_length; lia). rewrite map_nth. unfold vtx. ring.
      + intros j Hj. rewrite E, dot_vscale_l, HO by exact Hj. ring.
    - rewrite E. apply (norm_scale d). exact Ld.
  Qed.

  (** ** Volumes of the faces *)
  Definition face_data (n d : nat) (vs : list (list Q)) (V : Q) (i : nat) (Vf : Q) : Prop :=
    exists g x, face vs i = Ok (map (vtx vs) g) /\ Permutation (seq 0 (S (S n))) (g ++ [i]) /\ foot d (map (vtx vs) g) (nth i vs []) x /\ klt 0 Vf /\ klt 0 (norm2 ksqrt (vsub (nth i vs []) x)) /\
      altitude ksqrt vs i = Ok (norm2 ksqrt (vsub (nth i vs []) x)) /\ kofnat (S n) * V = Vf * norm2 ksqrt (vsub (nth i vs []) x).
  Lemma face_volumes_ok n d (vs : list (list Q)) : (S n <= d)%nat -> rows_of (S (S n)) d vs -> affine_independent d vs ->
    exists V, volume ksqrt vs = Ok V /\ klt 0 V /\ forall is_, (forall i, In i is_ -> (i <= S n)%nat) -> exists fv, face_volumes ksqrt vs is_ = Ok fv /\ length fv = length is_ /\ forall j, (j < length is_)%nat -> face_data n d vs V (nth j is_ 0%nat) (nth j fv 0).
  Proof.
    intros Hnd HV HI. destruct (vol_eq ksqrt Hsqrt (S n) d vs Hnd HV HI) as (V & EV & PV & _). exists V. split; [exact EV|]. split; [exact PV|].
    induction is_ as [|i is_ IH]; intros Hi.
    - exists []. split; [reflexivity|]. split; [reflexivity|]. intros j Hj. cbn in Hj. lia.
    - destruct (IH (fun j H => Hi j (or_intror H))) as (fv & E & L & HD). destruct (face_height ksqrt Hsqrt n d vs i Hnd HV HI (Hi i (or_introl eq_refl))) as (f & x & V' & Vf & Ef & P & HF & HFo & EV' & EVf & _ & PVf & PH & HH).
      assert (V' = V) by congruence. subst V'. exists (Vf :: fv). cbn [face_volumes]. rewrite Ef. cbn [bind]. rewrite EVf. cbn [bind]. rewrite E. split; [reflexivity|]. split; [cbn [length]; congruence|].
      intros [|j] Hj; cbn [length] in Hj; cbn [nth]; [|apply HD; lia].
      destruct (face_idx n vs i (proj1 HV) (Hi i (or_introl eq_refl))) as (g & Eg & Pg). assert (Ff : f = map (vtx vs) g) by congruence. subst f. exists g, x. split; [exact Eg|]. split; [exact Pg|]. split; [exact HFo|]. split; [exact PVf|]. split; [exact PH|]. split; [|exact HH].
      unfold altitude. rewrite Eg. cbn [bind]. rewrite EV, EVf. cbn [bind]. rewrite (proj1 (dims (S n) d vs HV)). f_equal. rewrite HH. field. apply klt_neq0. exact PVf.
  Qed.
  Lemma face_volumes_all n d (vs : list (list Q)) : (S n <= d)%nat -> rows_of (S (S n)) d vs -> affine_independent d vs ->
    exists V fv, volume ksqrt vs = Ok V /\ klt 0 V /\ face_volumes ksqrt vs (seq 0 (S n + 1)) = Ok fv /\ length fv = S (S n) /\ forall i, (i <= S n)%nat -> face_data n d vs V i (nth i fv 0).
  Proof.
    intros Hnd HV HI. destruct (face_volumes_ok n d vs Hnd HV HI) as (V & EV & PV & H). destruct (H (seq 0 (S n + 1))) as (fv & E & L & HD); [intros i Hi; apply in_seq in Hi; lia|]. exists V, fv. split; [exact EV|]. split; [exact PV|]. split; [exact E|]. rewrite seq_length in *.
    split; [rewrite L; lia|]. intros i Hi. specialize (HD i ltac:(lia)). rewrite seq_nth in HD by lia. exact HD.
  Qed.
  Theorem trilinear_spec n d (vs : list (list Q)) b p : (S n <= d)%nat -> rows_of (S (S n)) d vs -> affine_independent d vs -> affine_comb d b vs p ->
    exists t, barycentric_to_trilinear ksqrt b vs = Ok t /\ length t = length vs /\ forall i, (i < length vs)%nat -> exists f h y, face vs i = Ok f /\ altitude ksqrt vs i = Ok h /\ klt 0 h /\ nth i t 0 = nth i b 0 * h /\ foot d f p y /\ norm2 ksqrt (vsub p y) = kabs (nth i t 0).
  Proof.
    intros Hnd HV HI HB. destruct (face_volumes_all n d vs Hnd HV HI) as (V & fv & EV & PV & EF & LF & HD). unfold barycentric_to_trilinear. rewrite EV, (proj1 (dims (S n) d vs HV)), EF. cbn [bind]. eexists. split; [reflexivity|]. rewrite map_length, seq_length, (proj1 HV). split; [lia|].
    intros i Hi. destruct (HD i ltac:(lia)) as (g & x & Eg & Pg & HFo & PVf & PH & EA & HH). exists (map (vtx vs) g), (norm2 ksqrt (vsub (nth i vs []) x)), (vsub p (vscale (nth i b 0) (vsub (nth i vs []) x))).
    rewrite nth_map_seq0 by lia. assert (ET : kofnat (S n) * V * nth i b 0 / nth i fv 0 = nth i b 0 * norm2 ksqrt (vsub (nth i vs []) x)) by (rewrite HH; field; apply klt_neq0; exact PVf). rewrite ET.
    destruct (foot_point n d vs i g b p x HV Pg HB HFo) as [F1 F2]. split; [exact Eg|]. split; [exact EA|]. split; [exact PH|]. split; [reflexivity|]. split; [exact F1|]. rewrite F2, kabs_mul_pos by exact PH. reflexivity.
  Qed.
  Theorem trilinear_roundtrip n d (vs : list (list Q)) b t s : (S n <= d)%nat -> rows_of (S (S n)) d vs -> affine_independent d vs -> length b = length vs -> ksum b (fun x => x) = 1 -> barycentric_to_trilinear ksqrt b vs = Ok t -> s <> 0 ->
    trilinear_to_barycentric ksqrt (map (fun x => s * x) t) vs = Ok b.
  Proof.
    intros Hnd HV HI Lb S1 ET Ns. destruct (face_volumes_all n d vs Hnd HV HI) as (V & fv & EV & PV & EF & LF & HD). unfold barycentric_to_trilinear in ET. unfold trilinear_to_barycentric. rewrite EV, (proj1 (dims (S n) d vs HV)), EF in *. cbn [bind] in *. assert (Et : t = map (fun i => kofnat (S n) * V * nth i b 0 / nth i fv 0) (seq 0 (S n + 1))) by congruence. rewrite Et. clear ET Et.
    assert (NV : V <> 0) by (apply klt_neq0; exact PV). assert (NN : @kofnat Q (S n) <> 0) by (apply kofnat_neq; discriminate). rewrite (proj1 HV) in Lb.
    assert (EM : map (fun i => nth i (map (fun x => s * x) (map (fun i => kofnat (S n) * V * nth i b 0 / nth i fv 0) (seq 0 (S n + 1)))) 0 * nth i fv 0 / V) (seq 0 (S n + 1)) = map (fun i => s * kofnat (S n) * nth i b 0) (seq 0 (S n + 1))).
    { apply map_ext_in. intros i Hi. apply in_seq in Hi. rewrite map_map. rewrite nth_map_seq0 by lia. destruct (HD i ltac:(lia)) as (_ & _ & _ & _ & _ & PVf & _). field. split; [apply klt_neq0; exact PVf|exact NV]. }
    rewrite EM. f_equal. rewrite ksum_map, ksum_scale_l. replace (S n + 1)%nat with (S (S n)) by lia. rewrite <- Lb, <- ksum_nth, S1. rewrite map_map. apply (vec_ext _ _ (length b)); [rewrite map_length, seq_length; reflexivity|reflexivity|].
    intros i Hi. rewrite nth_map_seq0 by exact Hi. field. split; [exact NN|exact Ns].
  Qed.
  Lemma ksum_pos (l : list Q) : l <> [] -> (forall x, In x l -> klt 0 x) -> klt 0 (ksum l (fun x => x)).
  Proof.
    intros N H. destruct l as [|a l]; [congruence|]. rewrite ksum_cons. apply (klt_le_trans _ (a + 0)); [replace (a + 0) with a by ring; apply H; left; reflexivity|]. apply kle_add2; [apply kle_refl|]. apply ksum_nonneg. intros x Hx. apply klt_le, H. right. exact Hx.
  Qed.
  Theorem incenter_spec tol n d (vs : list (list Q)) : klt 0 tol -> (S n <= d)%nat -> rows_of (S (S n)) d vs -> affine_independent d vs ->
    exists p r b, incenter ksqrt vs = Ok p /\ inradius ksqrt tol vs = Ok r /\ klt 0 r /\ affine_comb d b vs p /\ (forall x, In x b -> klt 0 x) /\
      forall i, (i < length vs)%nat -> exists f y, face vs i = Ok f /\ foot d f p y /\ norm2 ksqrt (vsub p y) = r.
  Proof.
    intros Ht Hnd HV HI. destruct (face_volumes_all n d vs Hnd HV HI) as (V & fv & EV & PV & EF & LF & HD).
    assert (NV : V <> 0) by (apply klt_neq0; exact PV). assert (NP : klt 0 (@kofnat Q (S n))) by (apply kofnat_pos; discriminate).
    assert (FP : forall x, In x fv -> klt 0 x). { intros x Hx. destruct (In_nth fv x 0 Hx) as (i & Hi & <-). destruct (HD i ltac:(lia)) as (_ & _ & _ & _ & _ & PVf & _). exact PVf. }
    set (S_ := ksum fv (fun x => x)). assert (PS : klt 0 S_) by (apply ksum_pos; [intros E; rewrite E in LF; discriminate LF|exact FP]). assert (NS : S_ <> 0) by (apply klt_neq0; exact PS).
    set (b := map (fun x => x / S_) fv). assert (Lb : length b = length vs) by (unfold b; rewrite map_length, (proj1 HV); exact LF).
    assert (Hb : forall i, nth i b 0 = nth i fv 0 / S_) by (intros i; unfold b; rewrite <- (map_nth (fun x => x / S_)); f_equal; field; exact NS).
    assert (TB : forall m, m = S (S n) -> trilinear_to_barycentric ksqrt (repeat 1 m) vs = Ok b).
    { intros m Hm. rewrite Hm. unfold trilinear_to_barycentric. rewrite EV, (proj1 (dims (S n) d vs HV)), EF. cbn [bind]. f_equal.
      assert (EM : map (fun i => nth i (repeat 1 (S (S n))) 0 * nth i fv 0 / V) (seq 0 (S n + 1)) = map (fun i => 1 / V * nth i fv 0) (seq 0 (S n + 1))).
      { apply map_ext_in. intros i Hi. apply in_seq in Hi. rewrite (nth_indep _ 0 1) by (rewrite repeat_length; lia). rewrite nth_repeat. field. exact NV. }
      rewrite EM, ksum_map, ksum_scale_l. replace (S n + 1)%nat with (S (S n)) by lia. rewrite <- LF, <- ksum_nth. fold S_. rewrite map_map. apply (vec_ext _ _ (length fv)); [rewrite map_length, seq_length; reflexivity|unfold b; apply map_length|].
      intros i Hi. rewrite nth_map_seq0, Hb by exact Hi. field. split; [exact NS|exact NV]. }
    assert (S1 : ksum b (fun x => x) = 1). { unfold b. rewrite ksum_map. rewrite (ksum_ext _ (fun x => 1 / S_ * x)) by (intros; field; exact NS). rewrite ksum_scale_l. fold S_. field. exact NS. }
    pose proof (barycentric_to_cartesian_spec d (S n) vs b HV ltac:(rewrite Lb; apply HV) S1) as HB. set (p := barycentric_to_cartesian b vs) in *.
    assert (PB : forall x, In x b -> klt 0 x) by (intros x Hx; apply in_map_iff in Hx as (y & <- & Hy); apply klt_div; [apply FP; exact Hy|exact PS]).
    set (r := kofnat (S n) * V / S_). assert (PR : klt 0 r) by (apply klt_div; [apply klt_mul; assumption|exact PS]).
    exists p, r, b. split; [unfold incenter; rewrite (TB _ (proj1 HV)); reflexivity|]. split; [|split; [exact PR|split; [exact HB|split; [exact PB|]]]].
    - unfold inradius. rewrite (proj1 (dims (S n) d vs HV)), TB by lia. cbn [bind]. unfold barycentric_to_trilinear. rewrite EV, (proj1 (dims (S n) d vs HV)), EF. cbn [bind].
      assert (EM : map (fun i => kofnat (S n) * V * nth i b 0 / nth i fv 0) (seq 0 (S n + 1)) = map (fun _ => r) (seq 0 (S n + 1))).
      { apply map_ext_in. intros i Hi. apply in_seq in Hi. rewrite Hb. unfold r. destruct (HD i ltac:(lia)) as (_ & _ & _ & _ & _ & PVf & _). field. split; [exact NS|apply klt_neq0; exact PVf]. }
      rewrite EM. assert (A : forallb (fun i => kltb (kabs (nth i (map (fun _ => r) (seq 0 (S n + 1))) 0 - nth ((i + 1) mod (S n + 1)) (map (fun _ => r) (seq 0 (S n + 1))) 0)) tol) (seq 0 (S n + 1)) = true).
      { apply forallb_forall. intros i Hi. apply in_seq in Hi. rewrite !nth_map_seq0 by (try lia; apply Nat.mod_upper_bound; lia). apply kltb_spec. replace (r - r) with (0 : Q) by ring. rewrite kabs_nonneg by apply kle_refl. exact Ht. }
      rewrite A. cbn [assert_ bind]. reflexivity.
    - intros i Hi. rewrite (proj1 HV) in Hi. destruct (HD i ltac:(lia)) as (g & x & Eg & Pg & HFo & PVf & PH & EA & HH). destruct (foot_point n d vs i g b p x HV Pg HB HFo) as [F1 F2]. exists (map (vtx vs) g), (vsub p (vscale (nth i b 0) (vsub (nth i vs []) x))). split; [exact Eg|]. split; [exact F1|]. rewrite F2.
      rewrite kabs_nonneg by (apply klt_le, PB, nth_In; rewrite Lb, (proj1 HV); exact Hi). rewrite Hb. unfold r. rewrite HH. field. exact NS.
  Qed.

  (** ** Normals *)
  Definition rot (b : nat) (vs : list (list Q)) : list (list Q) := skipn b vs ++ firstn b vs.
  Lemma rot_perm b vs : Permutation vs (rot b vs).
  Proof. unfold rot. apply (Permutation_trans (l' := firstn b vs ++ skipn b vs)); [rewrite firstn_skipn; reflexivity|apply Permutation_app_comm]. Qed.
  Lemma nth_skipn {A} b (l : list A) i x : nth i (skipn b l) x = nth (b + i) l x.
  Proof. revert l. induction b as [|b IH]; intros l; [reflexivity|]. destruct l as [|a l]; [destruct i; reflexivity|]. cbn [skipn Nat.add nth]. apply IH. Qed.
  Lemma nth_firstn_lt {A} b (l : list A) i x : (i < b)%nat -> nth i (firstn b l) x = nth i l x.
  Proof. revert l i. induction b as [|b IH]; intros l i H; [lia|]. destruct l as [|a l]; [reflexivity|]. destruct i as [|i]; [reflexivity|]. cbn [firstn nth]. apply IH. lia. Qed.
  Lemma nth_rot b (vs : list (list Q)) i : (b < length vs)%nat -> (i < length vs)%nat -> nth i (rot b vs) [] = nth ((b + i) mod (length vs)) vs [].
  Proof.
    intros Hb Hi. unfold rot. destruct (Nat.lt_ge_cases i (length vs - b)) as [H|H].
    - rewrite app_nth1 by (rewrite skipn_length; exact H). rewrite nth_skipn. rewrite Nat.mod_small by lia. reflexivity.
    - rewrite app_nth2 by (rewrite skipn_length; exact H). rewrite skipn_length. replace ((b + i) mod length vs)%nat with (i - (length vs - b))%nat.
      + apply nth_firstn_lt. lia.
      + replace (b + i)%nat with (i - (length vs - b) + 1 * length vs)%nat by lia. rewrite Nat.mod_add by lia. rewrite Nat.mod_small by lia. reflexivity.
  Qed.
  Lemma basis_rot k d (vs : list (list Q)) b : k <> 0%nat -> rows_of (S k) d vs -> (b <= k)%nat -> basis vs b = Ok (edges_of k (rot b vs)).
  Proof.
    intros Hk HV Hb. unfold basis. rewrite (proj1 (dims k d vs HV)). destruct (Nat.eqb_spec k 0); [contradiction|]. f_equal. apply map_ext_in. intros i Hi. apply in_seq in Hi. unfold vtx. rewrite !nth_rot by (rewrite (proj1 HV); lia). rewrite (proj1 HV). rewrite (Nat.mod_small (b + 0)) by lia. rewrite Nat.add_0_r.
    replace (b + i + 1)%nat with (b + S i)%nat by lia. replace (k + 1)%nat with (S k) by lia. reflexivity.
  Qed.
  Lemma rot_succ n (vs : list (list Q)) i : length vs = S n -> (i <= n)%nat -> exists f, rot ((i + 1) mod (S n)) vs = f ++ [nth i vs []] /\ length f = n.
  Proof.
    intros L Hi. destruct (Nat.eq_dec i n) as [->|Hn].
    - replace ((n + 1) mod S n)%nat with 0%nat by (replace (n + 1)%nat with (S n) by lia; symmetry; apply Nat.mod_same; lia). unfold rot. cbn [skipn firstn]. rewrite app_nil_r.
      exists (firstn n vs). split; [|rewrite firstn_length; lia]. rewrite <- (firstn_skipn n vs) at 1. f_equal. assert (Ls : length (skipn n vs) = 1%nat) by (rewrite skipn_length; lia). destruct (skipn n vs) as [|v [|]] eqn:E; try discriminate Ls. f_equal.
      replace (nth n vs []) with (nth (n + 0) vs []) by (f_equal; lia). rewrite <- nth_skipn, E. reflexivity.
    - rewrite Nat.mod_small by lia. unfold rot. replace (i + 1)%nat with (S i) by lia. exists (skipn (S i) vs ++ firstn i vs). split; [|rewrite app_length, skipn_length, firstn_length; lia].
      rewrite <- app_assoc. f_equal. clear - L Hi. revert i n L Hi. induction vs as [|v vs IH]; intros i n L Hi; [discriminate L|]. destruct i as [|i]; [reflexivity|]. cbn [length] in L. cbn [firstn nth app]. f_equal. apply (IH i (n - 1)%nat); lia.
  Qed.
  Lemma last_nth (l : list (list Q)) m : length l = S m -> last l [] = nth m l [].
  Proof. revert m. induction l as [|a l IH]; intros m L; [discriminate L|]. destruct l as [|b l]; [cbn in L; injection L as <-; reflexivity|]. destruct m as [|m]; [discriminate L|]. change (last (a :: b :: l) []) with (last (b :: l) []). change (nth (S m) (a :: b :: l) []) with (nth m (b :: l) []). apply IH. cbn in *. lia. Qed.
  (** unit normal of the plane of [f], pointing away from [v] *)
  Definition is_normal (d : nat) (f : list (list Q)) (v w : list Q) : Prop :=
    length w = d /\ dot w w = 1 /\ (forall i, (i < length f)%nat -> dot w (vsub (nth i f []) (nth 0 f [])) = 0) /\ klt (dot w (vsub v (nth 0 f []))) 0.
  Lemma normal_last k d (f : list (list Q)) v : rows_of (S k) d f -> length v = d -> affine_independent d (f ++ [v]) ->
    let w := vscale (- (1)) (last (gram_schmidt_rn ksqrt (edges_of (S k) (f ++ [v]))) []) in
    is_normal d f v w /\ exists a : nat -> Q, forall j, (j < d)%nat -> nth j w 0 = ksum (seq 0 (S k)) (fun l => a l * edge (f ++ [v]) l j).
  Proof.
    intros HF Lv HI. cbv zeta. assert (HV : rows_of (S (S k)) d (f ++ [v])). { split; [rewrite app_length, (proj1 HF); cbn [length]; lia|]. intros r Hr. apply in_app_or in Hr as [Hr|[<-|[]]]; [apply HF; exact Hr|exact Lv]. }
    pose proof (onb_inv ksqrt Hsqrt (S k) d (f ++ [v]) HV HI) as GI. pose proof (onb_rows ksqrt Hsqrt (S k) d (f ++ [v]) HV HI) as RQ. unfold onb in *. rewrite (last_nth _ k (proj1 RQ)).
    remember (gram_schmidt_rn ksqrt (edges_of (S k) (f ++ [v]))) as q eqn:Eq. clear Eq. destruct GI as (_ & HO & (T & HT) & HR). pose proof (edges_rows (S k) d _ HV) as ER. rewrite (proj1 ER) in HT, HR.
    assert (Lq : length (nth k q []) = d) by (apply (rows_len (S k) d); [exact RQ|lia]). assert (L0 : length (nth 0 f []) = d) by (apply (rows_len (S k) d); [exact HF|lia]).
    split; [split; [|split; [|split]]|].
    - apply vscale_len. exact Lq.
    - rewrite dot_vscale_l, (dot_vscale_r d) by assumption. rewrite HO by (rewrite (proj1 RQ); lia). rewrite Nat.eqb_refl. ring.
    - intros i Hi. rewrite (proj1 HF) in Hi. rewrite dot_vscale_l. destruct i as [|i]; [rewrite (dot_vsub_r d) by assumption; ring|]. destruct (HR i ltac:(lia)) as (R1 & _). specialize (R1 k ltac:(lia)). rewrite nth_edges in R1 by lia. rewrite !app_nth1 in R1 by (rewrite (proj1 HF); lia). rewrite dot_comm, R1. ring.
    - destruct (HR k ltac:(lia)) as (_ & R2 & _). rewrite nth_edges in R2 by lia. rewrite (app_nth2 f) in R2 by (rewrite (proj1 HF); lia). rewrite (proj1 HF), Nat.sub_diag in R2. rewrite app_nth1 in R2 by (rewrite (proj1 HF); lia). cbn [nth] in R2.
      rewrite dot_vscale_l. apply klt_sub. rewrite dot_comm in R2. replace (0 - - (1) * dot (nth k q []) (vsub v (nth 0 f []))) with (dot (nth k q []) (vsub v (nth 0 f []))) by ring. exact R2.
    - exists (fun l => - T k l). intros j Hj. rewrite nth_vscale. change (nth j (nth k q []) 0) with (ent q k j). rewrite HT by lia. rewrite <- ksum_scale_l. apply ksum_ext. intros l Hl. apply in_seq in Hl. rewrite (ent_edges (S k) d _ HV) by lia. ring.
  Qed.
  Theorem face_normal_spec n d (vs : list (list Q)) i : rows_of (S (S n)) d vs -> affine_independent d vs -> (i <= S n)%nat ->
    exists f w, face_normal ksqrt vs i = Ok w /\ Permutation vs (f ++ [nth i vs []]) /\ is_normal d f (nth i vs []) w.
  Proof.
    intros HV HI Hi. unfold face_normal, orthonormal_basis. rewrite (proj1 HV). rewrite (basis_rot (S n) d vs) by (try assumption; try discriminate; pose proof (Nat.mod_upper_bound (i + 1) (S (S n)) ltac:(discriminate)); lia). cbn [bind].
    destruct (rot_succ (S n) vs i (proj1 HV) Hi) as (f & Ef & Lf). pose proof (rot_perm ((i + 1) mod S (S n)) vs) as P. rewrite Ef in *. pose proof (rows_perm _ _ _ _ P HV) as HV'. pose proof (affine_independent_perm _ _ _ _ P HV HI) as HI'.
    assert (HF : rows_of (S n) d f) by (split; [exact Lf|intros r Hr; apply HV', in_or_app; left; exact Hr]). assert (Lv : length (nth i vs []) = d) by (apply (rows_len (S (S n)) d); [exact HV|lia]).
    eexists f, _. split; [reflexivity|]. split; [exact P|]. exact (proj1 (normal_last n d f (nth i vs []) HF Lv HI')).
  Qed.

  (** ** Centroid *)
  Lemma fold_vadd d (l : list (list Q)) : forall u, length u = d -> (forall v, In v l -> length v = d) -> length (fold_left vadd l u) = d /\ forall j, nth j (fold_left vadd l u) 0 = nth j u 0 + ksum l (fun v => nth j v 0).
  Proof.
    induction l as [|v l IH]; intros u Lu Hl; cbn [fold_left]; [split; [exact Lu|intros; rewrite ksum_nil; ring]|]. assert (Lv : length v = d) by (apply Hl; left; reflexivity).
    destruct (IH (vadd u v)) as [I1 I2]; [apply vadd_len; assumption|intros; apply Hl; right; assumption|]. split; [exact I1|]. intros j. rewrite I2, nth_vadd, ksum_cons by congruence. ring.
  Qed.
  Lemma centroid_spec k d (vs : list (list Q)) : rows_of (S k) d vs -> length (centroid vs) = d /\ forall j, nth j (centroid vs) 0 = 1 / kofnat (S k) * ksum (seq 0 (S k)) (fun i => ent vs i j).
  Proof.
    intros HV. unfold centroid. rewrite (proj1 HV), (proj2 (dims k d vs HV)). destruct (fold_vadd d vs (repeat 0 d) (repeat_length _ _) (proj2 HV)) as [I1 I2]. split; [apply vscale_len; exact I1|]. intros j. rewrite nth_vscale, I2, nth_repeat. rewrite (ksum_list [] vs), (proj1 HV). unfold ent. ring.
  Qed.
  Lemma ksum_const {A} (l : list A) (c : Q) : ksum l (fun _ => c) = kofnat (length l) * c.
  Proof. induction l as [|a l IH]; [rewrite ksum_nil; change (length (@nil A)) with 0%nat; rewrite kofnat_0; ring|]. rewrite ksum_cons, IH. cbn [length]. rewrite kofnat_S. ring. Qed.
  Theorem centroid_comb k d (vs : list (list Q)) : rows_of (S k) d vs -> affine_comb d (repeat (1 / kofnat (S k)) (S k)) vs (centroid vs).
  Proof.
    intros HV. destruct (centroid_spec k d vs HV) as [C1 C2]. assert (NN : @kofnat Q (S k) <> 0) by (apply kofnat_neq; discriminate). split; [rewrite repeat_length; symmetry; apply HV|]. split; [exact C1|]. split.
    - rewrite ksum_nth, repeat_length. rewrite (ksum_ext _ (fun _ => 1 / kofnat (S k))) by (intros i Hi; apply in_seq in Hi; rewrite (nth_indep _ 0 (1 / kofnat (S k))) by (rewrite repeat_length; lia); apply nth_repeat). rewrite ksum_const, seq_length. field. exact NN.
    - intros j Hj. rewrite C2, (proj1 HV), <- ksum_scale_l. apply ksum_ext. intros i Hi. apply in_seq in Hi. rewrite (nth_indep (repeat _ _) 0 (1 / kofnat (S k))) by (rewrite repeat_length; lia). rewrite nth_repeat. reflexivity.
  Qed.

  (** ** Circumcenter *)
  Definition sqd (u v : list Q) : Q := dot (vsub u v) (vsub u v).
  Lemma sqd_expand d (u v : list Q) : length u = d -> length v = d -> sqd u v = dot u u - (1 + 1) * dot u v + dot v v.
  Proof. intros Lu Lv. unfold sqd. rewrite dot_vsub_l, !(dot_vsub_r d), (dot_comm v u) by congruence. ring. Qed.
  Lemma dot_vadd_r d (u v w : list Q) : length u = d -> length v = d -> length w = d -> dot u (vadd v w) = dot u v + dot u w.
  Proof. intros Hu Hv Hw. rewrite (dot_seq u _ d), (dot_seq u v d), (dot_seq u w d) by (try apply vadd_len; assumption). rewrite <- ksum_plus. apply ksum_ext. intros j Hj. rewrite nth_vadd by congruence. ring. Qed.
  Lemma two_pos : klt 0 (1 + 1 : Q).
  Proof. replace (1 + 1 : Q) with (@kofnat Q 2) by (rewrite !kofnat_S, kofnat_0; ring). apply kofnat_pos. discriminate. Qed.
  Theorem circumcenter_fuel : forall fuel k d (vs : list (list Q)), (S k < fuel)%nat -> rows_of (S k) d vs -> affine_independent d vs ->
    exists c, circumcenter_ ksqrt fuel vs = Ok c /\ (exists a, affine_comb d a vs c) /\ forall i, (i <= k)%nat -> sqd c (nth i vs []) = sqd c (nth 0 vs []).
  Proof.
    induction fuel as [|fuel IH]; intros k d vs Hf HV HI; [lia|]. cbn [circumcenter_]. rewrite (proj1 HV). destruct (Nat.ltb_spec (S k) 3) as [Hk|Hk].
    - exists (centroid vs). split; [reflexivity|]. split; [exists (repeat (1 / kofnat (S k)) (S k)); apply centroid_comb; exact HV|].
      intros i Hi. destruct i as [|i]; [reflexivity|]. assert (k = 1%nat) by lia. subst k. assert (i = 0%nat) by lia. subst i. destruct (centroid_spec 1 d vs HV) as [C1 C2].
      assert (L0 : length (nth 0 vs []) = d) by (apply (rows_len 2 d); [exact HV|lia]). assert (L1 : length (nth 1 vs []) = d) by (apply (rows_len 2 d); [exact HV|lia]).
      unfold sqd. rewrite !(dot_seq (vsub _ _) _ d) by (apply vsub_len; assumption). apply ksum_ext. intros j Hj. rewrite !nth_vsub, C2 by congruence. cbn [seq]. rewrite !ksum_cons, ksum_nil, !kofnat_S, kofnat_0. unfold ent. pose proof two_pos as TP. apply klt_neq0 in TP. field. exact TP.
    - destruct k as [|[|m]]; try lia. destruct vs as [|v0 f]; [discriminate (proj1 HV)|]. cbn [tl]. assert (HF : rows_of (S (S m)) d f) by (split; [pose proof (proj1 HV) as L; cbn in L; lia|intros r Hr; apply HV; right; exact Hr]).
      assert (L0 : length v0 = d) by (apply HV; left; reflexivity). assert (P : Permutation (v0 :: f) (f ++ [v0])) by apply Permutation_cons_append.
      pose proof (rows_perm _ _ _ _ P HV) as HV'. pose proof (affine_independent_perm _ _ _ _ P HV HI) as HI'. pose proof (independent_front _ _ _ _ HV' HI') as HIf.
      destruct (IH (S m) d f ltac:(lia) HF HIf) as (c & Ec & (a & HA) & HE). rewrite Ec. cbn [bind].
      unfold face_normal, orthonormal_basis. rewrite (proj1 HV). rewrite (basis_rot (S (S m)) d (v0 :: f)) by (try assumption; try discriminate; rewrite Nat.mod_small; lia). cbn [bind]. rewrite Nat.mod_small by lia. change (rot (0 + 1) (v0 :: f)) with (f ++ [v0]).
      destruct (normal_last (S m) d f v0 HF L0 HI') as ((Lw & WW & WO & WN) & (al & Hal)). set (w := vscale (- (1)) _) in *. clearbody w.
      unfold vtx. cbn [nth]. set (v1 := nth 0 f []) in *. assert (L1 : length v1 = d) by (apply (rows_len (S (S m)) d); [exact HF|lia]). pose proof HA as (La & Lc & Sa & Ha).
      set (num := dot v0 v0 - dot v1 v1 + (1 + 1) * dot c v1 - (1 + 1) * dot c v0). set (den := (1 + 1) * (dot w v0 - dot w v1)). set (t := num / den).
      assert (ND : den <> 0).
      { intros E. rewrite (dot_vsub_r d) in WN by assumption. assert (Z : dot w v0 - dot w v1 = 0) by (destruct (kdec (dot w v0 - dot w v1) 0) as [|N]; [assumption|]; exfalso; exact (kmul_neq _ _ (klt_neq0 _ two_pos) N E)). rewrite Z in WN. exact (klt_irrefl Q 0 WN). }
      assert (Ls : length (vscale t w) = d) by (apply vscale_len; exact Lw). assert (Ln : length (vadd c (vscale t w)) = d) by (apply vadd_len; assumption).
      (* distance after the shift *)
      assert (SH : forall v, length v = d -> sqd (vadd c (vscale t w)) v = sqd c v + (1 + 1) * t * (dot w c - dot w v) + t * t).
      { intros v Lv. rewrite !(sqd_expand d) by assumption.
        assert (DL : forall u, length u = d -> dot (vadd c (vscale t w)) u = dot c u + t * dot w u) by (intros u Lu; rewrite dot_comm, (dot_vadd_r d), (dot_vscale_r d), (dot_comm u c), (dot_comm u w) by assumption; reflexivity).
        rewrite !DL by assumption. rewrite (dot_comm c (vadd _ _)), (dot_comm w (vadd _ _)), !DL by assumption. rewrite WW, (dot_comm c w). ring. }
      exists (vadd c (vscale t w)). split; [reflexivity|]. split.
      + (* affine combination *)
        set (B := fun i => match i with O => t * al (S m) | S l => nth l a 0 + t * (match l with O => - ksum (seq 0 (S (S m))) al | S l' => al l' end) end).
        exists (map B (seq 0 (S (S (S m))))). split; [rewrite map_length, seq_length; symmetry; apply HV|]. split; [exact Ln|].
        assert (AS : ksum (seq 0 (S (S m))) (fun l => match l with O => - ksum (seq 0 (S (S m))) al | S l' => al l' end) = - al (S m)).
        { rewrite ksum_S0. rewrite (ksum_Sn (S m) al). set (X := ksum (seq 0 (S m)) al). change (- (X + al (S m)) + X = - al (S m)). ring. }
        split.
        * rewrite ksum_map, ksum_S0. unfold B. rewrite ksum_plus, ksum_scale_l, AS. rewrite ksum_nth, La, (proj1 HF) in Sa. rewrite Sa. ring.
        * intros j Hj. rewrite (proj1 HV). rewrite nth_vadd, nth_vscale by congruence. rewrite Ha, Hal by exact Hj. rewrite (proj1 HF).
          rewrite (ksum_ext (fun i => nth i (map B (seq 0 (S (S (S m))))) 0 * ent (v0 :: f) i j) (fun i => B i * ent (v0 :: f) i j)) by (intros i Hi; apply in_seq in Hi; rewrite nth_map_seq0 by lia; reflexivity).
          rewrite (ksum_S0 (S (S m))). unfold B. change (ent (v0 :: f) 0 j) with (nth j v0 0).
          rewrite (ksum_ext (fun i => (nth i a 0 + t * _) * ent (v0 :: f) (S i) j) (fun l => nth l a 0 * ent f l j + t * ((match l with O => - ksum (seq 0 (S (S m))) al | S l' => al l' end) * ent f l j))) by (intros l _; change (ent (v0 :: f) (S l) j) with (ent f l j); ring).
          rewrite ksum_plus, ksum_scale_l.
          assert (X : ksum (seq 0 (S (S m))) (fun l => al l * edge (f ++ [v0]) l j) = al (S m) * nth j v0 0 + ksum (seq 0 (S (S m))) (fun l => (match l with O => - ksum (seq 0 (S (S m))) al | S l' => al l' end) * ent f l j)).
          { rewrite (ksum_ext _ (fun l => al l * ent (f ++ [v0]) (S l) j - al l * ent f 0 j)).
            2:{ intros l Hl. apply in_seq in Hl. unfold edge. rewrite (ent_snoc f v0 0) by lia. rewrite (proj1 HF). destruct (Nat.ltb_spec 0 (S (S m))); [ring|lia]. }
            rewrite ksum_minus, ksum_scale_r. rewrite (ksum_Sn (S m) (fun l => al l * ent (f ++ [v0]) (S l) j)). rewrite (ent_snoc f v0 (S (S m))) by (rewrite (proj1 HF); lia). rewrite (proj1 HF), Nat.ltb_irrefl.
            rewrite (ksum_S0 (S m) (fun l => match l with O => _ | S l' => al l' end * ent f l j)).
            rewrite (ksum_ext (fun l => al l * ent (f ++ [v0]) (S l) j) (fun l => al l * ent f (S l) j)) by (intros l Hl; apply in_seq in Hl; rewrite ent_snoc, (proj1 HF) by (rewrite (proj1 HF); lia); destruct (Nat.ltb_spec (S l) (S (S m))); [reflexivity|lia]). ring. }
          rewrite X. ring.
      + (* equal distances *)
        assert (E01 : sqd (vadd c (vscale t w)) v0 = sqd (vadd c (vscale t w)) v1).
        { rewrite !SH by assumption. rewrite !(sqd_expand d) by assumption. assert (TD : t * den = num) by (unfold t; field; exact ND). unfold den, num in TD. transitivity (dot c c - (1 + 1) * dot c v1 + dot v1 v1 + (1 + 1) * t * (dot w c - dot w v1) + t * t + (dot v0 v0 - dot v1 v1 + (1 + 1) * dot c v1 - (1 + 1) * dot c v0 - t * ((1 + 1) * (dot w v0 - dot w v1)))); [ring|]. rewrite TD. ring. }
        intros [|i] Hi; [reflexivity|]. cbn [nth]. rewrite E01. assert (Lvi : length (nth i f []) = d) by (apply (rows_len (S (S m)) d); [exact HF|lia]). rewrite !SH by assumption. rewrite HE by lia. fold v1.
        specialize (WO i ltac:(rewrite (proj1 HF); lia)). fold v1 in WO. rewrite (dot_vsub_r d) in WO by assumption. assert (EW : dot w (nth i f []) = dot w v1) by (transitivity (dot w (nth i f []) - dot w v1 + dot w v1); [ring|rewrite WO; ring]). rewrite EW. reflexivity.
  Qed.
  Theorem circumcenter_spec k d (vs : list (list Q)) : rows_of (S k) d vs -> affine_independent d vs ->
    exists c r, circumcenter ksqrt vs = Ok c /\ circumradius ksqrt vs = Ok r /\ (exists a, affine_comb d a vs c) /\ forall i, (i <= k)%nat -> norm2 ksqrt (vsub c (nth i vs [])) = r.
  Proof.
    intros HV HI. destruct (circumcenter_fuel (S (length vs)) k d vs ltac:(rewrite (proj1 HV); lia) HV HI) as (c & Ec & HA & HE). exists c, (norm2 ksqrt (vsub c (nth 0 vs []))). split; [exact Ec|]. split; [unfold circumradius, circumcenter; rewrite Ec; reflexivity|]. split; [exact HA|].
    intros i Hi. unfold norm2. f_equal. exact (HE i Hi).
  Qed.

  (** ** Diameter *)
  Lemma fold_kmax {A} (g : A -> Q) (l : list A) : forall h, let m := fold_left (fun h a => kmax h (g a)) l h in kle h m /\ (forall a, In a l -> kle (g a) m) /\ (m = h \/ exists a, In a l /\ m = g a).
  Proof.
    induction l as [|a l IH]; intros h; cbv zeta; cbn [fold_left]; [split; [apply kle_refl|split; [intros a []|left; reflexivity]]|].
    destruct (IH (kmax h (g a))) as (I1 & I2 & I3). assert (K : kle h (kmax h (g a)) /\ kle (g a) (kmax h (g a)) /\ (kmax h (g a) = h \/ kmax h (g a) = g a)).
    { unfold kmax. destruct (kltb h (g a)) eqn:E; [apply kltb_spec in E|apply kltb_false in E]; [split; [apply klt_le; exact E|split; [apply kle_refl|right; reflexivity]]|split; [apply kle_refl|split; [exact E|left; reflexivity]]]. }
    destruct K as (K1 & K2 & K3). split; [exact (kle_trans _ _ _ K1 I1)|]. split.
    - intros b [<-|Hb]; [exact (kle_trans _ _ _ K2 I1)|apply I2; exact Hb].
    - destruct I3 as [I3|(b & Hb & Eb)]; [|right; exists b; split; [right; exact Hb|exact Eb]]. rewrite I3. destruct K3 as [-> | ->]; [left; reflexivity|right; exists a; split; [left; reflexivity|reflexivity]].
  Qed.
  Lemma fold_flat {A B C} (g : C -> B -> C) (h : A -> list B) (l : list A) : forall c, fold_left (fun c a => fold_left g (h a) c) l c = fold_left g (flat_map h l) c.
  Proof. induction l as [|a l IH]; intros c; [reflexivity|]. cbn [fold_left flat_map]. rewrite fold_left_app. apply IH. Qed.
  Lemma fold_left_map {A B C} (g : C -> B -> C) (f : A -> B) (l : list A) : forall c, fold_left g (map f l) c = fold_left (fun c a => g c (f a)) l c.
  Proof. induction l as [|a l IH]; intros c; [reflexivity|]. cbn [map fold_left]. apply IH. Qed.
  Theorem diameter_spec (vs : list (list Q)) d : (2 <= length vs)%nat -> (forall v, In v vs -> length v = d) ->
    (forall u v, In u vs -> In v vs -> kle (norm2 ksqrt (vsub u v)) (diameter ksqrt vs)) /\ exists u v, In u vs /\ In v vs /\ diameter ksqrt vs = norm2 ksqrt (vsub u v).
  Proof.
    intros L HV. unfold diameter.
    set (pairs := flat_map (fun i => map (fun j => (i, j)) (seq (S i) (length vs - S i))) (seq 0 (length vs - 1))).
    assert (E : fold_left (fun h i => fold_left (fun h j => kmax h (norm2 ksqrt (vsub (vtx vs i) (vtx vs j)))) (seq (S i) (length vs - S i)) h) (seq 0 (length vs - 1)) 0 = fold_left (fun h ij => kmax h (norm2 ksqrt (vsub (vtx vs (fst ij)) (vtx vs (snd ij))))) pairs 0).
    { unfold pairs. rewrite <- fold_flat. assert (X : forall l c, fold_left (fun h i => fold_left (fun h j => kmax h (norm2 ksqrt (vsub (vtx vs i) (vtx vs j)))) (seq (S i) (length vs - S i)) h) l c = fold_left (fun c a => fold_left (fun h ij => kmax h (norm2 ksqrt (vsub (vtx vs (fst ij)) (vtx vs (snd ij))))) (map (fun j => (a, j)) (seq (S a) (length vs - S a))) c) l c); [|apply X].
      induction l as [|i l IH]; intros c; [reflexivity|]. cbn [fold_left]. rewrite fold_left_map. cbn [fst snd]. apply IH. }
    rewrite E. destruct (fold_kmax (fun ij => norm2 ksqrt (vsub (vtx vs (fst ij)) (vtx vs (snd ij)))) pairs 0) as (D0 & D1 & D2). set (D := fold_left _ pairs 0) in *. clearbody D.
    assert (SYM : forall u v : list Q, length u = d -> length v = d -> norm2 ksqrt (vsub u v) = norm2 ksqrt (vsub v u)) by (intros u v Lu Lv; unfold norm2; f_equal; change (sqd u v = sqd v u); rewrite !(sqd_expand d), (dot_comm v u) by assumption; ring).
    assert (IN : forall i j, (i < j)%nat -> (j < length vs)%nat -> In (i, j) pairs).
    { intros i j Hij Hj. unfold pairs. apply in_flat_map. exists i. split; [apply in_seq; lia|]. apply in_map_iff. exists j. split; [reflexivity|apply in_seq; lia]. }
    assert (BD : forall u v, In u vs -> In v vs -> kle (norm2 ksqrt (vsub u v)) D).
    { intros u v Hu Hv. destruct (In_nth vs u [] Hu) as (i & Hi & Ei). destruct (In_nth vs v [] Hv) as (j & Hj & Ej). destruct (Nat.lt_total i j) as [H|[H|H]].
      - rewrite <- Ei, <- Ej. exact (D1 (i, j) (IN i j H Hj)).
      - assert (Euv : v = u) by congruence. rewrite Euv. rewrite (norm_zero ksqrt Hsqrt (vsub u u) d) by (try (apply vsub_len; apply HV; exact Hu); intros k _; rewrite nth_vsub by reflexivity; ring). exact D0.
      - rewrite SYM by (apply HV; assumption). rewrite <- Ei, <- Ej. exact (D1 (j, i) (IN j i H Hi)). }
    split; [exact BD|]. destruct D2 as [D2|((i & j) & Hp & D2)].
    - destruct vs as [|u vs]; [cbn in L; lia|]. exists u, u. split; [left; reflexivity|]. split; [left; reflexivity|]. rewrite (norm_zero ksqrt Hsqrt (vsub u u) d) by (try (apply vsub_len; apply HV; left; reflexivity); intros k _; rewrite nth_vsub by reflexivity; ring). exact D2.
    - unfold pairs in Hp. apply in_flat_map in Hp as (a & Ha & Hp). apply in_map_iff in Hp as (b & Hb & Hs). injection Hb as <- <-. apply in_seq in Ha. apply in_seq in Hs. cbn [fst snd] in D2. exists (vtx vs a), (vtx vs b). split; [apply nth_In; lia|]. split; [apply nth_In; lia|exact D2].
  Qed.
End Centers.
