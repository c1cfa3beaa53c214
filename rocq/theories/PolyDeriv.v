(** Partial derivatives of the polynomial functions. *)
From Verif Require Import Base MultiIndex MultiIndexFacts MultiCapFacts MultiIndexCache Fld CodeGen CodeGenFacts LinSolve MultiCoef MultiCoefFacts LagrangeCache Unisolv Poly PolyFacts LagFacts PolyEval PolyOps PolyOpsB.
From Coq Require Import Field_theory Field.

Section Deriv.
  Context {F : fld}.
  Add Field Kfield12 : (kth F).
  Local Open Scope fld_scope.

  (** Polynomial functions of one variable. *)
  Inductive polyfun : (F -> F) -> Prop :=
  | pf_const c : polyfun (fun _ => c)
  | pf_id : polyfun (fun h => h)
  | pf_add f g : polyfun f -> polyfun g -> polyfun (fun h => f h + g h)
  | pf_mul f g : polyfun f -> polyfun g -> polyfun (fun h => f h * g h).
  (** [f(h) = f(0) + h d + h^2 g(h)]: the derivative of [f] at 0 is [d]. *)
  Definition dat (f : F -> F) (d : F) : Prop := exists g, polyfun g /\ forall h, f h = f 0 + h * d + h * h * g h.
  (** The derivative of [f] in direction [i] at [x] is [d]. *)
  Definition is_pderiv (f : list F -> F) (i : nat) (x : list F) (d : F) : Prop := dat (fun h => f (upd x i (nth i x 0 + h))) d.

  Lemma dat_const c : dat (fun _ => c) 0.
  Proof. exists (fun _ => 0). split; [constructor|]. intros h. ring. Qed.
  Lemma dat_shift a : dat (fun h => a + h) 1.
  Proof. exists (fun _ => 0). split; [constructor|]. intros h. ring. Qed.
  Lemma dat_add f g d e : dat f d -> dat g e -> dat (fun h => f h + g h) (d + e).
  Proof. intros (u & Hu & Eu) (v & Hv & Ev). exists (fun h => u h + v h). split; [constructor; assumption|]. intros h. rewrite (Eu h), (Ev h). ring. Qed.
  Lemma dat_mul f g d e : dat f d -> dat g e -> dat (fun h => f h * g h) (f 0 * e + d * g 0).
  Proof.
    intros (u & Hu & Eu) (v & Hv & Ev).
    exists (fun h => ((fun _ => f 0) h * v h + (fun _ => d * e) h) + (((fun h => h) h * (((fun _ => d) h * v h) + (u h * (fun _ => e) h))) + ((u h * (fun _ => g 0) h) + ((fun h => h) h * (fun h => h) h) * (u h * v h)))).
    split.
    - repeat first [apply pf_add|apply pf_mul|apply pf_const|apply pf_id|assumption].
    - intros h. rewrite (Eu h), (Ev h). ring.
  Qed.
  Lemma dat_ext f g d e : (forall h, f h = g h) -> d = e -> dat f d -> dat g e.
  Proof. intros H <- (u & Hu & Eu). exists u. split; [exact Hu|]. intros h. rewrite <- !H. apply Eu. Qed.
  Lemma dat_scale f d c : dat f d -> dat (fun h => c * f h) (c * d).
  Proof. intros H. apply (dat_ext (fun h => c * f h) _ (c * d + 0 * f 0)); [reflexivity|ring|]. apply (dat_mul (fun _ => c) f 0 d); [apply dat_const|exact H]. Qed.
  Lemma dat_sum {A} (l : list A) (f : A -> F -> F) (d : A -> F) : (forall a, In a l -> dat (f a) (d a)) -> dat (fun h => ksum l (fun a => f a h)) (ksum l d).
  Proof.
    induction l as [|a l IH]; intros H.
    - exact (dat_const 0).
    - apply (dat_ext (fun h => f a h + ksum l (fun a => f a h)) _ (d a + ksum l d)); [reflexivity|reflexivity|]. apply dat_add; [apply H; left; reflexivity|].
      apply IH. intros b Hb. apply H. right. exact Hb.
  Qed.
  Lemma dat_pow f d k : dat f d -> dat (fun h => kpow (f h) k) (kofnat k * kpow (f 0) (k - 1) * d).
  Proof.
    intros H. induction k as [|k IH].
    - apply (dat_ext (fun _ => 1) _ 0); [reflexivity|rewrite kofnat_0; ring|apply dat_const].
    - apply (dat_ext (fun h => f h * kpow (f h) k) _ (f 0 * (kofnat k * kpow (f 0) (k - 1) * d) + d * kpow (f 0) k)); [reflexivity| |apply (dat_mul f (fun h => kpow (f h) k)); assumption].
      rewrite kofnat_S. replace (S k - 1)%nat with k by lia. destruct k as [|k]; [rewrite kofnat_0; cbn [kpow Nat.sub]; ring|]. replace (S k - 1)%nat with k by lia. cbn [kpow]. ring.
  Qed.

  (** The derivative of a monomial. *)
  Lemma upd_nth_same {A} (l : list A) i d : upd l i (nth i l d) = l.
  Proof. revert i. induction l as [|a l IH]; intros [|i]; cbn [upd nth]; try reflexivity. rewrite IH. reflexivity. Qed.
  Definition down (nu : list nat) (i : nat) : list nat := upd nu i (nth i nu 0%nat - 1)%nat.
  Lemma pderiv_mpow nu i x : length nu = length x -> i < length x -> is_pderiv (fun y => mpow y nu) i x (kofnat (nth i nu 0%nat) * mpow x (down nu i)).
  Proof.
    revert nu i. induction x as [|v x IH]; intros [|k nu] i E Hi; cbn [length] in *; try lia. unfold is_pderiv, down. destruct i as [|i]; cbn [nth upd mpow].
    - apply (dat_ext (fun h => mpow x nu * kpow (v + h) k) _ (mpow x nu * (kofnat k * kpow (v + 0) (k - 1) * 1))); [intros h; ring|replace (v + 0) with v by ring; ring|].
      apply dat_scale. apply (dat_pow (fun h => v + h)). apply dat_shift.
    - apply (dat_ext (fun h => kpow v k * mpow (upd x i (nth i x 0 + h)) nu) _ (kpow v k * (kofnat (nth i nu 0%nat) * mpow x (down nu i)))); [reflexivity|unfold down; ring|].
      apply dat_scale. apply IH; lia.
  Qed.
  Lemma ksum_upd (x : list F) i h : i < length x -> ksum (upd x i (nth i x 0 + h)) (fun v => v) = ksum x (fun v => v) + h.
  Proof.
    revert i. induction x as [|v x IH]; intros i Hi; cbn [length] in Hi; [lia|]. destruct i as [|i]; cbn [upd nth]; rewrite !ksum_cons; [ring|]. rewrite IH by lia. ring.
  Qed.
  Lemma pderiv_bary i x k : i < length x -> is_pderiv (fun y => kpow (bary0 y) k) i x (- (kofnat k * kpow (bary0 x) (k - 1))).
  Proof.
    intros Hi. unfold is_pderiv. apply (dat_ext (fun h => kpow (bary0 x + (- (1)) * h) k) _ (kofnat k * kpow (bary0 x + - (1) * 0) (k - 1) * (- (1)))).
    - intros h. f_equal. unfold bary0. rewrite ksum_upd by exact Hi. ring.
    - replace (bary0 x + - (1) * 0) with (bary0 x) by ring. ring.
    - apply (dat_pow (fun h => bary0 x + - (1) * h)). apply (dat_ext (fun h => bary0 x + - (1) * h) _ (0 + - (1) * 1)); [reflexivity|ring|].
      apply (dat_add (fun _ => bary0 x) (fun h => - (1) * h)); [apply dat_const|]. apply (dat_scale (fun h => h)). apply (dat_ext (fun h => 0 + h) _ 1); [intros h; ring|reflexivity|apply dat_shift].
  Qed.

  Definition up (nu : list nat) (i : nat) : list nat := upd nu i (S (nth i nu 0%nat)).
  Lemma up_length nu i : length (up nu i) = length nu. Proof. apply upd_length. Qed.
  Lemma up_sum nu i : i < length nu -> nsum (up nu i) = S (nsum nu). Proof. apply nsum_upd. Qed.
  Lemma upd_upd {A} (l : list A) i v w : upd (upd l i v) i w = upd l i w.
  Proof. revert i. induction l as [|a l IH]; intros [|i]; cbn [upd]; try reflexivity. rewrite IH. reflexivity. Qed.
  Lemma down_up nu i : i < length nu -> down (up nu i) i = nu.
  Proof. intros H. unfold down, up. rewrite nth_upd_eq by exact H. rewrite upd_upd. replace (S (nth i nu 0%nat) - 1)%nat with (nth i nu 0%nat) by lia. apply upd_nth_same. Qed.
  Lemma up_down nu i : i < length nu -> nth i nu 0%nat <> 0%nat -> up (down nu i) i = nu.
  Proof. intros H Hn. unfold down, up. rewrite nth_upd_eq by exact H. rewrite upd_upd. replace (S (nth i nu 0%nat - 1))%nat with (nth i nu 0%nat) by lia. apply upd_nth_same. Qed.
  Lemma down_sum nu i : i < length nu -> nth i nu 0%nat <> 0%nat -> S (nsum (down nu i)) = nsum nu.
  Proof. intros H Hn. rewrite <- (up_down nu i H Hn) at 2. rewrite up_sum; [reflexivity|]. unfold down. rewrite upd_length. exact H. Qed.
  Lemma down_length nu i : length (down nu i) = length nu. Proof. apply upd_length. Qed.
  (** Shift of the summation index. *)
  Lemma ksum_shift m r i (g : list nat -> F) : i < m -> (0 < r)%nat -> (forall nu, nth i nu 0%nat = 0%nat -> g nu = 0) ->
    ksum (all_mi m r) g = ksum (all_mi m (r - 1)) (fun tau => g (up tau i)).
  Proof.
    intros Hi Hr Hz. transitivity (ksum (filter (fun nu => negb (nth i nu 0 =? 0)%nat) (all_mi m r)) g).
    - rewrite ksum_filter. apply ksum_ext. intros nu _. destruct (Nat.eqb_spec (nth i nu 0%nat) 0) as [E|E]; cbn [negb]; [apply Hz; exact E|reflexivity].
    - symmetry. apply (ksum_bij _ _ (fun tau => up tau i)).
      + apply NoDup_all_mi.
      + apply NoDup_filter, NoDup_all_mi.
      + intros tau Ht. apply in_all_mi in Ht as [T1 T2]. apply filter_In. rewrite in_all_mi, up_length, up_sum by lia. split; [split; lia|]. unfold up. rewrite nth_upd_eq by lia. reflexivity.
      + intros a b Ha Hb E. apply in_all_mi in Ha as [A1 _]. apply in_all_mi in Hb as [B1 _]. rewrite <- (down_up a i), <- (down_up b i) by lia. rewrite E. reflexivity.
      + intros nu Hn. apply filter_In in Hn as [Hn1 Hn2]. apply in_all_mi in Hn1 as [N1 N2]. apply negb_true_iff, Nat.eqb_neq in Hn2. exists (down nu i). rewrite in_all_mi, down_length, up_down by lia.
        split; [|reflexivity]. pose proof (down_sum nu i ltac:(lia) Hn2). lia.
      + reflexivity.
  Qed.

  Theorem derive_monomial_eq m r i (c : list F) : i < m -> (0 < r)%nat -> length c = get_dimension r m ->
    derive_monomial m r i c = Ok (map (fun tau => kofnat (S (nth i tau 0%nat)) * cf m r c (up tau i)) (all_mi m (r - 1))).
  Proof.
    intros Hi Hr Hc. unfold derive_monomial. rewrite generate_all_eq. cbn [bind]. apply mapM_ok. intros tau Ht. apply in_all_mi in Ht as [T1 T2].
    rewrite unit_multiindex_eq by exact Hi. cbn [bind]. unfold get at 1. rewrite (nth_error_nth' tau 0%nat) by lia. cbn [bind].
    rewrite <- T1 at 1. rewrite mi_add_e_i by lia. fold (up tau i). destruct (index_cf m r (up tau i) c) as (k & _ & Ek & _ & Eg); [rewrite up_length; exact T1|rewrite up_sum by lia; lia|exact Hc|].
    rewrite Ek. cbn [bind]. rewrite Eg. cbn [bind]. rewrite Nat.add_1_r. reflexivity.
  Qed.
  Theorem mval_deriv m r i (c x : list F) : i < m -> (0 < r)%nat -> length x = m ->
    is_pderiv (mval m r c) i x (mval m (r - 1) (map (fun tau => kofnat (S (nth i tau 0%nat)) * cf m r c (up tau i)) (all_mi m (r - 1))) x).
  Proof.
    intros Hi Hr Hx. rewrite (mval_ext _ _ _ _ _ eq_refl). unfold is_pderiv, mval.
    apply (dat_ext (fun h => ksum (all_mi m r) (fun nu => cf m r c nu * mpow (upd x i (nth i x 0 + h)) nu)) _ (ksum (all_mi m r) (fun nu => cf m r c nu * (kofnat (nth i nu 0%nat) * mpow x (down nu i))))); [reflexivity| |].
    - rewrite (ksum_shift m r i) by (assumption || (intros nu ->; rewrite kofnat_0; ring)). apply ksum_ext. intros tau Ht. apply in_all_mi in Ht as [T1 T2].
      rewrite down_up by lia. unfold up at 2. rewrite nth_upd_eq by lia. ring.
    - apply dat_sum. intros nu Hn. apply in_all_mi in Hn as [N1 _]. apply dat_scale. apply pderiv_mpow; lia.
  Qed.
  Lemma pderiv_const_0 m i (c x : list F) : length x = m -> i < m -> is_pderiv (mval m 0 c) i x 0.
  Proof.
    intros Hx Hi. unfold is_pderiv. apply (dat_ext (fun _ => mval m 0 c x) _ 0); [|reflexivity|apply dat_const].
    intros h. unfold mval. rewrite all_mi_r0, !ksum_cons, !mpow_zero. reflexivity.
  Qed.

  Theorem derive_bernstein_eq m r i (c : list F) : i < m -> (0 < r)%nat -> length c = get_dimension r m ->
    derive_bernstein m r i c = Ok (map (fun mu => (cf m r c (up mu i) - cf m r c mu) * kofnat r) (all_mi m (r - 1))).
  Proof.
    intros Hi Hr Hc. unfold derive_bernstein. destruct (Nat.eqb_spec m 1) as [->|Hm].
    - rewrite get_dimension_1 in Hc. rewrite (mapM_ok _ (fun k => nth (k + 1) c 0 - nth k c 0)).
      + cbn [bind]. rewrite all_mi_1, !map_map. replace (S (r - 1)) with r by lia. f_equal. apply map_ext_in. intros k Hk. apply in_seq in Hk. f_equal. replace i with O by lia.
        change (up [k] 0) with [S k]. rewrite !nth_cf by (rewrite ?get_dimension_1; lia). rewrite Nat.add_1_r. reflexivity.
      + intros k Hk. apply in_seq in Hk. unfold get. rewrite (nth_error_nth' c 0) by lia. cbn [bind]. rewrite (nth_error_nth' c 0) by lia. reflexivity.
    - rewrite generate_all_eq. cbn [bind]. rewrite (mapM_ok _ (fun mu => cf m r c (up mu i) - cf m r c mu)).
      + cbn [bind]. rewrite map_map. reflexivity.
      + intros mu Ht. apply in_all_mi in Ht as [T1 T2]. rewrite unit_multiindex_eq by exact Hi. cbn [bind].
        rewrite <- T1 at 1. rewrite mi_add_e_i by lia. fold (up mu i). destruct (index_cf m r (up mu i) c) as (k & _ & Ek & _ & Eg); [rewrite up_length; exact T1|rewrite up_sum by lia; lia|exact Hc|].
        destruct (index_cf m r mu c) as (j & _ & Ej & _ & Eh); [exact T1|lia|exact Hc|].
        rewrite Ek. cbn [bind]. rewrite Ej. cbn [bind]. rewrite Eg. cbn [bind]. rewrite Eh. reflexivity.
  Qed.
  Theorem bval_deriv m r i (c x : list F) : i < m -> (0 < r)%nat -> length x = m ->
    is_pderiv (bval m r c) i x (bval m (r - 1) (map (fun mu => (cf m r c (up mu i) - cf m r c mu) * kofnat r) (all_mi m (r - 1))) x).
  Proof.
    intros Hi Hr Hx. rewrite (bval_ext _ _ _ _ _ eq_refl). unfold is_pderiv, bval.
    apply (dat_ext (fun h => ksum (all_mi m r) (fun nu => cf m r c nu * bern r nu (upd x i (nth i x 0 + h)))) _
      (ksum (all_mi m r) (fun nu => cf m r c nu * (M r nu * (mpow x nu * (- (kofnat (r - nsum nu) * kpow (bary0 x) (r - nsum nu - 1))) + kofnat (nth i nu 0%nat) * mpow x (down nu i) * kpow (bary0 x) (r - nsum nu)))))); [reflexivity| |].
    - transitivity (ksum (all_mi m r) (fun nu => cf m r c nu * (M r nu * (kofnat (nth i nu 0%nat) * mpow x (down nu i) * kpow (bary0 x) (r - nsum nu)))) -
        ksum (all_mi m r) (fun nu => if (nsum nu <=? r - 1)%nat then cf m r c nu * (M r nu * (kofnat (r - nsum nu) * (mpow x nu * kpow (bary0 x) (r - nsum nu - 1)))) else 0)).
      + rewrite <- ksum_minus. apply ksum_ext. intros nu Hn. apply in_all_mi in Hn as [N1 N2]. destruct (Nat.leb_spec (nsum nu) (r - 1)) as [H|H]; [ring|]. replace (r - nsum nu)%nat with O by lia. rewrite kofnat_0. ring.
      + rewrite <- (ksum_filter (fun nu => (nsum nu <=? r - 1)%nat)), all_mi_filter by lia.
        rewrite (ksum_shift m r i) by (assumption || (intros nu ->; rewrite kofnat_0; ring)). rewrite <- ksum_minus. apply ksum_ext. intros mu Ht. apply in_all_mi in Ht as [T1 T2].
        rewrite down_up by lia. rewrite up_sum by lia. unfold up at 3. rewrite nth_upd_eq by lia. unfold bern.
        pose proof (M_up (F := F) (r - 1) mu i T2 ltac:(lia)) as E1. fold (up mu i) in E1. pose proof (M_down (F := F) (r - 1) mu T2) as E2. replace (S (r - 1)) with r in * by lia.
        replace (r - S (nsum mu))%nat with (r - 1 - nsum mu)%nat by lia. replace (r - nsum mu - 1)%nat with (r - 1 - nsum mu)%nat by lia.
        transitivity (cf m r c (up mu i) * (M r (up mu i) * kofnat (S (nth i mu 0%nat))) * (mpow x mu * kpow (bary0 x) (r - 1 - nsum mu)) - cf m r c mu * (M r mu * kofnat (r - nsum mu)) * (mpow x mu * kpow (bary0 x) (r - 1 - nsum mu))); [ring|].
        rewrite E1, E2. ring.
    - apply dat_sum. intros nu Hn. apply in_all_mi in Hn as [N1 _]. apply dat_scale. unfold bern. apply dat_scale.
      pose proof (pderiv_mpow nu i x ltac:(lia) ltac:(lia)) as D1. pose proof (pderiv_bary i x (r - nsum nu) ltac:(lia)) as D2. unfold is_pderiv in D1, D2.
      pose proof (dat_mul _ _ _ _ D1 D2) as D. cbv beta in D. eapply dat_ext; [| |exact D]; [reflexivity|].
      replace (nth i x 0 + 0) with (nth i x 0) by ring. rewrite upd_nth_same. reflexivity.
  Qed.
  Lemma pderiv_ext (f g : list F -> F) i x d e m : length x = m -> (forall y, length y = m -> f y = g y) -> d = e -> is_pderiv f i x d -> is_pderiv g i x e.
  Proof. intros Hx H E. unfold is_pderiv. apply dat_ext; [|exact E]. intros h. apply H. rewrite upd_length. exact Hx. Qed.
  Lemma bval_deriv_0 m i (c x : list F) : length x = m -> i < m -> is_pderiv (bval m 0 c) i x 0.
  Proof.
    intros Hx Hi. unfold is_pderiv. apply (dat_ext (fun _ => bval m 0 c x) _ 0); [|reflexivity|apply dat_const].
    intros h. unfold bval, bern. rewrite all_mi_r0, !ksum_cons, !mpow_zero. reflexivity.
  Qed.
End Deriv.
