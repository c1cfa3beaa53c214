(** What the integration functions compute. *)
From Coq Require Import Field_theory Field.
From Verif Require Import Base MultiIndex MultiIndexFacts MultiCapFacts MultiIndexCache Fld CodeGen CodeGenFacts LinSolve MultiCoef MultiCoefFacts LagrangeCache Unisolv Poly PolyFacts LagFacts PolyEval PolyOps PolyOpsB PolyDeriv PolyObj IntegralCache Integrate.

Section IntFacts.
  Context {F : fld}.
  Add Field Kfield18 : (kth F).
  Local Open Scope fld_scope.

  (** Integral of a monomial in [length nu] variables *)
  Definition mint (nu : list nat) : F := kofnat (mi_factorial nu) / kofnat (fact (length nu + nsum nu)).
  Definition mono_int (m r : nat) (c : list F) : F := ksum (all_mi m r) (fun nu => cf m r c nu * mint nu).
  Definition bern_int (m r : nat) (c : list F) : F := ksum (all_mi m r) (fun nu => cf m r c nu * (kofnat (fact r) / kofnat (fact (r + m)))).

  Lemma denom_eq r n : (fact r * fold_left (fun denom i => denom * (r + i)) (seq 1 n) 1 = fact (r + n))%nat.
  Proof.
    induction n as [|n IH]; [cbn [seq fold_left]; rewrite Nat.add_0_r; lia|]. rewrite seq_S, fold_left_app. cbn [fold_left]. rewrite Nat.mul_assoc, IH.
    replace (r + S n)%nat with (S (r + n)) by lia. replace (r + (1 + n))%nat with (S (r + n)) by lia. change (fact (S (r + n))) with (S (r + n) * fact (r + n))%nat. lia.
  Qed.
  Lemma int_bern_basis r n : integrate_bernstein_basis_fn_unit_simplex r n = kofnat (fact r) / kofnat (fact (r + n)) :> F.
  Proof.
    unfold integrate_bernstein_basis_fn_unit_simplex. rewrite <- (denom_eq r n), kofnat_mul. set (D := fold_left _ _ _).
    assert (HD : D <> 0%nat) by (pose proof (denom_eq r n) as E; fold D in E; pose proof (fact_neq_0 (r + n)); intros E'; rewrite E' in E; lia).
    field. split; [apply kofnat_neq; exact HD|apply kfact_neq].
  Qed.
  Lemma fold_left_sum {A} (f : A -> F) l acc : fold_left (fun s a => s + f a) l acc = acc + ksum l f.
  Proof. revert acc. induction l as [|a l IH]; intros acc; cbn [fold_left]; [rewrite ksum_nil; ring|]. rewrite IH, ksum_cons. ring. Qed.
  Lemma py_sum_eq (a : list F) : py_sum a = ksum a (fun v => v).
  Proof. unfold py_sum. rewrite (fold_left_sum (fun v => v)). ring. Qed.
  Lemma ksum_cf m r (c : list F) : length c = get_dimension r m -> ksum c (fun v => v) = ksum (all_mi m r) (cf m r c).
  Proof. intros E. transitivity (ksum (map (cf m r c) (all_mi m r)) (fun v => v)); [rewrite (map_cf m r c E); reflexivity|]. apply (ksum_map (cf m r c) (fun v => v)). Qed.
  Theorem int_bernstein_eq m r (c : list F) : length c = get_dimension r m -> integrate_bernstein_polynomial_unit_simplex r c m = Ok (bern_int m r c).
  Proof.
    intros E. unfold integrate_bernstein_polynomial_unit_simplex. rewrite E, Nat.eqb_refl. cbn [assert_ bind]. f_equal. rewrite int_bern_basis, py_sum_eq, (ksum_cf m r c E). unfold bern_int. rewrite ksum_scale_r. ring.
  Qed.

  Lemma int_homogeneous_eq nu : integrate_homogeneous_polynomial_unit_simplex nu = mint nu.
  Proof.
    unfold integrate_homogeneous_polynomial_unit_simplex, mint. rewrite int_bern_basis. unfold multinom. change (norm nu) with (nsum nu). rewrite (Nat.add_comm (length nu)). field.
    repeat split; try apply kfact_neq; apply mfac_neq.
  Qed.

  (** The tables *)
  Definition int_table_ok (t : (nat * nat) * list (Z * Z)) : bool :=
    let '((n, r), l) := t in
    match generate_all n r with
    | Ok mis => (length l =? length mis)%nat && forallb (fun e => let '((p, q), nu) := e in negb (q =? 0)%Z && (p * Z.of_nat (fact (n + nsum nu)) =? q * Z.of_nat (mi_factorial nu))%Z) (combine l mis)
    | Err _ => false
    end.
  Lemma int_tables_checked : forallb int_table_ok monomial_integrals_unit_simplex_all_cache = true.
  Proof. vm_compute. reflexivity. Qed.
  Lemma assoc_in {B} (d : list ((nat * nat) * B)) k v : assoc d k = Some v -> In (k, v) d.
  Proof.
    induction d as [|[k' v'] d IH]; cbn [assoc]; [discriminate|]. unfold key_eqb. destruct (Nat.eqb_spec (fst k') (fst k)) as [E1|]; cbn [andb]; [|intros H; right; auto].
    destruct (Nat.eqb_spec (snd k') (snd k)) as [E2|]; [|intros H; right; auto]. intros H. injection H as <-. left. destruct k, k'; cbn in *; congruence.
  Qed.
  Lemma kofZ_neq z : z <> 0%Z -> kofZ z <> (0 : F).
  Proof.
    intros H. destruct z as [|p|p]; [congruence| |]; cbn [kofZ].
    - apply kofnat_neq. pose proof (Pos2Nat.is_pos p). lia.
    - intros E. apply (kofnat_neq (F := F) (Pos.to_nat p)); [pose proof (Pos2Nat.is_pos p); lia|]. transitivity (- - kofnat (F := F) (Pos.to_nat p)); [ring|]. rewrite E. ring.
  Qed.
  Lemma cached_integral_eq p q : q <> 0%Z -> cached_integral (F := F) (p, q) = kofZ p / kofZ q.
  Proof.
    intros Hq. unfold cached_integral. cbn [fst snd]. destruct q as [|[q|q|]|q]; try reflexivity. cbn [kofZ]. rewrite kofnat_1. field. apply k1_neq_0.
  Qed.
  Lemma table_integrals n r l : assoc monomial_integrals_unit_simplex_all_cache (n, r) = Some l -> length l = get_dimension r n /\ forall i nu pq, nth_error (all_mi n r) i = Some nu -> nth_error l i = Some pq -> cached_integral pq = mint nu.
  Proof.
    intros H. apply assoc_in in H. pose proof int_tables_checked as HC. rewrite forallb_forall in HC. specialize (HC _ H). unfold int_table_ok in HC. rewrite generate_all_eq in HC. apply andb_prop in HC as [H1 H2].
    apply Nat.eqb_eq in H1. split; [rewrite H1; symmetry; apply dim_all_mi|]. intros i nu [p q] Hn Hl. rewrite forallb_forall in H2. specialize (H2 ((p, q), nu)).
    assert (Hin : In ((p, q), nu) (combine l (all_mi n r))).
    { apply nth_error_In with i. clear - Hn Hl. revert Hn Hl. generalize (all_mi n r). intros L. revert i L. induction l as [|a l IH]; intros [|i] [|b L] Hn Hl; try discriminate; cbn in *; [congruence|]. apply IH; assumption. }
    specialize (H2 Hin). cbn beta iota in H2. apply andb_prop in H2 as [Hq HE]. apply negb_true_iff, Z.eqb_neq in Hq. apply Z.eqb_eq in HE. rewrite cached_integral_eq by exact Hq.
    apply (f_equal (@kofZ F)) in HE. rewrite !kofZ_mul, !kofZ_nat in HE. unfold mint. assert (Hnu : length nu = n) by (apply nth_error_In, in_all_mi in Hn; apply Hn). rewrite Hnu.
    pose proof (kofZ_neq q Hq). pose proof (kfact_neq (F := F) (n + nsum nu)). apply kdiv_eq; [assumption|]. transitivity (kofZ p * kofnat (fact (n + nsum nu)) / kofnat (F := F) (fact (n + nsum nu))); [field; assumption|]. rewrite HE. field. assumption.
  Qed.
  Lemma combine_cached (a : list F) (l : list (Z * Z)) (L : list (list nat)) : length a = length L -> length l = length L ->
    (forall i nu pq, nth_error L i = Some nu -> nth_error l i = Some pq -> cached_integral pq = mint nu) ->
    ksum (combine a l) (fun p => fst p * cached_integral (snd p)) = ksum (combine a L) (fun p => fst p * mint (snd p)).
  Proof.
    revert l L. induction a as [|x a IH]; intros [|pq l] [|nu L] E1 E2 H; cbn [length] in *; try discriminate; [reflexivity|]. cbn [combine]. rewrite !ksum_cons. cbn [fst snd].
    rewrite (H 0%nat nu pq eq_refl eq_refl). f_equal. apply IH; [congruence|congruence|]. intros i. apply (H (S i)).
  Qed.
  Theorem int_monomial_eq m r (c : list F) : length c = get_dimension r m -> integrate_polynomial_unit_simplex r m c = Ok (mono_int m r c).
  Proof.
    intros E. unfold integrate_polynomial_unit_simplex. rewrite E, Nat.eqb_refl. cbn [assert_ bind]. destruct (assoc _ (m, r)) as [l|] eqn:Ha.
    - f_equal. rewrite (fold_left_sum (fun p => fst p * cached_integral (snd p))). destruct (table_integrals _ _ _ Ha) as [T1 T2].
      rewrite (combine_cached c l (all_mi m r)); [|rewrite E; apply dim_all_mi|rewrite T1; apply dim_all_mi|exact T2]. rewrite (sum_cf m r c mint E). unfold mono_int. ring.
    - rewrite generate_all_eq. cbn [bind]. rewrite (foldM_sum _ (fun i => nth i c 0 * mint (nth i (all_mi m r) []))).
      + f_equal. unfold mono_int. rewrite <- (sum_cf m r c mint E). pose proof (combine_nth_sum c (all_mi m r) [] mint) as HS. rewrite HS by (rewrite E; apply dim_all_mi). rewrite E, dim_all_mi. ring.
      + intros s i Hi. apply in_seq in Hi. unfold get. rewrite (nth_error_nth' (all_mi m r) []) by lia. cbn [bind]. rewrite (nth_error_nth' c 0) by (rewrite E, dim_all_mi; lia). cbn [bind]. rewrite int_homogeneous_eq. reflexivity.
  Qed.

  Definition lc (m r : nat) (nu : list nat) : list F := match get_lagrange_basis_fn_coefficients nu r with Ok c => c | Err _ => [] end.
  Lemma lc_spec r nu : nsum nu <= r -> get_lagrange_basis_fn_coefficients nu r = Ok (lc (length nu) r nu) /\ length (lc (length nu) r nu) = get_dimension r (length nu) /\
    forall mu, length mu = length nu -> nsum mu <= r -> mval (length nu) r (lc (length nu) r nu) (generate_lagrange_point (length nu) r mu) = if mi_dec mu nu then 1 else 0.
  Proof. intros H. destruct (lagrange_basis_fn_coefficients_ok (F := F) nu r H) as (c & E & H1 & H2). unfold lc. rewrite E. auto. Qed.
  Lemma lagc_expand m r (c : list F) : length c = get_dimension r m -> lagc m r c = map (fun mu => ksum (all_mi m r) (fun nu => cf m r c nu * cf m r (lc m r nu) mu)) (all_mi m r).
  Proof.
    intros E. apply (nodal_unique m r); [apply lagc_length|apply map_all_mi_length|]. intros mu M1 M2. pose proof (lval_nodal m r c mu E M1 M2) as Hn. unfold lval in Hn. rewrite Hn.
    rewrite (mval_ext m r _ _ _ eq_refl). transitivity (ksum (all_mi m r) (fun nu => cf m r c nu * mval m r (lc m r nu) (generate_lagrange_point m r mu))).
    - assert (Hin : In mu (all_mi m r)) by (apply in_all_mi; split; assumption). rewrite (ksum_ext _ (fun nu => if mi_dec nu mu then cf m r c nu else 0)).
      + symmetry. apply (ksum_delta mi_dec (cf m r c)); [apply NoDup_all_mi|exact Hin].
      + intros nu Hnu. apply in_all_mi in Hnu as [N1 N2]. destruct (lc_spec r nu N2) as (_ & _ & H). rewrite N1 in H. rewrite (H mu M1 M2). destruct (mi_dec mu nu), (mi_dec nu mu); try congruence; ring.
    - unfold mval. rewrite (ksum_ext _ (fun nu => ksum (all_mi m r) (fun tau => cf m r c nu * (cf m r (lc m r nu) tau * mpow (generate_lagrange_point m r mu) tau)))) by (intros nu _; rewrite ksum_scale_l; reflexivity).
      rewrite ksum_swap. apply ksum_ext. intros tau _. rewrite <- ksum_scale_r. apply ksum_ext. intros nu _. ring.
  Qed.
  Theorem int_lagrange_eq m r (c : list F) : length c = get_dimension r m -> integrate_lagrange_polynomial_unit_simplex r c m = Ok (mono_int m r (lagc m r c)).
  Proof.
    intros E. unfold integrate_lagrange_polynomial_unit_simplex. rewrite E, Nat.eqb_refl. cbn [assert_ bind]. rewrite generate_all_eq. cbn [bind].
    rewrite (foldM_sum _ (fun i => nth i c 0 * mono_int m r (lc m r (nth i (all_mi m r) [])))).
    - f_equal. pose proof (combine_nth_sum c (all_mi m r) [] (fun nu => mono_int m r (lc m r nu))) as HS. rewrite E, dim_all_mi in HS. specialize (HS eq_refl).
      rewrite (sum_cf m r c (fun nu => mono_int m r (lc m r nu)) E) in HS. rewrite <- HS. transitivity (ksum (all_mi m r) (fun nu => cf m r c nu * mono_int m r (lc m r nu))); [ring|]. symmetry. rewrite (lagc_expand m r c E).
      transitivity (ksum (all_mi m r) (fun nu => ksum (all_mi m r) (fun tau => cf m r c tau * (cf m r (lc m r tau) nu * mint nu)))).
      + apply ksum_ext. intros nu Hnu. apply in_all_mi in Hnu as [N1 N2]. rewrite cf_map by assumption. rewrite <- ksum_scale_r. apply ksum_ext. intros tau _. ring.
      + rewrite ksum_swap. apply ksum_ext. intros nu _. unfold mono_int. rewrite ksum_scale_l. reflexivity.
    - intros s i Hi. apply in_seq in Hi. unfold get. rewrite (nth_error_nth' (all_mi m r) []) by lia. cbn [bind]. rewrite (nth_error_nth' c 0) by (rewrite E, dim_all_mi; lia). cbn [bind].
      unfold integrate_lagrange_basis_fn_unit_simplex. set (nu := nth i (all_mi m r) []). assert (Hnu : In nu (all_mi m r)) by (apply nth_In; lia). apply in_all_mi in Hnu as [N1 N2].
      destruct (lc_spec r nu N2) as (-> & H2 & _). cbn [bind]. rewrite N1 in *. rewrite int_monomial_eq by exact H2. reflexivity.
  Qed.

  Definition val_int (b : basis) (m r : nat) (c : list F) : F :=
    match b with Monomial => mono_int m r c | Bernstein => bern_int m r c | Lagrange => mono_int m r (lagc m r c) end.
  Theorem integrate_ok (p : poly F) : valid p -> integrate_unit_simplex p = Ok (map (val_int (p_basis p) (p_m p) (p_r p)) (p_cols p)).
  Proof.
    intros ((_ & HP) & _). unfold integrate_unit_simplex. apply mapM_ok. intros c Hc. specialize (HP c Hc). destruct (p_basis p); cbn [val_int]; [apply int_monomial_eq|apply int_bernstein_eq|apply int_lagrange_eq]; exact HP.
  Qed.
End IntFacts.
