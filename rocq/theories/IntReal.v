(** Over the real numbers the integration functions compute Riemann integrals. *)
From Coq Require Import Reals Lra Field_theory Field.
From Coquelicot Require Import Coquelicot.
From Verif Require Import Base MultiIndex MultiIndexFacts MultiCapFacts MultiIndexCache Fld FldInst CodeGen CodeGenFacts LinSolve MultiCoef MultiCoefFacts LagrangeCache Unisolv Poly PolyFacts LagFacts PolyEval PolyOps PolyOpsB PolyDeriv PolyObj PolyPow PolyCalls IntegralCache Integrate IntFacts SimplexInt SimplexPos.

Lemma kofnat_INR n : kofnat (F := RF) n = INR n.
Proof. apply R_nat_in. Qed.
Lemma kpow_pow (x : R) n : kpow (F := RF) x n = (x ^ n)%R.
Proof. induction n as [|n IH]; [reflexivity|]. cbn [kpow pow]. rewrite IH; try reflexivity. Qed.
Lemma mpow_rmpow (x : list R) nu : mpow (F := RF) x nu = rmpow x nu.
Proof. revert nu. induction x as [|xi x IH]; intros [|a nu]; reflexivity. Qed.
Lemma ksum_rsum (x : list R) : ksum (F := RF) x (fun v => v) = rsum x.
Proof. induction x as [|a x IH]; [reflexivity|]. rewrite ksum_cons, IH. reflexivity. Qed.
Lemma bary0_rsum (x : list R) : bary0 (F := RF) x = (1 - rsum x)%R.
Proof. unfold bary0. rewrite ksum_rsum. reflexivity. Qed.
Lemma mfac_eq nu : kofnat (F := RF) (mi_factorial nu) = mfac nu.
Proof.
  unfold mfac. induction nu as [|a nu IH]; [rewrite kofnat_INR; reflexivity|]. rewrite mi_factorial_cons, kofnat_mul. cbn [map fold_right]. rewrite IH, kofnat_INR. reflexivity.
Qed.

Lemma int_ksum {A} m (L : list A) (f : A -> list R -> R) (v : A -> R) : (forall a, In a L -> simplex_int m 1 (f a) (v a)) ->
  simplex_int m 1 (fun x => ksum (F := RF) L (fun a => f a x)) (ksum (F := RF) L v).
Proof.
  induction L as [|a L IH]; intros H; [apply simplex_int_zero; lra|]. refine (simplex_int_plus m 1 (f a) _ _ _ _ _ _); [lra|apply H; left; reflexivity|apply IH; intros b Hb; apply H; right; exact Hb].
Qed.
Lemma mint_int nu : simplex_int (length nu) 1 (fun x => mpow (F := RF) x nu) (mint (F := RF) nu).
Proof.
  pose proof (monomial_int nu 0 1 Rle_0_1) as H. rewrite pow1, Nat.add_0_r in H. unfold mint. cbn [kdiv RF]. rewrite mfac_eq, kofnat_INR. change (nsum nu) with (list_sum nu).
  unfold mfac. change (INR (fact 0)) with 1%R in H. rewrite !Rmult_1_r in H. refine (simplex_int_ext _ _ _ _ _ Rle_0_1 _ H). intros x _ _ _. cbn [pow]. rewrite Rmult_1_r. symmetry. apply mpow_rmpow.
Qed.
Lemma bern_basis_int r nu : (nsum nu <= r)%nat -> simplex_int (length nu) 1 (fun x => bern (F := RF) r nu x) (kofnat (F := RF) (fact r) / kofnat (fact (r + length nu)))%K.
Proof.
  intros Hr. pose proof (monomial_int nu (r - nsum nu) 1 Rle_0_1) as H. rewrite pow1 in H. change (list_sum nu) with (nsum nu) in H. replace (length nu + nsum nu + (r - nsum nu))%nat with (r + length nu)%nat in H by lia.
  pose proof (simplex_int_scal _ _ _ _ (M (F := RF) r nu) Rle_0_1 H) as H2. pose proof (M_fact (F := RF) r nu Hr) as HM. rewrite mfac_eq, !kofnat_INR in HM. unfold mfac in HM. cbn [kmul kdiv RF] in HM |- *. rewrite !kofnat_INR.
  match type of H2 with simplex_int _ _ _ ?v => match goal with |- simplex_int _ _ _ ?w => replace w with v end end.
  - refine (simplex_int_ext _ _ _ _ _ Rle_0_1 _ H2). intros x _ _ _. unfold bern. rewrite bary0_rsum. reflexivity.
  - rewrite <- HM. change (K RF) with R. cbn [kmul RF]. field. apply INR_fact_neq_0.
Qed.
Lemma mono_int_int m r (c : list R) : simplex_int m 1 (mval (F := RF) m r c) (mono_int (F := RF) m r c).
Proof.
  apply (int_ksum m (all_mi m r) (fun nu x => cf (F := RF) m r c nu * mpow (F := RF) x nu)%R (fun nu => cf (F := RF) m r c nu * mint (F := RF) nu)%R). intros nu Hnu. apply in_all_mi in Hnu as [N1 _]. apply simplex_int_scal; [lra|]. rewrite <- N1. apply mint_int.
Qed.
Theorem val_int_int b m r (c : list R) : simplex_int m 1 (val (F := RF) b m r c) (val_int (F := RF) b m r c).
Proof.
  destruct b; cbn [val val_int].
  - apply mono_int_int.
  - apply (int_ksum m (all_mi m r) (fun nu x => cf (F := RF) m r c nu * bern (F := RF) r nu x)%R (fun nu => cf (F := RF) m r c nu * (kofnat (F := RF) (fact r) / kofnat (fact (r + m)))%K)%R). intros nu Hnu. apply in_all_mi in Hnu as [N1 N2]. apply simplex_int_scal; [lra|]. rewrite <- N1. apply bern_basis_int. exact N2.
  - apply mono_int_int.
Qed.

(** The integral of every component *)
Theorem integrate_components b m n r (p : poly RF) : poly_of b m n r p -> exists v, integrate_unit_simplex p = Ok v /\ length v = n /\
  forall k, (k < n)%nat -> simplex_int m 1 (component p k) (nth k v 0%R).
Proof.
  intros Hp. pose proof Hp as (P1 & P2 & P3 & P4 & P5). unfold domain_dimension, target_dimension, degree in *. pose proof (is_poly_valid _ P1) as Hv.
  eexists. split; [apply integrate_ok; exact Hv|]. rewrite map_length. split; [exact P4|]. intros k Hk. rewrite (map_nth_map _ _ ([] : list RF)) by (rewrite P4; exact Hk). rewrite P3.
  refine (simplex_int_ext _ _ _ _ _ Rle_0_1 _ (val_int_int (p_basis p) m (p_r p) _)). intros x Hx _ _. unfold component. destruct (call_pv _ _ _ _ _ _ Hp Hx) as [-> _]. unfold pv. rewrite (map_nth_map _ _ ([] : list RF)) by (rewrite P4; exact Hk). rewrite P3. reflexivity.
Qed.
