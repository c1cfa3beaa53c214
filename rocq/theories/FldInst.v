(** The rational and the real numbers as fields of the model, and ordered
    fields. *)
From Verif Require Import Base Fld PolyDeriv.
From Coq Require Import Field_theory Field Setoid QArith Qcanon Reals Lra.

(** ** Rational numbers *)
Definition Qc_neg (x : Qc) : bool := (Qnum (this x) <? 0)%Z.
Lemma Qc_nat_in n : nat_in (Q2Qc 0) (Q2Qc 1) Qcplus n = Q2Qc (inject_Z (Z.of_nat n)).
Proof.
  induction n as [|n IH]; [reflexivity|]. cbn [nat_in]. rewrite IH. unfold Qcplus. apply Q2Qc_eq_iff. change (1 + Qred (inject_Z (Z.of_nat n)) == inject_Z (Z.of_nat (S n)))%Q.
  rewrite (Qred_correct (inject_Z (Z.of_nat n))), Nat2Z.inj_succ, <- Z.add_1_l, inject_Z_plus. reflexivity.
Qed.
Lemma Qc_char0 n : nat_in (Q2Qc 0) (Q2Qc 1) Qcplus (S n) <> Q2Qc 0.
Proof.
  rewrite Qc_nat_in. intros E. apply Q2Qc_eq_iff in E.
  unfold Qeq, inject_Z in E. cbn in E. lia.
Qed.
Definition QcF : fld := mkFld Qc (Q2Qc 0) (Q2Qc 1) Qcplus Qcmult Qcminus Qcopp Qcdiv Qcinv Qcft Qc_eq_dec Qc_char0 Qc_neg eq_refl eq_refl (fun _ => false).

(** ** Real numbers *)
Definition R_neg (x : R) : bool := if Rlt_dec x 0 then true else false.
Lemma R_nat_in n : nat_in 0%R 1%R Rplus n = INR n.
Proof. induction n as [|n IH]; [reflexivity|]. cbn [nat_in]. rewrite IH, S_INR. ring. Qed.
Lemma R_char0 n : nat_in 0%R 1%R Rplus (S n) <> 0%R.
Proof. rewrite R_nat_in. apply not_0_INR. discriminate. Qed.
Lemma R_neg_0 : R_neg 0 = false. Proof. unfold R_neg. destruct (Rlt_dec 0 0); [lra|reflexivity]. Qed.
Lemma R_neg_1 : R_neg 1 = false. Proof. unfold R_neg. destruct (Rlt_dec 1 0); [lra|reflexivity]. Qed.
Definition RF : fld := mkFld R 0%R 1%R Rplus Rmult Rminus Ropp Rdiv Rinv Rfield Req_EM_T R_char0 R_neg R_neg_0 R_neg_1 (fun _ => false).

Lemma polyfun_continuous (g : RF -> RF) : polyfun g -> continuity (g : R -> R).
Proof.
  induction 1 as [c| |f g _ IHf _ IHg|f g _ IHf _ IHg].
  - apply derivable_continuous, derivable_const.
  - apply derivable_continuous, derivable_id.
  - apply (continuity_plus f g IHf IHg).
  - apply (continuity_mult f g IHf IHg).
Qed.
(** The formal derivative is the derivative of real analysis. *)
Theorem pderiv_real (f : list RF -> RF) i x (d : RF) : is_pderiv f i x d -> derivable_pt_lim (fun t : R => f (upd x i t)) (nth i x (k0 : RF)) d.
Proof.
  intros (g & Hg & E) eps Heps. set (a := nth i x (k0 : RF)) in *.
  assert (Hc : continuity_pt (fun h : R => (h * g h)%R) 0).
  { apply (continuity_mult id g); [apply derivable_continuous, derivable_id|apply polyfun_continuous; exact Hg]. }
  destruct (Hc eps Heps) as (dl & Hdl & Hlim). exists (mkposreal dl Hdl). intros h Hh Hb. cbn in Hb.
  specialize (Hlim h). unfold dist in Hlim. cbn in Hlim. unfold R_dist in Hlim.
  assert (HB : (Rabs (h * g h - 0 * g 0) < eps)%R).
  { apply Hlim. split; [split; [exact I|congruence]|]. replace (h - 0)%R with h by ring. exact Hb. }
  pose proof (E h) as Eh. change (f (upd x i (a + h)%R) = (f (upd x i (a + 0)%R) + h * d + h * h * g h)%R) in Eh. assert (E0 : (a + 0)%R = a) by apply Rplus_0_r. rewrite E0 in Eh.
  set (u := f (upd x i (a + h)%R)) in *. set (v := f (upd x i a)) in *. clearbody u v. 
  assert (E2 : ((u - v) / h - d)%R = (h * g h - 0 * g 0)%R) by (cbn in Eh; rewrite Eh; cbn; field; exact Hh). cbn in E2 |- *. rewrite E2. exact HB.
Qed.

(** ** Ordered fields *)
Record ofld : Type := mkOfld {
  OF :> fld;
  klt : OF -> OF -> Prop;
  kltb : OF -> OF -> bool;      (* a < b *)
  kltb_spec : forall a b, kltb a b = true <-> klt a b;
  klt_irrefl : forall a, ~ klt a a;
  klt_trans : forall a b c, klt a b -> klt b c -> klt a c;
  klt_total : forall a b, klt a b \/ a = b \/ klt b a;
  klt_add : forall a b c, klt a b -> klt (kadd a c) (kadd b c);
  klt_mul : forall a b, klt k0 a -> klt k0 b -> klt k0 (kmul a b) }.
Arguments klt {o} _ _. Arguments kltb {o} _ _.
Definition kle {O : ofld} (a b : O) : Prop := ~ klt b a.
(** [a <= b] *)
Definition kleb {O : ofld} (a b : O) : bool := negb (kltb b a).

Definition Qc_ltb (a b : Qc) : bool := negb (Qle_bool (this b) (this a)).
Lemma Qc_ltb_spec a b : Qc_ltb a b = true <-> (a < b)%Qc.
Proof.
  unfold Qc_ltb, Qclt. rewrite negb_true_iff. destruct (Qle_bool b a) eqn:E.
  - apply Qle_bool_iff in E. split; [discriminate|]. intros H. exfalso. apply (Qlt_not_le _ _ H E).
  - split; [|reflexivity]. intros _. apply Qnot_le_lt. intros H. apply Qle_bool_iff in H. congruence.
Qed.
Lemma Qc_total (a b : Qc) : (a < b)%Qc \/ a = b \/ (b < a)%Qc.
Proof. destruct (Qc_dec a b) as [[H|H]|H]; auto. Qed.
Lemma Qc_lt_add (a b c : Qc) : (a < b)%Qc -> (a + c < b + c)%Qc.
Proof. intros H. unfold Qclt in *. change (Qred (a + c) < Qred (b + c))%Q. rewrite (Qred_correct (a + c)), (Qred_correct (b + c)). apply Qplus_lt_l. exact H. Qed.
Lemma Qc_lt_mul (a b : Qc) : (Q2Qc 0 < a)%Qc -> (Q2Qc 0 < b)%Qc -> (Q2Qc 0 < a * b)%Qc.
Proof.
  intros Ha Hb. pose proof (Qcmult_lt_compat_r (Q2Qc 0) a b Hb Ha) as H. replace (Q2Qc 0) with (Q2Qc 0 * b)%Qc at 1 by ring. exact H.
Qed.
Definition QcO : ofld := mkOfld QcF Qclt Qc_ltb Qc_ltb_spec (fun a => Qlt_irrefl a) Qclt_trans Qc_total Qc_lt_add Qc_lt_mul.

Definition R_ltb (a b : R) : bool := if Rlt_dec a b then true else false.
Lemma R_ltb_spec a b : R_ltb a b = true <-> (a < b)%R.
Proof. unfold R_ltb. destruct (Rlt_dec a b); split; congruence. Qed.
Lemma R_total (a b : R) : (a < b)%R \/ a = b \/ (b < a)%R.
Proof. destruct (Rtotal_order a b) as [|[|]]; auto. Qed.
Definition RO : ofld := mkOfld RF Rlt R_ltb R_ltb_spec Rlt_irrefl Rlt_trans R_total (fun a b c H => Rplus_lt_compat_r c a b H) Rmult_lt_0_compat.

Section Ordered.
  Context {O : ofld}.
  Add Field Kfield15 : (kth O).
  Local Open Scope fld_scope.
  Implicit Types a b c : O.

  Lemma kleb_spec a b : kleb a b = true <-> kle a b.
  Proof. unfold kleb, kle. rewrite negb_true_iff, <- kltb_spec. destruct (kltb b a); split; congruence. Qed.
  Lemma kltb_false a b : kltb a b = false <-> kle b a.
  Proof. unfold kle. rewrite <- kltb_spec. destruct (kltb a b); split; congruence. Qed.
  Lemma kleb_false a b : kleb a b = false <-> klt b a.
  Proof. unfold kleb. rewrite negb_false_iff. apply kltb_spec. Qed.
  Lemma kle_refl a : kle a a. Proof. apply klt_irrefl. Qed.
  Lemma klt_le a b : klt a b -> kle a b.
  Proof. intros H H'. exact (klt_irrefl _ _ (klt_trans _ _ _ _ H H')). Qed.
  Lemma kle_lt_trans a b c : kle a b -> klt b c -> klt a c.
  Proof. intros H1 H2. destruct (klt_total _ a b) as [H|[->|H]]; [apply (klt_trans _ _ b); assumption|exact H2|contradiction]. Qed.
  Lemma klt_le_trans a b c : klt a b -> kle b c -> klt a c.
  Proof. intros H1 H2. destruct (klt_total _ b c) as [H|[<-|H]]; [apply (klt_trans _ _ b); assumption|exact H1|contradiction]. Qed.
  Lemma kle_trans a b c : kle a b -> kle b c -> kle a c.
  Proof. intros H1 H2 H. apply H1. apply (kle_lt_trans _ c); assumption. Qed.
  Lemma kle_antisym a b : kle a b -> kle b a -> a = b.
  Proof. intros H1 H2. destruct (klt_total _ a b) as [H|[H|H]]; [contradiction|exact H|contradiction]. Qed.
  Lemma kle_cases a b : kle a b -> klt a b \/ a = b.
  Proof. intros H. destruct (klt_total _ a b) as [H'|[H'|H']]; auto. contradiction. Qed.
  Lemma kle_total a b : kle a b \/ kle b a.
  Proof. destruct (klt_total _ a b) as [H|[->|H]]; [left; apply klt_le; exact H|left; apply kle_refl|right; apply klt_le; exact H]. Qed.
  Lemma klt_dec a b : {klt a b} + {~ klt a b}.
  Proof. destruct (kltb a b) eqn:E; [left; apply kltb_spec; exact E|right]. intros H. apply kltb_spec in H. congruence. Qed.
  Lemma kle_add a b c : kle a b -> kle (a + c) (b + c).
  Proof. intros H. destruct (kle_cases _ _ H) as [H'| ->]; [apply klt_le, klt_add, H'|apply kle_refl]. Qed.
  Lemma kle_add2 a b (c d : O) : kle a b -> kle c d -> kle (a + c) (b + d).
  Proof. intros H1 H2. apply (kle_trans _ (b + c)); [apply kle_add, H1|]. replace (b + c) with (c + b) by ring. replace (b + d) with (d + b) by ring. apply kle_add, H2. Qed.
  Lemma klt_sub a b : klt a b <-> klt 0 (b - a).
  Proof.
    split; intros H.
    - replace 0 with (a + - a) by ring. replace (b - a) with (b + - a) by ring. apply klt_add, H.
    - replace a with (0 + a) by ring. replace b with ((b - a) + a) by ring. apply klt_add, H.
  Qed.
  Lemma kle_sub a b : kle a b <-> kle 0 (b - a).
  Proof. unfold kle. rewrite klt_sub. split; intros H H'; apply H. - apply klt_sub in H'. replace (0 - (b - a)) with (a - b) in H' by ring. exact H'. - apply klt_sub. replace (0 - (b - a)) with (a - b) by ring. exact H'. Qed.
  Lemma kle_mul a b : kle 0 a -> kle 0 b -> kle 0 (a * b).
  Proof.
    intros H1 H2. destruct (kle_cases _ _ H1) as [H1'|E1]; [destruct (kle_cases _ _ H2) as [H2'|E2]|].
    - apply klt_le, klt_mul; assumption.
    - rewrite <- E2. replace (a * 0) with (0 : O) by ring. apply kle_refl.
    - rewrite <- E1. replace (0 * b) with (0 : O) by ring. apply kle_refl.
  Qed.
  Lemma k01 : klt (0 : O) 1.
  Proof.
    destruct (klt_total O 0 1) as [H|[H|H]]; [exact H|exfalso; apply (k1_neq_0 (F := O)); congruence|exfalso].
    assert (H' : klt (0 : O) (- (1))) by (apply klt_sub in H; replace (0 - 1) with (- (1) : O) in H by ring; exact H).
    pose proof (klt_mul _ _ _ H' H') as H2. replace (- (1) * - (1)) with (1 : O) in H2 by ring. exact (klt_irrefl _ _ (klt_trans _ _ _ _ H H2)).
  Qed.
  Lemma kofnat_nonneg n : kle 0 (kofnat n : O).
  Proof. induction n as [|n IH]; [apply kle_refl|]. rewrite kofnat_S. replace (0 : O) with (0 + 0 : O) by ring. apply kle_add2; [apply klt_le, k01|exact IH]. Qed.
  Lemma kofnat_pos n : n <> 0%nat -> klt 0 (kofnat n : O).
  Proof. intros H. destruct (kle_cases _ _ (kofnat_nonneg n)) as [H'|E]; [exact H'|]. exfalso. apply (kofnat_neq (F := O) n H). congruence. Qed.
  Lemma kpow_nonneg a n : kle 0 a -> kle 0 (kpow a n).
  Proof. intros H. induction n as [|n IH]; cbn [kpow]; [apply klt_le, k01|apply kle_mul; assumption]. Qed.
  Lemma klt_inv a : klt 0 a -> klt 0 (1 / a).
  Proof.
    intros H. assert (Ha : a <> 0) by (intros E; rewrite E in H; exact (klt_irrefl _ _ H)). destruct (klt_total _ (1 / a) 0) as [H'|[H'|H']]; [exfalso|exfalso|exact H'].
    - assert (H2 : klt 0 (- (1 / a))) by (apply klt_sub in H'; replace (0 - 1 / a) with (- (1 / a)) in H' by (field; exact Ha); exact H').
      pose proof (klt_mul _ _ _ H H2) as H3. replace (a * - (1 / a)) with (- (1) : O) in H3 by (field; exact Ha). pose proof (klt_add _ _ _ 1 H3) as H4. replace (0 + 1) with (1 : O) in H4 by ring. replace (- (1) + 1) with (0 : O) in H4 by ring.
      exact (klt_irrefl _ _ (klt_trans _ _ _ _ k01 H4)).
    - apply (k1_neq_0 (F := O)). replace (1 : O) with (a * (1 / a)) by (field; exact Ha). rewrite H'. ring.
  Qed.
  Lemma kle_scale a b c : kle 0 c -> kle a b -> kle (c * a) (c * b).
  Proof. intros H1 H2. apply kle_sub. replace (c * b - c * a) with (c * (b - a)) by ring. apply kle_mul; [exact H1|]. apply kle_sub in H2. exact H2. Qed.
  Lemma ksum_nonneg {A} (l : list A) (f : A -> O) : (forall z : A, In z l -> kle 0 (f z)) -> kle 0 (ksum l f).
  Proof.
    induction l as [|a l IH]; intros H; [rewrite ksum_nil; apply kle_refl|]. rewrite ksum_cons. replace (0 : O) with (0 + 0 : O) by ring. apply kle_add2; [apply H; left; reflexivity|]. apply IH. intros b Hb. apply H. right. exact Hb.
  Qed.
  Lemma ksum_le {A} (l : list A) (f g : A -> O) : (forall z : A, In z l -> kle (f z) (g z)) -> kle (ksum l f) (ksum l g).
  Proof.
    induction l as [|a l IH]; intros H; [apply kle_refl|]. rewrite !ksum_cons. apply kle_add2; [apply H; left; reflexivity|]. apply IH. intros b Hb. apply H. right. exact Hb.
  Qed.
End Ordered.
