(** The dual Bernstein basis of one variable: the closed formula inverts the
    Gram matrix for every degree that can be constructed ([r < 20]). *)
From Coq Require Import ZArith.
From Verif Require Import Base MultiIndex MultiIndexFacts MultiCapFacts MultiIndexCache Fld CodeGen CodeGenFacts LinSolve MultiCoef MultiCoefFacts Poly PolyFacts LagFacts PolyEval PolyOps PolyOpsB IntFacts HasInt QHom Gram Bases.
From Coq Require Import Field_theory Field.

Definition zsumf (l : list nat) (f : nat -> Z) : Z := fold_right Z.add 0%Z (map f l).
Section Check.
  Variable B : nat -> nat -> Z.
  Variable f : nat -> Z.
  Definition dual_sz (r j k : nat) : Z :=
    zsumf (seq 0 (S (Nat.min j k))) (fun l => (Z.of_nat (2 * l + 1) * (B (r + l + 1)%nat (r - j)%nat * B (r - l)%nat (r - j)%nat * B (r + l + 1)%nat (r - k)%nat * B (r - l)%nat (r - k)%nat))%Z).
  Definition dual_lhs (r i j : nat) : Z :=
    zsumf (seq 0 (S r)) (fun k => ((if Nat.odd (j + k) then -1 else 1) * dual_sz r j k * (f (i + k)%nat * f (r + r - (i + k))%nat))%Z).
  Definition dual_check (r : nat) : bool :=
    forallb (fun i => forallb (fun j => Z.eqb (dual_lhs r i j) (if (i =? j)%nat then f (r + r + 1)%nat else 0%Z)) (seq 0 (S r))) (seq 0 (S r)).
End Check.
(** Tables of binomial coefficients and factorials *)
Fixpoint pasc_next (p : Z) (l : list Z) : list Z := match l with [] => [p] | a :: l => (p + a)%Z :: pasc_next a l end.
Fixpoint pasc (n : nat) : list Z := match n with O => [1%Z] | S n => pasc_next 0 (pasc n) end.
Lemma pasc_next_nth l : forall p k, nth k (pasc_next p l) 0%Z = (nth k (p :: l) 0 + nth k l 0)%Z.
Proof. induction l as [|a l IH]; intros p [|[|k]]; cbn [pasc_next]; try (cbn; lia). - apply (IH a 0%nat). - exact (IH a (S k)). Qed.
Lemma pasc_ok n k : nth k (pasc n) 0%Z = Z.of_nat (binomial n k).
Proof.
  revert k. induction n as [|n IH]; intros k; [destruct k as [|[|k]]; reflexivity|]. cbn [pasc]. rewrite pasc_next_nth. destruct k as [|k]; cbn [nth binomial].
  - rewrite IH. destruct n; reflexivity.
  - rewrite !IH. lia.
Qed.
Fixpoint zfacts (n : nat) : list Z := match n with O => [1%Z] | S n => let l := zfacts n in l ++ [(Z.of_nat (S n) * last l 0)%Z] end.
Lemma zfacts_last n : last (zfacts n) 0%Z = Z.of_nat (fact n).
Proof. induction n as [|n IH]; [reflexivity|]. cbn [zfacts]. rewrite last_last, IH. change (fact (S n)) with (S n * fact n)%nat. lia. Qed.
Lemma zfacts_length n : length (zfacts n) = S n.
Proof. induction n as [|n IH]; [reflexivity|]. cbn [zfacts]. rewrite app_length, IH. cbn. lia. Qed.
Lemma zfacts_ok n : forall k, k <= n -> nth k (zfacts n) 0%Z = Z.of_nat (fact k).
Proof.
  induction n as [|n IH]; intros k Hk; [assert (k = 0) by lia; subst; reflexivity|]. cbn [zfacts]. destruct (Nat.eq_dec k (S n)) as [-> |Hk'].
  - rewrite app_nth2; rewrite zfacts_length; [|lia]. rewrite Nat.sub_diag. cbn [nth]. rewrite zfacts_last. change (fact (S n)) with (S n * fact n)%nat. lia.
  - rewrite app_nth1 by (rewrite zfacts_length; lia). apply IH. lia.
Qed.
Definition btab : list (list Z) := map pasc (seq 0 41).
Definition ftab : list Z := zfacts 41.
Definition all_checked (t : list (list Z)) (g : list Z) : bool := forallb (dual_check (fun n k => nth k (nth n t []) 0%Z) (fun n => nth n g 0%Z)) (seq 0 20).
Lemma all_checked_spec t g r : all_checked t g = true -> r < 20 -> dual_check (fun n k => nth k (nth n t []) 0%Z) (fun n => nth n g 0%Z) r = true.
Proof. unfold all_checked. rewrite forallb_forall. intros H Hr. apply H. apply in_seq. lia. Qed.
Lemma all_checked_true : all_checked btab ftab = true. Proof. vm_compute. reflexivity. Qed.
Lemma zsumf_ext l (f g : nat -> Z) : (forall a, In a l -> f a = g a) -> zsumf l f = zsumf l g.
Proof. intros H. unfold zsumf. f_equal. apply map_ext_in. exact H. Qed.
Definition bZ (n k : nat) : Z := Z.of_nat (binomial n k).
Definition fZ (n : nat) : Z := Z.of_nat (fact n).
Lemma dual_check_ok B f r i j : dual_check B f r = true -> (forall n, n <= r + r + 1 -> f n = fZ n) -> (forall n k, n <= r + r + 1 -> B n k = bZ n k) -> i <= r -> j <= r ->
  dual_lhs bZ fZ r i j = if i =? j then fZ (r + r + 1) else 0%Z.
Proof.
  intros H EF EB Hi Hj. unfold dual_check in H.
  rewrite forallb_forall in H. specialize (H i ltac:(apply in_seq; lia)). cbv beta in H. rewrite forallb_forall in H. specialize (H j ltac:(apply in_seq; lia)). cbv beta in H. apply Z.eqb_eq in H.
  revert H. rewrite EF by lia. intros <-. unfold dual_lhs. apply zsumf_ext. intros k Hk. apply in_seq in Hk. rewrite !EF by lia. f_equal. f_equal. unfold dual_sz. apply zsumf_ext. intros l Hl. apply in_seq in Hl. rewrite !EB by lia. reflexivity.
Qed.
Lemma ftab_ok n : n <= 41 -> nth n ftab 0%Z = fZ n. Proof. exact (zfacts_ok 41 n). Qed.
Lemma btab_ok n k : n <= 40 -> nth k (nth n btab []) 0%Z = bZ n k.
Proof.
  intros Hn. unfold bZ. rewrite <- pasc_ok. f_equal. unfold btab. rewrite (nth_indep _ [] (pasc 0)) by (rewrite map_length, seq_length; lia). rewrite (map_nth pasc), seq_nth by lia. reflexivity.
Qed.
Theorem dual_identity r i j : r < 20 -> i <= r -> j <= r -> dual_lhs bZ fZ r i j = if i =? j then fZ (r + r + 1) else 0%Z.
Proof.
  intros Hr. apply (dual_check_ok (fun n k => nth k (nth n btab []) 0%Z) (fun n => nth n ftab 0%Z)).
  - exact (all_checked_spec btab ftab r all_checked_true Hr).
  - intros n Hn. apply ftab_ok. lia.
  - intros n k Hn. apply btab_ok. lia.
Qed.

Section DualOne.
  Context {F : fld}.
  Add Field Kfield27 : (kth F).
  Local Open Scope fld_scope.

  Lemma kofZ_sum l (f : nat -> Z) : kofZ (F := F) (zsumf l f) = ksum l (fun a => kofZ (f a)).
  Proof. unfold zsumf. induction l as [|a l IH]; [reflexivity|]. cbn [map fold_right]. rewrite kofZ_add, ksum_cons, IH. reflexivity. Qed.
  Lemma fold_left_ksum {A} (l : list A) (g : A -> F) : forall acc, fold_left (fun c a => c + g a) l acc = acc + ksum l g.
  Proof. induction l as [|a l IH]; intros acc; cbn [fold_left]; [cbn; ring|]. rewrite IH, ksum_cons. ring. Qed.
  Lemma dual_sz_eq r j k : kofZ (F := F) (dual_sz bZ r j k) =
    fold_left (fun c l => c + kofnat (2 * l + 1) * (binomF (r + l + 1) (r - j) * binomF (r - l) (r - j) * binomF (r + l + 1) (r - k) * binomF (r - l) (r - k))) (seq 0 (S (Nat.min j k))) 0.
  Proof.
    rewrite fold_left_ksum. unfold dual_sz. rewrite kofZ_sum. transitivity (0 + ksum (seq 0 (S (Nat.min j k))) (fun a => kofZ (F := F)
      (Z.of_nat (2 * a + 1) * (bZ (r + a + 1) (r - j) * bZ (r - a) (r - j) * bZ (r + a + 1) (r - k) * bZ (r - a) (r - k))))); [ring|]. f_equal. apply ksum_ext. intros a _. rewrite !kofZ_mul. unfold bZ, binomF. rewrite !kofZ_nat. reflexivity.
  Qed.
  Lemma sign_eq n : kofZ (F := F) (if Nat.odd n then -1 else 1) = kpow (- (1)) n.
  Proof. rewrite <- sgn_pow. unfold sgn. destruct (Nat.odd n); cbn; rewrite ?kofnat_1; reflexivity. Qed.
  Lemma M_1 r k : (k <= r)%nat -> M (F := F) r [k] = binomF r k.
  Proof.
    intros Hk. pose proof (M_fact (F := F) r [k] ltac:(cbn; lia)) as H. apply (kmul_cancel (kofnat (fact (r - k)) * kofnat (fact k))).
    - intros E. destruct (kmul_integral _ _ E) as [E1|E1]; revert E1; apply kfact_neq.
    - cbn [nsum list_sum fold_right] in H. rewrite Nat.add_0_r in H. replace (mi_factorial [k]) with (fact k) in H by (cbn; lia). transitivity (M (F := F) r [k] * (kofnat (fact (r - k)) * kofnat (fact k))); [ring|]. rewrite H. unfold binomF. transitivity (kofnat (F := F) (binomial r k * (fact (r - k) * fact k))); [f_equal|rewrite !kofnat_mul; ring].
      pose proof (binomial_fact (r - k) k) as HB. replace (r - k + k)%nat with r in HB by lia. lia.
  Qed.
  Theorem dual_coeff_1_inverse r j i : (r < 20)%nat -> (j <= r)%nat -> (i <= r)%nat ->
    ksum (seq 0 (S r)) (fun k => gram 1 r [i] [k] * dual_coeff_1 r j k) = if Nat.eqb i j then 1 else 0 :> F.
  Proof.
    intros Hr Hj Hi. pose proof (dual_identity r i j Hr Hi Hj) as H. apply (f_equal (@kofZ F)) in H. unfold dual_lhs in H. rewrite kofZ_sum in H.
    assert (NB : forall k, (k <= r)%nat -> binomF (F := F) r k <> 0) by (intros k Hk; rewrite <- M_1 by exact Hk; apply M_neq).
    transitivity (binomF (F := F) r i / binomF r j * ksum (seq 0 (S r)) (fun a => kofZ (F := F) ((if Nat.odd (j + a) then -1 else 1) * dual_sz bZ r j a * (fZ (i + a) * fZ (r + r - (i + a))))) * (1 / kofnat (fact (r + r + 1)))).
    - rewrite <- ksum_scale_l, <- ksum_scale_r. apply ksum_ext. intros k Hk. apply in_seq in Hk. rewrite !kofZ_mul, sign_eq, dual_sz_eq. unfold dual_coeff_1, gram. set (sm := fold_left _ _ _).
      change (mi_add [i] [k]) with [(i + k)%nat]. rewrite !M_1 by lia. unfold fZ. rewrite !kofZ_nat.
      pose proof (M_fact (F := F) (r + r) [(i + k)%nat] ltac:(cbn; lia)) as HM. rewrite M_1 in HM by lia. cbn [nsum list_sum fold_right] in HM. rewrite Nat.add_0_r in HM. replace (mi_factorial [(i + k)%nat]) with (fact (i + k)) in HM by (cbn; lia). rewrite <- HM.
      assert (binomF (F := F) (r + r) (i + k) <> 0) by (rewrite <- M_1 by lia; apply M_neq). pose proof (kfact_neq (F := F) (r + r + 1)). pose proof (NB j Hj). pose proof (NB k ltac:(lia)). field. repeat split; assumption.
    - rewrite H. pose proof (kfact_neq (F := F) (r + r + 1)). pose proof (NB j Hj). destruct (Nat.eqb_spec i j) as [-> |Hij]; [unfold fZ; rewrite kofZ_nat|rewrite kofZ_0]; field; split; assumption.
  Qed.
End DualOne.
