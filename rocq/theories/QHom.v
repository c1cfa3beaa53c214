(** The embedding of the rational numbers into a field of characteristic zero. *)
From Coq Require Import QArith Qcanon.
From Verif Require Import Base MultiIndex Fld FldInst CodeGen LinSolve MultiCoef MultiCoefFacts Poly LagFacts IntFacts.
From Coq Require Import Field_theory Field.

Section QHom.
  Context {F : fld}.
  Add Field Kfield22 : (kth F).
  Local Open Scope fld_scope.

  Definition kofQ (q : Q) : F := kofZ (Qnum q) / kofZ (Zpos (Qden q)).
  Lemma kpos_neq p : kofZ (F := F) (Zpos p) <> 0. Proof. apply kofZ_neq. discriminate. Qed.
  Lemma kofZ_opp z : kofZ (F := F) (- z) = - kofZ z.
  Proof. assert (E : kofZ (F := F) (- z + z) = 0) by (rewrite Z.add_opp_diag_l; reflexivity). rewrite kofZ_add in E. transitivity ((kofZ (F := F) (- z) + kofZ z) - kofZ z); [ring|]. rewrite E. ring. Qed.
  Lemma kofQ_eq q q' : Qeq q q' -> kofQ q = kofQ q'.
  Proof.
    unfold Qeq, kofQ. intros E. apply (f_equal (@kofZ F)) in E. rewrite !kofZ_mul in E. apply kdiv_eq; [apply kpos_neq|].
    transitivity (kofZ (F := F) (Qnum q) * kofZ (Zpos (Qden q')) / kofZ (Zpos (Qden q'))); [field; apply kpos_neq|]. rewrite E. field. apply kpos_neq.
  Qed.
  Definition phi (q : QcF) : F := kofQ (this (q : Qc)).
  Lemma phi_Q2Qc q : phi (Q2Qc q) = kofQ q. Proof. unfold phi. apply kofQ_eq. cbn. apply Qred_correct. Qed.
  Lemma phi_add (a b : QcF) : phi (a + b) = phi a + phi b.
  Proof.
    change (a + b) with (Q2Qc (this (a : Qc) + this (b : Qc))%Q). rewrite phi_Q2Qc. unfold phi, kofQ. destruct (this (a : Qc)) as [n d], (this (b : Qc)) as [n' d']. cbn [Qplus Qnum Qden]. rewrite Pos2Z.inj_mul, kofZ_add, !kofZ_mul. field. split; apply kpos_neq.
  Qed.
  Lemma phi_mul (a b : QcF) : phi (a * b) = phi a * phi b.
  Proof.
    change (a * b) with (Q2Qc (this (a : Qc) * this (b : Qc))%Q). rewrite phi_Q2Qc. unfold phi, kofQ. destruct (this (a : Qc)) as [n d], (this (b : Qc)) as [n' d']. cbn [Qmult Qnum Qden]. rewrite Pos2Z.inj_mul, !kofZ_mul. field. split; apply kpos_neq.
  Qed.
  Lemma phi_0 : phi 0 = 0. Proof. change (@k0 QcF) with (Q2Qc 0). rewrite phi_Q2Qc. unfold kofQ. cbn [Qnum Qden]. rewrite kofZ_0. field. apply kpos_neq. Qed.
  Lemma phi_1 : phi 1 = 1. Proof. change (@k1 QcF) with (Q2Qc 1). rewrite phi_Q2Qc. unfold kofQ. cbn [Qnum Qden]. rewrite kofZ_1. field. apply k1_neq_0. Qed.
  Lemma phi_opp (a : QcF) : phi (- a) = - phi a.
  Proof. transitivity ((phi (- a) + phi a) - phi a); [ring|]. rewrite <- phi_add. change (- a + a) with (Qcplus (Qcopp a) a). rewrite Qcplus_comm, Qcplus_opp_r. change (Q2Qc 0) with (@k0 QcF). rewrite phi_0. ring. Qed.
  Lemma phi_nat n : phi (kofnat n) = kofnat n.
  Proof. induction n as [|n IH]; [apply phi_0|]. change (kofnat (F := QcF) (S n)) with ((1 : QcF) + kofnat n). rewrite phi_add, phi_1, IH. reflexivity. Qed.
  Lemma phi_inj0 (a : QcF) : phi a = 0 -> a = 0.
  Proof.
    intros H. change (@k0 QcF) with (Q2Qc 0). apply Qc_is_canon. unfold phi, kofQ in H. destruct (this (a : Qc)) as [n d] eqn:E. cbn [Qnum Qden] in H.
    assert (Hn : kofZ (F := F) n = 0). { transitivity (kofZ (F := F) n / kofZ (Zpos d) * kofZ (Zpos d)); [field; apply kpos_neq|]. rewrite H. ring. }
    assert (n = 0%Z) by (destruct (Z.eq_dec n 0); [assumption|exfalso; apply (kofZ_neq (F := F) n); assumption]). change (Qeq (n # d) 0). unfold Qeq. cbn. lia.
  Qed.
  Lemma phi_div (a b : QcF) : b <> 0 -> phi (a / b) = phi a / phi b.
  Proof.
    intros Hb. assert (Hp : phi b <> 0) by (intros E; apply Hb, phi_inj0, E). symmetry. apply kdiv_eq; [exact Hp|]. rewrite <- phi_mul. f_equal.
    change (a / b * b) with (Qcmult (Qcdiv a b) b). unfold Qcdiv. rewrite <- Qcmult_assoc, (Qcmult_comm (/ b)%Qc), Qcmult_inv_r, Qcmult_1_r; [reflexivity|exact Hb].
  Qed.
  Lemma phi_ksum {A} (L : list A) (f : A -> QcF) : phi (ksum L f) = ksum L (fun a => phi (f a)).
  Proof. induction L as [|a L IH]; [apply phi_0|]. rewrite !ksum_cons, phi_add, IH. reflexivity. Qed.
  Lemma phi_dot (u v : list QcF) : phi (dot u v) = dot (map phi u) (map phi v).
  Proof. unfold dot. rewrite phi_ksum. revert v. induction u as [|a u IH]; intros [|b v]; try reflexivity. cbn [combine map]. rewrite !ksum_cons, IH. cbn [fst snd]. rewrite phi_mul. reflexivity. Qed.
  Lemma phi_nth (u : list QcF) i : nth i (map phi u) 0 = phi (nth i u 0).
  Proof. rewrite <- phi_0. apply map_nth. Qed.
End QHom.
