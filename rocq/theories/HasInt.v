(** The integral over the unit simplex as a linear functional on polynomial
    functions over an arbitrary field of characteristic zero. *)
From Verif Require Import Base MultiIndex MultiIndexFacts MultiCapFacts Fld CodeGen CodeGenFacts LinSolve MultiCoef MultiCoefFacts Unisolv Poly PolyFacts LagFacts PolyEval PolyOps PolyOpsB IntegralCache Integrate IntFacts.
From Coq Require Import Field_theory Field.

Section HasInt.
  Context {F : fld}.
  Add Field Kfield21 : (kth F).
  Local Open Scope fld_scope.

  Definition rep m r (a : list nat -> F) (f : list F -> F) : Prop := forall x, length x = m -> f x = ksum (all_mi m r) (fun nu => a nu * mpow x nu).
  Definition has_int m (f : list F -> F) (v : F) : Prop := exists r a, rep m r a f /\ v = ksum (all_mi m r) (fun nu => a nu * mint nu).

  Definition cut r (a : list nat -> F) (nu : list nat) : F := if (nsum nu <=? r)%nat then a nu else 0.
  Lemma cut_sum m r s a (g : list nat -> F) : (r <= s)%nat -> ksum (all_mi m s) (fun nu => cut r a nu * g nu) = ksum (all_mi m r) (fun nu => a nu * g nu).
  Proof.
    intros H. rewrite <- (all_mi_filter m r s H). rewrite ksum_filter. apply ksum_ext. intros nu _. unfold cut. destruct (nsum nu <=? r)%nat; ring.
  Qed.
  Lemma has_int_raise m r a f s : rep m r a f -> (r <= s)%nat -> rep m s (cut r a) f.
  Proof. intros H Hs x Hx. rewrite (H x Hx). symmetry. apply cut_sum. exact Hs. Qed.
  Theorem has_int_unique m f v w : has_int m f v -> has_int m f w -> v = w.
  Proof.
    intros (r & a & Ha & ->) (s & b & Hb & ->). set (t := Nat.max r s).
    rewrite <- (cut_sum m r t a) by (unfold t; lia). rewrite <- (cut_sum m s t b) by (unfold t; lia). apply ksum_ext. intros nu Hnu. f_equal.
    revert nu Hnu. apply coefficients_unique. intros x Hx. rewrite <- (has_int_raise m r a f t Ha) by (assumption || unfold t; lia). apply (has_int_raise m s b f t Hb); [unfold t; lia|exact Hx].
  Qed.
  Lemma has_int_ext m f g v : (forall x, length x = m -> f x = g x) -> has_int m f v -> has_int m g v.
  Proof. intros E (r & a & Ha & Hv). exists r, a. split; [|exact Hv]. intros x Hx. rewrite <- (E x Hx). apply Ha. exact Hx. Qed.
  Lemma has_int_plus m f g v w : has_int m f v -> has_int m g w -> has_int m (fun x => f x + g x) (v + w).
  Proof.
    intros (r & a & Ha & ->) (s & b & Hb & ->). set (t := Nat.max r s). exists t, (fun nu => cut r a nu + cut s b nu). split.
    - intros x Hx. rewrite (has_int_raise m r a f t Ha) by (assumption || unfold t; lia). rewrite (has_int_raise m s b g t Hb) by (assumption || unfold t; lia). rewrite <- ksum_plus. apply ksum_ext. intros nu _. ring.
    - rewrite <- (cut_sum m r t a) by (unfold t; lia). rewrite <- (cut_sum m s t b) by (unfold t; lia). rewrite <- ksum_plus. apply ksum_ext. intros nu _. ring.
  Qed.
  Lemma has_int_scal m f v c : has_int m f v -> has_int m (fun x => c * f x) (c * v).
  Proof.
    intros (r & a & Ha & ->). exists r, (fun nu => c * a nu). split; [intros x Hx; rewrite (Ha x Hx)|]; rewrite <- ksum_scale_l; apply ksum_ext; intros; ring.
  Qed.
  Lemma has_int_zero m : has_int m (fun _ => 0) 0.
  Proof. exists 0%nat, (fun _ => 0). split; [intros x _|]; symmetry; apply ksum_zero; intros; ring. Qed.
  Lemma has_int_sum {A} m (L : list A) (f : A -> list F -> F) (v : A -> F) : (forall a, In a L -> has_int m (f a) (v a)) -> has_int m (fun x => ksum L (fun a => f a x)) (ksum L v).
  Proof.
    induction L as [|a L IH]; intros H; [apply has_int_zero|]. apply (has_int_plus m (f a) (fun x => ksum L (fun a => f a x))); [apply H; left; reflexivity|apply IH; intros b Hb; apply H; right; exact Hb].
  Qed.
  Lemma has_int_mpow nu : has_int (length nu) (fun x => mpow x nu) (mint nu).
  Proof.
    exists (nsum nu), (fun mu => if mi_dec mu nu then 1 else 0).
    assert (G : forall g : list nat -> F, ksum (all_mi (length nu) (nsum nu)) (fun mu => (if mi_dec mu nu then 1 else 0) * g mu) = g nu).
    { intros g. rewrite (ksum_ext _ (fun mu => if mi_dec mu nu then g nu else 0)).
      - apply (ksum_delta mi_dec (fun _ => g nu)); [apply NoDup_all_mi|]. apply in_all_mi. split; [reflexivity|lia].
      - intros mu _. destruct (mi_dec mu nu) as [->|]; ring. }
    split; [intros x _; symmetry; apply (G (mpow x))|symmetry; apply (G mint)].
  Qed.
  Lemma mpow_up (x : list F) : forall nu i, length x = length nu -> (i < length nu)%nat -> mpow x (upd nu i (S (nth i nu 0%nat))) = nth i x 0 * mpow x nu.
  Proof.
    induction x as [|y x IH]; intros [|a nu] [|i] E Hi; cbn [length] in *; try lia; cbn [upd nth mpow kpow]; [ring|]. rewrite IH by lia. ring.
  Qed.
  Lemma ksum_nth_seq (x : list F) : ksum (seq 0 (length x)) (fun i => nth i x 0) = ksum x (fun v => v).
  Proof. induction x as [|y x IH]; [reflexivity|]. cbn [length]. rewrite ksum_seq_S, ksum_cons. cbn [nth]. rewrite IH. reflexivity. Qed.
  Lemma nsum_nth nu : nsum nu = list_sum (map (fun i => nth i nu 0%nat) (seq 0 (length nu))).
  Proof. induction nu as [|x a IHa]; [reflexivity|]. rewrite nsum_cons, IHa. cbn [length seq map list_sum fold_right]. rewrite <- seq_shift, map_map. reflexivity. Qed.
  Theorem has_int_bary k : forall nu, has_int (length nu) (fun x => mpow x nu * kpow (bary0 x) k) (kofnat (mi_factorial nu) * kofnat (fact k) / kofnat (fact (length nu + nsum nu + k))).
  Proof.
    induction k as [|k IH]; intros nu.
    - pose proof (has_int_mpow nu) as H. unfold mint in H. rewrite Nat.add_0_r.
      replace (kofnat (mi_factorial nu) * kofnat (fact 0) / kofnat (fact (length nu + nsum nu))) with (kofnat (F := F) (mi_factorial nu) / kofnat (fact (length nu + nsum nu))); [|cbn [fact]; rewrite kofnat_1; field; apply kfact_neq].
      revert H. apply has_int_ext. intros x _. cbn [kpow]. ring.
    - set (m := length nu) in *. set (N := (m + nsum nu + k)%nat).
      assert (HS : has_int m (fun x => ksum (seq 0 m) (fun i => mpow x (upd nu i (S (nth i nu 0%nat))) * kpow (bary0 x) k))
                     (ksum (seq 0 m) (fun i => kofnat (S (nth i nu 0%nat)) * (kofnat (mi_factorial nu) * kofnat (fact k) / kofnat (fact (S N)))))).
      { apply (has_int_sum m (seq 0 m) (fun i x => mpow x (upd nu i (S (nth i nu 0%nat))) * kpow (bary0 x) k)). intros i Hi. apply in_seq in Hi. specialize (IH (upd nu i (S (nth i nu 0%nat)))). rewrite upd_length in IH. fold m in IH.
        rewrite mi_factorial_upd, nsum_upd in IH by (fold m; lia). rewrite kofnat_mul in IH. replace (m + S (nsum nu) + k)%nat with (S N) in IH by (unfold N; lia).
        match type of IH with has_int _ _ ?v => match goal with |- has_int _ _ ?w => replace w with v; [exact IH|] end end. field. apply kfact_neq. }
      pose proof (has_int_plus m _ _ _ _ (IH nu) (has_int_scal m _ _ (- (1)) HS)) as H. fold m in H. fold N in H.
      match type of H with has_int _ _ ?v => match goal with |- has_int _ _ ?w => replace w with v end end.
      + revert H. apply has_int_ext. intros x Hx. cbn [kpow]. rewrite (ksum_ext _ (fun i => nth i x 0 * (mpow x nu * kpow (bary0 x) k))).
        * rewrite ksum_scale_r. replace (seq 0 m) with (seq 0 (length x)) by (rewrite Hx; reflexivity). rewrite ksum_nth_seq. unfold bary0. ring.
        * intros i Hi. apply in_seq in Hi. rewrite mpow_up by (unfold m in *; lia). ring.
      + rewrite ksum_scale_r. replace (ksum (seq 0 m) (fun i => kofnat (F := F) (S (nth i nu 0%nat)))) with (kofnat (F := F) (m + nsum nu)).
        * replace (m + nsum nu + S k)%nat with (S N) by (unfold N; lia). change (fact (S N)) with (S N * fact N)%nat. change (fact (S k)) with (S k * fact k)%nat. rewrite !kofnat_mul.
          replace (S N) with ((m + nsum nu) + S k)%nat by (unfold N; lia). rewrite (kofnat_add (m + nsum nu) (S k)). pose proof (kfact_neq (F := F) N). assert (HN : kofnat (F := F) (m + nsum nu) + kofnat (S k) <> 0) by (rewrite <- (kofnat_add (m + nsum nu) (S k)); apply kofnat_neq; lia). field. split; assumption.
        * rewrite (nsum_nth nu). fold m. clear. induction m as [|m IH]; [cbn; apply kofnat_0|]. rewrite seq_S, ksum_app, <- IH, map_app, list_sum_app. cbn [map list_sum fold_right]. rewrite ksum_cons, ksum_nil. cbn [Nat.add].
          transitivity (kofnat (F := F) ((m + list_sum (map (fun i => nth i nu 0%nat) (seq 0 m))) + S (nth m nu 0)%nat)); [f_equal; lia|]. rewrite kofnat_add. ring.
  Qed.
  Lemma has_int_bern r nu : (nsum nu <= r)%nat -> has_int (length nu) (bern r nu) (kofnat (fact r) / kofnat (fact (r + length nu))).
  Proof.
    intros H. pose proof (has_int_scal _ _ _ (M r nu) (has_int_bary (r - nsum nu) nu)) as HS. replace (length nu + nsum nu + (r - nsum nu))%nat with (r + length nu)%nat in HS by lia.
    match type of HS with has_int _ _ ?v => match goal with |- has_int _ _ ?w => replace w with v; [exact HS|] end end. rewrite <- (M_fact r nu H). field. apply kfact_neq.
  Qed.
  Theorem has_int_val b m r (c : list F) : has_int m (val b m r c) (val_int b m r c).
  Proof.
    assert (HM : forall c, has_int m (mval m r c) (mono_int m r c)).
    { intros d. apply (has_int_sum m (all_mi m r) (fun nu x => cf m r d nu * mpow x nu) (fun nu => cf m r d nu * mint nu)). intros nu Hnu. apply in_all_mi in Hnu as [N1 _]. apply has_int_scal. rewrite <- N1. apply has_int_mpow. }
    destruct b; cbn [val val_int]; [apply HM| |apply HM].
    apply (has_int_sum m (all_mi m r) (fun nu x => cf m r c nu * bern r nu x) (fun nu => cf m r c nu * (kofnat (fact r) / kofnat (fact (r + m))))). intros nu Hnu. apply in_all_mi in Hnu as [N1 N2]. apply has_int_scal. rewrite <- N1. apply has_int_bern. exact N2.
  Qed.
End HasInt.
