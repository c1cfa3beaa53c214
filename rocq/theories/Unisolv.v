(** Unisolvence: a polynomial of degree at most r in n variables that
    vanishes at the points of a principal lattice of order r is zero. *)
From Verif Require Import Base MultiIndex MultiIndexFacts MultiCapFacts Fld MultiCoefFacts.
From Coq Require Import Field_theory Field.

Lemma filter_flat_map {A B} (p : B -> bool) (f : A -> list B) l : filter p (flat_map f l) = flat_map (fun a => filter p (f a)) l.
Proof. induction l as [|a l IH]; [reflexivity|]. cbn [flat_map]. rewrite filter_app, IH. reflexivity. Qed.
Lemma filter_seq_le k : forall a n, filter (fun i => i <=? k) (seq a n) = seq a (min n (S k - a)).
Proof.
  intros a n. revert a. induction n as [|n IH]; intros a; [reflexivity|]. cbn [seq filter]. rewrite IH. destruct (Nat.leb_spec a k).
  - replace (min (S n) (S k - a)) with (S (min n (S k - S a))) by lia. reflexivity.
  - replace (min n (S k - S a)) with 0 by lia. replace (min (S n) (S k - a)) with 0 by lia. reflexivity.
Qed.
Lemma filter_map_cons {A} (p : A -> bool) {B} (f : B -> A) l : filter p (map f l) = map f (filter (fun b => p (f b)) l).
Proof. induction l as [|a l IH]; [reflexivity|]. cbn [map filter]. destruct (p (f a)); cbn [map]; rewrite IH; reflexivity. Qed.

(** The multi-indices of smaller degree appear in the same order. *)
Lemma all_mi_filter n r s : r <= s -> filter (fun a => nsum a <=? r) (all_mi n s) = all_mi n r.
Proof.
  intros H. induction n as [|n IH]; [cbn; replace (0 <=? r) with true by (symmetry; apply Nat.leb_le; lia); reflexivity|].
  cbn [all_mi]. rewrite filter_flat_map, <- IH.
  assert (G : forall L, (forall t, In t L -> nsum t <= s) ->
    flat_map (fun t => filter (fun a => nsum a <=? r) (map (fun a => a :: t) (seq 0 (S (s - nsum t))))) L =
    flat_map (fun t => map (fun a => a :: t) (seq 0 (S (r - nsum t)))) (filter (fun a => nsum a <=? r) L)).
  { induction L as [|t L IHL]; intros HL; [reflexivity|]. cbn [flat_map filter]. rewrite IHL by (intros t' Ht'; apply HL; right; exact Ht').
    specialize (HL t (or_introl eq_refl)). rewrite filter_map_cons. destruct (Nat.leb_spec (nsum t) r) as [Ht|Ht].
    - cbn [flat_map]. f_equal. f_equal. rewrite (filter_ext _ (fun a => a <=? r - nsum t)).
      + rewrite filter_seq_le. f_equal. lia.
      + intros a. rewrite nsum_cons. destruct (Nat.leb_spec (a + nsum t) r), (Nat.leb_spec a (r - nsum t)); try reflexivity; lia.
    - rewrite (filter_ext _ (fun a => false)).
      + replace (filter (fun _ => false) (seq 0 (S (s - nsum t)))) with (@nil nat); [reflexivity|].
        generalize (seq 0 (S (s - nsum t))). clear. induction l; [reflexivity|]. exact IHl.
      + intros a. rewrite nsum_cons. apply Nat.leb_gt. lia. }
  apply G. intros t Ht. apply in_all_mi in Ht. lia.
Qed.

Section Uni.
  Context {F : fld}.
  Add Field Kfield6 : (kth F).
  Local Open Scope fld_scope.

  (** Univariate polynomials as coefficient lists. *)
  Fixpoint uval (g : list F) (x : F) : F := match g with [] => 0 | a :: g' => a + x * uval g' x end.
  (** Division by [X - c]. *)
  Fixpoint sdiv (c : F) (g : list F) : list F :=
    match g with [] => [] | a :: g' => match g' with [] => [] | _ => uval g' c :: sdiv c g' end end.
  Lemma sdiv_cons c a b g : sdiv c (a :: b :: g) = uval (b :: g) c :: sdiv c (b :: g). Proof. reflexivity. Qed.
  Lemma sdiv_length c g : length (sdiv c g) = (length g - 1)%nat.
  Proof. induction g as [|a [|b g] IH]; [reflexivity|reflexivity|]. rewrite sdiv_cons. cbn [length] in *. lia. Qed.
  Lemma sdiv_val c g x : uval g x = (x - c) * uval (sdiv c g) x + uval g c.
  Proof.
    induction g as [|a [|b g] IH]; [cbn; ring|cbn; ring|]. rewrite sdiv_cons.
    change (uval (a :: b :: g) x) with (a + x * uval (b :: g) x). change (uval (a :: b :: g) c) with (a + c * uval (b :: g) c).
    change (uval (uval (b :: g) c :: sdiv c (b :: g)) x) with (uval (b :: g) c + x * uval (sdiv c (b :: g)) x). rewrite IH. ring.
  Qed.
  Definition zeros (g : list F) : Prop := forall v, In v g -> v = 0.
  Lemma zeros_uval g x : zeros g -> uval g x = 0.
  Proof. induction g as [|a g IH]; intros H; [reflexivity|]. cbn [uval]. rewrite (H a) by (left; reflexivity). rewrite IH by (intros v Hv; apply H; right; exact Hv). ring. Qed.
  Lemma sdiv_zeros c g : uval g c = 0 -> zeros (sdiv c g) -> zeros g.
  Proof.
    induction g as [|a [|b g] IH]; intros H0 HZ.
    - intros v [].
    - intros v [<-|[]]. cbn in H0. rewrite <- H0. ring.
    - rewrite sdiv_cons in HZ. assert (Hb : zeros (b :: g)).
      { apply IH; [apply HZ; left; reflexivity|]. intros v Hv. apply HZ. right. exact Hv. }
      intros v [<-|Hv]; [|apply Hb; exact Hv]. change (a + c * uval (b :: g) c = 0) in H0. rewrite (zeros_uval _ c Hb) in H0. rewrite <- H0. ring.
  Qed.
  Lemma uval_map_seq (c : nat -> F) x n k : ksum (seq k n) (fun a => c a * kpow x a) = kpow x k * uval (map c (seq k n)) x.
  Proof.
    revert k. induction n as [|n IH]; intros k; cbn [seq map uval]; [rewrite ksum_nil; ring|]. rewrite ksum_cons, IH. cbn [kpow]. ring.
  Qed.

  Definition inj (f : nat -> F) : Prop := forall i j, f i = f j -> i = j.
  Definition pt (nodes : list (nat -> F)) (nu : list nat) : list F := map (fun p => fst p (snd p)) (combine nodes nu).

  Definition uni (n : nat) : Prop := forall r nodes, length nodes = n -> (forall f, In f nodes -> inj f) -> forall c : list nat -> F,
    (forall nu, length nu = n -> nsum nu <= r -> ksum (all_mi n r) (fun mu => c mu * mpow (pt nodes nu) mu) = 0) ->
    forall mu, In mu (all_mi n r) -> c mu = 0.

  Lemma uni_step n : uni n -> forall nodes, length nodes = n -> (forall f, In f nodes -> inj f) -> forall r f (g : list nat -> list F), inj f ->
    (forall t, length t = n -> nsum t <= r -> length (g t) = S (r - nsum t)) ->
    (forall k nu, length nu = n -> k + nsum nu <= r -> ksum (all_mi n r) (fun t => uval (g t) (f k) * mpow (pt nodes nu) t) = 0) ->
    forall t, length t = n -> nsum t <= r -> zeros (g t).
  Proof.
    intros IHn nodes Hn Hi. induction r as [|r IHr]; intros f g Hf Hl H t Ht1 Ht2.
    - assert (H0 : uval (g t) (f 0%nat) = 0).
      { apply (IHn 0%nat nodes Hn Hi (fun t => uval (g t) (f 0%nat))); [|apply in_all_mi; split; assumption]. intros nu Hnu1 Hnu2. apply H; [exact Hnu1|lia]. }
      specialize (Hl t Ht1 Ht2). destruct (g t) as [|a [|]]; cbn [length] in Hl; try lia. intros v [<-|[]]. cbn in H0. rewrite <- H0. ring.
    - assert (H0 : forall t, length t = n -> (nsum t <= S r)%nat -> uval (g t) (f 0%nat) = 0).
      { intros t' Ht1' Ht2'. apply (IHn (S r) nodes Hn Hi (fun t => uval (g t) (f 0%nat))); [|apply in_all_mi; split; assumption]. intros nu Hnu1 Hnu2. apply H; [exact Hnu1|lia]. }
      apply (sdiv_zeros (f 0%nat)); [apply H0; assumption|]. destruct (Nat.leb_spec (nsum t) r) as [Ht|Ht].
      2:{ specialize (Hl t Ht1 Ht2). replace (S r - nsum t)%nat with 0%nat in Hl by lia. pose proof (sdiv_length (f 0%nat) (g t)) as HL. rewrite Hl in HL.
          destruct (sdiv (f 0%nat) (g t)); [intros v []|discriminate]. }
      apply (IHr (fun k => f (S k)) (fun t => sdiv (f 0%nat) (g t))); [intros i j E; apply Hf in E; lia| | |exact Ht1|exact Ht].
      + intros t' Ht1' Ht2'. rewrite sdiv_length, Hl by (assumption || lia). lia.
      + intros k nu Hnu1 Hnu2. pose proof (H (S k) nu Hnu1 ltac:(lia)) as HS.
        apply (kmul_cancel (f (S k) - f 0%nat)).
        * intros E. apply ksub_eq_0 in E. apply Hf in E. discriminate.
        * transitivity (0 : F); [|ring]. rewrite <- HS. rewrite <- ksum_scale_l. rewrite <- (all_mi_filter n r (S r)) by lia. rewrite ksum_filter.
          apply ksum_ext. intros t' Ht'. apply in_all_mi in Ht' as [Ht1' Ht2']. rewrite (sdiv_val (f 0%nat) (g t') (f (S k))), (H0 t' Ht1' Ht2').
          destruct (Nat.leb_spec (nsum t') r); [ring|]. pose proof (sdiv_length (f 0%nat) (g t')) as HL. rewrite (Hl t' Ht1' Ht2') in HL.
          replace (S r - nsum t')%nat with 0%nat in HL by lia. destruct (sdiv (f 0%nat) (g t')); [cbn [uval]; ring|discriminate].
  Qed.
  Theorem unisolvence n : uni n.
  Proof.
    induction n as [|n IHn]; intros r nodes Hn Hi c H mu Hmu.
    - cbn [all_mi] in Hmu. destruct Hmu as [<-|[]]. specialize (H [] eq_refl ltac:(cbn; lia)). cbn [all_mi] in H. rewrite ksum_cons, ksum_nil in H.
      assert (Em : forall y : list F, mpow y [] = 1) by (intros [|]; reflexivity). rewrite Em in H. rewrite <- H. ring.
    - destruct nodes as [|f nodes]; [discriminate|]. injection Hn as Hn.
      apply in_all_mi in Hmu as [Hm1 Hm2]. destruct mu as [|a t]; [discriminate|]. injection Hm1 as Hm1. rewrite nsum_cons in Hm2.
      pose proof (uni_step n IHn nodes Hn (fun f' Hf' => Hi f' (or_intror Hf')) r f (fun t => map (fun a => c (a :: t)) (seq 0 (S (r - nsum t)))) (Hi f (or_introl eq_refl))) as U.
      apply (U) with (t := t).
      + intros t' _ _. rewrite map_length, seq_length. reflexivity.
      + intros k nu Hnu1 Hnu2. rewrite <- (H (k :: nu)) by (rewrite ?nsum_cons; cbn [length]; lia). cbn [all_mi]. rewrite ksum_flat_map. apply ksum_ext.
        intros t' Ht'. rewrite ksum_map. change (pt (f :: nodes) (k :: nu)) with (f k :: pt nodes nu). cbn [mpow].
        transitivity (ksum (seq 0 (S (r - nsum t'))) (fun a => c (a :: t') * kpow (f k) a) * mpow (pt nodes nu) t').
        * rewrite uval_map_seq. cbn [kpow]. ring.
        * rewrite <- ksum_scale_r. apply ksum_ext. intros b _. ring.
      + exact Hm1.
      + lia.
      + apply in_map_iff. exists a. split; [reflexivity|]. apply in_seq. lia.
  Qed.

  Lemma kofnat_inj_fun : inj (fun k => kofnat k).
  Proof. intros i j E. apply (kofnat_inj i j E). Qed.
  Lemma kofnat_div_inj r : r <> 0%nat -> inj (fun k => kofnat k / kofnat r).
  Proof.
    intros Hr i j E. apply (@kofnat_inj F). pose proof (@kofnat_neq F r Hr) as Hn. transitivity (kofnat (F := F) r * (kofnat i / kofnat r)); [field; exact Hn|].
    rewrite E. field. exact Hn.
  Qed.
  (** Coefficients of a polynomial function are unique. *)
  Theorem coefficients_unique n r (c d : list nat -> F) :
    (forall x : list F, length x = n -> ksum (all_mi n r) (fun mu => c mu * mpow x mu) = ksum (all_mi n r) (fun mu => d mu * mpow x mu)) ->
    forall mu, In mu (all_mi n r) -> c mu = d mu.
  Proof.
    intros H mu Hmu. apply ksub_eq_0. apply (unisolvence n r (repeat (fun k => kofnat k) n) (repeat_length _ _)) with (c := fun mu => c mu - d mu); [| |exact Hmu].
    - intros f Hf. apply repeat_spec in Hf. rewrite Hf. apply kofnat_inj_fun.
    - intros nu Hnu1 Hnu2. rewrite (ksum_ext _ (fun mu => c mu * mpow (pt (repeat (fun k => kofnat k) n) nu) mu - d mu * mpow (pt (repeat (fun k => kofnat k) n) nu) mu)) by (intros; ring).
      rewrite ksum_minus, H; [ring|]. unfold pt. rewrite map_length, combine_length, repeat_length. lia.
  Qed.
End Uni.
