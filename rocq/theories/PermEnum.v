(** Enumerations of permutations, random permutations, constructed
    permutations (model in Permutations.v). *)
From Verif Require Import Base MultiIndex MultiIndexFacts MultiCapFacts Permutations PermFacts CycleFacts.

(** ** gen_subset *)
Lemma nth_error_split_remove {A} (l : list A) i x : nth_error l i = Some x ->
  exists a b, l = a ++ x :: b /\ length a = i /\ firstn i l ++ skipn (S i) l = a ++ b.
Proof.
  intros H. apply nth_error_split in H as (a & b & -> & <-). exists a, b. split; [reflexivity|].
  split; [reflexivity|]. f_equal.
  - rewrite firstn_app, Nat.sub_diag. cbn. rewrite app_nil_r. apply firstn_all.
  - clear. induction a as [|y a IH]; [reflexivity|]. exact IH.
Qed.

Lemma in_gen_subset {A} k : forall (arr l : list A), NoDup arr ->
  (In l (gen_subset arr k) <-> length l = k /\ NoDup l /\ incl l arr).
Proof.
  induction k as [|k IH]; intros arr l HN; cbn [gen_subset].
  - split.
    + intros [<-|[]]. repeat split; [constructor|intros x []].
    + intros (H & _ & _). destruct l; [left; auto|discriminate].
  - rewrite in_flat_map. split.
    + intros (i & Hi & H). destruct (nth_error arr i) as [x|] eqn:E; [|destruct H].
      apply in_map_iff in H as (l' & <- & H).
      apply nth_error_split_remove in E as (a & b & Ea & _ & Er). rewrite Er in H. subst arr.
      apply IH in H as (H1 & H2 & H3); [|eapply NoDup_remove_1; exact HN].
      apply NoDup_remove_2 in HN. cbn. split; [congruence|]. split.
      * constructor; [|exact H2]. intros Hx. apply HN, H3, Hx.
      * intros y [<-|Hy]; [apply in_app_iff; right; left; auto|].
        apply H3, in_app_iff in Hy. apply in_app_iff. cbn. tauto.
    + intros (H1 & H2 & H3). destruct l as [|x l]; [discriminate|].
      assert (Hx : In x arr) by (apply H3; left; auto).
      apply In_nth_error in Hx as [i Hi]. exists i.
      assert (Hil : i < length arr) by (apply nth_error_Some; congruence).
      split; [apply in_seq; lia|]. rewrite Hi. apply in_map.
      apply nth_error_split_remove in Hi as (a & b & Ea & _ & Er). rewrite Er. subst arr.
      inversion H2; subst. apply IH; [eapply NoDup_remove_1; exact HN|].
      split; [cbn in H1; lia|]. split; [assumption|].
      intros y Hy. assert (Hy' : In y (a ++ x :: b)) by (apply H3; right; auto).
      apply in_app_iff. apply in_app_iff in Hy' as [?|[->|?]]; auto. contradiction.
Qed.

Lemma NoDup_gen_subset {A} k : forall arr : list A, NoDup arr -> NoDup (gen_subset arr k).
Proof.
  induction k as [|k IH]; intros arr HN; cbn [gen_subset]; [repeat constructor; auto|].
  apply NoDup_flat_map; [apply seq_NoDup| |].
  - intros i Hi. destruct (nth_error arr i) as [x|] eqn:E; [|constructor].
    apply nth_error_split_remove in E as (a & b & Ea & _ & Er). rewrite Er. subst arr.
    apply NoDup_map_inj; [congruence|]. apply IH. eapply NoDup_remove_1; exact HN.
  - intros i j l Hi Hj H1 H2.
    destruct (nth_error arr i) as [x|] eqn:Ei; [|destruct H1].
    destruct (nth_error arr j) as [y|] eqn:Ej; [|destruct H2].
    apply in_map_iff in H1 as (l1 & <- & _). apply in_map_iff in H2 as (l2 & E & _).
    injection E as -> _. apply in_seq in Hi. rewrite NoDup_nth_error in HN. apply HN; [lia|congruence].
Qed.

Lemma flat_map_const_length {A B} (f : A -> list B) l k :
  (forall x, In x l -> length (f x) = k) -> length (flat_map f l) = length l * k.
Proof.
  induction l as [|x l IH]; intros H; [reflexivity|]. cbn [flat_map length].
  rewrite app_length, (H x) by (left; auto). rewrite IH by (intros; apply H; right; auto). cbn. lia.
Qed.

Lemma length_gen_subset {A} k : forall arr : list A, k <= length arr ->
  length (gen_subset arr k) * fact (length arr - k) = fact (length arr).
Proof.
  induction k as [|k IH]; intros arr HL; cbn [gen_subset].
  - cbn [length]. rewrite Nat.sub_0_r. lia.
  - destruct (length arr) as [|m] eqn:Em; [lia|].
    assert (H : forall i, In i (seq 0 (S m)) ->
      length (match nth_error arr i with
      | Some x => map (cons x) (gen_subset (firstn i arr ++ skipn (S i) arr) k)
      | None => [] end) = fact m / fact (m - k)).
    { intros i Hi. apply in_seq in Hi. destruct (nth_error arr i) as [x|] eqn:E.
      2:{ apply nth_error_None in E. lia. }
      apply nth_error_split_remove in E as (a & b & Ea & _ & Er). rewrite Er. subst arr.
      rewrite map_length. rewrite app_length in Em. cbn in Em.
      assert (Hm : length (a ++ b) = m) by (rewrite app_length; lia).
      specialize (IH (a ++ b)). rewrite Hm in IH. specialize (IH ltac:(lia)).
      rewrite <- IH. symmetry. apply Nat.div_mul. apply fact_neq_0. }
    rewrite (flat_map_const_length _ _ _ H), seq_length.
    cbn [Nat.sub]. cbn [fact].
    assert (fact m = fact m / fact (m - k) * fact (m - k)) as E.
    { pose proof (H 0 ltac:(apply in_seq; lia)) as H0. destruct arr as [|x arr]; [discriminate|].
      cbn [nth_error] in H0. rewrite map_length in H0. cbn [firstn skipn app] in H0.
      cbn in Em. injection Em as Em. rewrite <- H0. rewrite <- Em. symmetry. apply IH. lia. }
    nia.
Qed.

(** ** gen_increasing *)
Lemma nth_error_skipn_split {A} (l : list A) i x : nth_error l i = Some x ->
  exists a b, l = a ++ x :: b /\ length a = i /\ skipn (S i) l = b.
Proof.
  intros H. apply nth_error_split in H as (a & b & -> & <-). exists a, b. repeat split.
  clear. induction a as [|y a IH]; [reflexivity|]. exact IH.
Qed.

Lemma SS_app_inv {A} (R : A -> A -> Prop) a b : StronglySorted R (a ++ b) ->
  StronglySorted R a /\ StronglySorted R b /\ (forall x y, In x a -> In y b -> R x y).
Proof.
  induction a as [|x a IH]; cbn; intros H.
  - split; [constructor|]. split; [exact H|]. tauto.
  - inversion H as [|? ? H1 H2]; subst. apply IH in H1 as (Ha & Hb & Hab).
    rewrite Forall_app in H2. destruct H2 as [H2 H3]. split; [constructor; auto|]. split; [exact Hb|].
    intros u v [<-|Hu] Hv; [rewrite Forall_forall in H3; auto|auto].
Qed.

Lemma in_gen_increasing k : forall arr l, StronglySorted lt arr ->
  (In l (gen_increasing arr k) <-> length l = k /\ StronglySorted lt l /\ incl l arr).
Proof.
  induction k as [|k IH]; intros arr l HS; cbn [gen_increasing].
  - split.
    + intros [<-|[]]. repeat split; [constructor|intros x []].
    + intros (H & _ & _). destruct l; [left; auto|discriminate].
  - rewrite in_flat_map. split.
    + intros (i & Hi & H). destruct (nth_error arr i) as [x|] eqn:E; [|destruct H].
      apply in_map_iff in H as (l' & <- & H).
      apply nth_error_skipn_split in E as (a & b & -> & _ & Er). rewrite Er in H.
      apply SS_app_inv in HS as (_ & HS & _). inversion HS as [|? ? HS1 HS2]; subst.
      apply IH in H as (H1 & H2 & H3); [|exact HS1]. cbn. split; [congruence|]. split.
      * constructor; [exact H2|]. apply Forall_forall. intros y Hy. rewrite Forall_forall in HS2. auto.
      * intros y [<-|Hy]; apply in_app_iff; right; [left; auto|right; auto].
    + intros (H1 & H2 & H3). destruct l as [|x l]; [discriminate|].
      inversion H2 as [|? ? H4 H5]; subst. rewrite Forall_forall in H5.
      assert (Hx : In x arr) by (apply H3; left; auto).
      apply In_nth_error in Hx as [i Hi]. exists i. rewrite Hi.
      apply nth_error_skipn_split in Hi as (a & b & -> & Hi & Er). rewrite Er.
      pose proof (SS_app_inv _ _ _ HS) as (_ & HSb & Hab). inversion HSb as [|? ? HS1 HS2]; subst.
      assert (Hlb : incl l b).
      { intros y Hy. assert (Hy' : In y (a ++ x :: b)) by (apply H3; right; auto).
        apply in_app_iff in Hy' as [Hy'|[->|Hy']]; [|specialize (H5 _ Hy); lia|exact Hy'].
        specialize (Hab y x Hy' (or_introl eq_refl)). specialize (H5 _ Hy). lia. }
      split.
      * apply in_seq. split; [lia|]. rewrite app_length. cbn [length].
        assert (length l <= length b); [|cbn in H1; lia].
        apply NoDup_incl_length; [|exact Hlb].
        clear -H4. induction H4 as [|y l _ IH H]; constructor; auto. intros Hy. rewrite Forall_forall in H.
        specialize (H _ Hy). lia.
      * apply in_map. apply IH; [exact HS1|]. split; [cbn in H1; lia|]. auto.
Qed.

Lemma SS_lt_NoDup l : StronglySorted lt l -> NoDup l.
Proof.
  induction 1 as [|y l _ IH H]; constructor; auto. intros Hy. rewrite Forall_forall in H.
  specialize (H _ Hy). lia.
Qed.

Lemma SS_lt_skipn i l : StronglySorted lt l -> StronglySorted lt (skipn i l).
Proof. intros H. rewrite <- (firstn_skipn i l) in H. apply SS_app_inv in H. tauto. Qed.

Lemma NoDup_gen_increasing k : forall arr, StronglySorted lt arr -> NoDup (gen_increasing arr k).
Proof.
  induction k as [|k IH]; intros arr HS; cbn [gen_increasing]; [repeat constructor; auto|].
  apply NoDup_flat_map; [apply seq_NoDup| |].
  - intros i Hi. destruct (nth_error arr i) as [x|] eqn:E; [|constructor].
    apply NoDup_map_inj; [congruence|]. apply IH, SS_lt_skipn, HS.
  - intros i j l Hi Hj H1 H2.
    destruct (nth_error arr i) as [x|] eqn:Ei; [|destruct H1].
    destruct (nth_error arr j) as [y|] eqn:Ej; [|destruct H2].
    apply in_map_iff in H1 as (l1 & <- & _). apply in_map_iff in H2 as (l2 & E & _).
    injection E as -> _. pose proof (SS_lt_NoDup _ HS) as HN. rewrite NoDup_nth_error in HN.
    apply HN; [|congruence]. apply nth_error_Some. congruence.
Qed.

Lemma gen_increasing_cons (x : nat) (arr : list nat) k :
  gen_increasing (x :: arr) (S k) = map (cons x) (gen_increasing arr k) ++
    (if length arr <? S k then [] else gen_increasing arr (S k)) \/ length arr < k.
Proof.
  destruct (Nat.lt_ge_cases (length arr) k) as [H|H]; [right; exact H|left].
  cbn [gen_increasing length].
  replace (S (S (length arr)) - S k) with (S (length arr - k)) by lia.
  cbn [seq flat_map nth_error skipn]. f_equal.
  rewrite <- seq_shift, flat_map_concat_map, map_map, <- flat_map_concat_map.
  destruct (Nat.ltb_spec (length arr) (S k)).
  - replace (length arr - k) with 0 by lia. reflexivity.
  - replace (S (length arr) - S k) with (length arr - k) by lia. reflexivity.
Qed.

Lemma length_gen_increasing : forall arr : list nat, forall k,
  length (gen_increasing arr k) = if length arr <? k then 0 else binomial (length arr) k.
Proof.
  induction arr as [|x arr IH]; intros k.
  - destruct k; reflexivity.
  - destruct k as [|k]; [cbn; destruct arr; reflexivity|].
    destruct (gen_increasing_cons x arr k) as [E|E].
    + rewrite E, app_length, map_length, IH. cbn [length].
      destruct (Nat.ltb_spec (S (length arr)) (S k)) as [H|H].
      * destruct (Nat.ltb_spec (length arr) k); [|lia]. destruct (Nat.ltb_spec (length arr) (S k)); [reflexivity|lia].
      * destruct (Nat.ltb_spec (length arr) k); [lia|].
        destruct (Nat.ltb_spec (length arr) (S k)) as [H1|H1].
        -- assert (length arr = k) as -> by lia. cbn [length binomial].
           rewrite !binomial_diag, (binomial_gt k (S k)) by lia. reflexivity.
        -- rewrite IH. destruct (Nat.ltb_spec (length arr) (S k)); [lia|]. cbn [binomial]. reflexivity.
    + cbn [length]. destruct (Nat.ltb_spec (S (length arr)) (S k)); [|lia].
      cbn [gen_increasing length]. replace (S (S (length arr)) - S k) with 0 by lia. reflexivity.
Qed.
