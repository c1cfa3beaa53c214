(** Random and constructed permutations, permutation actions and matrices,
    rotations (model in Permutations.v). *)
From Verif Require Import Base MultiIndex MultiIndexFacts MultiCapFacts Permutations PermFacts CycleFacts PermEnum.

(** ** Knuth shuffle *)
(** The values that [random.randint(0, n - 1 - i)], i = i0, i0+1, ... may
    return, [m] of them. *)
Fixpoint valid_choices (n i m : nat) (cs : list nat) : Prop :=
  match m, cs with
  | O, [] => True
  | S m', c :: cs' => c <= n - 1 - i /\ valid_choices n (S i) m' cs'
  | _, _ => False
  end.

Lemma shuffle_step n i c arr steps cs : length arr = n -> i < n -> c <= n - 1 - i ->
  shuffle_loop (S steps) i arr (c :: cs) = shuffle_loop steps (S i) (swapf arr i (c + i)) cs.
Proof.
  intros HL Hi Hc. cbn [shuffle_loop]. rewrite (get_ok arr (c + i) 0), (get_ok arr i 0) by lia.
  cbn [bind]. rewrite set_ok by lia. cbn [bind]. rewrite set_ok by (rewrite upd_length; lia).
  reflexivity.
Qed.

Lemma shuffle_spec n : forall steps i arr cs, is_perm n arr -> i + steps <= n -> i < n ->
  valid_choices n i steps cs ->
  exists p, shuffle_loop steps i arr cs = Ok p /\ is_perm n p /\ forall k, k < i -> nth k p 0 = nth k arr 0.
Proof.
  induction steps as [|steps IH]; intros i arr cs HP Hi Hin Hv; destruct cs as [|c cs]; try destruct Hv as [].
  - exists arr. cbn. auto.
  - pose proof (is_perm_length _ _ HP) as HL. rewrite (shuffle_step n) by (auto; lia).
    destruct (Nat.eq_dec (S i) n) as [He|He].
    + assert (steps = 0) by lia. subst steps. destruct cs; [|destruct H0]. exists (swapf arr i (c + i)).
      split; [reflexivity|]. split; [unfold is_perm; rewrite <- swapf_perm by lia; exact HP|].
      intros k Hk. rewrite swapf_nth by lia. destruct (Nat.eqb_spec k (c+i)), (Nat.eqb_spec k i); try lia; auto.
    + destruct (IH (S i) (swapf arr i (c + i)) cs) as (p & E & Hp & Hk).
      * unfold is_perm; rewrite <- swapf_perm by lia; exact HP.
      * lia.
      * lia.
      * exact H0.
      * exists p. split; [exact E|]. split; [exact Hp|]. intros k Hki. rewrite Hk by lia.
        rewrite swapf_nth by lia. destruct (Nat.eqb_spec k (c+i)), (Nat.eqb_spec k i); try lia; auto.
Qed.

Lemma shuffle_inj n : forall steps i arr cs cs' p, is_perm n arr -> i + steps < n ->
  valid_choices n i steps cs -> valid_choices n i steps cs' ->
  shuffle_loop steps i arr cs = Ok p -> shuffle_loop steps i arr cs' = Ok p -> cs = cs'.
Proof.
  induction steps as [|steps IH]; intros i arr cs cs' p HP Hi Hv Hv' H H'.
  - destruct cs, cs'; cbn in *; tauto || reflexivity.
  - destruct cs as [|c cs], cs' as [|c' cs']; try (cbn in *; tauto).
    destruct Hv as [Hc Hv], Hv' as [Hc' Hv'].
    pose proof (is_perm_length _ _ HP) as HL.
    rewrite (shuffle_step n) in H, H' by (auto; lia).
    assert (Hq : forall d, d <= n - 1 - i -> is_perm n (swapf arr i (d + i))).
    { intros d Hd. unfold is_perm. rewrite <- swapf_perm by lia. exact HP. }
    assert (E : c = c').
    { destruct (shuffle_spec n steps (S i) (swapf arr i (c + i)) cs) as (p1 & E1 & _ & H1); auto; try lia.
      destruct (shuffle_spec n steps (S i) (swapf arr i (c' + i)) cs') as (p2 & E2 & _ & H2); auto; try lia.
      rewrite E1 in H. rewrite E2 in H'. injection H as ->. injection H' as ->.
      specialize (H1 i ltac:(lia)). specialize (H2 i ltac:(lia)). rewrite H1 in H2.
      assert (G : forall d, d <= n - 1 - i -> nth i (swapf arr i (d + i)) 0 = nth (d + i) arr 0).
      { intros d Hd. rewrite swapf_nth by lia. rewrite Nat.eqb_refl.
        destruct (Nat.eqb_spec i (d + i)) as [e|]; [rewrite <- e|]; reflexivity. }
      rewrite !G in H2 by lia. apply (is_perm_inj n arr) in H2; auto; lia. }
    subst c'. f_equal. eapply IH; [| |exact Hv|exact Hv'|exact H|exact H']; auto; lia.
Qed.

Lemma perm_agree_last n p q : is_perm n p -> is_perm n q ->
  (forall k, k < n - 1 -> nth k p 0 = nth k q 0) -> p = q.
Proof.
  intros Hp Hq H. destruct n as [|n].
  { apply is_perm_length in Hp, Hq. destruct p, q; try discriminate. reflexivity. }
  apply (list_eq_nth 0); [rewrite (is_perm_length _ _ Hp), (is_perm_length _ _ Hq); reflexivity|].
  rewrite (is_perm_length _ _ Hp). intros i Hi.
  destruct (Nat.lt_ge_cases i n) as [Hl|Hl]; [apply H; lia|]. assert (i = n) by lia. subst i.
  destruct (is_perm_surj _ _ (nth n q 0) Hp) as (j & Hj & E); [apply is_perm_nth; auto; lia|].
  destruct (Nat.eq_dec j n) as [->|Hne]; [exact E|].
  rewrite H in E by lia. apply (is_perm_inj _ _ _ _ Hq) in E; lia.
Qed.

Lemma shuffle_surj n q : is_perm n q -> forall steps i arr, is_perm n arr -> i + steps = n - 1 -> i < n ->
  (forall k, k < i -> nth k arr 0 = nth k q 0) ->
  exists cs, valid_choices n i steps cs /\ shuffle_loop steps i arr cs = Ok q.
Proof.
  intros Hq. induction steps as [|steps IH]; intros i arr HP Hi Hin Hag.
  - exists []. split; [exact I|]. cbn. f_equal. apply (perm_agree_last n); auto.
    intros k Hk. apply Hag. lia.
  - destruct (is_perm_surj n arr (nth i q 0) HP) as (j & Hj & E); [apply is_perm_nth; auto; lia|].
    assert (Hji : i <= j).
    { destruct (Nat.lt_ge_cases j i) as [H|H]; [|exact H]. rewrite Hag in E by exact H.
      apply (is_perm_inj n) in E; auto; lia. }
    pose proof (is_perm_length _ _ HP) as HL.
    destruct (IH (S i) (swapf arr i j)) as (cs & Hv & Ec).
    + unfold is_perm. rewrite <- swapf_perm by lia. exact HP.
    + lia.
    + lia.
    + intros k Hk. rewrite swapf_nth by lia. destruct (Nat.eqb_spec k j) as [->|].
      * assert (i = j) by lia. subst. exact E.
      * destruct (Nat.eqb_spec k i) as [->|]; [exact E|apply Hag; lia].
    + exists ((j - i) :: cs). split; [split; [lia|exact Hv]|].
      rewrite (shuffle_step n) by (auto; lia). replace (j - i + i) with j by lia. exact Ec.
Qed.

(** All valid choice sequences and their number. *)
Fixpoint all_choices (n i m : nat) : list (list nat) :=
  match m with
  | O => [[]]
  | S m' => flat_map (fun c => map (cons c) (all_choices n (S i) m')) (seq 0 (n - i))
  end.
Lemma in_all_choices n : forall m i cs, i + m < n \/ m = 0 ->
  (In cs (all_choices n i m) <-> valid_choices n i m cs).
Proof.
  induction m as [|m IH]; intros i cs Hi; cbn [all_choices valid_choices].
  - destruct cs; cbn; split; try tauto. intros [?|[]]; discriminate.
  - rewrite in_flat_map. split.
    + intros (c & Hc & H). apply in_map_iff in H as (cs' & <- & H). apply in_seq in Hc.
      apply IH in H; [|lia]. split; [lia|exact H].
    + destruct cs as [|c cs]; [tauto|]. intros [Hc H]. exists c. split; [apply in_seq; lia|].
      apply in_map. apply IH; [lia|exact H].
Qed.

(** ** construct_permutation *)
Lemma construct_spec n : forall dc p done, is_perm n p ->
  (forall d c, In (d, c) dc -> d < n /\ c < n) ->
  NoDup (map fst (done ++ dc)) -> NoDup (map snd (done ++ dc)) ->
  (forall d c, In (d, c) done -> nth d p 0 = c /\ d < n) ->
  exists q, construct_loop dc p = Ok q /\ is_perm n q /\ forall d c, In (d, c) (done ++ dc) -> nth d q 0 = c.
Proof.
  induction dc as [|[d c] dc IH]; intros p done HP HB Hd Hc Hdone; cbn [construct_loop].
  - exists p. split; [reflexivity|]. split; [exact HP|]. intros d c H. rewrite app_nil_r in H. apply Hdone, H.
  - pose proof (is_perm_length _ _ HP) as HL.
    destruct (HB d c (or_introl eq_refl)) as [Hdn Hcn].
    rewrite (get_ok p d 0) by lia. cbn [bind].
    assert (Eapp : done ++ (d, c) :: dc = (done ++ [(d, c)]) ++ dc) by (rewrite <- app_assoc; reflexivity).
    destruct (Nat.eqb_spec (nth d p 0) c) as [E|Hne].
    + rewrite Eapp in *. destruct (IH p (done ++ [(d, c)])) as (q & Eq & Hq & H); auto.
      * intros; apply HB; right; auto.
      * intros d' c' H. apply in_app_iff in H as [H|[H|[]]]; [auto|]. injection H as <- <-. auto.
      * exists q. auto.
    + destruct (index_in p c) as (k & Ek & Hk & Ec); [eapply is_perm_NoDup; exact HP|apply (is_perm_in n); auto|].
      rewrite Ek. cbn [bind]. rewrite (get_ok p k 0) by lia. cbn [bind]. rewrite set_ok by lia. cbn [bind].
      rewrite set_ok by (rewrite upd_length; lia). cbn [bind]. fold (swapf p d k).
      rewrite Eapp in *. destruct (IH (swapf p d k) (done ++ [(d, c)])) as (q & Eq & Hq & H); auto.
      * unfold is_perm. rewrite <- swapf_perm by lia. exact HP.
      * intros; apply HB; right; auto.
      * intros d' c' H. apply in_app_iff in H as [H|[H|[]]].
        -- destruct (Hdone _ _ H) as [E1 E2]. split; [|exact E2]. rewrite swapf_nth by lia.
           assert (Hd' : In d' (map fst done)) by (apply in_map_iff; exists (d', c'); auto).
           assert (Hc' : In c' (map snd done)) by (apply in_map_iff; exists (d', c'); auto).
           rewrite map_app in Hd, Hc. rewrite map_app in Hd, Hc.
           apply NoDup_app_l in Hd, Hc. cbn [map fst snd] in Hd, Hc.
           destruct (Nat.eqb_spec d' k) as [->|_].
           { exfalso. rewrite Ec in E1. subst c'. eapply NoDup_app_disj; [exact Hc|exact Hc'|left; auto]. }
           destruct (Nat.eqb_spec d' d) as [->|_].
           { exfalso. eapply NoDup_app_disj; [exact Hd|exact Hd'|left; auto]. }
           exact E1.
        -- injection H as <- <-. split; [|exact Hdn]. rewrite swapf_nth by lia.
           destruct (Nat.eqb_spec d k) as [->|_]; [congruence|]. rewrite Nat.eqb_refl. exact Ec.
      * exists q. auto.
Qed.

(** ** construct_permutation_general *)
Section General.
  Context {A : Type} (eqb : A -> A -> bool).
  Hypothesis eqb_spec : forall x y, eqb x y = true <-> x = y.
  Lemma element_index_in (l : list A) i c k : element_index eqb l i c = Some k ->
    i <= k < i + length l /\ nth_error l (k - i) = Some c.
  Proof.
    revert i; induction l as [|x l IH]; intros i H; cbn [element_index] in H; [discriminate|].
    destruct (element_index eqb l (S i) c) as [k'|] eqn:E.
    - injection H as ->. apply IH in E as [H1 H2]. cbn [length]. split; [lia|].
      replace (k - i) with (S (k - S i)) by lia. exact H2.
    - destruct (eqb x c) eqn:Ex; [|discriminate]. injection H as <-. apply eqb_spec in Ex. subst.
      cbn [length]. split; [lia|]. rewrite Nat.sub_diag. reflexivity.
  Qed.
  Lemma element_index_some (l : list A) i c : In c l -> exists k, element_index eqb l i c = Some k.
  Proof.
    revert i; induction l as [|x l IH]; intros i H; [destruct H|]. cbn [element_index].
    destruct (element_index eqb l (S i) c) as [k'|] eqn:E; [eauto|].
    destruct H as [->|H]; [|destruct (IH (S i) H); congruence].
    assert (eqb c c = true) as -> by (apply eqb_spec; reflexivity). eauto.
  Qed.
  Lemma element_index_none (l : list A) i c : ~ In c l -> element_index eqb l i c = None.
  Proof.
    intros H. destruct (element_index eqb l i c) eqn:E; [|reflexivity].
    apply element_index_in in E as [_ E]. apply nth_error_In in E. contradiction.
  Qed.

  Lemma construct_general_spec (dom cod : list A) : NoDup dom -> Permutation dom cod ->
    exists p, construct_permutation_general eqb dom cod true = Ok p /\ is_perm (length dom) p /\
      forall i, i < length dom -> nth_error cod i = nth_error dom (nth i p 0).
  Proof.
    intros HN HP. pose proof (Permutation_length HP) as HL.
    set (g := fun c => match element_index eqb dom 0 c with Some k => k | None => 0 end).
    unfold construct_permutation_general. rewrite (mapM_map _ g).
    2:{ intros c Hc. unfold g. apply Permutation_sym in HP.
        destruct (element_index_some dom 0 c) as [k E]; [eapply Permutation_in; eauto|]. rewrite E. reflexivity. }
    cbn [bind]. exists (map g cod). split; [reflexivity|].
    assert (Hg : forall i c, nth_error cod i = Some c -> nth i (map g cod) 0 = g c /\ nth_error dom (g c) = Some c /\ g c < length dom).
    { intros i c Hi. assert (Hil : i < length cod) by (apply nth_error_Some; congruence).
      split.
      - rewrite (nth_map_in g cod i c 0) by exact Hil. f_equal. apply nth_error_nth, Hi.
      - unfold g. destruct (element_index_some dom 0 c) as [k E].
        { apply Permutation_sym in HP. eapply Permutation_in; [exact HP|]. eapply nth_error_In; eauto. }
        rewrite E. apply element_index_in in E as [H1 H2]. rewrite Nat.sub_0_r in H2. split; [exact H2|lia]. }
    split.
    - apply is_perm_nth_intro.
      + rewrite map_length. auto.
      + intros i Hi. destruct (nth_error cod i) as [c|] eqn:E; [|apply nth_error_None in E; lia].
        destruct (Hg _ _ E) as (-> & _ & H). exact H.
      + intros i j Hi Hj. destruct (nth_error cod i) as [c|] eqn:E; [|apply nth_error_None in E; lia].
        destruct (nth_error cod j) as [c'|] eqn:E'; [|apply nth_error_None in E'; lia].
        destruct (Hg _ _ E) as (-> & H1 & _). destruct (Hg _ _ E') as (-> & H2 & _). intros He.
        assert (c = c') by congruence. subst c'.
        assert (HNc : NoDup cod) by (eapply Permutation_NoDup; eauto).
        rewrite NoDup_nth_error in HNc. apply HNc; [lia|congruence].
    - intros i Hi. destruct (nth_error cod i) as [c|] eqn:E; [|apply nth_error_None in E; lia].
      destruct (Hg _ _ E) as (-> & H & _). symmetry. exact H.
  Qed.

  Lemma construct_general_missing (dom cod : list A) b c : In c cod -> ~ In c dom ->
    construct_permutation_general eqb dom cod b = Err KeyError.
  Proof.
    intros Hc Hd. unfold construct_permutation_general.
    assert (E : mapM (fun c => match element_index eqb dom 0 c with
                           | Some k => Ok k | None => Err KeyError end) cod = Err KeyError).
    { induction cod as [|x cod IH]; [destruct Hc|]. cbn [mapM]. destruct Hc as [->|Hc].
      - rewrite element_index_none by exact Hd. reflexivity.
      - destruct (element_index eqb dom 0 x); cbn [bind]; [rewrite IH by exact Hc|]; reflexivity. }
    rewrite E. reflexivity.
  Qed.
End General.

(** ** permute_values / permute_positions *)
Lemma permute_loop_spec {A} (d : A) (seqn : list A) : forall p i s,
  i + length p <= length s -> (forall x, In x p -> x < length seqn) ->
  exists s', permute_loop p i seqn s = Ok s' /\ length s' = length s /\
    (forall k, k < length p -> nth (i + k) s' d = nth (nth k p 0) seqn d) /\
    (forall k, k < i \/ i + length p <= k -> nth k s' d = nth k s d).
Proof.
  induction p as [|x p IH]; intros i s HL HB; cbn [permute_loop].
  - exists s. cbn. repeat split; auto. lia.
  - cbn [length] in HL. rewrite (get_ok _ _ d) by (apply HB; left; auto). cbn [bind].
    rewrite set_ok by lia. cbn [bind].
    destruct (IH (S i) (upd s i (nth x seqn d))) as (s' & E & HL' & H1 & H2).
    + rewrite upd_length. lia.
    + intros; apply HB; right; auto.
    + rewrite upd_length in HL'. exists s'. split; [exact E|]. split; [exact HL'|]. split.
      * intros [|k] Hk; cbn [nth length] in *.
        -- rewrite Nat.add_0_r, H2 by lia. apply nth_upd_same. lia.
        -- replace (i + S k) with (S i + k) by lia. apply H1. lia.
      * cbn [length]. intros k Hk. rewrite H2 by lia. apply nth_upd_other. lia.
Qed.

Lemma permute_values_spec {A} (d : A) p s : length p <= length s -> (forall x, In x p -> x < length s) ->
  exists s', permute_values p s = Ok s' /\ length s' = length s /\
    (forall k, k < length p -> nth k s' d = nth (nth k p 0) s d) /\
    (forall k, length p <= k -> nth k s' d = nth k s d).
Proof.
  intros HL HB. destruct (permute_loop_spec d s p 0 s) as (s' & E & HL' & H1 & H2); auto.
  exists s'. split; [exact E|]. split; [exact HL'|]. split; [exact H1|]. intros; apply H2; auto.
Qed.

(** ** matrices *)
(** Matrix-vector and matrix-matrix product over Z (specification). *)
Definition dot (u v : list Z) : Z := zsum (map (fun xy => fst xy * snd xy)%Z (combine u v)).
Definition mat_vec (m : list (list Z)) (v : list Z) : list Z := map (fun row => dot row v) m.

Lemma dot_unit n x v : length v = n -> x < n -> dot (upd (repeat 0%Z n) x 1%Z) v = nth x v 0%Z.
Proof.
  revert n x; induction v as [|a v IH]; intros n x HL Hx; cbn in HL; [lia|]. subst n.
  cbn [repeat]. destruct x as [|x]; cbn [upd nth]; unfold dot; cbn [combine map fst snd zsum fold_right].
  - assert (E : fold_right Z.add 0%Z (map (fun xy => (fst xy * snd xy)%Z) (combine (repeat 0%Z (length v)) v)) = 0%Z).
    { clear. induction v as [|b v IH]; [reflexivity|]. cbn [length repeat combine map fold_right fst snd]. rewrite IH. ring. }
    rewrite E. ring.
  - fold (zsum (map (fun xy => (fst xy * snd xy)%Z) (combine (upd (repeat 0%Z (length v)) x 1%Z) v))).
    fold (dot (upd (repeat 0%Z (length v)) x 1%Z) v). rewrite IH by lia. ring.
Qed.

Lemma pmv_eq n p : is_perm n p ->
  permutation_matrix_values p = Ok (map (fun x => upd (repeat 0%Z n) x 1%Z) p).
Proof.
  intros HP. unfold permutation_matrix_values. rewrite (is_perm_length _ _ HP). apply mapM_map.
  intros x Hx. apply set_ok. rewrite repeat_length. apply (is_perm_in n p); auto.
Qed.

Lemma pmp_eq n p q : 0 < n -> is_perm n p -> inverse p = Ok q ->
  permutation_matrix_positions p = permutation_matrix_values q.
Proof.
  intros Hn HP Hq. destruct (inverse_full n p Hn HP) as (q' & E & HQ & H1 & H2). rewrite Hq in E. injection E as <-.
  unfold permutation_matrix_positions. rewrite (pmv_eq n p HP), (pmv_eq n q HQ). cbn [bind]. f_equal.
  rewrite (is_perm_length _ _ HP). unfold transpose.
  apply (list_eq_nth []); rewrite !map_length, seq_length, ?(is_perm_length _ _ HQ); [reflexivity|].
  intros j Hj.
  rewrite (nth_map_in _ _ _ 0) by (rewrite seq_length; auto). rewrite nth_seq0 by auto.
  rewrite (nth_map_in _ q j 0) by (rewrite (is_perm_length _ _ HQ); auto).
  rewrite map_map.
  apply (list_eq_nth 0%Z); rewrite map_length, ?upd_length, ?repeat_length, (is_perm_length _ _ HP); [reflexivity|].
  intros i Hi. rewrite (nth_map_in _ p i 0) by (rewrite (is_perm_length _ _ HP); auto).
  destruct (Nat.eq_dec (nth i p 0) j) as [E|Hne].
  - rewrite E, nth_upd_same by (rewrite repeat_length; auto).
    assert (nth j q 0 = i) as -> by (rewrite <- E; apply H1; auto).
    rewrite nth_upd_same by (rewrite repeat_length; auto). reflexivity.
  - rewrite nth_upd_other by auto. rewrite nth_upd_other; [rewrite !nth_repeat; reflexivity|].
    intros E. apply Hne. rewrite <- E. apply H2. exact Hj.
Qed.

Lemma pmv_action n p v s' : is_perm n p -> length v = n -> permute_values p v = Ok s' ->
  exists m, permutation_matrix_values p = Ok m /\ mat_vec m v = s'.
Proof.
  intros HP HL Hs. rewrite (pmv_eq n p HP). eexists. split; [reflexivity|].
  destruct (permute_values_spec 0%Z p v) as (s1 & E & HL1 & H1 & _).
  { rewrite (is_perm_length _ _ HP). lia. } { intros x Hx. rewrite HL. apply (is_perm_in n p); auto. }
  rewrite Hs in E. injection E as <-. unfold mat_vec. rewrite map_map.
  apply (list_eq_nth 0%Z); rewrite map_length, (is_perm_length _ _ HP); [lia|].
  intros i Hi. rewrite (nth_map_in _ p i 0) by (rewrite (is_perm_length _ _ HP); auto).
  rewrite dot_unit; [|exact HL|apply is_perm_nth; auto].
  symmetry. apply H1. rewrite (is_perm_length _ _ HP). exact Hi.
Qed.

(** ** rotations *)
Lemma rot_length {A} k (l : list A) : length (skipn k l ++ firstn k l) = length l.
Proof. rewrite app_length, Nat.add_comm, <- app_length, firstn_skipn. reflexivity. Qed.
Lemma nth_skipn {A} k (l : list A) i d : nth i (skipn k l) d = nth (k + i) l d.
Proof.
  revert l; induction k as [|k IH]; intros [|x l]; cbn; auto. destruct i; reflexivity.
Qed.
Lemma nth_firstn {A} k (l : list A) i d : i < k -> nth i (firstn k l) d = nth i l d.
Proof.
  revert l i; induction k as [|k IH]; intros [|x l] [|i] H; cbn; auto; try lia. apply IH. lia.
Qed.
Lemma rot_nth {A} k (l : list A) i d : k <= length l -> i < length l ->
  nth i (skipn k l ++ firstn k l) d = nth (if k + i <? length l then k + i else k + i - length l) l d.
Proof.
  intros Hk Hi. destruct (Nat.ltb_spec (k + i) (length l)) as [H|H].
  - rewrite app_nth1 by (rewrite skipn_length; lia). apply nth_skipn.
  - rewrite app_nth2 by (rewrite skipn_length; lia). rewrite skipn_length.
    rewrite nth_firstn by lia. f_equal. lia.
Qed.

(** Entry j of cyclic_permutations is the rotation by n - j to the left. *)
Lemma cyclic_permutations_eq p :
  cyclic_permutations p =
  Ok (map (fun j => skipn (length p - j) p ++ firstn (length p - j) p) (seq 0 (length p))).
Proof.
  unfold cyclic_permutations. apply mapM_map. intros j Hj. apply in_seq in Hj.
  set (n := length p) in *.
  rewrite (mapM_map _ (fun i => nth (if n - j + i <? n then n - j + i else n - j + i - n) p 0)).
  - f_equal. apply (list_eq_nth 0); [rewrite map_length, seq_length, rot_length; reflexivity|].
    rewrite map_length, seq_length. intros i Hi. rewrite (nth_map_in _ _ _ 0) by (rewrite seq_length; auto).
    rewrite nth_seq0 by auto. rewrite rot_nth by (fold n; lia). reflexivity.
  - intros i Hi. apply in_seq in Hi. unfold pyget, pyidx. fold n.
    destruct (Z.leb_spec 0 (Z.of_nat i - Z.of_nat j)) as [H|H].
    + destruct (Z.ltb_spec (Z.of_nat i - Z.of_nat j) (Z.of_nat n)); [|lia].
      destruct (Nat.ltb_spec (n - j + i) n); [lia|].
      rewrite (get_ok _ _ 0) by (fold n; lia). do 2 f_equal. lia.
    + destruct (Z.leb_spec (- Z.of_nat n) (Z.of_nat i - Z.of_nat j)); [|lia].
      destruct (Nat.ltb_spec (n - j + i) n); [|lia].
      rewrite (get_ok _ _ 0) by (fold n; lia). do 2 f_equal. lia.
Qed.

Lemma circ_spec p q : circularly_equivalent p q =
  Ok (existsb (fun j => leqb p (skipn (length q - j) q ++ firstn (length q - j) q)) (seq 0 (length q))).
Proof.
  unfold circularly_equivalent. rewrite cyclic_permutations_eq. cbn [bind]. f_equal.
  induction (seq 0 (length q)) as [|j l IH]; cbn; [reflexivity|]. rewrite IH. reflexivity.
Qed.

Lemma circ_iff p q : circularly_equivalent p q = Ok true <->
  q <> [] /\ exists k, p = skipn k q ++ firstn k q.
Proof.
  rewrite circ_spec. split.
  - intros H. injection H as H. apply existsb_exists in H as (j & Hj & H). apply leqb_eq in H. apply in_seq in Hj.
    split; [intros ->; cbn in Hj; lia|]. eexists. exact H.
  - intros [Hq [k Hk]]. f_equal. apply existsb_exists.
    assert (HL : 0 < length q) by (destruct q; [congruence|cbn; lia]).
    destruct (Nat.lt_ge_cases 0 k) as [H0|H0]; [destruct (Nat.lt_ge_cases k (length q)) as [H|H]|].
    + exists (length q - k). split; [apply in_seq; lia|]. apply leqb_eq.
      replace (length q - (length q - k)) with k by lia. exact Hk.
    + exists 0. split; [apply in_seq; lia|]. apply leqb_eq. rewrite Nat.sub_0_r.
      rewrite skipn_all, firstn_all. rewrite Hk. rewrite skipn_all2, firstn_all2 by lia. reflexivity.
    + exists 0. split; [apply in_seq; lia|]. apply leqb_eq. rewrite Nat.sub_0_r.
      rewrite skipn_all, firstn_all. rewrite Hk. assert (k = 0) by lia. subst k. cbn. rewrite app_nil_r. reflexivity.
Qed.

Lemma rot_rot {A} a b (l : list A) : a <= length l -> b <= length l ->
  exists c, c <= length l /\ skipn b (skipn a l ++ firstn a l) ++ firstn b (skipn a l ++ firstn a l) = skipn c l ++ firstn c l.
Proof.
  intros Ha Hb. destruct l as [|d l0]; [exists 0; destruct a, b; cbn; auto|]. set (l := d :: l0) in *.
  exists (if a + b <=? length l then a + b else a + b - length l).
  destruct (Nat.leb_spec (a + b) (length l)) as [H|H].
  - split; [lia|]. apply (list_eq_nth d); [rewrite !rot_length; reflexivity|].
    rewrite !rot_length. intros i Hi. rewrite !rot_nth; rewrite ?rot_length; try lia.
    + f_equal. destruct (Nat.ltb_spec (b + i) (length l)), (Nat.ltb_spec (a + b + i) (length l));
      repeat match goal with |- context [?x <? ?y] => destruct (Nat.ltb_spec x y) end; lia.
    + destruct (Nat.ltb_spec (b + i) (length l)); lia.
  - split; [lia|]. apply (list_eq_nth d); [rewrite !rot_length; reflexivity|].
    rewrite !rot_length. intros i Hi. rewrite !rot_nth; rewrite ?rot_length; try lia.
    + f_equal. repeat match goal with |- context [?x <? ?y] => destruct (Nat.ltb_spec x y) end; lia.
    + destruct (Nat.ltb_spec (b + i) (length l)); lia.
Qed.
Lemma rot_trunc {A} k (l : list A) : exists a, a <= length l /\ skipn k l ++ firstn k l = skipn a l ++ firstn a l.
Proof.
  destruct (Nat.le_gt_cases k (length l)); [exists k; auto|]. exists (length l). split; [lia|].
  rewrite (skipn_all2 l) by lia. rewrite (firstn_all2 l) by lia. rewrite skipn_all, firstn_all. reflexivity.
Qed.

Lemma circ_refl p : p <> [] -> circularly_equivalent p p = Ok true.
Proof. intros H. apply circ_iff. split; [exact H|]. exists 0. cbn. rewrite app_nil_r. reflexivity. Qed.
Lemma circ_sym p q : circularly_equivalent p q = Ok true -> circularly_equivalent q p = Ok true.
Proof.
  rewrite !circ_iff. intros [Hq [k0 Hk0]]. destruct (rot_trunc k0 q) as (k & Hkl & E). rewrite E in Hk0. clear k0 E.
  rename Hk0 into Hk. split; [intros ->; apply (f_equal (@length nat)) in Hk; rewrite rot_length in Hk; destruct q; [congruence|discriminate]|].
  exists (length q - k). subst p.
  assert (E : length q - k = length (skipn k q)) by (rewrite skipn_length; reflexivity).
  rewrite E, skipn_app, firstn_app, Nat.sub_diag, skipn_all, firstn_all. cbn [skipn firstn app].
  rewrite app_nil_r. symmetry. apply firstn_skipn.
Qed.
Lemma circ_trans p q r : circularly_equivalent p q = Ok true -> circularly_equivalent q r = Ok true ->
  circularly_equivalent p r = Ok true.
Proof.
  rewrite !circ_iff. intros [Hq [k Hk]] [Hr [k' Hk']]. split; [exact Hr|].
  destruct (rot_trunc k q) as (a & Ha & E). rewrite E in Hk. destruct (rot_trunc k' r) as (b & Hb & E').
  rewrite E' in Hk'. subst q. rewrite rot_length in Ha. destruct (rot_rot b a r Hb Ha) as (c & Hc & Ec).
  exists c. congruence.
Qed.
