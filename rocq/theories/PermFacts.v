(** Proofs about sorting, inverse, composition, swap and inversions
    (model in Permutations.v). *)
From Verif Require Import Base MultiIndex MultiCapFacts Permutations.

(** [p] is a permutation of 0..n-1. *)
Definition is_perm (n : nat) (p : list nat) : Prop := Permutation (seq 0 n) p.

Lemma is_perm_length n p : is_perm n p -> length p = n.
Proof. intros H. apply Permutation_length in H. rewrite seq_length in H. auto. Qed.
Lemma is_perm_NoDup n p : is_perm n p -> NoDup p.
Proof. intros H. eapply Permutation_NoDup; [exact H|apply seq_NoDup]. Qed.
Lemma is_perm_in n p i : is_perm n p -> (In i p <-> i < n).
Proof.
  intros H. rewrite <- (Permutation_in' eq_refl H), in_seq. lia.
Qed.
Lemma is_perm_intro n p : length p = n -> NoDup p -> (forall i, In i p -> i < n) -> is_perm n p.
Proof.
  intros HL HN HB. unfold is_perm. symmetry. apply NoDup_Permutation_bis; auto.
  - rewrite seq_length. lia.
  - intros i Hi. apply in_seq. specialize (HB i Hi). lia.
Qed.
Lemma is_perm_nth n p i : is_perm n p -> i < n -> nth i p 0 < n.
Proof. intros H Hi. apply (is_perm_in _ _ _ H), nth_In. rewrite (is_perm_length _ _ H); lia. Qed.
Lemma is_perm_inj n p i j : is_perm n p -> i < n -> j < n -> nth i p 0 = nth j p 0 -> i = j.
Proof.
  intros H Hi Hj E. pose proof (is_perm_NoDup _ _ H) as HN. pose proof (is_perm_length _ _ H).
  rewrite NoDup_nth in HN. eapply HN; try lia. exact E.
Qed.
Lemma is_perm_surj n p k : is_perm n p -> k < n -> exists i, i < n /\ nth i p 0 = k.
Proof.
  intros H Hk. apply (is_perm_in _ _ _ H) in Hk. apply (In_nth _ _ 0) in Hk as (i & Hi & E).
  exists i. rewrite (is_perm_length _ _ H) in Hi. auto.
Qed.
Lemma is_perm_nth_intro n p : length p = n -> (forall i, i < n -> nth i p 0 < n) ->
  (forall i j, i < n -> j < n -> nth i p 0 = nth j p 0 -> i = j) -> is_perm n p.
Proof.
  intros HL HB HI. apply is_perm_intro; auto.
  - apply (NoDup_nth _ 0). rewrite HL. exact HI.
  - intros i Hi. apply (In_nth _ _ 0) in Hi as (k & Hk & <-). apply HB. lia.
Qed.
Lemma is_perm_id n : is_perm n (seq 0 n).
Proof. apply Permutation_refl. Qed.

Lemma get_ok {A} (l : list A) i d : i < length l -> get l i = Ok (nth i l d).
Proof. intros H. unfold get. rewrite (nth_error_nth' _ d H). reflexivity. Qed.
Lemma get_inv {A} (l : list A) i v d : get l i = Ok v -> i < length l /\ nth i l d = v.
Proof.
  unfold get. destruct (nth_error l i) eqn:E; [|discriminate]. injection 1 as <-.
  split; [apply nth_error_Some; congruence|]. apply nth_error_nth. exact E.
Qed.
Lemma set_ok {A} (l : list A) i v : i < length l -> set l i v = Ok (upd l i v).
Proof. intros H. unfold set. apply Nat.ltb_lt in H. rewrite H. reflexivity. Qed.

Lemma nth_seq0 n i d : i < n -> nth i (seq 0 n) d = i.
Proof. intros H. rewrite seq_nth; lia. Qed.

(** ** Sorting *)
Section Sorting.
  Context {A : Type} (leb : A -> A -> bool).
  Hypothesis leb_total : forall x y, leb x y = true \/ leb y x = true.
  Hypothesis leb_trans : forall x y z, leb x y = true -> leb y z = true -> leb x z = true.

  Lemma insert_perm x l : Permutation (x :: l) (insert leb x l).
  Proof.
    induction l as [|y t IH]; cbn; [auto|]. destruct (leb x y); auto.
    rewrite perm_swap. constructor. exact IH.
  Qed.
  Lemma sort_perm l : Permutation l (sort leb l).
  Proof. induction l as [|x t IH]; cbn; [auto|]. rewrite <- insert_perm. auto. Qed.

  Lemma insert_sorted x l :
    StronglySorted (fun a b => leb a b = true) l -> StronglySorted (fun a b => leb a b = true) (insert leb x l).
  Proof.
    induction l as [|y t IH]; cbn; intros H; [repeat constructor|].
    inversion H as [|? ? Hs Hf]; subst. destruct (leb x y) eqn:E.
    - constructor; [exact H|]. constructor; [exact E|].
      eapply Forall_impl; [|exact Hf]. intros z Hz. eapply leb_trans; eassumption.
    - constructor; [auto|]. eapply Permutation_Forall; [apply insert_perm|]. constructor; [|exact Hf].
      destruct (leb_total x y); congruence.
  Qed.
  Lemma sort_sorted l : StronglySorted (fun a b => leb a b = true) (sort leb l).
  Proof. induction l as [|x t IH]; cbn; [constructor|]. apply insert_sorted. exact IH. Qed.
End Sorting.

Lemma sort_length {A} (leb : A -> A -> bool) l : length (sort leb l) = length l.
Proof. symmetry. apply Permutation_length, sort_perm. Qed.

Lemma sorted_unique (l m : list nat) :
  StronglySorted le l -> StronglySorted le m -> Permutation l m -> l = m.
Proof.
  revert m; induction l as [|x l IH]; intros m Hl Hm HP.
  - apply Permutation_nil in HP. auto.
  - destruct m as [|y m]; [apply Permutation_sym, Permutation_nil in HP; discriminate|].
    inversion Hl as [|? ? Hl1 Hl2]; inversion Hm as [|? ? Hm1 Hm2]; subst.
    rewrite Forall_forall in Hl2, Hm2.
    assert (x = y).
    { assert (In x (y :: m)) as [?|Hx] by (eapply Permutation_in; [exact HP|left; auto]); auto.
      assert (In y (x :: l)) as [?|Hy] by (eapply Permutation_in; [symmetry; exact HP|left; auto]); auto.
      specialize (Hl2 _ Hy). specialize (Hm2 _ Hx). lia. }
    subst y. f_equal. apply IH; auto. eapply Permutation_cons_inv. exact HP.
Qed.

Lemma seq_sorted n a : StronglySorted le (seq a n).
Proof.
  revert a; induction n as [|n IH]; intros a; cbn; constructor; auto.
  apply Forall_forall. intros x Hx. apply in_seq in Hx. lia.
Qed.

Lemma sorted_seq n l : StronglySorted le l -> Permutation (seq 0 n) l -> l = seq 0 n.
Proof. intros H HP. symmetry. apply sorted_unique; auto using seq_sorted. Qed.

Lemma StronglySorted_map {A B} (R : A -> A -> Prop) (S : B -> B -> Prop) (f : A -> B) l :
  (forall x y, R x y -> S (f x) (f y)) -> StronglySorted R l -> StronglySorted S (map f l).
Proof.
  intros H; induction 1 as [|x l Hs IH Hf]; cbn; constructor; auto.
  apply Forall_map. eapply Forall_impl; [|exact Hf]. intros; auto.
Qed.

(** Sorting (key, value) pairs whose keys are a permutation of 0..n-1 puts the
    value of key k at position k. *)
Lemma sorted_keys {V} n (l : list (nat * V)) (d : nat * V) :
  is_perm n (map fst l) ->
  StronglySorted (fun a b => fst a <= fst b) l ->
  forall k, k < n -> exists v, nth k l d = (k, v).
Proof.
  intros HP HS k Hk.
  assert (E : map fst l = seq 0 n).
  { apply sorted_seq; [|exact HP]. eapply StronglySorted_map; [|exact HS]. auto. }
  assert (HL : length l = n) by (rewrite <- (map_length fst l), E; apply seq_length).
  destruct (nth k l d) as [a v] eqn:Ek. exists v. f_equal.
  assert (nth k (map fst l) (fst d) = fst (nth k l d)) by apply map_nth.
  rewrite E, nth_seq0, Ek in H by exact Hk. cbn in H. auto.
Qed.

Lemma pair_leb_total x y : pair_leb x y = true \/ pair_leb y x = true.
Proof.
  unfold pair_leb. destruct x as [a b], y as [c d]; cbn [fst snd].
  rewrite !orb_true_iff, !andb_true_iff, !Nat.ltb_lt, !Nat.eqb_eq, !Nat.leb_le. lia.
Qed.
Lemma pair_leb_trans x y z : pair_leb x y = true -> pair_leb y z = true -> pair_leb x z = true.
Proof.
  unfold pair_leb. destruct x as [a b], y as [c d], z as [e f]; cbn [fst snd].
  rewrite !orb_true_iff, !andb_true_iff, !Nat.ltb_lt, !Nat.eqb_eq, !Nat.leb_le. lia.
Qed.
Lemma pair_leb_fst x y : pair_leb x y = true -> fst x <= fst y.
Proof. unfold pair_leb. rewrite orb_true_iff, andb_true_iff, Nat.ltb_lt, Nat.eqb_eq. lia. Qed.

Lemma StronglySorted_impl {A} (R S : A -> A -> Prop) l :
  (forall x y, R x y -> S x y) -> StronglySorted R l -> StronglySorted S l.
Proof. intros H HS. rewrite <- (map_id l). eapply StronglySorted_map; [|exact HS]. auto. Qed.

Lemma combine_fst {A B} (l : list A) (m : list B) : length l = length m -> map fst (combine l m) = l.
Proof. revert m; induction l as [|x l IH]; intros [|y m] H; cbn in *; try lia; auto. f_equal. apply IH; lia. Qed.
Lemma combine_snd {A B} (l : list A) (m : list B) : length l = length m -> map snd (combine l m) = m.
Proof. revert m; induction l as [|x l IH]; intros [|y m] H; cbn in *; try lia; auto. f_equal. apply IH; lia. Qed.
Lemma in_combine_nth {A B} (l : list A) (m : list B) a b da db :
  In (a, b) (combine l m) -> exists i, i < length l /\ i < length m /\ nth i l da = a /\ nth i m db = b.
Proof.
  revert m; induction l as [|x l IH]; intros [|y m]; cbn; try tauto.
  intros [E|H]; [injection E as -> ->; exists 0; auto with arith|].
  apply IH in H as (i & ? & ? & ? & ?). exists (S i). auto with arith.
Qed.

Lemma second_line_ok {A} (l : list (nat * A)) : 0 < length l -> second_line l = Ok (map snd l).
Proof. destruct l; cbn; [lia|reflexivity]. Qed.

(** ** inverse *)
Lemma inverse_spec n p : 0 < n -> is_perm n p ->
  exists q, inverse p = Ok q /\ length q = n /\ forall i, i < n -> nth (nth i p 0) q 0 = i.
Proof.
  intros Hn HP. pose proof (is_perm_length _ _ HP) as HL.
  unfold inverse, from_two_line_notation, to_two_line_notation. cbn [fst snd].
  set (l := combine p (seq 0 (length p))). set (s := sort pair_leb l).
  assert (Hl : length l = n) by (unfold l; rewrite combine_length, seq_length; lia).
  assert (Hs : length s = n) by (unfold s; rewrite sort_length; exact Hl).
  assert (HPs : Permutation l s) by apply sort_perm.
  exists (map snd s). split; [apply second_line_ok; lia|]. split; [rewrite map_length; auto|].
  assert (Hk : forall k, k < n -> exists v, nth k s (0,0) = (k, v)).
  { apply sorted_keys.
    - apply (Permutation_map fst) in HPs. unfold l in HPs. rewrite combine_fst in HPs by (rewrite seq_length; auto).
      unfold is_perm. rewrite <- HPs. exact HP.
    - eapply StronglySorted_impl; [exact pair_leb_fst|]. apply sort_sorted; [apply pair_leb_total|apply pair_leb_trans]. }
  intros i Hi. pose proof (is_perm_nth _ _ _ HP Hi) as Hpi.
  destruct (Hk _ Hpi) as [v Hv].
  change 0 with (snd (0,0)) at 2. rewrite map_nth, Hv. cbn [snd].
  assert (HI : In (nth i p 0, v) l).
  { eapply Permutation_in; [symmetry; exact HPs|]. rewrite <- Hv. apply nth_In. lia. }
  unfold l in HI. apply (in_combine_nth _ _ _ _ 0 0) in HI as (j & Hj & Hj' & E1 & E2).
  rewrite nth_seq0 in E2 by lia. subst v.
  eapply is_perm_inj; eauto. lia.
Qed.

Lemma inverse_full n p : 0 < n -> is_perm n p ->
  exists q, inverse p = Ok q /\ is_perm n q /\
    (forall i, i < n -> nth (nth i p 0) q 0 = i) /\ (forall i, i < n -> nth (nth i q 0) p 0 = i).
Proof.
  intros Hn HP. destruct (inverse_spec n p Hn HP) as (q & Hq & HL & H). exists q. split; [exact Hq|].
  assert (Hk : forall k, k < n -> exists i, i < n /\ nth i p 0 = k /\ nth k q 0 = i).
  { intros k Hk. destruct (is_perm_surj _ _ k HP Hk) as (i & Hi & E). exists i. subst k. auto. }
  split; [|split; [exact H|]].
  - apply is_perm_nth_intro; auto.
    + intros i Hi. destruct (Hk i Hi) as (j & ? & ? & ->). auto.
    + intros i j Hi Hj E. destruct (Hk i Hi) as (a & ? & ? & Ea). destruct (Hk j Hj) as (b & ? & ? & Eb).
      congruence.
  - intros i Hi. destruct (Hk i Hi) as (j & ? & ? & ->). auto.
Qed.

(** ** index and composition *)
Lemma index_from_nth l k i : NoDup l -> k < length l -> index_from l (nth k l 0) i = Ok (i + k).
Proof.
  revert k i; induction l as [|x l IH]; intros k i HN Hk; cbn in Hk; [lia|].
  inversion HN; subst. cbn [index_from]. destruct k as [|k]; cbn [nth].
  - rewrite Nat.eqb_refl. f_equal; lia.
  - destruct (Nat.eqb_spec x (nth k l 0)) as [->|_].
    + exfalso. match goal with H : ~ In _ _ |- _ => apply H end. apply nth_In. lia.
    + rewrite IH by (auto; lia). f_equal; lia.
Qed.
Lemma index_nth l k : NoDup l -> k < length l -> index l (nth k l 0) = Ok k.
Proof. intros. unfold index. rewrite index_from_nth; auto. Qed.
Lemma index_in l v : NoDup l -> In v l -> exists k, index l v = Ok k /\ k < length l /\ nth k l 0 = v.
Proof.
  intros HN HI. apply (In_nth _ _ 0) in HI as (k & Hk & <-). exists k.
  split; [apply index_nth; auto|]. auto.
Qed.
Lemma index_absent l v : ~ In v l -> index l v = Err ValueError.
Proof.
  unfold index. generalize 0. induction l as [|x l IH]; intros i H; cbn; [reflexivity|].
  destruct (Nat.eqb_spec x v) as [->|_]; [exfalso; apply H; left; auto|]. apply IH. intros ?; apply H; right; auto.
Qed.

Lemma composition_spec n sigma pi : 0 < n -> length sigma = n -> is_perm n pi ->
  exists tau, composition sigma pi = Ok tau /\ length tau = n /\
    forall i, i < n -> nth i tau 0 = nth (nth i pi 0) sigma 0.
Proof.
  intros Hn HLs HP. pose proof (is_perm_length _ _ HP) as HL. pose proof (is_perm_NoDup _ _ HP) as HN.
  destruct (inverse_full n pi Hn HP) as (q & _ & Hq & Hq1 & Hq2).
  unfold composition, to_two_line_notation. cbn [fst snd].
  set (pairs := combine (seq 0 (length sigma)) sigma).
  assert (Hpairs : forall x, In x pairs -> fst x < n /\ snd x = nth (fst x) sigma 0).
  { intros [a b] H. apply (in_combine_nth _ _ _ _ 0 0) in H as (i & Hi & _ & E1 & E2).
    rewrite seq_length in Hi. rewrite nth_seq0 in E1 by exact Hi. cbn. subst. auto. }
  rewrite (mapM_map _ (fun x => (nth (fst x) q 0, x))).
  2:{ intros x Hx. destruct (Hpairs x Hx) as [H1 H2].
      replace (index pi (fst x)) with (@Ok nat (nth (fst x) q 0)); [reflexivity|].
      symmetry. rewrite <- (Hq2 (fst x)) at 1 by exact H1. apply index_nth; auto.
      rewrite HL. apply (is_perm_nth n); auto. }
  cbn [bind].
  set (kl := map (fun x => (nth (fst x) q 0, x)) pairs).
  set (s := sort key_leb kl).
  assert (Hkl : length kl = n).
  { unfold kl, pairs. rewrite map_length, combine_length, seq_length. lia. }
  assert (Hs : length s = n) by (unfold s; rewrite sort_length; exact Hkl).
  assert (HPs : Permutation kl s) by apply sort_perm.
  exists (map snd (map snd s)). split; [apply second_line_ok; rewrite map_length; lia|].
  split; [rewrite !map_length; exact Hs|].
  assert (Hk : forall k, k < n -> exists v, nth k s (0,(0,0)) = (k, v)).
  { apply sorted_keys.
    - apply (Permutation_map fst) in HPs. unfold is_perm. rewrite <- HPs. unfold kl.
      rewrite map_map. cbn [fst]. rewrite <- (map_map fst (fun a => nth a q 0)).
      unfold pairs. rewrite combine_fst by (rewrite seq_length; auto). rewrite HLs.
      apply is_perm_nth_intro.
      + rewrite map_length, seq_length. reflexivity.
      + intros i Hi. rewrite (nth_map_in _ _ _ 0) by (rewrite seq_length; auto). rewrite nth_seq0 by auto.
        apply is_perm_nth; auto.
      + intros i j Hi Hj. rewrite !(nth_map_in _ _ _ 0) by (rewrite seq_length; auto).
        rewrite !nth_seq0 by auto. apply (is_perm_inj n); auto.
    - eapply StronglySorted_impl; [|apply sort_sorted].
      + intros x y H. apply Nat.leb_le. exact H.
      + intros x y. unfold key_leb. rewrite !Nat.leb_le. lia.
      + intros x y z. unfold key_leb. rewrite !Nat.leb_le. lia. }
  intros i Hi. destruct (Hk i Hi) as [v Hv].
  change 0 with (snd (0,0)) at 1. rewrite map_nth. change (0,0) with (snd (0,(0,0))) at 1.
  rewrite map_nth, Hv. cbn [snd].
  assert (HI : In (i, v) kl).
  { eapply Permutation_in; [symmetry; exact HPs|]. rewrite <- Hv. apply nth_In. lia. }
  unfold kl in HI. apply in_map_iff in HI as (x & E & Hx). injection E as Ei Ev. subst x.
  destruct (Hpairs v Hx) as [H1 H2]. rewrite H2. f_equal. rewrite <- Ei. symmetry. apply Hq2. exact H1.
Qed.

Lemma composition_perm n s p t : 0 < n -> is_perm n s -> is_perm n p -> length t = n ->
  (forall i, i < n -> nth i t 0 = nth (nth i p 0) s 0) -> is_perm n t.
Proof.
  intros Hn Hs Hp HL H. apply is_perm_nth_intro; auto.
  - intros i Hi. rewrite H by auto. apply is_perm_nth; auto. apply is_perm_nth; auto.
  - intros i j Hi Hj. rewrite !H by auto. intros E.
    apply (is_perm_inj n s) in E; auto using is_perm_nth. apply (is_perm_inj n p) in E; auto.
Qed.

(** ** swap *)
Lemma swap_spec p i j : i < length p -> j < length p ->
  swap p (i, j) = Ok (upd (upd p i (nth j p 0)) j (nth i p 0)).
Proof.
  intros Hi Hj. unfold swap. rewrite (get_ok p j 0), (get_ok p i 0) by auto. cbn [bind].
  rewrite set_ok by auto. cbn [bind]. apply set_ok. rewrite upd_length. exact Hj.
Qed.

Definition swapf (p : list nat) (i j : nat) : list nat := upd (upd p i (nth j p 0)) j (nth i p 0).
Lemma swapf_length p i j : length (swapf p i j) = length p.
Proof. unfold swapf. rewrite !upd_length. reflexivity. Qed.
Lemma swapf_nth p i j k : i < length p -> j < length p ->
  nth k (swapf p i j) 0 = if k =? j then nth i p 0 else if k =? i then nth j p 0 else nth k p 0.
Proof.
  intros Hi Hj. unfold swapf. destruct (Nat.eqb_spec k j) as [->|Hkj].
  - rewrite nth_upd_same; [reflexivity|]. rewrite upd_length. exact Hj.
  - rewrite nth_upd_other by auto. destruct (Nat.eqb_spec k i) as [->|Hki].
    + rewrite nth_upd_same; auto.
    + rewrite nth_upd_other; auto.
Qed.

Lemma nth_decomp {A} (l : list A) i d : i < length l ->
  exists a b, l = a ++ nth i l d :: b /\ length a = i.
Proof.
  intros H. exists (firstn i l), (skipn (S i) l). split.
  - rewrite <- (firstn_skipn i l) at 1. f_equal.
    revert i H; induction l as [|x l IH]; intros [|i] H; cbn in *; try lia; auto. apply IH. lia.
  - rewrite firstn_length. lia.
Qed.

Lemma swapf_decomp p i j : i < j -> j < length p ->
  exists a x b y c, p = a ++ x :: b ++ y :: c /\ length a = i /\ length a + S (length b) = j /\
    swapf p i j = a ++ y :: b ++ x :: c /\ swapf p j i = a ++ y :: b ++ x :: c.
Proof.
  intros Hij Hj. destruct (nth_decomp p i 0) as (a & r & E & Ha); [lia|].
  revert E. generalize (nth i p 0) as x. intros x E. subst p. rewrite app_length in Hj. cbn in Hj.
  destruct (nth_decomp r (j - S i) 0) as (b & c & E & Hb); [lia|].
  revert E. generalize (nth (j - S i) r 0) as y. intros y E. subst r.
  exists a, x, b, y, c. split; [reflexivity|]. split; [exact Ha|]. split; [lia|].
  assert (Ex : nth i (a ++ x :: b ++ y :: c) 0 = x).
  { rewrite app_nth2 by lia. rewrite Ha, Nat.sub_diag. reflexivity. }
  assert (Ey : nth j (a ++ x :: b ++ y :: c) 0 = y).
  { rewrite app_nth2 by lia. replace (j - length a) with (S (length b)) by lia. cbn [nth].
    rewrite app_nth2 by lia. rewrite Nat.sub_diag. reflexivity. }
  unfold swapf. rewrite Ex, Ey.
  assert (U1 : forall u v w, upd (a ++ u :: v) i w = a ++ w :: v).
  { intros. rewrite <- Ha. apply upd_app_exact. }
  assert (U2 : forall u v w z, upd (a ++ z :: b ++ u :: v) j w = a ++ z :: b ++ w :: v).
  { intros. replace j with (length a + S (length b)) by lia. rewrite upd_app_r. cbn [upd].
    rewrite upd_app_exact. reflexivity. }
  rewrite U1, !U2, U1. auto.
Qed.

Lemma swap_mid {A} (x y : A) b c : Permutation (x :: b ++ y :: c) (y :: b ++ x :: c).
Proof.
  transitivity (x :: y :: b ++ c); [constructor; symmetry; apply Permutation_middle|].
  rewrite perm_swap. constructor. apply Permutation_middle.
Qed.

Lemma swapf_perm p i j : i < length p -> j < length p -> Permutation p (swapf p i j).
Proof.
  intros Hi Hj. destruct (Nat.lt_trichotomy i j) as [H|[->|H]].
  - destruct (swapf_decomp p i j H Hj) as (a & x & b & y & c & E & _ & _ & E1 & _). rewrite E1, E.
    apply Permutation_app_head. apply swap_mid.
  - unfold swapf. rewrite (upd_nth_same p j 0 Hj), (upd_nth_same p j 0 Hj). reflexivity.
  - destruct (swapf_decomp p j i H Hi) as (a & x & b & y & c & E & _ & _ & _ & E1). rewrite E1, E.
    apply Permutation_app_head. apply swap_mid.
Qed.

(** ** Inversions (specification) *)
Fixpoint inversions (l : list nat) : nat :=
  match l with
  | [] => 0
  | x :: t => length (filter (fun y => y <? x) t) + inversions t
  end.

Definition ltc (x : nat) (l : list nat) : nat := length (filter (fun y => y <? x) l).
Definition gtc (x : nat) (l : list nat) : nat := length (filter (fun y => x <? y) l).
Definition cross (a b : list nat) : nat := nsum (map (fun x => ltc x b) a).

Lemma ltc_app x a b : ltc x (a ++ b) = ltc x a + ltc x b.
Proof. unfold ltc. rewrite filter_app, app_length. reflexivity. Qed.
Lemma filter_perm {A} (f : A -> bool) l m : Permutation l m -> Permutation (filter f l) (filter f m).
Proof.
  induction 1; cbn; auto.
  - destruct (f x); auto.
  - destruct (f x), (f y); auto. apply perm_swap.
  - etransitivity; eauto.
Qed.
Lemma ltc_perm x l m : Permutation l m -> ltc x l = ltc x m.
Proof. intros H. apply Permutation_length, filter_perm, H. Qed.
Lemma cross_perm a l m : Permutation l m -> cross a l = cross a m.
Proof. intros H. unfold cross. f_equal. apply map_ext. intros x. apply ltc_perm, H. Qed.
Lemma inversions_app a b : inversions (a ++ b) = inversions a + inversions b + cross a b.
Proof.
  induction a as [|x a IH]; cbn [inversions app]; [cbn; lia|].
  fold (ltc x (a ++ b)). fold (ltc x a). rewrite ltc_app, IH. unfold cross. cbn [map]. rewrite nsum_cons. lia.
Qed.
Lemma ltc_cons x y l : ltc x (y :: l) = (if y <? x then 1 else 0) + ltc x l.
Proof. unfold ltc. cbn [filter]. destruct (y <? x); reflexivity. Qed.
Lemma cross_snoc a y c : cross a (y :: c) = gtc y a + cross a c.
Proof.
  unfold cross, gtc. induction a as [|x a IH]; cbn [map filter]; [reflexivity|].
  rewrite !nsum_cons, IH, ltc_cons. destruct (y <? x); cbn [length]; lia.
Qed.
Lemma ltc_gtc x l : ~ In x l -> ltc x l + gtc x l = length l.
Proof.
  unfold ltc, gtc. induction l as [|y l IH]; intros H; [reflexivity|]. cbn [filter length].
  specialize (IH (fun h => H (or_intror h))).
  assert (y <> x) by (intros ->; apply H; left; auto).
  destruct (Nat.ltb_spec y x), (Nat.ltb_spec x y); cbn [length]; lia.
Qed.

Lemma parity_flip u v k : u + v = 2 * k + 1 -> Nat.odd u = negb (Nat.odd v).
Proof.
  intros H. apply (f_equal Nat.odd) in H. rewrite Nat.odd_add in H.
  rewrite (Nat.add_comm (2 * k)), Nat.odd_add_mul_2 in H.
  destruct (Nat.odd u), (Nat.odd v); cbn in *; congruence.
Qed.

Lemma inversions_swap_parity a x b y c : NoDup (a ++ x :: b ++ y :: c) ->
  Nat.odd (inversions (a ++ y :: b ++ x :: c)) = negb (Nat.odd (inversions (a ++ x :: b ++ y :: c))).
Proof.
  intros HN. rewrite !inversions_app.
  assert (HP : Permutation (x :: b ++ y :: c) (y :: b ++ x :: c)).
  { apply swap_mid. }
  rewrite (cross_perm a _ _ HP). generalize (cross a (y :: b ++ x :: c)) as K. intros K. cbn [inversions].
  fold (ltc y (b ++ x :: c)) (ltc x (b ++ y :: c)).
  rewrite !ltc_app, !ltc_cons, !inversions_app. cbn [inversions]. fold (ltc x c) (ltc y c).
  rewrite !cross_snoc.
  assert (HN2 : NoDup (x :: b ++ y :: c)).
  { clear -HN. induction a; [exact HN|]. inversion HN; auto. }
  assert (Hx : ~ In x b /\ x <> y).
  { inversion HN2 as [|? ? H _]; subst. rewrite in_app_iff in H. split; [tauto|].
    intros ->. apply H. right. left. auto. }
  assert (Hy : ~ In y b).
  { inversion HN2 as [|? ? _ H]; subst. apply NoDup_remove_2 in H. rewrite in_app_iff in H. tauto. }
  destruct Hx as [Hx Hxy].
  pose proof (ltc_gtc x b Hx). pose proof (ltc_gtc y b Hy).
  destruct (Nat.ltb_spec x y), (Nat.ltb_spec y x); try lia.
  all: apply (parity_flip _ _ (inversions a + K + inversions b + cross b c + inversions c
             + ltc x c + ltc y c + length b)); lia.
Qed.

Lemma swapf_parity p i j : NoDup p -> i < length p -> j < length p -> i <> j ->
  Nat.odd (inversions (swapf p i j)) = negb (Nat.odd (inversions p)).
Proof.
  intros HN Hi Hj Hne. destruct (Nat.lt_trichotomy i j) as [H|[->|H]]; [|congruence|].
  - destruct (swapf_decomp p i j H Hj) as (a & x & b & y & c & E & _ & _ & E1 & _). rewrite E1.
    subst p. apply inversions_swap_parity, HN.
  - destruct (swapf_decomp p j i H Hi) as (a & x & b & y & c & E & _ & _ & _ & E1). rewrite E1.
    subst p. apply inversions_swap_parity, HN.
Qed.

Lemma inversions_seq n a : inversions (seq a n) = 0.
Proof.
  revert a; induction n as [|n IH]; intros a; cbn [seq inversions]; [reflexivity|]. rewrite IH.
  replace (filter (fun y => y <? a) (seq (S a) n)) with (@nil nat); [reflexivity|].
  symmetry. assert (H : forall x, In x (seq (S a) n) -> (x <? a) = false).
  { intros x Hx. apply in_seq in Hx. apply Nat.ltb_ge. lia. }
  induction (seq (S a) n) as [|x l IHl]; cbn [filter]; [reflexivity|].
  rewrite (H x) by (left; auto). apply IHl. intros; apply H; right; auto.
Qed.
