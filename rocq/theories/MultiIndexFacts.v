(** Proofs about the multi-index enumeration of MultiIndex.v. *)
From Verif Require Import Base ModArith MultiIndex.

(** ** Specification of the enumeration, independent of the iterator. *)
Fixpoint all_mi (n r : nat) : list (list nat) :=
  match n with
  | O => [[]]
  | S n' => flat_map (fun t => map (fun a => a :: t) (seq 0 (S (r - nsum t)))) (all_mi n' r)
  end.

(** Successor of a multi-index in the enumeration. *)
Fixpoint succ (r : nat) (c : list nat) : option (list nat) :=
  match c with
  | [] => None
  | a :: t => if a + nsum t =? r then option_map (cons 0) (succ r t) else Some (S a :: t)
  end.

Lemma succ_inv r c c' :
  nsum c <= r -> succ r c = Some c' -> nsum c' <= r /\ length c' = length c.
Proof.
  revert c'; induction c as [|a t IH]; intros c' Hc H; cbn [succ] in H; [discriminate|].
  rewrite nsum_cons in Hc.
  destruct (Nat.eqb_spec (a + nsum t) r) as [E|E].
  - destruct (succ r t) as [t'|] eqn:Ht; [|discriminate].
    injection H as <-. destruct (IH t') as [H1 H2]; [lia|reflexivity|].
    rewrite nsum_cons. cbn [length]. lia.
  - injection H as <-. rewrite nsum_cons. cbn [length]. lia.
Qed.

(** The helper counters that go with given components. *)
Definition help_of (r : nat) (c : list nat) : list imod :=
  map (fun a => mkIM (Z.of_nat a) (Z.of_nat r + 1)) c.

Lemma help_of_app r c d : help_of r (c ++ d) = help_of r c ++ help_of r d.
Proof. apply map_app. Qed.

Lemma help_of_length r c : length (help_of r c) = length c.
Proof. apply map_length. Qed.

Lemma repeat_snoc {A} (x : A) i : repeat x i ++ [x] = repeat x (i + 1).
Proof. induction i; cbn; [reflexivity | f_equal; exact IHi]. Qed.

Lemma nth_app_exact {A} (l m : list A) x d i : length l = i -> nth i (l ++ x :: m) d = x.
Proof. intros <-. rewrite app_nth2, Nat.sub_diag by lia. reflexivity. Qed.

Lemma upd_app_at {A} (l m : list A) h v i : length l = i -> upd (l ++ h :: m) i v = l ++ v :: m.
Proof. intros <-. apply upd_app_exact. Qed.

Lemma increase_spec r : forall c i fuel n,
  n = i + length c -> nsum c <= r -> length c < fuel ->
  increase_component fuel n r (Z.of_nat (nsum c)) (repeat 0 i ++ c) (help_of r (repeat 0 i ++ c)) i =
  match succ r c with
  | Some c' => ((Z.of_nat (nsum c'), repeat 0 i ++ c', help_of r (repeat 0 i ++ c')), None)
  | None => ((0%Z, repeat 0 n, help_of r (repeat 0 n)), Some StopIteration)
  end.
Proof.
  induction c as [|a t IH]; intros i fuel n Hn Hs Hf; (destruct fuel as [|fuel]; [cbn in Hf; lia|]);
    cbn [increase_component succ].
  - cbn [length] in Hn. rewrite Nat.add_0_r in Hn. subst i.
    rewrite Nat.leb_refl, app_nil_r. reflexivity.
  - cbn [length] in *. destruct (Nat.leb_spec n i) as [H|H]; [lia|]. clear H.
    rewrite nsum_cons in *.
    rewrite (nth_app_exact (repeat 0 i) t a 0 i) by apply repeat_length.
    rewrite !help_of_app. cbn [help_of map]. fold (help_of r t).
    rewrite !(upd_app_at _ _ _ _ i) by (rewrite ?help_of_length, repeat_length; reflexivity).
    rewrite (nth_app_exact (help_of r (repeat 0 i)) _ _ _ i)
      by (rewrite help_of_length, repeat_length; reflexivity).
    replace (Z.of_nat (a + nsum t) =? Z.of_nat r)%Z with (a + nsum t =? r)
      by (destruct (Nat.eqb_spec (a + nsum t) r), (Z.eqb_spec (Z.of_nat (a + nsum t)) (Z.of_nat r)); lia).
    destruct (Nat.eqb_spec (a + nsum t) r) as [E|E].
    + replace (Z.of_nat (a + nsum t) - Z.of_nat a)%Z with (Z.of_nat (nsum t)) by lia.
      replace (repeat 0 i ++ 0 :: t) with (repeat 0 (i + 1) ++ t)
        by (rewrite <- repeat_snoc, <- app_assoc; reflexivity).
      replace (help_of r (repeat 0 i) ++ mkIM (0 mod (Z.of_nat r + 1)) (Z.of_nat r + 1) :: help_of r t)
        with (help_of r (repeat 0 (i + 1) ++ t)).
      2:{ rewrite help_of_app, <- repeat_snoc, help_of_app, <- app_assoc. cbn [help_of map app].
          rewrite Z.mod_0_l by lia. reflexivity. }
      rewrite IH by lia.
      destruct (succ r t) as [t'|]; cbn [option_map]; [|reflexivity].
      rewrite nsum_cons. cbn [Nat.add].
      rewrite <- repeat_snoc, <- app_assoc. reflexivity.
    + unfold im_add. cbn [im_i im_n]. rewrite im_new_ok by lia. cbn [im_eq im_i].
      rewrite Z.mod_small by lia.
      destruct (Z.eqb_spec (Z.of_nat a + 1) 0) as [E0|E0]; [lia|].
      rewrite nsum_cons, help_of_app. cbn [help_of map]. fold (help_of r t).
      replace (Z.of_nat (a + nsum t) + 1)%Z with (Z.of_nat (S a + nsum t)) by lia.
      replace (Z.of_nat a + 1)%Z with (Z.of_nat (S a)) by lia.
      replace (a + 1) with (S a) by lia.
      rewrite (upd_app_at (help_of r (repeat 0 i))) by (rewrite help_of_length, repeat_length; reflexivity).
      reflexivity.
Qed.

(** Iterator state that has just returned [c]. *)
Definition st_at (n r : nat) (c : list nat) : iter :=
  mkIter n r (Z.of_nat (nsum c)) (Some c) (help_of r c).

Lemma help_of_zero r n :
  repeat (mkIM (0 mod (Z.of_nat r + 1)) (Z.of_nat r + 1)) n = help_of r (repeat 0 n).
Proof.
  unfold help_of. rewrite Z.mod_0_l by lia.
  induction n as [|n IH]; cbn; [reflexivity | rewrite IH; reflexivity].
Qed.

Lemma iter_next_new n r :
  iter_next (iter_new n r) = (Ok (repeat 0 n), st_at n r (repeat 0 n)).
Proof.
  unfold iter_next, iter_new, st_at; cbn [it_comps it_n it_r it_norm it_help]. rewrite nsum_repeat0, help_of_zero. reflexivity.
Qed.

Lemma iter_next_at n r c :
  length c = n -> nsum c <= r ->
  iter_next (st_at n r c) =
  match succ r c with
  | Some c' => (Ok c', st_at n r c')
  | None => (Err StopIteration, st_at n r (repeat 0 n))
  end.
Proof.
  intros Hl Hs. unfold iter_next, st_at; cbn [it_comps it_n it_r it_norm it_help].
  pose proof (increase_spec r c 0 (S n) n) as H. cbn [repeat app] in H.
  rewrite H by lia. destruct (succ r c) as [c'|]; cbn; [reflexivity|].
  rewrite nsum_repeat0. reflexivity.
Qed.

(** ** The chain of successors *)
Inductive chain {A} (f : A -> option A) : list A -> Prop :=
| chain_one x : f x = None -> chain f [x]
| chain_cons x y l : f x = Some y -> chain f (y :: l) -> chain f (x :: y :: l).

Lemma succ_carry_none r a t :
  a + nsum t = r -> succ r t = None -> succ r (a :: t) = None.
Proof. intros H H0. cbn [succ]. apply Nat.eqb_eq in H. rewrite H, H0. reflexivity. Qed.

Lemma chain_block r t rest k a :
  a + k + nsum t = r ->
  (match rest with
   | [] => succ r t = None
   | y :: _ => chain (succ r) rest /\ option_map (cons 0) (succ r t) = Some y
   end) ->
  chain (succ r) (map (fun a => a :: t) (seq a (S k)) ++ rest).
Proof.
  revert a; induction k as [|k IH]; intros a Hk Hrest.
  - cbn [seq map app].
    assert (E : a + nsum t = r) by lia.
    destruct rest as [|y rest].
    + apply chain_one. apply succ_carry_none; assumption.
    + destruct Hrest as [Hc Hy]. apply chain_cons; [|exact Hc].
      cbn [succ]. apply Nat.eqb_eq in E. rewrite E. exact Hy.
  - change (seq a (S (S k))) with (a :: seq (S a) (S k)). cbn [map app].
    assert (H : chain (succ r) (map (fun a0 => a0 :: t) (seq (S a) (S k)) ++ rest)) by (apply IH; [lia|exact Hrest]).
    cbn [seq map app] in *. apply chain_cons; [|exact H].
    cbn [succ]. destruct (Nat.eqb_spec (a + nsum t) r); [lia|reflexivity].
Qed.

Lemma chain_flat r L :
  Forall (fun t => nsum t <= r) L -> chain (succ r) L ->
  chain (succ r) (flat_map (fun t => map (fun a => a :: t) (seq 0 (S (r - nsum t)))) L) /\
  hd_error (flat_map (fun t => map (fun a => a :: t) (seq 0 (S (r - nsum t)))) L)
   = option_map (cons 0) (hd_error L).
Proof.
  intros HF HC. induction HC as [x Hx|x y l Hxy HC IH].
  - inversion HF; subst. cbn [flat_map hd_error option_map]. split.
    + apply chain_block; [lia|exact Hx].
    + reflexivity.
  - inversion HF as [|? ? Hx HF']; subst. destruct (IH HF') as [IH1 IH2].
    cbn [hd_error option_map] in IH2. split; [|reflexivity].
    change (flat_map ?g (x :: y :: l)) with (g x ++ flat_map g (y :: l)).
    set (R := flat_map (fun t => map (fun a => a :: t) (seq 0 (S (r - nsum t)))) (y :: l)) in *.
    apply chain_block; [lia|].
    destruct R as [|z R']; [discriminate|].
    split; [exact IH1|]. cbn in IH2. injection IH2 as ->. rewrite Hxy. reflexivity.
Qed.

Lemma in_all_mi n r mi : In mi (all_mi n r) <-> length mi = n /\ nsum mi <= r.
Proof.
  revert mi; induction n as [|n IH]; intros mi; cbn [all_mi].
  - split.
    + intros [<-|[]]. cbn. lia.
    + intros [H _]. destruct mi; [left; reflexivity | discriminate].
  - rewrite in_flat_map. split.
    + intros (t & Ht & Hm). apply in_map_iff in Hm as (a & <- & Ha). apply in_seq in Ha.
      apply IH in Ht. rewrite nsum_cons. cbn [length]. lia.
    + intros [Hl Hs]. destruct mi as [|a t]; [discriminate|]. cbn [length] in Hl.
      rewrite nsum_cons in Hs. exists t. split.
      * apply IH. lia.
      * apply in_map_iff. exists a. split; [reflexivity|]. apply in_seq. lia.
Qed.

Lemma NoDup_all_mi n r : NoDup (all_mi n r).
Proof.
  induction n as [|n IH]; cbn [all_mi].
  - repeat constructor. intros [].
  - apply NoDup_flat_map; [exact IH| |].
    + intros t _. apply NoDup_map_inj; [|apply seq_NoDup]. intros x y _ _ H. congruence.
    + intros x y b _ _ Hx Hy. apply in_map_iff in Hx as (a & <- & _).
      apply in_map_iff in Hy as (a' & E & _). congruence.
Qed.

Lemma all_mi_bounded n r : Forall (fun t => nsum t <= r) (all_mi n r).
Proof. apply Forall_forall. intros x H. apply in_all_mi in H. lia. Qed.

Lemma all_mi_chain n r :
  chain (succ r) (all_mi n r) /\ hd_error (all_mi n r) = Some (repeat 0 n).
Proof.
  induction n as [|n [IH1 IH2]].
  - split; [|reflexivity]. apply chain_one. reflexivity.
  - cbn [all_mi]. destruct (chain_flat r _ (all_mi_bounded n r) IH1) as [H1 H2].
    split; [exact H1|]. rewrite H2, IH2. reflexivity.
Qed.

Lemma drain_chain n r l fuel x :
  chain (succ r) (x :: l) -> length x = n -> nsum x <= r -> length l < fuel ->
  drain fuel (st_at n r x) = Ok l.
Proof.
  revert fuel x; induction l as [|y l IH]; intros fuel x HC Hx Hs Hf; (destruct fuel as [|fuel]; [lia|]);
    cbn [drain]; rewrite iter_next_at by assumption; inversion HC as [x' Hn|x' y' l' Hn HC']; subst.
  - rewrite Hn. reflexivity.
  - rewrite Hn. destruct (succ_inv _ _ _ Hs Hn) as [H1 H2].
    cbn [length] in Hf. rewrite IH by (auto; lia). reflexivity.
Qed.

Lemma all_mi_nonempty n r : exists l, all_mi n r = repeat 0 n :: l.
Proof.
  destruct (all_mi_chain n r) as [_ H]. destruct (all_mi n r) as [|x l]; [discriminate|].
  injection H as ->. exists l. reflexivity.
Qed.

Lemma all_mi_length_bound n r : length (all_mi n r) <= S r ^ n.
Proof.
  induction n as [|n IH]; cbn [all_mi Nat.pow length]; [lia|].
  enough (H : forall L, length (flat_map (fun t => map (fun a => a :: t) (seq 0 (S (r - nsum t)))) L)
            <= S r * length L) by (specialize (H (all_mi n r)); nia).
  induction L as [|t L IHL]; cbn [flat_map length]; [lia|].
  rewrite app_length, map_length, seq_length. nia.
Qed.

Lemma drain_all n r fuel : length (all_mi n r) < fuel -> drain fuel (iter_new n r) = Ok (all_mi n r).
Proof.
  intros Hf. destruct (all_mi_nonempty n r) as [l El].
  destruct (all_mi_chain n r) as [HC _]. rewrite El in *.
  destruct fuel as [|fuel]; [lia|]. cbn [drain]. rewrite iter_next_new.
  cbn [length] in Hf.
  erewrite drain_chain; [reflexivity|exact HC|apply repeat_length| |lia].
  rewrite nsum_repeat0. lia.
Qed.

Theorem generate_all_eq n r : generate_all n r = Ok (all_mi n r).
Proof. apply drain_all. pose proof (all_mi_length_bound n r). lia. Qed.

(** ** Counting *)
Lemma binomial_0_r n : binomial n 0 = 1.
Proof. destruct n; reflexivity. Qed.

Lemma binomial_gt n k : n < k -> binomial n k = 0.
Proof.
  revert k; induction n as [|n IH]; intros [|k] H; cbn [binomial]; try lia.
  rewrite !IH by lia. reflexivity.
Qed.

Lemma binomial_diag n : binomial n n = 1.
Proof. induction n as [|n IH]; cbn [binomial]; [reflexivity|]. rewrite IH, binomial_gt by lia. lia. Qed.

Lemma binomial_fact n k : binomial (n + k) k * (fact n * fact k) = fact (n + k).
Proof.
  remember (n + k) as m eqn:Em. revert n k Em.
  induction m as [|m IH]; intros n k Em.
  - destruct n, k; try lia. reflexivity.
  - destruct k as [|k].
    + rewrite binomial_0_r. replace n with (S m) by lia. cbn [fact]. lia.
    + destruct n as [|n].
      * replace (S k) with (S m) by lia. rewrite binomial_diag. cbn [fact]. lia.
      * cbn [binomial].
        pose proof (IH (S n) k ltac:(lia)) as H1. pose proof (IH n (S k) ltac:(lia)) as H2.
        cbn [fact] in *. replace (S m) with (S n + S k) by lia.
        nia.
Qed.

Lemma binomial_sym n k : binomial (n + k) k = binomial (n + k) n.
Proof.
  pose proof (binomial_fact n k) as H1. pose proof (binomial_fact k n) as H2.
  rewrite (Nat.add_comm k n) in H2.
  pose proof (lt_O_fact n) as Hn. pose proof (lt_O_fact k) as Hk.
  rewrite (Nat.mul_comm (fact k)) in H2. rewrite <- H2 in H1.
  apply Nat.mul_cancel_r in H1; [exact H1 | nia].
Qed.

(** Pascal recursion on the enumeration: a multi-index either starts with 0
    or is obtained from one of smaller norm by incrementing the first
    component. *)
Definition incr_head (c : list nat) : list nat :=
  match c with [] => [] | a :: t => S a :: t end.

Lemma all_mi_pascal n r :
  Permutation (all_mi (S n) (S r))
              (map (cons 0) (all_mi n (S r)) ++ map incr_head (all_mi (S n) r)).
Proof.
  apply NoDup_Permutation.
  - apply NoDup_all_mi.
  - apply NoDup_app_intro.
    + apply NoDup_map_inj; [|apply NoDup_all_mi]. intros x y _ _ H; congruence.
    + apply NoDup_map_inj; [|apply NoDup_all_mi].
      intros x y Hx Hy H. apply in_all_mi in Hx as [Hx _]. apply in_all_mi in Hy as [Hy _].
      destruct x as [|a x], y as [|b y]; try discriminate. cbn in H. congruence.
    + intros x Hx Hy. apply in_map_iff in Hx as (t & <- & _).
      apply in_map_iff in Hy as (c & E & Hc). destruct c; cbn in E; discriminate.
  - intros x. rewrite in_app_iff, !in_map_iff. setoid_rewrite in_all_mi. split.
    + intros [Hl Hs]. destruct x as [|[|a] t]; [discriminate| |].
      * left. exists t. rewrite nsum_cons in Hs. cbn [length] in Hl. repeat split; lia.
      * right. exists (a :: t). rewrite nsum_cons in *. cbn [length incr_head] in *. repeat split; lia.
    + intros [(t & <- & Hl & Hs)|(c & <- & Hl & Hs)].
      * rewrite nsum_cons. cbn [length]. lia.
      * destruct c as [|a t]; [discriminate|]. cbn [incr_head length] in *. rewrite nsum_cons in *. lia.
Qed.

Lemma all_mi_r0 n : all_mi n 0 = [repeat 0 n].
Proof. induction n as [|n IH]; cbn [all_mi]; [reflexivity|]. rewrite IH. cbn [flat_map Nat.sub seq map app repeat]. reflexivity. Qed.

Theorem all_mi_length n r : length (all_mi n r) = binomial (n + r) r.
Proof.
  revert r; induction n as [|n IHn]; intros r.
  - cbn [all_mi length]. rewrite Nat.add_0_l, binomial_diag. reflexivity.
  - induction r as [|r IHr].
    + rewrite all_mi_r0, binomial_0_r. reflexivity.
    + rewrite (Permutation_length (all_mi_pascal n r)), app_length, !map_length, IHn, IHr.
      replace (S n + S r) with (S (n + S r)) by lia. cbn [binomial].
      replace (n + S r) with (S n + r) by lia. lia.
Qed.

(** ** Order *)
(** Number with the components as digits, component 0 least significant. *)
Fixpoint digits_value (b : nat) (c : list nat) : nat :=
  match c with [] => 0 | a :: t => a + b * digits_value b t end.

Lemma succ_value r b c c' :
  nsum c <= r -> r < b -> succ r c = Some c' -> digits_value b c < digits_value b c'.
Proof.
  revert c'; induction c as [|a t IH]; intros c' Hs Hb H; cbn [succ] in H; [discriminate|].
  rewrite nsum_cons in Hs.
  destruct (Nat.eqb_spec (a + nsum t) r) as [E|E].
  - destruct (succ r t) as [t'|] eqn:Ht; [|discriminate]. injection H as <-.
    specialize (IH t' ltac:(lia) Hb eq_refl). cbn [digits_value]. nia.
  - injection H as <-. cbn [digits_value]. lia.
Qed.

Lemma chain_sorted r b L :
  r < b -> Forall (fun t => nsum t <= r) L -> chain (succ r) L ->
  StronglySorted (fun x y => digits_value b x < digits_value b y) L.
Proof.
  intros Hb HF HC. apply Sorted_StronglySorted; [intros x y z; lia|].
  induction HC as [x Hx|x y l Hxy HC IH]; inversion HF; subst.
  - repeat constructor.
  - constructor; [apply IH; assumption|]. constructor. eapply succ_value; eassumption.
Qed.

Lemma all_mi_sorted n r b :
  r < b -> StronglySorted (fun x y => digits_value b x < digits_value b y) (all_mi n r).
Proof.
  intros Hb. eapply chain_sorted; [exact Hb|apply all_mi_bounded|apply all_mi_chain].
Qed.

Lemma StronglySorted_nth {A} (R : A -> A -> Prop) l d i j :
  StronglySorted R l -> i < j -> j < length l -> R (nth i l d) (nth j l d).
Proof.
  intros HS. revert i j; induction HS as [|a l HS IH HF]; intros i j Hij Hj; [cbn in Hj; lia|].
  cbn [length] in Hj. destruct j as [|j]; [lia|]. destruct i as [|i]; cbn [nth].
  - rewrite Forall_forall in HF. apply HF. apply nth_In. lia.
  - apply IH; lia.
Qed.

(** Reverse lexicographic order: compare the last differing component. *)
Inductive revlex : list nat -> list nat -> Prop :=
| revlex_here a b t : a < b -> revlex (a :: t) (b :: t)
| revlex_later a b t u : revlex t u -> revlex (a :: t) (b :: u).

(** ** generate and get_index *)
Lemma generate_from_chain n r l x i :
  chain (succ r) (x :: l) -> length x = n -> nsum x <= r ->
  generate_from (st_at n r x) i =
  match nth_error l i with Some c => Ok c | None => 
    if i =? length l then Err StopIteration else generate_from (st_at n r x) i end.
Proof.
  revert x i; induction l as [|y l IH]; intros x i HC Hx Hs.
  - destruct i as [|i]; cbn [generate_from nth_error length].
    + rewrite iter_next_at by assumption. inversion HC as [x' Hn|]; subst. rewrite Hn. reflexivity.
    + destruct (Nat.eqb_spec (S i) 0); [lia|]. reflexivity.
  - inversion HC as [|x' y' l' Hn HC']; subst. destruct (succ_inv _ _ _ Hs Hn) as [H1 H2].
    destruct i as [|i]; cbn [generate_from nth_error length].
    + rewrite iter_next_at by auto. rewrite Hn. reflexivity.
    + rewrite iter_next_at by auto. rewrite Hn.
      specialize (IH y i HC' H2 H1).
      change (S i =? S (length l)) with (i =? length l).
      destruct (nth_error l i); [exact IH|]. destruct (Nat.eqb_spec i (length l)); exact IH.
Qed.

(** After the last element [next] raises StopIteration, so a [generate] call
    that runs past the end raises StopIteration. *)
Lemma generate_from_past n r l x i :
  chain (succ r) (x :: l) -> length x = n -> nsum x <= r -> length l <= i ->
  generate_from (st_at n r x) i = Err StopIteration.
Proof.
  revert x i; induction l as [|y l IH]; intros x i HC Hx Hs Hi; inversion HC as [x' Hn|x' y' l' Hn HC']; subst.
  - destruct i as [|i]; cbn [generate_from]; rewrite iter_next_at by auto; rewrite Hn; reflexivity.
  - cbn [length] in Hi. destruct i as [|i]; [lia|].
    destruct (succ_inv _ _ _ Hs Hn) as [H1 H2].
    cbn [generate_from]. rewrite iter_next_at by auto. rewrite Hn.
    apply IH; auto; lia.
Qed.

Theorem generate_eq n r i :
  generate n r i = match nth_error (all_mi n r) i with Some c => Ok c | None => Err StopIteration end.
Proof.
  destruct (all_mi_nonempty n r) as [l El]. destruct (all_mi_chain n r) as [HC _]. rewrite El in *.
  assert (H0 : nsum (repeat 0 n) <= r) by (rewrite nsum_repeat0; lia).
  unfold generate. destruct i as [|i]; cbn [generate_from nth_error]; rewrite iter_next_new; [reflexivity|].
  destruct (nth_error l i) as [c|] eqn:E.
  - rewrite (generate_from_chain n r l) by (auto using repeat_length). rewrite E. reflexivity.
  - apply nth_error_None in E. apply (generate_from_past n r l); auto using repeat_length.
Qed.

(** Position of an element in a list, the specification of an index. *)
Fixpoint pos (l : list (list nat)) (x : list nat) : option nat :=
  match l with
  | [] => None
  | y :: t => if leqb x y then Some 0 else option_map S (pos t x)
  end.

Lemma pos_nth l x i : pos l x = Some i -> nth_error l i = Some x.
Proof.
  revert i; induction l as [|y l IH]; intros i H; cbn [pos] in H; [discriminate|].
  destruct (leqb x y) eqn:E.
  - injection H as <-. apply leqb_eq in E. cbn. congruence.
  - destruct (pos l x) as [k|]; [|discriminate]. injection H as <-. cbn. auto.
Qed.

Lemma pos_in l x : In x l -> exists i, pos l x = Some i.
Proof.
  induction l as [|y l IH]; intros H; [destruct H|]. cbn [pos].
  destruct (leqb x y) eqn:E; [eauto|].
  destruct H as [->|H]; [rewrite leqb_refl in E; discriminate|].
  destruct (IH H) as [i ->]. cbn. eauto.
Qed.

Lemma pos_not_in l x : ~ In x l -> pos l x = None.
Proof.
  destruct (pos l x) as [i|] eqn:E; [|reflexivity]. intros H. exfalso. apply H.
  apply pos_nth in E. eapply nth_error_In; eassumption.
Qed.

Lemma pos_nth_error l x i : NoDup l -> nth_error l i = Some x -> pos l x = Some i.
Proof.
  intros HN HI. destruct (pos_in l x) as [k Hk]; [eapply nth_error_In; eassumption|].
  rewrite Hk. f_equal. apply pos_nth in Hk.
  eapply NoDup_nth_error; [exact HN| |congruence]. apply nth_error_Some. congruence.
Qed.

Lemma search_chain n r l x mi idx fuel :
  chain (succ r) (x :: l) -> length x = n -> nsum x <= r -> length l < fuel ->
  search_index fuel (st_at n r x) mi idx =
  match pos l mi with Some i => Ok (idx + i) | None => Err ValueError end.
Proof.
  revert x idx fuel; induction l as [|y l IH]; intros x idx fuel HC Hx Hs Hf;
    (destruct fuel as [|fuel]; [lia|]); cbn [search_index pos]; rewrite iter_next_at by assumption;
    inversion HC as [x' Hn|x' y' l' Hn HC']; subst; rewrite Hn; [reflexivity|].
  destruct (leqb mi y); [f_equal; lia|].
  destruct (succ_inv _ _ _ Hs Hn) as [H1 H2]. cbn [length] in Hf.
  rewrite IH by (auto; lia).
  destruct (pos l mi) as [k|]; cbn [option_map]; [f_equal; lia|reflexivity].
Qed.

Lemma search_all n r mi fuel :
  length (all_mi n r) < fuel ->
  search_index fuel (iter_new n r) mi 0 =
  match pos (all_mi n r) mi with Some i => Ok i | None => Err ValueError end.
Proof.
  intros Hf. destruct (all_mi_nonempty n r) as [l El]. destruct (all_mi_chain n r) as [HC _]. rewrite El in *.
  destruct fuel as [|fuel]; [lia|]. cbn [search_index pos length] in *. rewrite iter_next_new.
  destruct (leqb mi (repeat 0 n)); [reflexivity|].
  rewrite (search_chain n r l) by (auto using repeat_length; rewrite ?nsum_repeat0; lia).
  destruct (pos l mi); reflexivity.
Qed.

(** get_index with an empty cache, i.e. by linear search. *)
Lemma get_index_search mi r :
  get_index_with [] mi r =
  if nsum mi <=? r then
    match pos (all_mi (length mi) r) mi with Some i => Ok i | None => Err ValueError end
  else Err AssertionError.
Proof.
  unfold get_index_with, norm, assert_. destruct (nsum mi <=? r); cbn [bind]; [|reflexivity].
  cbn [cache_find]. apply search_all. pose proof (all_mi_length_bound (length mi) r). lia.
Qed.

(** A cache is faithful when each of its tables is complete and agrees with
    the position in the enumeration; this is a decidable condition. *)
Definition table_ok (n r : nat) (d : list (list nat * nat)) : bool :=
  forallb (fun mi => match dict_get d mi, pos (all_mi n r) mi with
                     | Ok i, Some j => i =? j | _, _ => false end) (all_mi n r).
Definition cache_ok (cache : order_cache) : bool :=
  forallb (fun e => table_ok (fst (fst e)) (snd (fst e)) (snd e)) cache.

Lemma cache_find_in cache n r d : cache_find cache n r = Some d -> In ((n, r), d) cache.
Proof.
  induction cache as [|[[n' r'] d'] c IH]; cbn [cache_find]; intros H; [discriminate|].
  destruct (Nat.eqb_spec n' n), (Nat.eqb_spec r' r); cbn [andb] in H; subst; try (right; auto; fail).
  left. congruence.
Qed.

Theorem get_index_cache cache mi r :
  cache_ok cache = true -> get_index_with cache mi r = get_index_with [] mi r.
Proof.
  intros Hc. rewrite get_index_search. unfold get_index_with, norm, assert_.
  destruct (Nat.leb_spec (nsum mi) r) as [Hs|Hs]; cbn [bind]; [|reflexivity].
  destruct (cache_find cache (length mi) r) as [d|] eqn:E.
  - apply cache_find_in in E. unfold cache_ok in Hc. rewrite forallb_forall in Hc.
    specialize (Hc _ E). cbn [fst snd] in Hc. unfold table_ok in Hc. rewrite forallb_forall in Hc.
    specialize (Hc mi). rewrite in_all_mi in Hc. specialize (Hc (conj eq_refl Hs)).
    destruct (dict_get d mi) as [i|]; [|discriminate].
    destruct (pos (all_mi (length mi) r) mi) as [j|]; [|discriminate].
    apply Nat.eqb_eq in Hc. congruence.
  - apply search_all. pose proof (all_mi_length_bound (length mi) r). lia.
Qed.

Lemma pos_bound l x i : pos l x = Some i -> i < length l.
Proof. intros H. apply pos_nth in H. apply nth_error_Some. congruence. Qed.
