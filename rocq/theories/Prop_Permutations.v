(** Property theorems for permutations and finite sets (C11-C20). *)
From Verif Require Import Base MultiIndex MultiIndexFacts MultiCapFacts Permutations PermFacts CycleFacts PermEnum PermMisc SetTheory.

(** ** C11 *)
Theorem C11_composition : forall n s p, 0 < n ->
  Permutation (seq 0 n) s -> Permutation (seq 0 n) p ->
  exists t, composition s p = Ok t /\ Permutation (seq 0 n) t /\
    forall i, i < n -> nth i t 0 = nth (nth i p 0) s 0.
Proof.
  intros n s p Hn Hs Hp. destruct (composition_spec n s p Hn (is_perm_length _ _ Hs) Hp) as (t & E & HL & H).
  exists t. split; [exact E|]. split; [exact (composition_perm n s p t Hn Hs Hp HL H)|exact H].
Qed.
Print Assumptions C11_composition.

Theorem C11_group_laws : forall n a b c, 0 < n ->
  Permutation (seq 0 n) a -> Permutation (seq 0 n) b -> Permutation (seq 0 n) c ->
  (let* ab := composition a b in composition ab c) = (let* bc := composition b c in composition a bc) /\
  composition a (identity n) = Ok a /\ composition (identity n) a = Ok a /\
  exists a', inverse a = Ok a' /\ Permutation (seq 0 n) a' /\
    composition a a' = Ok (identity n) /\ composition a' a = Ok (identity n).
Proof.
  intros n a b c Hn Ha Hb Hc.
  assert (Hext : forall t u, length t = n -> length u = n -> (forall i, i < n -> nth i t 0 = nth i u 0) -> t = u).
  { intros t u Ht Hu H. apply (list_eq_nth 0); [congruence|]. rewrite Ht. exact H. }
  pose proof (is_perm_length _ _ Ha) as La. pose proof (is_perm_id n) as Hid.
  split; [|split; [|split]].
  - destruct (C11_composition n a b Hn Ha Hb) as (ab & E1 & P1 & H1).
    destruct (C11_composition n b c Hn Hb Hc) as (bc & E2 & P2 & H2). rewrite E1, E2. cbn [bind].
    destruct (C11_composition n ab c Hn P1 Hc) as (t & E3 & P3 & H3).
    destruct (C11_composition n a bc Hn Ha P2) as (u & E4 & P4 & H4). rewrite E3, E4. f_equal.
    apply Hext; [apply (is_perm_length _ _ P3)|apply (is_perm_length _ _ P4)|].
    intros i Hi. rewrite H3, H4, H2 by exact Hi. apply H1. apply (is_perm_nth n c); auto.
  - destruct (C11_composition n a (identity n) Hn Ha Hid) as (t & E & P & H). rewrite E. f_equal.
    apply Hext; auto; [apply (is_perm_length _ _ P)|]. intros i Hi. rewrite H by exact Hi.
    unfold identity. rewrite nth_seq0 by exact Hi. reflexivity.
  - destruct (C11_composition n (identity n) a Hn Hid Ha) as (t & E & P & H). rewrite E. f_equal.
    apply Hext; auto; [apply (is_perm_length _ _ P)|]. intros i Hi. rewrite H by exact Hi.
    apply nth_seq0. apply (is_perm_nth n a); auto.
  - destruct (inverse_full n a Hn Ha) as (a' & E & P & H1 & H2). exists a'. split; [exact E|]. split; [exact P|]. split.
    + destruct (C11_composition n a a' Hn Ha P) as (t & E' & P' & H). rewrite E'. f_equal.
      apply Hext; [apply (is_perm_length _ _ P')|apply seq_length|]. intros i Hi. rewrite H by exact Hi.
      unfold identity. rewrite nth_seq0 by exact Hi. auto.
    + destruct (C11_composition n a' a Hn P Ha) as (t & E' & P' & H). rewrite E'. f_equal.
      apply Hext; [apply (is_perm_length _ _ P')|apply seq_length|]. intros i Hi. rewrite H by exact Hi.
      unfold identity. rewrite nth_seq0 by exact Hi. auto.
Qed.
Print Assumptions C11_group_laws.

(** from_two_line_notation accepts the columns in any order. *)
Theorem C11_two_line_any_order : forall n p top bottom, 0 < n -> Permutation (seq 0 n) p ->
  length top = length bottom ->
  Permutation (combine (fst (to_two_line_notation p)) (snd (to_two_line_notation p))) (combine top bottom) ->
  from_two_line_notation (top, bottom) = Ok p.
Proof.
  intros n p top bottom Hn HP HL HC. pose proof (is_perm_length _ _ HP) as Lp.
  unfold to_two_line_notation in HC. cbn [fst snd] in HC.
  unfold from_two_line_notation. cbn [fst snd]. set (s := sort pair_leb (combine top bottom)).
  assert (HPs : Permutation (combine (seq 0 (length p)) p) s) by (etransitivity; [exact HC|apply sort_perm]).
  assert (Ls : length s = n).
  { apply Permutation_length in HPs. rewrite combine_length, seq_length in HPs. lia. }
  rewrite second_line_ok by lia. f_equal.
  apply (list_eq_nth 0); [rewrite map_length; lia|]. rewrite map_length, Ls. intros i Hi.
  destruct (sorted_keys n s (0,0)) with (k := i) as [v Hv]; auto.
  - unfold is_perm. apply (Permutation_map fst) in HPs. rewrite combine_fst in HPs by apply seq_length.
    rewrite <- HPs, Lp. reflexivity.
  - eapply StronglySorted_impl; [exact pair_leb_fst|]. apply sort_sorted; [apply pair_leb_total|apply pair_leb_trans].
  - change 0 with (snd (0,0)) at 1. rewrite map_nth, Hv. cbn [snd].
    assert (HI : In (i, v) (combine (seq 0 (length p)) p)).
    { eapply Permutation_in; [symmetry; exact HPs|]. rewrite <- Hv. apply nth_In. lia. }
    apply (in_combine_nth _ _ _ _ 0 0) in HI as (j & Hj & Hj' & E1 & E2).
    rewrite nth_seq0 in E1 by lia. subst. reflexivity.
Qed.
Print Assumptions C11_two_line_any_order.

Theorem C11_empty_permutation_fails :
  inverse [] = Err IndexError /\ composition [] [] = Err IndexError /\
  from_two_line_notation ([], []) = Err IndexError.
Proof. repeat split. Qed.
Print Assumptions C11_empty_permutation_fails.

Theorem C11_one_based_roundtrip : forall p, from_one_based (to_one_based p) = p /\
  (Forall (fun x => 1 <= x) p -> to_one_based (from_one_based p) = p).
Proof.
  intros p. unfold from_one_based, to_one_based. rewrite !map_map. split.
  - rewrite <- (map_id p) at 2. apply map_ext. intros; lia.
  - induction 1 as [|x l Hx _ IH]; cbn [map]; [reflexivity|]. rewrite IH. f_equal. lia.
Qed.
Print Assumptions C11_one_based_roundtrip.

Example C11_example : Permutation (seq 0 3) [1;2;0] /\ inverse [1;2;0] = Ok [2;0;1] /\
  composition [1;2;0] [0;2;1] = Ok [1;0;2].
Proof.
  split; [|split; reflexivity]. apply (is_perm_intro 3); [reflexivity| |].
  - repeat constructor; cbn; lia.
  - intros i [<-|[<-|[<-|[]]]]; lia.
Qed.

(** ** C12 *)
Theorem C12_cycle_terminates : forall n p i, Permutation (seq 0 n) p -> i < n ->
  exists c, cycle p i = Ok c /\ NoDup c /\ 0 < length c /\
    (forall k, k < length c -> nth k c 0 = Nat.iter k (fun j => nth j p 0) i) /\
    Nat.iter (length c) (fun j => nth j p 0) i = i.
Proof.
  intros n p i HP Hi. destruct (cycle_spec n p HP i (length p) Hi) as (t & E & Hc).
  { rewrite (is_perm_length _ _ HP); lia. }
  destruct Hc as (x & t' & Ex & HPa & HN & HB). injection Ex as <- <-.
  exists (i :: t). split; [exact E|]. split; [exact HN|]. split; [cbn; lia|]. split.
  - intros k Hk. apply (path_iter _ _ _ _ _ HPa Hk).
  - symmetry. apply (path_end_iter _ _ _ _ HPa).
Qed.
Print Assumptions C12_cycle_terminates.

(** The number of loop iterations never matters once it is at least n: the
    model's loop bound is not what stops the loop. *)
Theorem C12_cycle_bound_irrelevant : forall n p i fuel, Permutation (seq 0 n) p -> i < n -> n <= fuel ->
  cycle_fuel fuel p i = cycle p i.
Proof.
  intros n p i fuel HP Hi Hf. unfold cycle.
  pose proof (is_perm_length _ _ HP) as HL.
  assert (G : forall f1 f2 acc x c, cycle_loop f1 p i acc x = Ok c -> f1 <= f2 -> cycle_loop f2 p i acc x = Ok c).
  { induction f1 as [|f1 IH]; intros f2 acc x c H Hle; [discriminate|]. destruct f2 as [|f2]; [lia|].
    cbn [cycle_loop] in *. destruct (x =? i); [exact H|]. destruct (get p x); [|discriminate]. cbn [bind] in *.
    apply IH; [exact H|lia]. }
  destruct (cycle_spec n p HP i (length p) Hi) as (t & E & _); [lia|]. rewrite E.
  unfold cycle_fuel in *. destruct (get p i); [|discriminate]. cbn [bind] in *. eapply G; [exact E|lia].
Qed.
Print Assumptions C12_cycle_bound_irrelevant.

Theorem C12_cycles_partition : forall n p, Permutation (seq 0 n) p ->
  exists cs, to_cycle_notation p = Ok cs /\ Permutation (seq 0 n) (concat cs) /\
    (forall c, In c cs -> 0 < length c /\
       forall k, k < length c -> nth (nth k c 0) p 0 = nth (if S k =? length c then 0 else S k) c 0).
Proof.
  intros n p HP. destruct (to_cycle_notation_spec n p HP) as (cs & E & Hc & HPc).
  exists cs. split; [exact E|]. split; [exact HPc|]. intros c Hcc. rewrite Forall_forall in Hc.
  destruct (Hc c Hcc) as (x & t & -> & HPa & _ & _). split; [cbn; lia|]. intros k Hk.
  rewrite (path_iter _ _ _ _ _ HPa Hk). destruct (Nat.eqb_spec (S k) (length (x :: t))) as [Ek|Ek].
  - cbn [nth]. rewrite (path_end_iter _ _ _ _ HPa) at 2. rewrite <- Ek. reflexivity.
  - rewrite (path_iter _ _ _ _ _ HPa) by lia. reflexivity.
Qed.
Print Assumptions C12_cycles_partition.

Theorem C12_cycle_roundtrip : forall n p, Permutation (seq 0 n) p ->
  exists cs, to_cycle_notation p = Ok cs /\ from_cycle_notation cs n = Ok p.
Proof. exact cycle_roundtrip. Qed.
Print Assumptions C12_cycle_roundtrip.

(** Cycles of length one may be left out. *)
Theorem C12_trivial_cycles_optional : forall n p cs, Permutation (seq 0 n) p -> to_cycle_notation p = Ok cs ->
  from_cycle_notation (filter (fun c => 1 <? length c) cs) n = Ok p.
Proof.
  intros n p cs HP E. destruct (to_cycle_notation_spec n p HP) as (cs' & E' & Hc & HPc).
  rewrite E in E'. injection E' as <-.
  assert (G : forall (l : list (list nat)), (forall x, In x (concat (filter (fun c => 1 <? length c) l)) -> In x (concat l)) /\
     (NoDup (concat l) -> NoDup (concat (filter (fun c => 1 <? length c) l)))).
  { induction l as [|c l [IH1 IH2]]; [split; auto|]. cbn [filter concat]. destruct (1 <? length c); cbn [concat].
    - split; [intros x; rewrite !in_app_iff; firstorder|]. intros H. apply NoDup_app_intro.
      + eapply NoDup_app_l; exact H.
      + apply IH2. eapply NoDup_app_r; exact H.
      + intros x Hx Hx'. apply IH1 in Hx'. eapply NoDup_app_disj; eauto.
    - split; [intros x; rewrite in_app_iff; auto|]. intros H. apply IH2. eapply NoDup_app_r; exact H. }
  apply from_cycle_notation_spec; [exact HP| | |].
  - apply Forall_forall. intros c Hcc. apply filter_In in Hcc as [Hcc _]. rewrite Forall_forall in Hc. auto.
  - apply G. eapply is_perm_NoDup; exact HPc.
  - intros i Hi Hn. assert (Hin : In i (concat cs)) by (apply (is_perm_in _ _ _ HPc); exact Hi).
    apply in_concat in Hin as (c & Hcc & Hic).
    assert (length c <= 1).
    { destruct (Nat.le_gt_cases (length c) 1) as [|Hgt]; [assumption|]. exfalso. apply Hn. apply in_concat.
      exists c. split; [|exact Hic]. apply filter_In. split; [exact Hcc|]. apply Nat.ltb_lt. exact Hgt. }
    rewrite Forall_forall in Hc. destruct (Hc c Hcc) as (x & t & -> & HPa & _).
    destruct t; [|cbn in H; lia]. destruct Hic as [<-|[]]. exact HPa.
Qed.
Print Assumptions C12_trivial_cycles_optional.

Example C12_example : to_cycle_notation [2;1;4;3;0] = Ok [[0;2;4];[1];[3]] /\
  from_cycle_notation [[0;2;4]] 5 = Ok [2;1;4;3;0].
Proof. split; reflexivity. Qed.

(** ** C13 *)
Theorem C13_transposition_roundtrip : forall n p, Permutation (seq 0 n) p ->
  exists ts cs, to_transpositions p = Ok ts /\ to_cycle_notation p = Ok cs /\
    from_transpositions ts n = Ok p /\ length ts + length cs = n /\
    sign p = Ok ((-1) ^ Z.of_nat (length ts))%Z /\
    (forall i j, In (i, j) ts -> i < n /\ j < n /\ i <> j).
Proof.
  intros n p HP. destruct (transposition_roundtrip n p HP) as (ts & cs & E1 & E2 & E3 & E4 & E5).
  exists ts, cs. repeat (split; [assumption|]). split.
  - unfold sign. unfold to_transpositions in E1. rewrite E2 in *. cbn [bind] in *. injection E1 as <-.
    destruct (to_cycle_notation_spec n p HP) as (cs' & E' & Hc & _). rewrite E2 in E'. injection E' as <-.
    rewrite !pow_m1, (even_cycles_parity n p) by exact Hc. reflexivity.
  - intros i j H. rewrite Forall_forall in E5. exact (E5 _ H).
Qed.
Print Assumptions C13_transposition_roundtrip.

Example C13_example : to_transpositions [2;1;4;3;0] = Ok [(0,2);(0,4)] /\ from_transpositions [(0,2);(0,4)] 5 = Ok [2;1;4;3;0].
Proof. split; reflexivity. Qed.

(** ** C14 *)
(** Number of pairs i < j with p_i > p_j. *)
Fixpoint inversion_count (l : list nat) : nat :=
  match l with
  | [] => 0
  | x :: t => length (filter (fun y => y <? x) t) + inversion_count t
  end.

Theorem C14_sign_is_inversion_parity : forall n p, Permutation (seq 0 n) p ->
  sign p = Ok ((-1) ^ Z.of_nat (inversion_count p))%Z.
Proof. exact sign_inversions. Qed.
Print Assumptions C14_sign_is_inversion_parity.

Theorem C14_sign_homomorphism : forall n s p, 0 < n ->
  Permutation (seq 0 n) s -> Permutation (seq 0 n) p ->
  exists t a b, composition s p = Ok t /\ sign s = Ok a /\ sign p = Ok b /\ sign t = Ok (a * b)%Z.
Proof. exact sign_composition. Qed.
Print Assumptions C14_sign_homomorphism.

Theorem C14_swap_flips_sign : forall n p i j, Permutation (seq 0 n) p -> i < n -> j < n -> i <> j ->
  exists q a, swap p (i, j) = Ok q /\ Permutation (seq 0 n) q /\ sign p = Ok a /\ sign q = Ok (- a)%Z.
Proof.
  intros n p i j HP Hi Hj Hij. pose proof (is_perm_length _ _ HP) as HL.
  exists (swapf p i j), ((-1) ^ Z.of_nat (inversions p))%Z.
  assert (HQ : is_perm n (swapf p i j)) by (unfold is_perm; rewrite <- swapf_perm by lia; exact HP).
  split; [apply swap_spec; lia|]. split; [exact HQ|]. split; [apply (sign_inversions n), HP|].
  rewrite (sign_inversions n) by exact HQ. f_equal. rewrite !pow_m1.
  rewrite swapf_parity; [|eapply is_perm_NoDup; exact HP|lia|lia|exact Hij]. destruct (Nat.odd _); reflexivity.
Qed.
Print Assumptions C14_swap_flips_sign.

Theorem C14_sign_identity_inverse : forall n, sign (identity n) = Ok 1%Z /\
  forall p q, Permutation (seq 0 n) p -> inverse p = Ok q -> sign q = sign p.
Proof.
  intros n. split.
  - rewrite (sign_inversions n) by apply is_perm_id. unfold identity. rewrite inversions_seq. reflexivity.
  - intros p q HP Hq. destruct n as [|n].
    { apply is_perm_length in HP. destruct p; [discriminate Hq|discriminate HP]. }
    destruct (inverse_full (S n) p ltac:(lia) HP) as (q' & E & HQ & _). rewrite Hq in E. injection E as <-.
    destruct (C14_sign_homomorphism (S n) p q ltac:(lia) HP HQ) as (t & a & b & Et & Ea & Eb & Eab).
    destruct (C11_group_laws (S n) p p p ltac:(lia) HP HP HP) as (_ & _ & _ & a' & Ea' & _ & Hc & _).
    rewrite Hq in Ea'. injection Ea' as <-. rewrite Hc in Et. injection Et as <-.
    rewrite (sign_inversions (S n)) in Eab by apply is_perm_id. unfold identity in Eab.
    rewrite inversions_seq in Eab. injection Eab as Eab. cbn in Eab.
    rewrite Ea, Eb. f_equal. destruct (sign_pm _ _ Ea) as [-> | ->], (sign_pm _ _ Eb) as [-> | ->]; lia.
Qed.
Print Assumptions C14_sign_identity_inverse.

Example C14_example : sign [2;1;4;3;0] = Ok 1%Z /\ inversion_count [2;1;4;3;0] = 6 /\ sign [1;0;2] = Ok (-1)%Z.
Proof. repeat split. Qed.

(** ** C15 *)
Theorem C15_permutations_complete : forall n, 0 < n ->
  NoDup (permutations n) /\ (forall p, In p (permutations n) <-> Permutation (seq 0 n) p) /\
  length (permutations n) = fact n.
Proof.
  intros n Hn. unfold permutations, subset_permutations.
  replace ((Z.of_nat n <=? 0) || (Z.of_nat n <? Z.of_nat n))%Z with false
    by (symmetry; apply orb_false_iff; split; [apply Z.leb_gt|apply Z.ltb_ge]; lia).
  rewrite Nat2Z.id. split; [apply NoDup_gen_subset, seq_NoDup|]. split.
  - intros p. rewrite in_gen_subset by apply seq_NoDup. split.
    + intros (H1 & H2 & H3). apply is_perm_intro; auto. intros i Hi. apply H3, in_seq in Hi. lia.
    + intros H. split; [apply is_perm_length, H|]. split; [eapply is_perm_NoDup; exact H|].
      intros x Hx. eapply Permutation_in; [symmetry; exact H|exact Hx].
  - pose proof (length_gen_subset n (seq 0 n)) as H. rewrite seq_length in H. specialize (H (Nat.le_refl n)).
    rewrite Nat.sub_diag in H. cbn [fact] in H. lia.
Qed.
Print Assumptions C15_permutations_complete.

Theorem C15_subset_permutations_complete : forall n k, 0 < k <= n ->
  NoDup (subset_permutations n (Z.of_nat k)) /\
  (forall l, In l (subset_permutations n (Z.of_nat k)) <-> length l = k /\ NoDup l /\ Forall (fun x => x < n) l) /\
  length (subset_permutations n (Z.of_nat k)) * fact (n - k) = fact n.
Proof.
  intros n k Hk. unfold subset_permutations.
  replace ((Z.of_nat k <=? 0) || (Z.of_nat n <? Z.of_nat k))%Z with false
    by (symmetry; apply orb_false_iff; split; [apply Z.leb_gt|apply Z.ltb_ge]; lia).
  rewrite Nat2Z.id. split; [apply NoDup_gen_subset, seq_NoDup|]. split.
  - intros l. rewrite in_gen_subset by apply seq_NoDup. rewrite Forall_forall.
    split; intros (H1 & H2 & H3); repeat split; auto; intros x Hx; specialize (H3 x Hx); rewrite in_seq in *; lia.
  - pose proof (length_gen_subset k (seq 0 n)) as H. rewrite seq_length in H. apply H. lia.
Qed.
Print Assumptions C15_subset_permutations_complete.

Theorem C15_increasing_complete : forall n k, 0 < k <= n ->
  NoDup (increasing_subset_permutations n (Z.of_nat k)) /\
  (forall l, In l (increasing_subset_permutations n (Z.of_nat k)) <->
     length l = k /\ StronglySorted lt l /\ Forall (fun x => x < n) l) /\
  length (increasing_subset_permutations n (Z.of_nat k)) * (fact (n - k) * fact k) = fact n.
Proof.
  intros n k Hk. unfold increasing_subset_permutations.
  replace ((Z.of_nat k <=? 0) || (Z.of_nat n <? Z.of_nat k))%Z with false
    by (symmetry; apply orb_false_iff; split; [apply Z.leb_gt|apply Z.ltb_ge]; lia).
  rewrite Nat2Z.id.
  assert (HS : StronglySorted lt (seq 0 n)).
  { clear Hk. generalize 0. induction n as [|m IH]; intros a; cbn; constructor; [apply IH|].
    apply Forall_forall. intros x Hx. apply in_seq in Hx. lia. }
  split; [apply NoDup_gen_increasing, HS|]. split.
  - intros l. rewrite in_gen_increasing by exact HS. rewrite Forall_forall.
    split; intros (H1 & H2 & H3); repeat split; auto; intros x Hx; specialize (H3 x Hx); rewrite in_seq in *; lia.
  - rewrite length_gen_increasing, seq_length. destruct (Nat.ltb_spec n k); [lia|].
    pose proof (binomial_fact (n - k) k) as H1. replace (n - k + k) with n in H1 by lia. exact H1.
Qed.
Print Assumptions C15_increasing_complete.

Theorem C15_degenerate_k : forall n k, (k <= 0 \/ Z.of_nat n < k)%Z ->
  subset_permutations n k = [] /\ increasing_subset_permutations n k = [].
Proof.
  intros n k H. unfold subset_permutations, increasing_subset_permutations.
  replace ((k <=? 0) || (Z.of_nat n <? k))%Z with true; [auto|].
  symmetry. apply orb_true_iff. rewrite Z.leb_le, Z.ltb_lt. exact H.
Qed.
Print Assumptions C15_degenerate_k.

Example C15_example : permutations 3 = [[0;1;2];[0;2;1];[1;0;2];[1;2;0];[2;0;1];[2;1;0]] /\
  increasing_subset_permutations 3 2 = [[0;1];[0;2];[1;2]].
Proof. split; reflexivity. Qed.

(** ** C16 *)
(** [cs] is a possible sequence of results of the calls
    [random.randint(0, n - 1 - i)], i = 0 .. n - 2. *)
Definition randint_results (n : nat) (cs : list nat) : Prop :=
  length cs = n - 1 /\ forall i, i < n - 1 -> nth i cs 0 <= n - 1 - i.

Lemma randint_results_valid n cs : randint_results n cs <-> valid_choices n 0 (n - 1) cs.
Proof.
  unfold randint_results.
  assert (G : forall m i0 cs, (length cs = m /\ forall i, i < m -> nth i cs 0 <= n - 1 - (i0 + i)) <-> valid_choices n i0 m cs).
  { clear. induction m as [|m IH]; intros i0 cs; destruct cs as [|c cs]; cbn [valid_choices length].
    - split; [auto|]. intros _. split; [reflexivity|lia].
    - split; [intros [H _]; discriminate|tauto].
    - split; [intros [H _]; discriminate|tauto].
    - rewrite <- IH. split.
      + intros [H1 H2]. split; [specialize (H2 0 ltac:(lia)); cbn in H2; lia|]. split; [lia|].
        intros i Hi. specialize (H2 (S i) ltac:(lia)). cbn [nth] in H2. lia.
      + intros (H1 & H2 & H3). split; [lia|]. intros [|i] Hi; cbn [nth]; [lia|]. specialize (H3 i ltac:(lia)). lia. }
  rewrite <- G. cbn [Nat.add]. tauto.
Qed.

Theorem C16_random_permutation : forall n cs, 0 < n -> randint_results n cs ->
  exists p, generate_random_permutation cs n = Ok p /\ Permutation (seq 0 n) p.
Proof.
  intros n cs Hn Hc. apply randint_results_valid in Hc.
  destruct (shuffle_spec n (n - 1) 0 (seq 0 n) cs) as (p & E & Hp & _); auto using is_perm_id; [lia|]. eauto.
Qed.
Print Assumptions C16_random_permutation.

(** The map from random choices to permutations is a bijection onto the n!
    permutations, so uniform independent choices give a uniform permutation. *)
Theorem C16_random_permutation_bijective : forall n, 0 < n ->
  (forall cs cs' p, randint_results n cs -> randint_results n cs' ->
     generate_random_permutation cs n = Ok p -> generate_random_permutation cs' n = Ok p -> cs = cs') /\
  (forall p, Permutation (seq 0 n) p -> exists cs, randint_results n cs /\ generate_random_permutation cs n = Ok p).
Proof.
  intros n Hn. split.
  - intros cs cs' p H H' E E'. apply randint_results_valid in H, H'.
    eapply (shuffle_inj n (n - 1) 0 (seq 0 n)); eauto using is_perm_id. lia.
  - intros p HP. destruct (shuffle_surj n p HP (n - 1) 0 (seq 0 n)) as (cs & Hv & E); auto using is_perm_id; [intros; lia|].
    exists cs. split; [apply randint_results_valid, Hv|exact E].
Qed.
Print Assumptions C16_random_permutation_bijective.

Lemma SS_le_lt l : NoDup l -> StronglySorted le l -> StronglySorted lt l.
Proof.
  intros HN HS. induction HS as [|x l HS IH HF]; [constructor|]. inversion HN as [|? ? Hx HN']; subst.
  constructor; [auto|]. rewrite Forall_forall in *. intros y Hy. specialize (HF y Hy).
  assert (x <> y) by (intros ->; contradiction). lia.
Qed.

Theorem C16_random_subsets : forall n k cs, 0 < n -> k <= n -> randint_results n cs ->
  exists p q, generate_random_subset_permutation cs n k = Ok p /\
    generate_random_increasing_subset_permutation cs n k = Ok q /\
    length p = k /\ NoDup p /\ Forall (fun x => x < n) p /\
    length q = k /\ StronglySorted lt q /\ Permutation p q.
Proof.
  intros n k cs Hn Hk Hc. destruct (C16_random_permutation n cs Hn Hc) as (p & E & HP).
  exists (firstn k p), (sort Nat.leb (firstn k p)).
  unfold generate_random_increasing_subset_permutation, generate_random_subset_permutation. rewrite E. cbn [bind].
  pose proof (is_perm_NoDup _ _ HP) as HN. rewrite <- (firstn_skipn k p) in HN. apply NoDup_app_l in HN.
  assert (HL : length (firstn k p) = k) by (rewrite firstn_length, (is_perm_length _ _ HP); lia).
  split; [reflexivity|]. split; [reflexivity|]. split; [exact HL|]. split; [exact HN|]. split.
  { apply Forall_forall. intros x Hx. apply (is_perm_in n p); [exact HP|]. rewrite <- (firstn_skipn k p).
    apply in_app_iff. auto. }
  pose proof (sort_perm Nat.leb (firstn k p)) as HPs.
  split; [rewrite <- (Permutation_length HPs); exact HL|]. split; [|exact HPs].
  apply SS_le_lt; [eapply Permutation_NoDup; eauto|].
  eapply StronglySorted_impl; [|apply sort_sorted].
  - intros x y H. apply Nat.leb_le, H.
  - intros x y. rewrite !Nat.leb_le. lia.
  - intros x y z. rewrite !Nat.leb_le. lia.
Qed.
Print Assumptions C16_random_subsets.

Example C16_example : randint_results 4 [2;0;1] /\ generate_random_permutation [2;0;1] 4 = Ok [2;1;3;0].
Proof. split; [|reflexivity]. split; [reflexivity|]. intros [|[|[|i]]] Hi; cbn; lia. Qed.

(** ** C17 *)
Theorem C17_construct_permutation : forall domain codomain n,
  length domain = length codomain -> NoDup domain -> NoDup codomain ->
  Forall (fun x => x < n) domain -> Forall (fun x => x < n) codomain ->
  exists p, construct_permutation domain codomain n = Ok p /\ Permutation (seq 0 n) p /\
    forall i, i < length domain -> nth (nth i domain 0) p 0 = nth i codomain 0.
Proof.
  intros dom cod n HL HD HC HBd HBc. unfold construct_permutation. rewrite HL, Nat.eqb_refl. cbn [assert_ bind].
  destruct (construct_spec n (combine dom cod) (seq 0 n) []) as (p & E & Hp & H).
  - apply is_perm_id.
  - intros d c Hdc. apply (in_combine_nth _ _ _ _ 0 0) in Hdc as (i & Hi & Hi' & <- & <-).
    rewrite Forall_forall in *. auto using nth_In.
  - cbn [app]. rewrite combine_fst by exact HL. exact HD.
  - cbn [app]. rewrite combine_snd by exact HL. exact HC.
  - intros d c [].
  - exists p. split; [exact E|]. split; [exact Hp|]. intros i Hi. apply H. cbn [app].
    rewrite <- (combine_nth _ _ _ _ _ HL). apply nth_In. rewrite combine_length. lia.
Qed.
Print Assumptions C17_construct_permutation.

Theorem C17_construct_permutation_general : forall (A : Type) (eqb : A -> A -> bool) (d : A),
  (forall x y, eqb x y = true <-> x = y) ->
  forall domain codomain : list A, NoDup domain -> Permutation domain codomain -> domain <> [] ->
  exists p q, construct_permutation_general eqb domain codomain true = Ok p /\
    construct_permutation_general eqb domain codomain false = Ok q /\
    Permutation (seq 0 (length domain)) p /\ Permutation (seq 0 (length domain)) q /\
    forall i, i < length domain ->
      nth i codomain d = nth (nth i p 0) domain d /\ nth (nth i q 0) codomain d = nth i domain d.
Proof.
  intros A eqb d Heq dom cod HN HP Hne.
  destruct (construct_general_spec eqb Heq dom cod HN HP) as (p & E & Hp & H).
  assert (Hn : 0 < length dom) by (destruct dom; [congruence|cbn; lia]).
  destruct (inverse_full _ p Hn Hp) as (q & Eq & Hq & H1 & H2). exists p, q. split; [exact E|]. split.
  { unfold construct_permutation_general in *. destruct (mapM _ cod); [|discriminate]. cbn [bind] in *.
    injection E as ->. exact Eq. }
  split; [exact Hp|]. split; [exact Hq|].
  assert (G : forall i, i < length dom -> nth i cod d = nth (nth i p 0) dom d).
  { intros i Hi. specialize (H i Hi). pose proof (is_perm_nth _ _ _ Hp Hi) as Hpi.
    rewrite (nth_error_nth' _ d Hpi), (nth_error_nth' cod d) in H by (rewrite <- (Permutation_length HP); exact Hi).
    congruence. }
  intros i Hi. split; [apply G, Hi|]. rewrite G by (apply (is_perm_nth _ _ _ Hq Hi)). rewrite H2 by exact Hi. reflexivity.
Qed.
Print Assumptions C17_construct_permutation_general.

Theorem C17_construct_general_foreign_element : forall (A : Type) (eqb : A -> A -> bool),
  (forall x y, eqb x y = true <-> x = y) ->
  forall (domain codomain : list A) b c, In c codomain -> ~ In c domain ->
  construct_permutation_general eqb domain codomain b = Err KeyError.
Proof. intros A eqb Heq domain codomain b c. apply construct_general_missing. exact Heq. Qed.
Print Assumptions C17_construct_general_foreign_element.

Example C17_example : construct_permutation [0;2] [3;1] 4 = Ok [3;2;1;0] /\
  construct_permutation_general Nat.eqb [7;5;9] [9;7;5] true = Ok [2;0;1].
Proof. split; reflexivity. Qed.

(** ** C18 *)
Theorem C18_permute_values : forall (A : Type) (d : A) n p (s : list A),
  Permutation (seq 0 n) p -> length s = n ->
  exists s', permute_values p s = Ok s' /\ length s' = n /\
    forall i, i < n -> nth i s' d = nth (nth i p 0) s d.
Proof.
  intros A d n p s HP HL. pose proof (is_perm_length _ _ HP) as Lp.
  destruct (permute_values_spec d p s) as (s' & E & HL' & H & _); [lia| |].
  - intros x Hx. rewrite HL. apply (is_perm_in n p); auto.
  - exists s'. split; [exact E|]. split; [lia|]. intros i Hi. apply H. lia.
Qed.
Print Assumptions C18_permute_values.

Theorem C18_permute_positions : forall (A : Type) (d : A) n p (s : list A), 0 < n ->
  Permutation (seq 0 n) p -> length s = n ->
  exists s', permute_positions p s = Ok s' /\ length s' = n /\
    (forall i, i < n -> nth (nth i p 0) s' d = nth i s d) /\
    permute_values p s' = Ok s /\
    (let* t := permute_values p s in permute_positions p t) = Ok s.
Proof.
  intros A d n p s Hn HP HL. destruct (inverse_full n p Hn HP) as (q & E & HQ & H1 & H2).
  unfold permute_positions. rewrite E. cbn [bind].
  destruct (C18_permute_values A d n q s HQ HL) as (s' & E' & HL' & H). exists s'.
  split; [exact E'|]. split; [exact HL'|]. split; [|split].
  - intros i Hi. rewrite H by (apply (is_perm_nth _ _ _ HP Hi)). rewrite H1 by exact Hi. reflexivity.
  - destruct (C18_permute_values A d n p s' HP HL') as (t & Et & HLt & Ht). rewrite Et. f_equal.
    apply (list_eq_nth d); [congruence|]. rewrite HLt. intros i Hi. rewrite Ht by exact Hi.
    rewrite H by (apply (is_perm_nth _ _ _ HP Hi)). rewrite H1 by exact Hi. reflexivity.
  - destruct (C18_permute_values A d n p s HP HL) as (t & Et & HLt & Ht). rewrite Et. cbn [bind].
    destruct (C18_permute_values A d n q t HQ HLt) as (u & Eu & HLu & Hu). rewrite Eu. f_equal.
    apply (list_eq_nth d); [congruence|]. rewrite HLu. intros i Hi. rewrite Hu by exact Hi.
    rewrite Ht by (apply (is_perm_nth _ _ _ HQ Hi)). rewrite H2 by exact Hi. reflexivity.
Qed.
Print Assumptions C18_permute_positions.

(** Row-times-column products of an integer matrix with a vector. *)
Definition matrix_times (m : list (list Z)) (v : list Z) : list Z :=
  map (fun row => fold_right Z.add 0%Z (map (fun xy => fst xy * snd xy)%Z (combine row v))) m.

Theorem C18_matrices : forall n p v, 0 < n -> Permutation (seq 0 n) p -> length v = n ->
  exists mv mp, permutation_matrix_values p = Ok mv /\ permutation_matrix_positions p = Ok mp /\
    permute_values p v = Ok (matrix_times mv v) /\
    permute_positions p v = Ok (matrix_times mp v) /\
    matrix_times mp (matrix_times mv v) = v /\ matrix_times mv (matrix_times mp v) = v.
Proof.
  intros n p v Hn HP HL. destruct (inverse_full n p Hn HP) as (q & E & HQ & H1 & H2).
  destruct (C18_permute_values Z 0%Z n p v HP HL) as (s1 & E1 & L1 & _).
  destruct (C18_permute_values Z 0%Z n q v HQ HL) as (s2 & E2 & L2 & _).
  destruct (pmv_action n p v s1 HP HL E1) as (mv & Emv & Hmv).
  destruct (pmv_action n q v s2 HQ HL E2) as (mp & Emp & Hmp).
  destruct (C18_permute_positions Z 0%Z n p v Hn HP HL) as (s3 & E3 & L3 & _ & E4 & E5).
  exists mv, mp. split; [exact Emv|]. split; [rewrite (pmp_eq n p q) by auto; exact Emp|].
  change (matrix_times mv v) with (mat_vec mv v). change (matrix_times mp v) with (mat_vec mp v).
  rewrite Hmv, Hmp. split; [exact E1|].
  assert (Es : permute_positions p v = Ok s2) by (unfold permute_positions; rewrite E; exact E2).
  split; [exact Es|]. rewrite E3 in Es. injection Es as ->.
  change (matrix_times mp s1) with (mat_vec mp s1). change (matrix_times mv s2) with (mat_vec mv s2). split.
  - rewrite E1 in E5. cbn [bind] in E5. unfold permute_positions in E5. rewrite E in E5. cbn [bind] in E5.
    destruct (pmv_action n q s1 v HQ L1 E5) as (m & Em & Hm). rewrite Emp in Em. injection Em as <-. exact Hm.
  - destruct (pmv_action n p s2 v HP L2 E4) as (m & Em & Hm). rewrite Emv in Em. injection Em as <-. exact Hm.
Qed.
Print Assumptions C18_matrices.

Example C18_example : permute_values [1;2;0] [10;20;30]%Z = Ok [20;30;10]%Z /\
  permute_positions [1;2;0] [10;20;30]%Z = Ok [30;10;20]%Z /\
  permutation_matrix_values [1;2;0] = Ok [[0;1;0];[0;0;1];[1;0;0]]%Z.
Proof. repeat split. Qed.

(** ** C19 *)
Theorem C19_cyclic_permutations : forall p,
  exists l, cyclic_permutations p = Ok l /\ length l = length p /\
    forall q, In q l <-> exists k, k < length p /\ q = skipn k p ++ firstn k p.
Proof.
  intros p. rewrite cyclic_permutations_eq. eexists. split; [reflexivity|].
  split; [rewrite map_length; apply seq_length|]. intros q. rewrite in_map_iff. split.
  - intros (j & <- & Hj). apply in_seq in Hj. destruct (Nat.eq_dec j 0) as [->|H].
    + exists 0. split; [lia|]. rewrite Nat.sub_0_r, skipn_all, firstn_all. cbn. rewrite app_nil_r. reflexivity.
    + exists (length p - j). split; [lia|reflexivity].
  - intros (k & Hk & ->). destruct (Nat.eq_dec k 0) as [->|H].
    + exists 0. split; [|apply in_seq; lia]. rewrite Nat.sub_0_r, skipn_all, firstn_all. cbn. rewrite app_nil_r. reflexivity.
    + exists (length p - k). split; [|apply in_seq; lia]. replace (length p - (length p - k)) with k by lia. reflexivity.
Qed.
Print Assumptions C19_cyclic_permutations.

Theorem C19_circularly_equivalent_iff_rotation : forall p q, q <> [] ->
  (circularly_equivalent p q = Ok true <-> exists k, p = skipn k q ++ firstn k q) /\
  (circularly_equivalent p q = Ok true \/ circularly_equivalent p q = Ok false).
Proof.
  intros p q Hq. split; [rewrite circ_iff; tauto|]. rewrite circ_spec. destruct (existsb _ _); auto.
Qed.
Print Assumptions C19_circularly_equivalent_iff_rotation.

Theorem C19_equivalence_relation : forall p q r,
  (p <> [] -> circularly_equivalent p p = Ok true) /\
  (circularly_equivalent p q = Ok true -> circularly_equivalent q p = Ok true) /\
  (circularly_equivalent p q = Ok true -> circularly_equivalent q r = Ok true -> circularly_equivalent p r = Ok true).
Proof. intros p q r. split; [apply circ_refl|]. split; [apply circ_sym|apply circ_trans]. Qed.
Print Assumptions C19_equivalence_relation.

(** Reflexivity fails for the empty sequence. *)
Theorem C19_reflexive_refuted : exists p, circularly_equivalent p p <> Ok true.
Proof. exists []. discriminate. Qed.
Print Assumptions C19_reflexive_refuted.

Example C19_example : circularly_equivalent [1;2;0;0] [0;0;1;2] = Ok true /\ circularly_equivalent [1;0;2] [0;1;2] = Ok false.
Proof. split; reflexivity. Qed.

(** ** C20 *)
Theorem C20_nfold_cartesian_product : forall (A : Type) (eq_dec : forall x y : A, {x = y} + {x <> y}) s n,
  NoDup s -> 2 <= n ->
  exists p, nfold_cartesian_product eq_dec s n = Ok p /\ NoDup p /\ length p = length s ^ n /\
    forall v, In v p <-> exists l, v = Tp l /\ length l = n /\ incl l s.
Proof.
  intros A eq_dec s n Hs Hn. destruct n as [|[|n]]; try lia.
  destruct (nfold_spec eq_dec s n) as (p & E & HN & H). exists p. split; [exact E|]. split; [exact HN|].
  split; [|exact H]. apply (nfold_count eq_dec s n p Hs E).
Qed.
Print Assumptions C20_nfold_cartesian_product.

Theorem C20_n1_and_n0 : forall (A : Type) (eq_dec : forall x y : A, {x = y} + {x <> y}) s,
  nfold_cartesian_product eq_dec s 1 = Ok (map El s) /\ nfold_cartesian_product eq_dec s 0 = Ok [].
Proof. intros. split; reflexivity. Qed.
Print Assumptions C20_n1_and_n0.

(** |S^n| = |S|^n fails for n = 0. *)
Theorem C20_count_refuted : exists (s : list nat) n p, NoDup s /\
  nfold_cartesian_product Nat.eq_dec s n = Ok p /\ length p <> length s ^ n.
Proof. exists [1], 0, []. repeat split; [repeat constructor; auto|cbn; lia]. Qed.
Print Assumptions C20_count_refuted.

Example C20_example : nfold_cartesian_product Nat.eq_dec [1;2] 3 =
  Ok (map Tp [[1;1;1];[2;1;1];[1;1;2];[2;1;2];[1;2;1];[2;2;1];[1;2;2];[2;2;2]]).
Proof. reflexivity. Qed.
