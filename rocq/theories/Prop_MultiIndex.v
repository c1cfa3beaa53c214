(** Property theorems for multi-indices and modular integers
    (C01-C08, C10 of properties.jsonl). *)
From Verif Require Import Base ModArith MultiIndex MultiIndexFacts MultiCapFacts MultiIndexCache MultiIndexObj.

(** ** C01 *)
Theorem C01_generate_all_complete : forall n r : nat,
  exists l, generate_all n r = Ok l /\ NoDup l /\
    (forall mi, In mi l <-> length mi = n /\ list_sum mi <= r) /\
    length l = num_multiindices n r /\
    length l * (fact n * fact r) = fact (n + r).
Proof.
  intros n r. exists (all_mi n r). split; [apply generate_all_eq|]. split; [apply NoDup_all_mi|].
  split; [exact (fun mi => in_all_mi n r mi)|]. split; [apply all_mi_length|].
  rewrite all_mi_length. apply binomial_fact.
Qed.
Print Assumptions C01_generate_all_complete.

(** The iterator stops after exactly that many elements: any larger number of
    calls of [next] gives the same list. *)
Theorem C01_iterator_stops : forall n r fuel,
  num_multiindices n r < fuel -> drain fuel (iter_new n r) = generate_all n r.
Proof.
  intros n r fuel H. rewrite generate_all_eq. apply drain_all. rewrite all_mi_length. exact H.
Qed.
Print Assumptions C01_iterator_stops.

(** The iterator protocol ("once StopIteration is raised it is raised on every
    later call") is violated: an exhausted iterator starts again. *)
Theorem C01_stop_is_permanent_refuted :
  exists it mi, it = snd (iter_next (snd (iter_next (iter_new 1 1)))) /\
    fst (iter_next it) = Err StopIteration /\ fst (iter_next (snd (iter_next it))) = Ok mi.
Proof. eexists. eexists. split; [reflexivity|]. split; vm_compute; reflexivity. Qed.
Print Assumptions C01_stop_is_permanent_refuted.

Example C01_example : generate_all 2 2 = Ok [[0;0];[1;0];[2;0];[0;1];[1;1];[0;2]].
Proof. reflexivity. Qed.

(** ** C02 *)
(** [n(a) = sum_k a_k b^k], the number with digits [a] in base [b]. *)
Fixpoint number_in_base (b : nat) (a : list nat) : nat :=
  match a with [] => 0 | d :: t => d + b * number_in_base b t end.

Theorem C02_order_strictly_increasing : forall n r l i j a b,
  generate_all n r = Ok l -> i < j -> nth_error l i = Some a -> nth_error l j = Some b ->
  number_in_base (r + 1) a < number_in_base (r + 1) b.
Proof.
  intros n r l i j a b Hl Hij Ha Hb. rewrite generate_all_eq in Hl. injection Hl as <-.
  assert (Hj : j < length (all_mi n r)) by (apply nth_error_Some; congruence).
  pose proof (StronglySorted_nth _ _ [] i j (all_mi_sorted n r (r + 1) ltac:(lia)) Hij Hj) as H.
  rewrite (nth_error_nth _ _ _ Ha), (nth_error_nth _ _ _ Hb) in H. exact H.
Qed.
Print Assumptions C02_order_strictly_increasing.

(** The docstring of [generate] says the base is [r]. *)
Theorem C02_order_in_base_r_refuted :
  exists n r l i j a b,
    generate_all n r = Ok l /\ i < j /\ nth_error l i = Some a /\ nth_error l j = Some b /\
    ~ number_in_base r a < number_in_base r b.
Proof. exists 2, 1, [[0;0];[1;0];[0;1]], 1, 2, [1;0], [0;1]. repeat split; cbn; lia. Qed.
Print Assumptions C02_order_in_base_r_refuted.

(** ** C03 *)
Theorem C03_generate_get_index : forall n r i,
  i < num_multiindices n r ->
  exists mi, generate n r i = Ok mi /\ length mi = n /\ list_sum mi <= r /\ get_index mi r = Ok i.
Proof.
  intros n r i Hi. unfold num_multiindices in Hi. rewrite <- all_mi_length in Hi.
  rewrite generate_eq. destruct (nth_error (all_mi n r) i) as [mi|] eqn:E.
  2:{ apply nth_error_None in E. lia. }
  exists mi. assert (HI : In mi (all_mi n r)) by (eapply nth_error_In; eassumption).
  apply in_all_mi in HI as [HL HS]. repeat split; auto.
  rewrite get_index_eq. apply Nat.leb_le in HS. rewrite HS, HL.
  rewrite (pos_nth_error _ _ _ (NoDup_all_mi n r) E). reflexivity.
Qed.
Print Assumptions C03_generate_get_index.

Theorem C03_get_index_generate : forall mi r,
  list_sum mi <= r ->
  exists i, get_index mi r = Ok i /\ i < num_multiindices (length mi) r /\ generate (length mi) r i = Ok mi.
Proof.
  intros mi r H. rewrite get_index_eq. assert (H' : nsum mi <= r) by exact H.
  destruct (pos_in (all_mi (length mi) r) mi) as [i Hi]; [apply in_all_mi; auto|].
  apply Nat.leb_le in H'. rewrite H', Hi. exists i. split; [reflexivity|].
  unfold num_multiindices. rewrite <- all_mi_length. split; [eapply pos_bound; eassumption|].
  rewrite generate_eq, (pos_nth _ _ _ Hi). reflexivity.
Qed.
Print Assumptions C03_get_index_generate.

Theorem C03_generate_out_of_range : forall n r i,
  num_multiindices n r <= i -> generate n r i = Err StopIteration.
Proof.
  intros n r i H. rewrite generate_eq.
  assert (E : nth_error (all_mi n r) i = None) by (apply nth_error_None; rewrite all_mi_length; exact H).
  rewrite E. reflexivity.
Qed.
Print Assumptions C03_generate_out_of_range.

Theorem C03_get_index_too_large : forall mi r,
  r < list_sum mi -> get_index mi r = Err AssertionError.
Proof.
  intros mi r H. rewrite get_index_eq. change (list_sum mi) with (nsum mi) in H.
  destruct (Nat.leb_spec (nsum mi) r); [lia|reflexivity].
Qed.
Print Assumptions C03_get_index_too_large.

Theorem C03_generate_is_nth : forall n r l i,
  generate_all n r = Ok l -> i < length l -> generate n r i = Ok (nth i l []).
Proof.
  intros n r l i Hl Hi. rewrite generate_all_eq in Hl. injection Hl as <-.
  rewrite generate_eq, (nth_error_nth' _ [] Hi). reflexivity.
Qed.
Print Assumptions C03_generate_is_nth.

Example C03_example_cached : get_index [1;2;0] 4 = Ok 10 /\ generate 3 4 10 = Ok [1;2;0].
Proof. split; vm_compute; reflexivity. Qed.
Example C03_example_uncached : get_index [1;2] 7 = Ok 16 /\ generate 2 7 16 = Ok [1;2].
Proof. split; vm_compute; reflexivity. Qed.

(** ** C04 *)
Theorem C04_cache_unobservable : forall mi r,
  get_index_with multiindex_order_cache mi r = get_index_with [] mi r.
Proof. intros mi r. apply get_index_cache. exact order_cache_ok. Qed.
Print Assumptions C04_cache_unobservable.

(** Every key of the table is covered: for every table and every multi-index
    of that dimension and norm the table has the right entry. *)
Theorem C04_cache_entries : forall n r d mi i,
  In ((n, r), d) multiindex_order_cache -> length mi = n -> list_sum mi <= r ->
  (dict_get d mi = Ok i <-> generate n r i = Ok mi).
Proof.
  intros n r d mi i Hd Hl Hs.
  pose proof order_cache_ok as Hc. unfold cache_ok in Hc. rewrite forallb_forall in Hc.
  specialize (Hc _ Hd). cbn [fst snd] in Hc. unfold table_ok in Hc. rewrite forallb_forall in Hc.
  specialize (Hc mi). rewrite in_all_mi in Hc. specialize (Hc (conj Hl Hs)).
  destruct (dict_get d mi) as [k|]; [|discriminate].
  destruct (pos (all_mi n r) mi) as [j|] eqn:E; [|discriminate]. apply Nat.eqb_eq in Hc. subst j.
  rewrite generate_eq. split; intros H.
  - injection H as ->. rewrite (pos_nth _ _ _ E). reflexivity.
  - destruct (nth_error (all_mi n r) i) as [x|] eqn:Ei; [|discriminate]. injection H as ->.
    rewrite (pos_nth_error _ _ _ (NoDup_all_mi n r) Ei) in E. congruence.
Qed.
Print Assumptions C04_cache_entries.

Example C04_nonempty : length multiindex_order_cache = 18 /\
  exists d, In ((3, 2), d) multiindex_order_cache.
Proof. split; [reflexivity|]. eexists. do 7 right. left. reflexivity. Qed.

(** ** C05 *)
Theorem C05_multi_cap_complete : forall r : list nat,
  exists l, generate_all_multi_cap r = Ok l /\ NoDup l /\
    (forall mi, In mi l <-> Forall2 (fun cap a => a <= cap) r mi) /\
    length l = fold_right (fun cap k => (cap + 1) * k) 1 r.
Proof.
  intros r. exists (all_cap r). split; [apply generate_all_multi_cap_eq|].
  split; [apply NoDup_all_cap|]. split; [apply in_all_cap|]. rewrite all_cap_length.
  clear. induction r as [|a r IH]; cbn [fold_right]; [reflexivity|]. rewrite IH. lia.
Qed.
Print Assumptions C05_multi_cap_complete.

Theorem C05_generate_multi_cap_nth : forall r l i,
  generate_all_multi_cap r = Ok l -> i < length l -> nth_error l i = Some (generate_multi_cap r i).
Proof.
  intros r l i Hl Hi. rewrite generate_all_multi_cap_eq in Hl. injection Hl as <-.
  apply generate_multi_cap_nth. rewrite all_cap_length in Hi. exact Hi.
Qed.
Print Assumptions C05_generate_multi_cap_nth.

(** Index of a capped multi-index: [a_0 + (r_0+1) (a_1 + (r_1+1) (...))]. *)
Theorem C05_mixed_radix_index : forall r mi,
  Forall2 (fun cap a => a <= cap) r mi ->
  exists i, i = fold_right (fun p v => snd p + (fst p + 1) * v) 0 (combine r mi) /\
    i < fold_right (fun cap k => (cap + 1) * k) 1 r /\ generate_multi_cap r i = mi.
Proof.
  intros r mi H. exists (radix_value r mi).
  destruct (generate_multi_cap_value r mi H) as [H1 H2]. split; [|split; [|exact H1]].
  - clear. revert mi; induction r as [|c r IH]; intros [|a mi]; cbn [radix_value combine fold_right fst snd]; try reflexivity.
    rewrite IH. reflexivity.
  - revert H2. unfold cap_count. replace (fold_right (fun cap k => (cap + 1) * k) 1 r)
      with (fold_right (fun ri k => S ri * k) 1 r); [auto|].
    clear. induction r as [|a r IH]; cbn [fold_right]; [reflexivity|]. rewrite IH. lia.
Qed.
Print Assumptions C05_mixed_radix_index.

Theorem C05_order : forall r l i j a b base,
  generate_all_multi_cap r = Ok l -> Forall (fun cap => cap < base) r ->
  i < j -> nth_error l i = Some a -> nth_error l j = Some b ->
  number_in_base base a < number_in_base base b.
Proof.
  intros r l i j a b base Hl Hb Hij Ha Hb'. rewrite generate_all_multi_cap_eq in Hl. injection Hl as <-.
  assert (Hj : j < length (all_cap r)) by (apply nth_error_Some; congruence).
  pose proof (StronglySorted_nth _ _ [] i j (all_cap_sorted r base Hb) Hij Hj) as H.
  rewrite (nth_error_nth _ _ _ Ha), (nth_error_nth _ _ _ Hb') in H. exact H.
Qed.
Print Assumptions C05_order.

(** The docstring of [generate_multi_cap] claims the order for the base
    [max_i r_i]. *)
Theorem C05_order_in_max_base_refuted :
  exists r l i j a b, generate_all_multi_cap r = Ok l /\ i < j /\
    nth_error l i = Some a /\ nth_error l j = Some b /\
    ~ number_in_base (list_max r) a < number_in_base (list_max r) b.
Proof. exists [1;1], [[0;0];[1;0];[0;1];[1;1]], 1, 2, [1;0], [0;1]. repeat split; cbn; lia. Qed.
Print Assumptions C05_order_in_max_base_refuted.

(** No range check: indices past the end wrap around. *)
Theorem C05_wraps_silently : forall r i,
  generate_multi_cap r (i + fold_right (fun cap k => (cap + 1) * k) 1 r) = generate_multi_cap r i.
Proof.
  intros r i. replace (fold_right (fun cap k => (cap + 1) * k) 1 r) with (cap_count r);
    [apply generate_multi_cap_wrap|].
  clear. unfold cap_count. induction r as [|a r IH]; cbn [fold_right]; [reflexivity|]. rewrite IH. lia.
Qed.
Print Assumptions C05_wraps_silently.

Example C05_example : Forall2 (fun cap a => a <= cap) [2;3] [1;2] /\ generate_multi_cap [2;3] 7 = [1;2].
Proof. split; [repeat constructor|reflexivity]. Qed.

(** ** C06 *)
Theorem C06_exact_general_roundtrip : forall a r,
  list_sum a <= r ->
  exists e, general_to_exact_norm a r = Ok e /\ list_sum e = r /\ length e = S (length a) /\
            exact_norm_to_general e = a.
Proof.
  intros a r H. exists ((r - nsum a) :: a). split; [apply general_to_exact_norm_ok; exact H|].
  change (list_sum a) with (nsum a) in H. change (list_sum ?x) with (nsum x). rewrite nsum_cons.
  cbn. repeat split; lia.
Qed.
Print Assumptions C06_exact_general_roundtrip.

Theorem C06_general_exact_roundtrip : forall b,
  b <> [] -> general_to_exact_norm (exact_norm_to_general b) (list_sum b) = Ok b.
Proof.
  intros [|x b] H; [congruence|]. change (list_sum (x :: b)) with (x + nsum b). cbn [exact_norm_to_general tl].
  rewrite general_to_exact_norm_ok by lia. do 2 f_equal. lia.
Qed.
Print Assumptions C06_general_exact_roundtrip.

Theorem C06_general_to_exact_rejects : forall a r,
  r < list_sum a -> general_to_exact_norm a r = Err AssertionError.
Proof.
  intros a r H. unfold general_to_exact_norm, norm. change (list_sum a) with (nsum a) in H.
  destruct (Nat.leb_spec (nsum a) r); [lia|reflexivity].
Qed.
Print Assumptions C06_general_to_exact_rejects.

Theorem C06_exact_norm_complete : forall n r, 0 < n ->
  exists l, generate_all_exact_norm n r = Ok l /\ NoDup l /\
    (forall mi, In mi l <-> length mi = n /\ list_sum mi = r) /\
    length l * (fact (n - 1) * fact r) = fact (n - 1 + r).
Proof.
  intros n r Hn. eexists. split; [apply generate_all_exact_norm_eq|].
  split; [apply NoDup_exact_norm|]. split; [intros mi; apply in_exact_norm; exact Hn|].
  rewrite map_length, all_mi_length. apply binomial_fact.
Qed.
Print Assumptions C06_exact_norm_complete.

Example C06_example : generate_all_exact_norm 3 1 = Ok [[1;0;0];[0;1;0];[0;0;1]].
Proof. reflexivity. Qed.

(** ** C07 *)
Theorem C07_never_negative : forall ops m comps,
  no_shared_write w_init ops ->
  components (run w_init ops) m = Some comps -> Forall (fun v => (0 <= v)%Z) comps.
Proof. exact reachable_nonneg. Qed.
Print Assumptions C07_never_negative.

(** Without the restriction it is false: MultiIndex(lst) keeps a reference to
    the list, and the caller's later write to it is not checked. *)
Theorem C07_never_negative_refuted :
  exists ops m comps, components (run w_init ops) m = Some comps /\ ~ Forall (fun v => (0 <= v)%Z) comps.
Proof.
  exists alias_program, 0, [(-5)%Z; 2%Z]. split; [exact alias_program_negative|].
  intros H. inversion H. lia.
Qed.
Print Assumptions C07_never_negative_refuted.

Theorem C07_failure_changes_nothing : forall w o e,
  snd (step w o) = Err e -> fst (step w o) = w.
Proof. exact step_err. Qed.
Print Assumptions C07_failure_changes_nothing.

Theorem C07_subtraction : forall w m1 m2 a b,
  components w m1 = Some a -> components w m2 = Some b -> length a = length b ->
  (snd (step w (OSub m1 m2)) = Ok tt <-> Forall2 (fun x y => (y <= x)%Z) a b).
Proof. exact sub_ok_iff. Qed.
Print Assumptions C07_subtraction.

Theorem C07_subtraction_value : forall w m1 m2 a b,
  components w m1 = Some a -> components w m2 = Some b ->
  snd (step w (OSub m1 m2)) = Ok tt ->
  exists c, components (fst (step w (OSub m1 m2))) (length (w_mis w)) = Some c /\
            length c = Nat.min (length a) (length b) /\
            forall k x y, nth_error a k = Some x -> nth_error b k = Some y -> nth_error c k = Some (x - y)%Z.
Proof. exact sub_value. Qed.
Print Assumptions C07_subtraction_value.

Theorem C07_addition_value : forall ops m1 m2 a b,
  no_shared_write w_init ops ->
  let w := run w_init ops in
  components w m1 = Some a -> components w m2 = Some b ->
  snd (step w (OAdd m1 m2)) = Ok tt /\
  exists c, components (fst (step w (OAdd m1 m2))) (length (w_mis w)) = Some c /\
            length c = Nat.min (length a) (length b) /\
            forall k x y, nth_error a k = Some x -> nth_error b k = Some y -> nth_error c k = Some (x + y)%Z.
Proof.
  intros ops m1 m2 a b Hn w. apply add_value. apply run_inv; [intros x []|exact Hn].
Qed.
Print Assumptions C07_addition_value.

(** Creating a sum or difference leaves all earlier objects as they were. *)
Theorem C07_operands_unchanged : forall ops m1 m2 m,
  no_shared_write w_init ops ->
  let w := run w_init ops in
  m < length (w_mis w) ->
  components (fst (step w (OAdd m1 m2))) m = components w m /\
  components (fst (step w (OSub m1 m2))) m = components w m.
Proof.
  intros ops m1 m2 m Hn w Hm. assert (Hi : inv w) by (apply run_inv; [intros x []|exact Hn]).
  cbn [step]. split; destruct (components w m1), (components w m2); try reflexivity;
    apply new_copied_others; assumption.
Qed.
Print Assumptions C07_operands_unchanged.

Example C07_example :
  let ops := [OFromIter [3; 1]%Z; ONewList [1; 1]%Z; OFromList 1; OSub 0 1; OSetItem 2 (-1) 4] in
  no_shared_write w_init ops /\ components (run w_init ops) 2 = Some [2; 4]%Z.
Proof. cbn. repeat split. Qed.

(** ** C08 *)
Theorem C08_increasing_complete : forall n r,
  exists l, generate_all_increasing n r = Ok l /\ NoDup l /\
    (forall a, In a l <-> length a = n /\ Forall (fun x => x <= r) a /\
                          (forall i j, i < j < n -> nth i a 0 < nth j a 0)) /\
    length l = binomial (r + 1) n.
Proof.
  intros n r. unfold generate_all_increasing. rewrite generate_all_multi_cap_eq. cbn [bind].
  eexists. split; [reflexivity|]. split; [apply NoDup_filter, NoDup_all_cap|].
  split; [|apply length_generate_increasing].
  intros a. rewrite in_generate_increasing. split.
  - intros (H1 & H2 & H3). repeat split; auto. intros i j Hij.
    apply (StronglySorted_nth lt); [exact H2|lia|lia].
  - intros (H1 & H2 & H3). repeat split; auto. subst n. clear H2.
    induction a as [|x a IH]; constructor.
    + apply IH. intros i j Hij. apply (H3 (S i) (S j)). cbn. lia.
    + apply Forall_forall. intros y Hy. apply (In_nth _ _ 0) in Hy as (k & Hk & <-).
      apply (H3 0 (S k)). cbn. lia.
Qed.
Print Assumptions C08_increasing_complete.

Theorem C08_non_decreasing_complete : forall n r,
  exists l, generate_all_non_decreasing n r = Ok l /\ NoDup l /\
    (forall a, In a l <-> length a = n /\ Forall (fun x => x <= r) a /\
                          (forall i j, i < j < n -> nth i a 0 <= nth j a 0)) /\
    length l = binomial (n + r) n.
Proof.
  intros n r. unfold generate_all_non_decreasing. rewrite generate_all_multi_cap_eq. cbn [bind].
  eexists. split; [reflexivity|]. split; [apply NoDup_filter, NoDup_all_cap|].
  split; [|apply length_generate_non_decreasing].
  intros a. rewrite in_generate_non_decreasing. split.
  - intros (H1 & H2 & H3). repeat split; auto. intros i j Hij.
    apply (StronglySorted_nth le); [exact H2|lia|lia].
  - intros (H1 & H2 & H3). repeat split; auto. subst n. clear H2.
    induction a as [|x a IH]; constructor.
    + apply IH. intros i j Hij. apply (H3 (S i) (S j)). cbn. lia.
    + apply Forall_forall. intros y Hy. apply (In_nth _ _ 0) in Hy as (k & Hk & <-).
      apply (H3 0 (S k)). cbn. lia.
Qed.
Print Assumptions C08_non_decreasing_complete.

Example C08_example : generate_all_increasing 2 2 = Ok [[0;1];[0;2];[1;2]].
Proof. reflexivity. Qed.

(** ** C10 *)
(** Any arithmetic expression over IntegerModuloN values and plain ints
    evaluates to the integer result reduced into [0, n).  The commutative
    ring laws are the ring laws of Z under this equation. *)
Theorem C10_arithmetic : forall n e, (0 < n)%Z ->
  exists a, im_eval n e = Ok a /\ im_n a = n /\ (0 <= im_i a < n)%Z /\
            ((im_i a - z_eval e) mod n = 0)%Z.
Proof.
  intros n e Hn. exists (mkIM (z_eval e mod n) n). split; [apply im_eval_spec; lia|].
  cbn. split; [reflexivity|]. split; [apply Z.mod_pos_bound; lia|].
  rewrite Zminus_mod_idemp_l, Z.sub_diag. apply Z.mod_0_l. lia.
Qed.
Print Assumptions C10_arithmetic.

(** Two expressions with the same integer value give equal objects: e.g.
    commutativity, associativity, distributivity. *)
Theorem C10_ring_laws : forall n e f g, (0 < n)%Z ->
  im_eval n (EAdd e f) = im_eval n (EAdd f e) /\
  im_eval n (EAdd e (EAdd f g)) = im_eval n (EAdd (EAdd e f) g) /\
  im_eval n (EMul e f) = im_eval n (EMul f e) /\
  im_eval n (EMul e (EMul f g)) = im_eval n (EMul (EMul e f) g) /\
  im_eval n (EMul e (EAdd f g)) = im_eval n (EAdd (EMul e f) (EMul e g)) /\
  im_eval n (EAdd e (ENeg e)) = im_new 0 n /\
  im_eval n (ESub e f) = im_eval n (EAdd e (ENeg f)) /\
  (forall z, im_eval n (EIAdd z e) = im_eval n (EAdd (EVal z) e) /\
             im_eval n (EISub z e) = im_eval n (ESub (EVal z) e) /\
             im_eval n (EIMul z e) = im_eval n (EMul (EVal z) e) /\
             im_eval n (EAddI e z) = im_eval n (EAdd e (EVal z)) /\
             im_eval n (ESubI e z) = im_eval n (ESub e (EVal z)) /\
             im_eval n (EMulI e z) = im_eval n (EMul e (EVal z))).
Proof.
  intros n e f g Hn. rewrite !im_eval_spec by lia. rewrite im_new_ok by lia. cbn [z_eval].
  repeat split; try (do 3 f_equal; ring).
  all: rewrite !im_eval_spec by lia; cbn [z_eval]; do 3 f_equal; ring.
Qed.
Print Assumptions C10_ring_laws.

Theorem C10_different_moduli : forall a b,
  im_n a <> im_n b ->
  im_add a (OMod b) = Err ValueError /\ im_sub a (OMod b) = Err ValueError /\
  im_mul a (OMod b) = Err ValueError /\ im_eq a (OMod b) = Err ValueError /\
  im_ne a (OMod b) = Err ValueError /\
  im_lt a (OMod b) = Err ValueError /\ im_gt a (OMod b) = Err ValueError /\
  im_le a (OMod b) = Err ValueError /\ im_ge a (OMod b) = Err ValueError.
Proof. exact im_mismatch. Qed.
Print Assumptions C10_different_moduli.

(** Comparisons between values of the same modulus agree with the order of the
    representatives. *)
Theorem C10_comparison_same_modulus : forall a b, im_n a = im_n b ->
  im_eq a (OMod b) = Ok (im_i a =? im_i b)%Z /\ im_lt a (OMod b) = Ok (im_i a <? im_i b)%Z /\
  im_gt a (OMod b) = Ok (im_i b <? im_i a)%Z /\ im_le a (OMod b) = Ok (im_i a <=? im_i b)%Z /\
  im_ge a (OMod b) = Ok (im_i b <=? im_i a)%Z.
Proof.
  intros a b H. unfold im_le, im_ge, im_eq, im_lt, im_gt. rewrite H, Z.eqb_refl. cbn [bind].
  rewrite !Z.leb_antisym. repeat split.
Qed.
Print Assumptions C10_comparison_same_modulus.

(** Comparing with a plain int: [<], [>=], [==] work, [>] and [<=] always
    raise AttributeError. *)
Theorem C10_compare_with_int : forall a z,
  im_lt a (OInt z) = Ok (im_i a <? z)%Z /\ im_ge a (OInt z) = Ok (negb (im_i a <? z)%Z) /\
  im_eq a (OInt z) = Ok (im_i a =? z)%Z /\
  im_gt a (OInt z) = Err AttributeError /\ im_le a (OInt z) = Err AttributeError.
Proof. intros a z. repeat split. Qed.
Print Assumptions C10_compare_with_int.

Example C10_example : im_eval 7 (EISub 3 (EMul (EVal 5) (EVal (-2)))) = Ok (mkIM 6 7).
Proof. reflexivity. Qed.
