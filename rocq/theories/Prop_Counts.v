(** Properties of the counting functions and of random multi-indices. *)
From Coq Require Import Reals Factorial ZArith Lia Lra Permutation Sorted.
From Flocq Require Import Core.
From Verif Require Import Base MultiIndex MultiIndexFacts Permutations Simplicial Prop_MultiIndex Prop_Permutations Prop_Simplicial Counts.
Local Close Scope R_scope.
Local Open Scope nat_scope.

(** ** Floating point numbers *)
Lemma double_int z : (Z.abs z < 2 ^ 53)%Z -> double (IZR z) = IZR z.
Proof.
  intros H. unfold double. apply round_generic; [apply valid_rnd_N|]. apply generic_format_FLT. exists (Float radix2 z 0); [unfold F2R; cbn [Fnum Fexp bpow]; lra|exact H|cbn [Fexp]; lia].
Qed.
(** an integer with more than 53 significant bits is not a double *)
Lemma double_not_int z e : (0 <= e)%Z -> (2 ^ 53 * 2 ^ e <= z)%Z -> ~ (2 ^ (e + 1) | z)%Z -> double (IZR z) <> IZR z.
Proof.
  intros He Hz Hd E. assert (G : generic_format radix2 (FLT_exp (-1074) 53) (IZR z)) by (rewrite <- E; apply generic_format_round; [apply FLT_exp_valid; reflexivity|apply valid_rnd_N]).
  apply FLT_format_generic in G; [|reflexivity]. destruct G as [[m x] Ez Hm _]. cbn [Fnum Fexp] in Hm. unfold F2R in Ez. cbn [Fnum Fexp] in Ez. change (Zpower radix2 53) with (2 ^ 53)%Z in Hm.
  destruct (Z_lt_le_dec x (e + 1)) as [L|L].
  - assert (Q : (IZR z < IZR (2 ^ 53) * bpow radix2 e)%R).
    { rewrite Ez. apply Rle_lt_trans with (IZR (Z.abs m) * bpow radix2 e)%R.
      - apply Rle_trans with (IZR (Z.abs m) * bpow radix2 x)%R; [apply Rmult_le_compat_r; [apply bpow_ge_0|apply IZR_le; lia]|]. apply Rmult_le_compat_l; [apply IZR_le; lia|apply bpow_le; lia].
      - apply Rmult_lt_compat_r; [apply bpow_gt_0|apply IZR_lt; exact Hm]. }
    rewrite <- IZR_Zpower in Q by exact He. rewrite <- mult_IZR in Q. apply lt_IZR in Q. change (radix2 ^ e)%Z with (2 ^ e)%Z in Q. lia.
  - apply Hd. rewrite <- IZR_Zpower in Ez by lia. rewrite <- mult_IZR in Ez. apply eq_IZR in Ez. change (radix2 ^ x)%Z with (2 ^ x)%Z in Ez. rewrite Ez. exists (m * 2 ^ (x - (e + 1)))%Z. rewrite <- Z.mul_assoc, <- Z.pow_add_r by lia. do 2 f_equal. lia.
Qed.

(** ** Numbers of permutations *)
(** [num_permutations] and [num_increasing_subset_permutations] are the lengths of the lists of [permutations] and [increasing_subset_permutations] *)
Theorem C119_permutations : forall n, 0 < n -> num_permutations (Z.of_nat n) = Ok (Z.of_nat (length (permutations n))).
Proof.
  intros n Hn. unfold num_permutations, py_factorial. replace (Z.of_nat n <? 0)%Z with false by (symmetry; apply Z.ltb_ge; lia). rewrite Nat2Z.id. destruct (C15_permutations_complete n Hn) as (_ & _ & ->). reflexivity.
Qed.
Print Assumptions C119_permutations.
Theorem C119_increasing : forall n k, k <> 0%Z -> num_increasing_subset_permutations n k = length (increasing_subset_permutations n k).
Proof.
  intros n k Hk. unfold num_increasing_subset_permutations. destruct (Z.ltb_spec k 0) as [N|N]; [rewrite (proj2 (C15_degenerate_k n k ltac:(lia))); reflexivity|].
  destruct (Z_lt_le_dec (Z.of_nat n) k) as [G|G]; [rewrite (proj2 (C15_degenerate_k n k ltac:(lia))); apply binomial_gt; lia|].
  destruct (C15_increasing_complete n (Z.to_nat k) ltac:(lia)) as (_ & _ & E). rewrite Z2Nat.id in E by lia.
  pose proof (binomial_fact (n - Z.to_nat k) (Z.to_nat k)) as B. replace (n - Z.to_nat k + Z.to_nat k) with n in B by lia. rewrite <- E in B. apply Nat.mul_cancel_r in B; [exact B|]. pose proof (lt_O_fact (n - Z.to_nat k)). pose proof (lt_O_fact (Z.to_nat k)). nia.
Qed.
Print Assumptions C119_increasing.
(** the quotient of the factorials is the number of subset permutations *)
Lemma subset_value n k : 0 < k <= n -> num_subset_permutations (Z.of_nat n) (Z.of_nat k) = Ok (double (IZR (Z.of_nat (length (subset_permutations n (Z.of_nat k)))))).
Proof.
  intros Hk. destruct (C15_subset_permutations_complete n k Hk) as (_ & _ & E). set (c := length (subset_permutations n (Z.of_nat k))) in *. clearbody c.
  unfold num_subset_permutations, py_factorial, int_truediv. replace (Z.of_nat n <? 0)%Z with false by (symmetry; apply Z.ltb_ge; lia). replace (Z.of_nat n - Z.of_nat k <? 0)%Z with false by (symmetry; apply Z.ltb_ge; lia). cbn [bind].
  replace (Z.to_nat (Z.of_nat n - Z.of_nat k)) with (n - k) by lia. rewrite Nat2Z.id. pose proof (lt_O_fact (n - k)) as P. rewrite (proj2 (Z.eqb_neq (Z.of_nat (fact (n - k))) 0)) by lia. do 2 f_equal.
  rewrite <- E, Nat2Z.inj_mul, mult_IZR. field. apply IZR_neq. lia.
Qed.
(** [num_subset_permutations] is the length of the list of [subset_permutations], while this is below 2^53 *)
Theorem C119_subset : forall n k, 0 < k <= n -> (Z.of_nat (length (subset_permutations n (Z.of_nat k))) < 2 ^ 53)%Z ->
  num_subset_permutations (Z.of_nat n) (Z.of_nat k) = Ok (INR (length (subset_permutations n (Z.of_nat k)))).
Proof.
  intros n k Hk Hs. rewrite (subset_value n k Hk), double_int by lia. rewrite <- INR_IZR_INZ. reflexivity.
Qed.
Print Assumptions C119_subset.
(** the float of the number of permutations of 23 elements is another number *)
Theorem C119_subset_refuted : exists n k v, 0 < k <= n /\ num_subset_permutations (Z.of_nat n) (Z.of_nat k) = Ok v /\ v <> INR (length (subset_permutations n (Z.of_nat k))).
Proof.
  exists 23, 23. eexists. split; [lia|]. split; [apply subset_value; lia|]. rewrite INR_IZR_INZ. destruct (C15_subset_permutations_complete 23 23 ltac:(lia)) as (_ & _ & E).
  assert (EL : Z.of_nat (length (subset_permutations 23 (Z.of_nat 23))) = 25852016738884976640000%Z).
  { apply (f_equal Z.of_nat) in E. rewrite Nat2Z.inj_mul in E. change (Z.of_nat (fact (23 - 23))) with 1%Z in E. rewrite Z.mul_1_r in E. rewrite E. clear.
    assert (S : forall n, Z.of_nat (fact (S n)) = (Z.of_nat (S n) * Z.of_nat (fact n))%Z) by (intros n; cbn [fact]; rewrite <- Nat2Z.inj_mul; f_equal; lia).
    rewrite !S. reflexivity. }
  rewrite EL. apply (double_not_int _ 19); [lia|lia|]. intros H. apply Z.mod_divide in H; [|lia]. discriminate H.
Qed.
Print Assumptions C119_subset_refuted.
(** for [k = 0] the counts are 1 and the lists empty, for [k > n] one function raises ValueError where the list is empty;
    there is one permutation of no elements, and none in the list *)
Theorem C119_empty_refuted : (forall n, num_subset_permutations (Z.of_nat n) 0 = Ok 1%R /\ subset_permutations n 0 = [] /\ num_increasing_subset_permutations n 0 = 1 /\ increasing_subset_permutations n 0 = []) /\
  (forall n k, (Z.of_nat n < k)%Z -> num_subset_permutations (Z.of_nat n) k = Err ValueError /\ subset_permutations n k = []) /\
  num_permutations 0 = Ok 1%Z /\ permutations 0 = [].
Proof.
  split; [|split; [|split; reflexivity]].
  - intros n. destruct (C15_degenerate_k n 0 ltac:(lia)) as [E1 E2]. split; [|split; [exact E1|split; [|exact E2]]].
    + unfold num_subset_permutations, py_factorial, int_truediv. rewrite Z.sub_0_r. replace (Z.of_nat n <? 0)%Z with false by (symmetry; apply Z.ltb_ge; lia). cbn [bind]. rewrite Nat2Z.id. pose proof (lt_O_fact n) as P. rewrite (proj2 (Z.eqb_neq (Z.of_nat (fact n)) 0)) by lia. f_equal.
      replace (IZR (Z.of_nat (fact n)) / IZR (Z.of_nat (fact n)))%R with (IZR 1) by (field; apply IZR_neq; lia). apply double_int. reflexivity.
    + unfold num_increasing_subset_permutations. cbn [Z.ltb Z.compare Z.to_nat]. apply binomial_0_r.
  - intros n k H. split; [|apply C15_degenerate_k; lia]. unfold num_subset_permutations, py_factorial. replace (Z.of_nat n <? 0)%Z with false by (symmetry; apply Z.ltb_ge; lia). replace (Z.of_nat n - k <? 0)%Z with true by (symmetry; apply Z.ltb_lt; lia). reflexivity.
Qed.
Print Assumptions C119_empty_refuted.

(** ** Numbers of simplices *)
Theorem C119_simplex : forall s, s <> [] -> num_simplex_vertices (simplex_dimension s) = Z.of_nat (length s) /\
  (2 <= length s -> exists fs, simplex_boundary s = Ok fs /\ num_simplex_boundary_simplices (simplex_dimension s) = Z.of_nat (length fs)).
Proof.
  intros s Hs. unfold num_simplex_vertices, num_simplex_boundary_simplices, simplex_dimension. split; [lia|]. intros H2. destruct (Nat.eq_dec (length s) 2) as [E2|N2].
  - destruct s as [|x [|y [|]]]; try discriminate. exists [[y]; [x]]. split; [apply C22_low_dimension; exact 0|reflexivity].
  - destruct (C22_boundary_orientation s ltac:(lia)) as (fs & E & L & _). exists fs. split; [exact E|]. rewrite L. lia.
Qed.
Print Assumptions C119_simplex.
Theorem C119_vertex_refuted : exists s fs, simplex_boundary s = Ok fs /\ num_simplex_boundary_simplices (simplex_dimension s) <> Z.of_nat (length fs).
Proof. exists [7], []. split; [reflexivity|]. discriminate. Qed.
Print Assumptions C119_vertex_refuted.

(** ** Random multi-indices *)
(** Whatever the random generator gives in its interval, the result is a multi-index of length n and norm at most r; every such multi-index
    is the result of exactly one of the numbers, so the distribution is uniform. *)
Theorem C119_random : forall n r, 
  (forall randint, (forall d, 0 < d -> randint d < d) -> exists mi, random_multiindex randint n r = Ok mi /\ length mi = n /\ list_sum mi <= r) /\
  (forall mi, length mi = n -> list_sum mi <= r -> exists i, i < num_multiindices n r /\ forall randint, randint (num_multiindices n r) < num_multiindices n r -> (random_multiindex randint n r = Ok mi <-> randint (num_multiindices n r) = i)).
Proof.
  intros n r. split.
  - intros f Hf. unfold random_multiindex. assert (P : 0 < num_multiindices n r).
    { destruct (C03_get_index_generate (repeat 0 n) r) as (i & _ & H & _). - assert (Z0 : list_sum (repeat 0 n) = 0) by (induction n; [reflexivity|cbn; exact IHn]). lia. - rewrite repeat_length in H. lia. }
    destruct (C03_generate_get_index n r (f (num_multiindices n r)) (Hf _ P)) as (mi & E & L & S & _). exists mi. auto.
  - intros mi L S. destruct (C03_get_index_generate mi r S) as (i & Gi & Hi & Ei). rewrite L in Hi, Ei. exists i. split; [exact Hi|]. intros f Hf. unfold random_multiindex. split.
    + intros E. destruct (C03_generate_get_index n r _ Hf) as (mi' & E' & _ & _ & G'). assert (mi' = mi) by congruence. subst mi'. congruence.
    + intros ->. exact Ei.
Qed.
Print Assumptions C119_random.

(** ** Examples *)
Example C119_ex_counts : num_permutations 4 = Ok 24%Z /\ length (permutations 4) = 24 /\ num_increasing_subset_permutations 5 2 = 10 /\ num_permutations (-1) = Err ValueError.
Proof. repeat split. Qed.
Example C119_ex_subset : num_subset_permutations 5 2 = Ok 20%R.
Proof.
  change 5%Z with (Z.of_nat 5). change 2%Z with (Z.of_nat 2). rewrite C119_subset; [|lia|reflexivity]. f_equal. change (length (subset_permutations 5 (Z.of_nat 2))) with 20. cbn [INR]. lra.
Qed.
Example C119_ex_simplex : simplex_dimension [5; 3; 8; 6] = 3%Z /\ num_simplex_boundary_simplices 3 = 4%Z.
Proof. split; reflexivity. Qed.
Example C119_ex_random : random_multiindex (fun d => d - 1) 2 3 = Ok [0; 3].
Proof. reflexivity. Qed.
