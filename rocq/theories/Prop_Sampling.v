(** Properties C99-C101: probability_theory/uniform_sampling.py. *)
From Coq Require Import Reals Lra Lia.
From Verif Require Import Base MultiIndex RVec Angle Sampling SamplingFacts.
Local Open Scope R_scope.

(** ** Uniform distributions: the lists of random numbers are equally likely *)
(** the equally spaced numbers 0, 1/N, ..., (N-1)/N; np.random.rand returns these for N = 2^53 *)
Definition grid (N : nat) : list R := map (fun j => INR j / INR N) (seq 0 N).
Definition returns {A} (dec : forall x y : A, {x = y} + {x <> y}) (s : list R -> result (list A * list R)) (ys : list A) (d : list R) : bool :=
  match s d with Ok p => if list_eq_dec dec (fst p) ys then true else false | Err _ => false end.
Definition vec_dec : forall u v : vec, {u = v} + {u <> v} := list_eq_dec Req_EM_T.

Lemma app_inj_length {A} (a b c d : list A) : length a = length b -> a ++ c = b ++ d -> a = b /\ c = d.
Proof. revert b. induction a as [|x a IH]; intros [|y b] L E; try discriminate L; [split; [reflexivity|exact E]|]. injection E as -> E. destruct (IH b) as [-> ->]; [injection L; auto|exact E|]. split; reflexivity. Qed.
Lemma prefix_groups n cs : (0 < n)%nat -> forall cs' d, groups n cs -> groups n cs' -> concat cs = concat cs' ++ d -> exists r, cs = cs' ++ r.
Proof.
  intros Hn. induction cs as [|c cs IH]; intros [|c' cs'] d G G' E; try (eexists; reflexivity).
  - pose proof (G' c' (or_introl eq_refl)). destruct c'; [cbn in *; lia|discriminate E].
  - cbn [concat] in E. rewrite <- app_assoc in E. destruct (app_inj_length c c' (concat cs) (concat cs' ++ d)) as [-> E']; [rewrite (G c (or_introl eq_refl)), (G' c' (or_introl eq_refl)); reflexivity|exact E|].
    destruct (IH cs' d) as (r & ->); [intros x Hx; apply G; right; exact Hx|intros x Hx; apply G'; right; exact Hx|exact E'|]. exists r. reflexivity.
Qed.
Lemma map_inj_in {A B} (f : A -> B) (P : A -> Prop) : (forall x y, P x -> P y -> f x = f y -> x = y) -> forall l l', (forall x, In x l -> P x) -> (forall x, In x l' -> P x) -> map f l = map f l' -> l = l'.
Proof.
  intros I. induction l as [|x l IH]; intros [|y l'] H H' E; try discriminate E; [reflexivity|]. injection E as E1 E2. f_equal; [apply I; [apply H|apply H'|exact E1]; left; reflexivity|]. apply IH; [intros; apply H; right; assumption|intros; apply H'; right; assumption|exact E2].
Qed.
Section Uniform.
  Context {A : Type} (dec : forall x y : A, {x = y} + {x <> y}) (S_ : nat -> list R -> result (list A * list R)) (n : nat) (acc : vec -> bool) (f : vec -> A).
  Hypothesis Hn : (0 < n)%nat.
  Hypothesis Hok : forall num cs d, groups n cs -> (num <= length (filter acc cs))%nat -> exists rest, S_ num (concat cs ++ d) = Ok (map f (firstn num (filter acc cs)), rest ++ d).
  Hypothesis Hinv : forall num d ys d', S_ num d = Ok (ys, d') -> exists cs, groups n cs /\ d = concat cs ++ d' /\ ys = map f (filter acc cs) /\ length ys = num.
  Hypothesis Hf : forall u v, length u = n -> length v = n -> f u = f v -> u = v.
  Lemma returns_starts xs cs : groups n xs -> groups n cs -> returns dec (S_ (length xs)) (map f xs) (concat cs) = starts vec_dec acc xs cs.
  Proof.
    intros Gx G. apply Bool.eq_true_iff_eq. rewrite starts_spec. unfold returns. split.
    - destruct (S_ (length xs) (concat cs)) as [[ys d']|] eqn:E; [|discriminate]. cbn [fst]. destruct (list_eq_dec dec ys (map f xs)) as [->|]; [|discriminate]. intros _. destruct (Hinv _ _ _ _ E) as (cs' & G' & E1 & E2 & _). destruct (prefix_groups n cs Hn cs' d' G G' E1) as (r & ->).
      assert (X : xs = filter acc cs'). { apply (map_inj_in f (fun v => length v = n)); [exact Hf|exact Gx|intros x Hx; apply filter_In in Hx; apply G', (proj1 Hx)|exact E2]. }
      rewrite filter_app, <- X, app_length. split; [lia|]. rewrite firstn_app, Nat.sub_diag, firstn_all. cbn. rewrite app_nil_r. reflexivity.
    - intros [H E]. destruct (Hok (length xs) cs [] G H) as (rest & E'). rewrite app_nil_r in E'. rewrite E'. cbn [fst]. rewrite <- E. destruct (list_eq_dec dec (map f xs) (map f xs)); [reflexivity|congruence].
  Qed.
  Lemma uniform_count (G : list R) t xs : NoDup G -> (forall x, In x xs -> In x (tuples G n) /\ acc x = true) -> count (returns dec (S_ (length xs)) (map f xs)) (tuples G (t * n)) = ways acc (tuples G n) t (length xs).
  Proof.
    intros N H. rewrite tuples_concat, count_map. refine (eq_trans _ (starts_count vec_dec acc (tuples G n) (tuples_nodup G n N) t xs H)). apply count_ext. intros cs Hcs. apply in_tuples in Hcs. apply returns_starts.
    - intros c Hc. destruct (H c Hc) as [Hc' _]. apply in_tuples in Hc'. apply Hc'.
    - intros c Hc. apply (proj2 Hcs) in Hc. apply in_tuples in Hc. apply Hc.
  Qed.
  Lemma uniform_count' (G : list R) t xs k : NoDup G -> (forall x, In x xs -> In x (tuples G n) /\ acc x = true) -> length xs = k -> count (returns dec (S_ k) (map f xs)) (tuples G (t * n)) = ways acc (tuples G n) t k.
  Proof. intros N H E. destruct E. apply uniform_count; assumption. Qed.
  (** the target values are all images of accepted groups *)
  Lemma uniform (G : list R) t ys zs : NoDup G -> length ys = length zs -> (forall y, In y ys \/ In y zs -> exists x, In x (tuples G n) /\ acc x = true /\ y = f x) ->
    count (returns dec (S_ (length ys)) ys) (tuples G (t * n)) = count (returns dec (S_ (length ys)) zs) (tuples G (t * n)) /\ (ys <> [] -> (length ys <= t)%nat -> (0 < count (returns dec (S_ (length ys)) ys) (tuples G (t * n)))%nat).
  Proof.
    intros N L H. assert (P : forall l, (forall y, In y l -> In y ys \/ In y zs) -> exists xs, l = map f xs /\ forall x, In x xs -> In x (tuples G n) /\ acc x = true).
    { induction l as [|y l IH]; intros Hl; [exists []; split; [reflexivity|intros ? []]|]. destruct IH as (xs & -> & Hx); [intros; apply Hl; right; assumption|]. destruct (H y) as (x & H1 & H2 & ->); [apply Hl; left; reflexivity|]. exists (x :: xs). split; [reflexivity|]. intros x' [<-|Hx']; auto. }
    destruct (P ys ltac:(auto)) as (xs & -> & Hx). destruct (P zs ltac:(auto)) as (xs' & -> & Hx'). rewrite !map_length in *. split.
    - refine (eq_trans (uniform_count G t xs N Hx) _). symmetry. apply uniform_count'; [exact N|exact Hx'|symmetry; exact L].
    - intros Hne Ht. refine (eq_ind_r (fun c => (0 < c)%nat) _ (uniform_count G t xs N Hx)). apply ways_pos; [|exact Ht]. destruct xs as [|x xs]; [contradiction|]. exists x. apply Hx. left. reflexivity.
  Qed.
End Uniform.

(** ** C99: intervals *)
Definition random (d : list R) : Prop := forall x, In x d -> 0 <= x < 1.
Lemma rleb_iff a b : rleb a b = true <-> a <= b. Proof. unfold rleb. destruct (Rle_dec a b); split; auto; discriminate. Qed.
Lemma rltb_iff a b : rltb a b = true <-> a < b. Proof. unfold rltb. destruct (Rlt_dec a b); split; auto; discriminate. Qed.
Lemma rltb_rleb a b : negb (rltb a b) = rleb b a. Proof. unfold rltb, rleb. destruct (Rlt_dec a b), (Rle_dec b a); try reflexivity; lra. Qed.
Lemma rleb_rltb a b : negb (rleb a b) = rltb b a. Proof. unfold rltb, rleb. destruct (Rlt_dec b a), (Rle_dec a b); try reflexivity; lra. Qed.
Lemma filter_groups (p : R -> bool) cs : groups 1 cs -> filter (fun v => p (first v)) cs = map (fun x => [x]) (filter p (concat cs)).
Proof. intros G. rewrite (groups_one cs G) at 1. generalize (concat cs). induction l as [|x l IH]; [reflexivity|]. cbn [map filter]. unfold first at 1. cbn [nth]. destruct (p x); cbn [map]; rewrite IH; reflexivity. Qed.
Lemma single_groups (d : list R) : groups 1 (map (fun x => [x]) d) /\ concat (map (fun x => [x]) d) = d.
Proof. split; [intros c Hc; apply in_map_iff in Hc; destruct Hc as (x & <- & _); reflexivity|]. induction d as [|x d IH]; [reflexivity|]. cbn [map concat]. rewrite IH. reflexivity. Qed.
Lemma single_inv {A} {sample : list R -> result (A * list R)} {acc f} (p : R -> bool) (g : R -> A) : skips sample 1 acc f -> (forall v, acc v = p (first v)) -> (forall x, f [x] = g x) -> forall num d ys d', sampling sample num d = Ok (ys, d') -> exists used, d = used ++ d' /\ ys = map g (filter p used) /\ length ys = num.
Proof.
  intros HS Hp Hg num d ys d' E. destruct (sampling_inv HS num d ys d' E) as (cs & G & -> & -> & L). exists (concat cs). split; [reflexivity|]. split; [|exact L]. rewrite (filter_ext _ _ Hp), filter_groups, map_map by exact G. apply map_ext. intros x. apply Hg.
Qed.
Lemma single_ok {A} {sample : list R -> result (A * list R)} {acc f} (p : R -> bool) (g : R -> A) : skips sample 1 acc f -> (forall v, acc v = p (first v)) -> (forall x, f [x] = g x) -> forall num d, (num <= length (filter p d))%nat -> exists d', sampling sample num d = Ok (map g (firstn num (filter p d)), d').
Proof.
  intros HS Hp Hg num d H. destruct (single_groups d) as [G C]. pose proof (filter_groups p _ G) as E. rewrite C in E. rewrite <- (filter_ext _ _ Hp) in E.
  destruct (sampling_ok HS num (map (fun x => [x]) d) [] G) as (rest & E'); [rewrite E, map_length; exact H|]. rewrite C, !app_nil_r in E'. rewrite E'. exists rest. rewrite E. rewrite firstn_map, map_map. do 2 f_equal. apply map_ext. exact Hg.
Qed.
Theorem C99_closed : forall num d, random d ->
  (forall ys d', closed_unit_interval_sampling num d = Ok (ys, d') -> length ys = num /\ (forall y, In y ys -> 0 <= y <= 1) /\ exists used, d = used ++ d' /\ ys = map (fun x => x / (7 / 8)) (filter (fun x => rleb x (7 / 8)) used)) /\
  ((num <= length (filter (fun x => rleb x (7 / 8)) d))%nat -> exists d', closed_unit_interval_sampling num d = Ok (map (fun x => x / (7 / 8)) (firstn num (filter (fun x => rleb x (7 / 8)) d)), d')).
Proof.
  intros num d Hd. split.
  - intros ys d' E. destruct (single_inv (fun x => rleb x (7 / 8)) (fun x => x / (7 / 8)) closed_skips (fun v => rltb_rleb _ _) (fun x => eq_refl) num d ys d' E) as (used & -> & -> & L). split; [exact L|]. split; [|exists used; split; reflexivity].
    intros y Hy. apply in_map_iff in Hy. destruct Hy as (x & <- & Hx). apply filter_In in Hx. destruct Hx as [Hx Hb]. apply rleb_iff in Hb. pose proof (Hd x ltac:(apply in_or_app; left; exact Hx)). split; lra.
  - apply (single_ok (fun x => rleb x (7 / 8)) (fun x => x / (7 / 8)) closed_skips (fun v => rltb_rleb _ _) (fun x => eq_refl)).
Qed.
Theorem C99_open : forall num d, random d ->
  (forall ys d', open_unit_interval_sampling num d = Ok (ys, d') -> length ys = num /\ (forall y, In y ys -> 0 < y < 1) /\ exists used, d = used ++ d' /\ ys = map (fun x => (x - 1 / 8) / (7 / 8)) (filter (fun x => rltb (1 / 8) x) used)) /\
  ((num <= length (filter (fun x => rltb (1 / 8) x) d))%nat -> exists d', open_unit_interval_sampling num d = Ok (map (fun x => (x - 1 / 8) / (7 / 8)) (firstn num (filter (fun x => rltb (1 / 8) x) d)), d')).
Proof.
  intros num d Hd. split.
  - intros ys d' E. destruct (single_inv (fun x => rltb (1 / 8) x) (fun x => (x - 1 / 8) / (7 / 8)) open_skips (fun v => rleb_rltb _ _) (fun x => eq_refl) num d ys d' E) as (used & -> & -> & L). split; [exact L|]. split; [|exists used; split; reflexivity].
    intros y Hy. apply in_map_iff in Hy. destruct Hy as (x & <- & Hx). apply filter_In in Hx. destruct Hx as [Hx Hb]. apply rltb_iff in Hb. pose proof (Hd x ltac:(apply in_or_app; left; exact Hx)). split; lra.
  - apply (single_ok (fun x => rltb (1 / 8) x) (fun x => (x - 1 / 8) / (7 / 8)) open_skips (fun v => rleb_rltb _ _) (fun x => eq_refl)).
Qed.
Lemma sampling_rand num d : sampling rand num d = rand_array num d.
Proof. revert d. induction num as [|num IH]; intros d; [reflexivity|]. cbn [sampling rand_array]. destruct (rand d) as [[x d']|]; [|reflexivity]. cbn [bind fst snd]. rewrite IH. reflexivity. Qed.
(** the half open intervals: one random number for each point *)
Theorem C99_half_open : forall num d rest, random d -> length d = num ->
  left_closed_unit_interval_sampling num (d ++ rest) = Ok (d, rest) /\ unit_interval_sampling num (d ++ rest) = Ok (d, rest) /\ (forall y, In y d -> 0 <= y < 1) /\
  right_closed_unit_interval_sampling num (d ++ rest) = Ok (map (fun x => 1 - x) d, rest) /\ (forall y, In y (map (fun x => 1 - x) d) -> 0 < y <= 1).
Proof.
  intros num d rest Hd L. split; [apply rand_array_ok, L|]. split; [apply rand_array_ok, L|]. split; [exact Hd|]. split.
  - subst num. clear Hd. unfold right_closed_unit_interval_sampling. induction d as [|x d IH]; [reflexivity|]. cbn [sampling length app]. unfold right_closed_interval_sample at 1. cbn [rand bind fst snd]. rewrite IH. cbn [bind fst snd map]. do 3 f_equal. ring.
  - intros y Hy. apply in_map_iff in Hy. destruct Hy as (x & <- & Hx). apply Hd in Hx. lra.
Qed.
Lemma in_grid N x : In x (grid N) <-> exists j, (j < N)%nat /\ x = INR j / INR N.
Proof. unfold grid. rewrite in_map_iff. split; intros (j & H1 & H2); exists j; [apply in_seq in H2; split; [lia|auto]|split; [auto|apply in_seq; lia]]. Qed.
Lemma grid_nodup N : NoDup (grid N).
Proof.
  unfold grid. apply NoDup_map_inj; [|apply seq_NoDup]. intros x y Hx _ E. apply in_seq in Hx. assert (0 < INR N) by (apply lt_0_INR; lia). apply INR_eq. apply (Rmult_eq_reg_r (/ INR N)); [exact E|]. apply Rinv_neq_0_compat. lra.
Qed.
Lemma in_singles (G : list R) x : In [x] (tuples G 1) <-> In x G.
Proof. rewrite in_tuples. split; [intros [_ H]; apply H; left; reflexivity|intros H; split; [reflexivity|intros y [<-|[]]; exact H]]. Qed.
Lemma INR_mul8 m : INR (8 * m) = 8 * INR m. Proof. rewrite mult_INR. replace (INR 8) with 8 by (cbn; ring). reflexivity. Qed.
Lemma INR_mul7 m : INR (7 * m) = 7 * INR m. Proof. rewrite mult_INR. replace (INR 7) with 7 by (cbn; ring). reflexivity. Qed.
(** All sequences of values k/(7m), 0 <= k <= 7m, are equally likely, and there are no other values. *)
Theorem C99_closed_uniform : forall m t ys zs, m <> 0%nat -> length ys = length zs -> (forall y, In y ys \/ In y zs -> exists k, (k <= 7 * m)%nat /\ y = INR k / INR (7 * m)) ->
  count (returns Req_EM_T (closed_unit_interval_sampling (length ys)) ys) (tuples (grid (8 * m)) t) = count (returns Req_EM_T (closed_unit_interval_sampling (length ys)) zs) (tuples (grid (8 * m)) t) /\
  (ys <> [] -> (length ys <= t)%nat -> (0 < count (returns Req_EM_T (closed_unit_interval_sampling (length ys)) ys) (tuples (grid (8 * m)) t))%nat).
Proof.
  intros m t ys zs Hm L H. assert (P : 0 < INR m) by (apply lt_0_INR; lia).
  pose proof (uniform Req_EM_T closed_unit_interval_sampling 1 _ _ ltac:(lia) (fun num cs d => sampling_ok closed_skips num cs d) (fun num d y d' => sampling_inv closed_skips num d y d')) as U.
  specialize (U ltac:(intros [|a [|? ?]] [|b [|? ?]] La Lb E; try discriminate; unfold first in E; cbn [nth] in E; f_equal; lra) (grid (8 * m)) t ys zs (grid_nodup _) L). rewrite Nat.mul_1_r in U. apply U.
  intros y Hy. destruct (H y Hy) as (k & Hk & ->). exists [INR k / INR (8 * m)]. apply le_INR in Hk. rewrite INR_mul7 in *. rewrite INR_mul8. split; [|split].
  - apply in_singles, in_grid. exists k. split; [|rewrite INR_mul8; reflexivity]. apply INR_lt. rewrite INR_mul8. lra.
  - unfold first. cbn [nth]. rewrite rltb_rleb. apply rleb_iff. apply (Rmult_le_reg_r (8 * INR m)); [lra|]. unfold Rdiv at 1. rewrite Rmult_assoc, Rinv_l by lra. lra.
  - unfold first. cbn [nth]. field. lra.
Qed.
Theorem C99_closed_values : forall m num d ys d', m <> 0%nat -> (forall x, In x d -> In x (grid (8 * m))) -> closed_unit_interval_sampling num d = Ok (ys, d') -> forall y, In y ys -> exists k, (k <= 7 * m)%nat /\ y = INR k / INR (7 * m).
Proof.
  intros m num d ys d' Hm Hd E y Hy. assert (P : 0 < INR m) by (apply lt_0_INR; lia). destruct (single_inv (fun x => rleb x (7 / 8)) (fun x => x / (7 / 8)) closed_skips (fun v => rltb_rleb _ _) (fun x => eq_refl) num d ys d' E) as (used & -> & -> & L).
  apply in_map_iff in Hy. destruct Hy as (x & <- & Hx). apply filter_In in Hx. destruct Hx as [Hx Hb]. apply rleb_iff in Hb. destruct (proj1 (in_grid _ _) (Hd x ltac:(apply in_or_app; left; exact Hx))) as (j & Hj & ->). rewrite INR_mul8 in *. exists j. rewrite INR_mul7. split; [|field; lra].
  apply INR_le. rewrite INR_mul7. apply (Rmult_le_compat_r (8 * INR m)) in Hb; [|lra]. unfold Rdiv at 1 in Hb. rewrite Rmult_assoc, Rinv_l in Hb by lra. lra.
Qed.
Theorem C99_open_uniform : forall m t ys zs, m <> 0%nat -> length ys = length zs -> (forall y, In y ys \/ In y zs -> exists k, (0 < k < 7 * m)%nat /\ y = INR k / INR (7 * m)) ->
  count (returns Req_EM_T (open_unit_interval_sampling (length ys)) ys) (tuples (grid (8 * m)) t) = count (returns Req_EM_T (open_unit_interval_sampling (length ys)) zs) (tuples (grid (8 * m)) t) /\
  (ys <> [] -> (length ys <= t)%nat -> (0 < count (returns Req_EM_T (open_unit_interval_sampling (length ys)) ys) (tuples (grid (8 * m)) t))%nat).
Proof.
  intros m t ys zs Hm L H. assert (P : 0 < INR m) by (apply lt_0_INR; lia).
  pose proof (uniform Req_EM_T open_unit_interval_sampling 1 _ _ ltac:(lia) (fun num cs d => sampling_ok open_skips num cs d) (fun num d y d' => sampling_inv open_skips num d y d')) as U.
  specialize (U ltac:(intros [|a [|? ?]] [|b [|? ?]] La Lb E; try discriminate; unfold first in E; cbn [nth] in E; f_equal; lra) (grid (8 * m)) t ys zs (grid_nodup _) L). rewrite Nat.mul_1_r in U. apply U.
  intros y Hy. destruct (H y Hy) as (k & [Hk0 Hk] & ->). exists [INR (k + m) / INR (8 * m)]. assert (Hk' : (k + m < 8 * m)%nat) by lia. apply lt_INR in Hk, Hk0. change (INR 0) with 0 in Hk0. rewrite INR_mul7 in *. rewrite INR_mul8, plus_INR. split; [|split].
  - apply in_singles, in_grid. exists (k + m)%nat. split; [exact Hk'|]. rewrite INR_mul8, plus_INR. reflexivity.
  - unfold first. cbn [nth]. rewrite rleb_rltb. apply rltb_iff. apply (Rmult_lt_reg_r (8 * INR m)); [lra|]. unfold Rdiv at 2. rewrite Rmult_assoc, Rinv_l by lra. lra.
  - unfold first. cbn [nth]. field. lra.
Qed.
Theorem C99_open_values : forall m num d ys d', m <> 0%nat -> (forall x, In x d -> In x (grid (8 * m))) -> open_unit_interval_sampling num d = Ok (ys, d') -> forall y, In y ys -> exists k, (0 < k < 7 * m)%nat /\ y = INR k / INR (7 * m).
Proof.
  intros m num d ys d' Hm Hd E y Hy. assert (P : 0 < INR m) by (apply lt_0_INR; lia). destruct (single_inv (fun x => rltb (1 / 8) x) (fun x => (x - 1 / 8) / (7 / 8)) open_skips (fun v => rleb_rltb _ _) (fun x => eq_refl) num d ys d' E) as (used & -> & -> & L).
  apply in_map_iff in Hy. destruct Hy as (x & <- & Hx). apply filter_In in Hx. destruct Hx as [Hx Hb]. apply rltb_iff in Hb. destruct (proj1 (in_grid _ _) (Hd x ltac:(apply in_or_app; left; exact Hx))) as (j & Hj & ->). rewrite INR_mul8 in *.
  assert (Hjm : (m < j)%nat). { apply INR_lt. apply (Rmult_lt_compat_r (8 * INR m)) in Hb; [|lra]. unfold Rdiv at 2 in Hb. rewrite Rmult_assoc, Rinv_l in Hb by lra. lra. }
  exists (j - m)%nat. split; [lia|]. rewrite minus_INR by lia. rewrite INR_mul7. field. lra.
Qed.

(** ** C100: cubes, balls and simplices *)
Lemma reshape_spec n : forall num l, length l = (num * n)%nat -> length (reshape num n l) = num /\ forall i, (i < num)%nat -> length (nth i (reshape num n l) []) = n /\ forall j, (j < n)%nat -> nth j (nth i (reshape num n l) []) 0 = nth (i * n + j) l 0.
Proof.
  induction num as [|num IH]; intros l L; cbn [reshape]; [split; [reflexivity|intros; lia]|]. cbn [Nat.mul] in L. destruct (IH (skipn n l)) as [L1 H1]; [rewrite skipn_length; lia|]. split; [cbn [length]; lia|].
  intros [|i] Hi; cbn [nth].
  - split; [rewrite firstn_length; lia|]. intros j Hj. rewrite <- (firstn_skipn n l) at 2. rewrite app_nth1 by (rewrite firstn_length; lia). reflexivity.
  - destruct (H1 i ltac:(lia)) as [H2 H3]. split; [exact H2|]. intros j Hj. rewrite H3 by exact Hj. rewrite <- (firstn_skipn n l) at 2. rewrite app_nth2 by (rewrite firstn_length; lia). rewrite firstn_length. f_equal. nia.
Qed.
Theorem C100_cube : forall n num d rest, length d = (n * num)%nat -> exists ps, ncube_sampling n num (d ++ rest) = Ok (ps, rest) /\ (n = 2%nat -> unit_square_sampling num (d ++ rest) = Ok (ps, rest)) /\ length ps = num /\
  (forall i, (i < num)%nat -> length (nth i ps []) = n /\ forall j, (j < n)%nat -> nth j (nth i ps []) 0 = nth (i * n + j) d 0) /\ (random d -> forall p x, In p ps -> In x p -> 0 <= x < 1).
Proof.
  intros n num d rest L. exists (reshape num n d). destruct (reshape_spec n num d ltac:(lia)) as [L1 H]. split; [unfold ncube_sampling; rewrite rand_array_ok by exact L; reflexivity|]. split.
  - intros ->. unfold unit_square_sampling. rewrite rand_array_ok by exact L. cbn [bind fst snd]. rewrite L. rewrite Nat.mul_comm, Nat.div_mul by discriminate. reflexivity.
  - split; [exact L1|]. split; [exact H|]. intros Hd p x Hp Hx. destruct (In_nth _ _ [] Hp) as (i & Hi0 & <-). pose proof (eq_ind _ (fun k => (i < k)%nat) Hi0 _ L1) as Hi. cbv beta in Hi. destruct (H i Hi) as [H2 H3]. destruct (In_nth _ _ 0 Hx) as (j & Hj0 & <-). pose proof (eq_ind _ (fun k => (j < k)%nat) Hj0 _ H2) as Hj. cbv beta in Hj. rewrite H3 by exact Hj. apply Hd. apply nth_In. nia.
Qed.
Definition ball_draw (v : vec) : bool := rleb (vdot (centered v) (centered v)) 1.
Lemma inball_draw v : inball v = ball_draw v. Proof. apply rltb_rleb. Qed.
Theorem C100_ball : forall n num d, random d ->
  (forall ps d', nsphere_sampling n num d = Ok (ps, d') -> length ps = num /\ (forall p, In p ps -> length p = n /\ vdot p p <= 1 /\ forall x, In x p -> -1 <= x < 1) /\
     exists used, groups n used /\ d = concat used ++ d' /\ ps = map centered (filter ball_draw used)) /\
  (forall used d', groups n used -> d = concat used ++ d' -> (num <= length (filter ball_draw used))%nat -> exists d'', nsphere_sampling n num d = Ok (map centered (firstn num (filter ball_draw used)), d'')).
Proof.
  intros n num d Hd. split.
  - intros ps d' E. destruct (ball_loop_inv n num _ _ _ _ _ E) as (cs & G & -> & -> & L); [cbn; lia|]. cbn [app] in *. rewrite (filter_ext _ _ inball_draw) in *. split; [exact L|]. split; [|exists cs; repeat split; exact G].
    intros p Hp. apply in_map_iff in Hp. destruct Hp as (c & <- & Hc). apply filter_In in Hc. destruct Hc as [Hc Hb]. apply rleb_iff in Hb. split; [unfold centered; rewrite map_length; apply G, Hc|]. split; [exact Hb|]. intros x Hx. apply in_map_iff in Hx. destruct Hx as (y & <- & Hy). pose proof (Hd y ltac:(apply in_or_app; left; apply in_concat; exists c; split; assumption)). lra.
  - intros used d' G -> H. destruct (nsphere_ok n num used d' G) as (rest & E); [rewrite (filter_ext _ _ inball_draw); exact H|]. rewrite (filter_ext _ _ inball_draw) in E. eexists. exact E.
Qed.
Theorem C100_disc : forall num d ps d', random d -> unit_disc_sampling num d = Ok (ps, d') -> length ps = num /\ forall p, In p ps -> exists x y, p = [x; y] /\ x ^ 2 + y ^ 2 <= 1.
Proof.
  intros num d ps d' Hd E. destruct (proj1 (C100_ball 2 num d Hd) ps d' E) as (L & H & _). split; [exact L|]. intros p Hp. destruct (H p Hp) as (Lp & Hb & _). destruct p as [|x [|y [|? ?]]]; try discriminate Lp. exists x, y. split; [reflexivity|]. rewrite !vdot_cons, vdot_nil_l in Hb. lra.
Qed.
Lemma centered_inj : forall u v : vec, centered u = centered v -> u = v.
Proof. induction u as [|x u IH]; intros [|y v] E; try discriminate; [reflexivity|]. injection E as E1 E2. f_equal; [lra|apply IH, E2]. Qed.
(** All sequences of points of the ball on the grid are equally likely. *)
Theorem C100_ball_uniform : forall n (G : list R) t ps qs, n <> 0%nat -> NoDup G -> length ps = length qs -> (forall p, In p ps \/ In p qs -> vdot p p <= 1 /\ exists v, length v = n /\ (forall x, In x v -> In x G) /\ p = map (fun x => 2 * x - 1) v) ->
  count (returns vec_dec (nsphere_sampling n (length ps)) ps) (tuples G (t * n)) = count (returns vec_dec (nsphere_sampling n (length ps)) qs) (tuples G (t * n)) /\
  (ps <> [] -> (length ps <= t)%nat -> (0 < count (returns vec_dec (nsphere_sampling n (length ps)) ps) (tuples G (t * n)))%nat).
Proof.
  intros n G t ps qs Hn N L H. apply (uniform vec_dec (nsphere_sampling n) n inball centered); [lia|intros; apply nsphere_ok; assumption| |intros u v _ _; apply centered_inj|exact N|exact L|].
  - intros num d ys d' E. destruct (ball_loop_inv n num _ _ _ _ _ E) as (cs & R); [cbn; lia|]. exists cs. exact R.
  - intros p Hp. destruct (H p Hp) as [Hb (v & Lv & Hv & Ep)]. assert (E : p = centered v) by (rewrite Ep; unfold centered; apply map_ext; intros; ring). exists v. split; [apply in_tuples; split; assumption|]. split; [|exact E]. rewrite inball_draw. apply rleb_iff. rewrite <- E. exact Hb.
Qed.
Definition simplex_draw (v : vec) : bool := rleb (rsum v) 1.
Lemma small_draw v : small v = simplex_draw v. Proof. apply rltb_rleb. Qed.
Theorem C100_simplex : forall n num d, random d ->
  (forall ps d', nsimplex_sampling n num d = Ok (ps, d') -> length ps = num /\ (forall p, In p ps -> length p = n /\ rsum p <= 1 /\ forall x, In x p -> 0 <= x < 1) /\
     exists used, groups n used /\ d = concat used ++ d' /\ ps = filter simplex_draw used) /\
  (forall used d', groups n used -> d = concat used ++ d' -> (num <= length (filter simplex_draw used))%nat -> exists d'', nsimplex_sampling n num d = Ok (firstn num (filter simplex_draw used), d'')).
Proof.
  intros n num d Hd. split.
  - intros ps d' E. destruct (sampling_inv (simplex_skips n) num d ps d' E) as (cs & G & -> & -> & L). rewrite map_id in *. rewrite (filter_ext _ _ small_draw) in *. split; [exact L|]. split; [|exists cs; repeat split; exact G].
    intros p Hp. apply filter_In in Hp. destruct Hp as [Hp Hb]. apply rleb_iff in Hb. split; [apply G, Hp|]. split; [exact Hb|]. intros x Hx. apply Hd. apply in_or_app. left. apply in_concat. exists p. split; assumption.
  - intros used d' G -> H. destruct (sampling_ok (simplex_skips n) num used d' G) as (rest & E); [rewrite (filter_ext _ _ small_draw); exact H|]. rewrite map_id, (filter_ext _ _ small_draw) in E. eexists. exact E.
Qed.
Theorem C100_simplex_uniform : forall n (G : list R) t ps qs, n <> 0%nat -> NoDup G -> length ps = length qs -> (forall p, In p ps \/ In p qs -> length p = n /\ (forall x, In x p -> In x G) /\ rsum p <= 1) ->
  count (returns vec_dec (nsimplex_sampling n (length ps)) ps) (tuples G (t * n)) = count (returns vec_dec (nsimplex_sampling n (length ps)) qs) (tuples G (t * n)) /\
  (ps <> [] -> (length ps <= t)%nat -> (0 < count (returns vec_dec (nsimplex_sampling n (length ps)) ps) (tuples G (t * n)))%nat).
Proof.
  intros n G t ps qs Hn N L H. apply (uniform vec_dec (nsimplex_sampling n) n small (fun v => v)); [lia|intros num cs d; apply (sampling_ok (simplex_skips n))|intros num d ys d'; apply (sampling_inv (simplex_skips n))|auto|exact N|exact L|].
  intros p Hp. destruct (H p Hp) as (Lp & Hg & Hs). exists p. split; [apply in_tuples; split; assumption|]. split; [|reflexivity]. rewrite small_draw. apply rleb_iff, Hs.
Qed.
(** [tuples G t] is the list of all lists of [t] elements of [G], each one once *)
Theorem C100_outcomes : forall (G : list R) t, NoDup G -> NoDup (tuples G t) /\ forall d, In d (tuples G t) <-> length d = t /\ forall x, In x d -> In x G.
Proof. intros G t N. split; [apply tuples_nodup, N|intros d; apply in_tuples]. Qed.

(** ** C101: spheres *)
Theorem C101_surface : forall n num d rest, length d = (num * n)%nat -> exists vs us, length vs = num /\ groups n vs /\ concat vs = d /\ nsphere_surface_sampling n num (d ++ rest) = Ok (us, rest) /\ length us = num /\
  forall i, (i < num)%nat -> vdot (nth i vs []) (nth i vs []) <> 0 -> length (nth i us []) = n /\ vnorm (nth i us []) = 1 /\ exists c, 0 < c /\ nth i vs [] = vscale c (nth i us []).
Proof.
  intros n num d rest L. exists (reshape num n d), (map (fun v => vdivs v (vnorm v)) (reshape num n d)). destruct (reshape_spec n num d L) as [L1 H]. split; [exact L1|]. split; [|split; [|split; [|split]]].
  - intros c Hc. destruct (In_nth _ _ [] Hc) as (i & Hi & <-). apply H. exact (eq_ind _ (fun k => (i < k)%nat) Hi _ L1).
  - clear - L. revert d L. induction num as [|num IH]; intros d L; cbn [reshape concat]; [destruct d; [reflexivity|discriminate]|]. cbn [Nat.mul] in L. rewrite IH by (rewrite skipn_length; lia). apply firstn_skipn.
  - unfold nsphere_surface_sampling. rewrite rand_array_ok by exact L. reflexivity.
  - rewrite map_length. exact L1.
  - intros i Hi N. destruct (H i Hi) as [Ln _]. set (v := nth i (reshape num n d) []) in *. assert (E : nth i (map (fun v => vdivs v (vnorm v)) (reshape num n d)) [] = vdivs v (vnorm v)) by (apply (nth_map_in (fun v : vec => vdivs v (vnorm v)) (reshape num n d) i [] []); exact (eq_ind _ (fun k => (i < k)%nat) Hi _ (eq_sym L1))). rewrite E. pose proof (vnorm_gt0 v N) as P. split; [rewrite vdivs_len; exact Ln|]. split.
    + rewrite vdivs_scale, vnorm_scale, Rabs_right by (apply Rle_ge, Rlt_le, Rinv_0_lt_compat, P). apply Rinv_l. lra.
    + exists (vnorm v). split; [exact P|]. rewrite vdivs_scale. unfold vscale. rewrite map_map. rewrite <- (map_id v) at 1. apply map_ext. intros x. field. lra.
Qed.
(** Applying a map that preserves norms and multiples (a rotation or a reflection) to the
    normally distributed vectors applies it to the points: if the distribution
    of the former is invariant, then so is that of the latter. *)
Theorem C101_rotation : forall n num (g : vec -> vec) vs rest, length vs = num -> groups n vs -> (forall v, length v = n -> length (g v) = n /\ vdot (g v) (g v) = vdot v v /\ forall c, g (vscale c v) = vscale c (g v)) ->
  exists us, nsphere_surface_sampling n num (concat vs ++ rest) = Ok (us, rest) /\ nsphere_surface_sampling n num (concat (map g vs) ++ rest) = Ok (map g us, rest).
Proof.
  intros n num g vs rest L G Hg.
  assert (RS : forall ws, groups n ws -> reshape (length ws) n (concat ws) = ws).
  { induction ws as [|w ws IH]; intros Gw; [reflexivity|]. cbn [length reshape concat]. pose proof (Gw w (or_introl eq_refl)) as Lw. rewrite firstn_app, skipn_app, Lw, Nat.sub_diag, firstn_all2, skipn_all2 by (apply Nat.eq_le_incl; exact Lw). cbn [firstn skipn app]. rewrite app_nil_r. f_equal. apply IH. intros c Hc. apply Gw. right. exact Hc. }
  assert (LC : forall ws, groups n ws -> length (concat ws) = (length ws * n)%nat).
  { induction ws as [|w ws IH]; intros Gw; [reflexivity|]. cbn [concat length Nat.mul]. rewrite app_length, (Gw w (or_introl eq_refl)), IH; [reflexivity|]. intros c Hc. apply Gw. right. exact Hc. }
  assert (Gg : groups n (map g vs)) by (intros c Hc; apply in_map_iff in Hc; destruct Hc as (v & <- & Hv); apply Hg, G, Hv).
  exists (map (fun v => vdivs v (vnorm v)) vs). unfold nsphere_surface_sampling. rewrite !rand_array_ok by (rewrite LC by assumption; rewrite ?map_length, L; reflexivity). cbn [bind fst snd]. subst num. rewrite RS by exact G. split; [reflexivity|]. rewrite <- (map_length g vs) at 1. rewrite RS by exact Gg. do 2 f_equal. rewrite !map_map. apply map_ext_in. intros v Hv. destruct (Hg v (G v Hv)) as (_ & E & Hs). unfold vnorm. rewrite E. rewrite !vdivs_scale. symmetry. apply Hs.
Qed.
Theorem C101_circle : forall num d rest, length d = (num * 2)%nat -> (forall x, In x d -> x <> 0) -> exists us, unit_circle_sampling num (d ++ rest) = Ok (us, rest) /\ length us = num /\ forall u, In u us -> exists x y, u = [x; y] /\ x ^ 2 + y ^ 2 = 1.
Proof.
  intros num d rest L Hd. destruct (C101_surface 2 num d rest L) as (vs & us & Lv & G & C & E & Lu & H). exists us. split; [exact E|]. split; [exact Lu|]. intros u Hu. destruct (In_nth _ _ [] Hu) as (i & Hi0 & <-). pose proof (eq_ind _ (fun k => (i < k)%nat) Hi0 _ Lu) as Hi. cbv beta in Hi. assert (Hv : In (nth i vs []) vs) by (apply nth_In; refine (eq_ind _ (fun k => (i < k)%nat) Hi _ (eq_sym Lv))).
  destruct (H i Hi) as (Ln & Hn & _).
  - pose proof (G _ Hv) as L2. assert (Hx : forall x, In x (nth i vs []) -> x <> 0) by (intros x Hx; apply Hd; rewrite <- C; apply in_concat; exists (nth i vs []); split; assumption). destruct (nth i vs []) as [|x [|y [|? ?]]]; try discriminate L2. rewrite !vdot_cons, vdot_nil_l. pose proof (Hx x (or_introl eq_refl)). nra.
  - assert (D : forall u : vec, length u = 2%nat -> vnorm u = 1 -> exists x y, u = [x; y] /\ x ^ 2 + y ^ 2 = 1).
    { intros u L2 N. destruct u as [|x [|y [|? ?]]]; try discriminate L2. exists x, y. split; [reflexivity|]. pose proof (vnorm_sq [x; y]) as Q. rewrite N, !vdot_cons, vdot_nil_l in Q. lra. }
    apply D; assumption.
Qed.

Print Assumptions C99_closed.
Print Assumptions C99_open.
Print Assumptions C99_half_open.
Print Assumptions C99_closed_uniform.
Print Assumptions C99_closed_values.
Print Assumptions C99_open_uniform.
Print Assumptions C99_open_values.
Print Assumptions C100_cube.
Print Assumptions C100_ball.
Print Assumptions C100_disc.
Print Assumptions C100_ball_uniform.
Print Assumptions C100_simplex.
Print Assumptions C100_simplex_uniform.
Print Assumptions C100_outcomes.
Print Assumptions C101_surface.
Print Assumptions C101_rotation.
Print Assumptions C101_circle.
Ltac decide_R := repeat match goal with
  | |- context [rltb ?a ?b] => unfold rltb at 1; destruct (Rlt_dec a b); [try (exfalso; lra)|try (exfalso; lra)]
  | |- context [rleb ?a ?b] => unfold rleb at 1; destruct (Rle_dec a b); [try (exfalso; lra)|try (exfalso; lra)] end.
(** the first number is rejected *)
Example C99_example_closed : closed_unit_interval_sampling 2 [15 / 16; 7 / 8; 0; 1 / 2] = Ok ([7 / 8 / (7 / 8); 0 / (7 / 8)], [1 / 2]) /\ random [15 / 16; 7 / 8; 0; 1 / 2].
Proof.
  split; [|intros x [<-|[<-|[<-|[<-|[]]]]]; lra]. unfold closed_unit_interval_sampling. cbn [sampling closed_unit_interval_sample]. decide_R. cbn [bind fst snd sampling closed_unit_interval_sample]. decide_R. reflexivity.
Qed.
Example C99_example_open : open_unit_interval_sampling 1 [1 / 8; 1 / 2] = Ok ([(1 / 2 - 1 / 8) / (7 / 8)], []).
Proof. unfold open_unit_interval_sampling. cbn [sampling open_unit_interval_sample]. decide_R. reflexivity. Qed.
(** 1 and 2/7 are returned for the same number of sequences of 10 random numbers *)
Example C99_example_uniform : count (returns Req_EM_T (closed_unit_interval_sampling 1) [1]) (tuples (grid 8) 10) = count (returns Req_EM_T (closed_unit_interval_sampling 1) [2 / 7]) (tuples (grid 8) 10) /\ (0 < count (returns Req_EM_T (closed_unit_interval_sampling 1) [1%R]) (tuples (grid 8) 10))%nat.
Proof.
  destruct (C99_closed_uniform 1 10 [1] [2 / 7]) as [E P]; [discriminate|reflexivity| |split; [exact E|apply P; [discriminate|cbn; lia]]].
  intros y [[<-|[]]|[<-|[]]]; [exists 7%nat|exists 2%nat]; (split; [lia|]); rewrite INR_mul7; cbn; field.
Qed.
Example C100_example_cube : ncube_sampling 2 2 [1 / 2; 1 / 3; 1 / 4; 1 / 5; 1 / 6] = Ok ([[1 / 2; 1 / 3]; [1 / 4; 1 / 5]], [1 / 6]).
Proof. reflexivity. Qed.
Example C100_example_disc : exists p, unit_disc_sampling 1 [0; 0; 1 / 2; 3 / 4; 1 / 6] = Ok ([p], [1 / 6]) /\ p = [0; 1 / 2].
Proof.
  assert (A : rltb 1 (vdot (centered [0; 0]) (centered [0; 0])) = true) by (unfold rltb; destruct (Rlt_dec _ _) as [_|N]; [reflexivity|exfalso; apply N; unfold vdot, vmap2; cbn; lra]).
  assert (B : rltb 1 (vdot (centered [1 / 2; 3 / 4]) (centered [1 / 2; 3 / 4])) = false) by (unfold rltb; destruct (Rlt_dec _ _) as [N|_]; [exfalso; unfold vdot, vmap2 in N; cbn in N; lra|reflexivity]).
  exists (centered [1 / 2; 3 / 4]). split; [|cbn; f_equal; [lra|f_equal; lra]]. unfold unit_disc_sampling. cbn -[rltb vdot centered Rdiv IZR]. rewrite A. cbn -[rltb vdot centered Rdiv IZR]. rewrite B. reflexivity.
Qed.
Example C100_example_simplex_uniform : count (returns vec_dec (nsimplex_sampling 2 1) [[0; 1 / 2]]) (tuples [0; 1 / 2; 3 / 4] 10) = count (returns vec_dec (nsimplex_sampling 2 1) [[1 / 2; 1 / 2]]) (tuples [0; 1 / 2; 3 / 4] 10).
Proof.
  apply (C100_simplex_uniform 2 [0; 1 / 2; 3 / 4] 5 [[0; 1 / 2]] [[1 / 2; 1 / 2]]); [discriminate| |reflexivity|].
  - repeat constructor; cbn; intros H; repeat destruct H as [H|H]; try lra; contradiction.
  - intros p [[<-|[]]|[<-|[]]]; (split; [reflexivity|]); (split; [intros x [<-|[<-|[]]]; cbn; auto|cbn; lra]).
Qed.
Example C100_example_ball_uniform : count (returns vec_dec (nsphere_sampling 2 1) [[0; 0]]) (tuples [0; 1 / 2] 6) = count (returns vec_dec (nsphere_sampling 2 1) [[-1; 0]]) (tuples [0; 1 / 2] 6).
Proof.
  apply (C100_ball_uniform 2 [0; 1 / 2] 3 [[0; 0]] [[-1; 0]]); [discriminate| |reflexivity|].
  - repeat constructor; cbn; intros H; repeat destruct H as [H|H]; try lra; contradiction.
  - intros p [[<-|[]]|[<-|[]]]; rewrite !vdot_cons, vdot_nil_l; (split; [lra|]); [exists [1 / 2; 1 / 2]|exists [0; 1 / 2]]; (split; [reflexivity|]); (split; [intros x [<-|[<-|[]]]; cbn; auto|cbn; f_equal; [lra|f_equal; lra]]).
Qed.
(** (3, 4) gives (3/5, 4/5), and the reflected vector the reflected point *)
Example C101_example : exists us, unit_circle_sampling 1 [3; 4] = Ok (us, []) /\ unit_circle_sampling 1 [-3; -4] = Ok (map (vscale (-1)) us, []) /\ us = [[3 / 5; 4 / 5]].
Proof.
  destruct (C101_rotation 2 1 (vscale (-1)) [[3; 4]] []) as (us & E & E').
  - reflexivity.
  - intros c [<-|[]]. reflexivity.
  - intros v Lv. split; [rewrite vscale_len; exact Lv|]. split; [rewrite vdot_scale_l, vdot_scale_r; ring|]. intros c. unfold vscale. rewrite !map_map. apply map_ext. intros x. ring.
  - exists us. assert (N : vnorm [3; 4] = 5) by (apply vnorm_eq; [lra|rewrite !vdot_cons, vdot_nil_l; ring]). split; [exact E|]. split.
    + rewrite <- E'. unfold unit_circle_sampling. do 2 f_equal. cbn. repeat f_equal; ring.
    + cbn in E. injection E as <-. rewrite N. reflexivity.
Qed.
