(** Properties C102-C103: comparison of polynomials. *)
From Coq Require Import Reals Lra Lia.
From Verif Require PermFacts HomogInt PolySimplexMul PolySimplexFacts PolySimplexCalls BasesCalls BasesFacts.
From Verif Require Import Base MultiIndex MultiIndexFacts Fld FldInst Linalg VecFacts LinSolve SimplexGeo SimplexFacts AffineFacts Poly PolyFacts PolyEval PolyObj PolyCalls SubstFacts KdTree RVec Angle Sampling SamplingFacts PolyEqual ZeroCount PolyEqualFacts.
Local Open Scope R_scope.

(** A callable whose values have [n] components (a number if n = 1) given by polynomials of degree at most [r] in [m] variables *)
Definition polynomial (p : callable) (m n r : nat) (f : vec -> vec) : Prop :=
  (forall x, length x = m -> gives p n f x) /\ forall j, (j < n)%nat -> polydeg (F := RF) m r (fun x => nth j (f x) 0).
Lemma app_inj_length {A} (a b c d : list A) : length a = length b -> a ++ c = b ++ d -> a = b /\ c = d.
Proof. revert b. induction a as [|x a IH]; intros [|y b] L E; try discriminate L; [split; [reflexivity|exact E]|]. injection E as -> E. destruct (IH b) as [-> ->]; [injection L; auto|exact E|]. split; reflexivity. Qed.
Lemma prefix_groups n cs : (0 < n)%nat -> forall cs' d, groups n cs -> groups n cs' -> concat cs = concat cs' ++ d -> exists r, cs = cs' ++ r.
Proof.
  intros Hn. induction cs as [|c cs IH]; intros [|c' cs'] d G G' E; try (eexists; reflexivity).
  - pose proof (G' c' (or_introl eq_refl)). destruct c'; [cbn in *; lia|discriminate E].
  - cbn [concat] in E. rewrite <- app_assoc in E. destruct (app_inj_length c c' (concat cs) (concat cs' ++ d)) as [-> E']; [rewrite (G c (or_introl eq_refl)), (G' c' (or_introl eq_refl)); reflexivity|exact E|].
    destruct (IH cs' d) as (r & ->); [intros x Hx; apply G; right; exact Hx|intros x Hx; apply G'; right; exact Hx|exact E'|]. exists r. reflexivity.
Qed.
Definition says_equal (s : result (bool * list R)) : bool := match s with Ok (b, _) => b | Err _ => false end.
Definition ends {A} (s : result A) : bool := match s with Ok _ => true | Err _ => false end.

Lemma poly_object b m n r (p : poly RF) : poly_of b m n r p -> polynomial (callable_of p) m n r (pv p).
Proof.
  intros P. split; [intros x Lx; exact (callable_gives b m n r p x P Lx)|]. intros j Hj. pose proof (BasesCalls.poly_of_valid (F := RF) _ _ _ _ _ P) as (V & E1 & E2 & E3 & E4). rewrite <- E2, <- E4. apply (PolySimplexFacts.pv_polydeg (Q := RO)); [exact V|]. exact (eq_ind _ (fun k => (j < k)%nat) Hj _ (eq_sym E3)).
Qed.

(** ** C102: polynomials_equal *)
Section C102.
  Context (p1 p2 : callable) (n : nat) (f g : vec -> vec).

  (** the answer compares the values in [get_dimension r m] points formed by the random numbers *)
  Theorem C102_points : forall r m rel_tol abs_tol d, 0 <= rel_tol -> 0 <= abs_tol -> (forall x, length x = m -> gives p1 n f x /\ gives p2 n g x) -> (get_dimension r m * m <= length d)%nat ->
    exists xs rest b, d = concat xs ++ rest /\ groups m xs /\ length xs = get_dimension r m /\ polynomials_equal p1 p2 r m rel_tol abs_tol d = Ok (b, rest) /\
      (b = true <-> forall x, In x xs -> forall j, (j < n)%nat -> Rabs (nth j (f x) 0 - nth j (g x) 0) <= Rmax (rel_tol * Rmax (Rabs (nth j (f x) 0)) (Rabs (nth j (g x) 0))) abs_tol).
  Proof.
    intros r m rel abs d Hr Ha H L. destruct (split_groups m _ d L) as (cs & rest & -> & G & LC). destruct (equal_at_ok rel abs p1 p2 n f g cs Hr Ha) as (b & E & Hb); [intros x Hx; apply H, G, Hx|].
    exists cs, rest, b. split; [reflexivity|]. split; [exact G|]. split; [exact LC|]. split; [|exact Hb]. unfold polynomials_equal. rewrite <- LC, random_points_ok by exact G. cbn [bind fst snd]. rewrite E. reflexivity.
  Qed.
  Theorem C102_too_few : forall r m rel_tol abs_tol d, (length d < get_dimension r m * m)%nat -> polynomials_equal p1 p2 r m rel_tol abs_tol d = Err OutOfFuel.
  Proof. intros r m rel abs d H. unfold polynomials_equal. rewrite random_points_short by exact H. reflexivity. Qed.

  (** equal polynomials are always reported as equal *)
  Theorem C102_equal : forall r m rel_tol abs_tol d, 0 <= rel_tol -> 0 <= abs_tol -> (forall x, length x = m -> gives p1 n f x /\ gives p2 n f x) -> (get_dimension r m * m <= length d)%nat ->
    exists rest, polynomials_equal p1 p2 r m rel_tol abs_tol d = Ok (true, rest).
  Proof.
    intros r m rel abs d Hr Ha H L. destruct (split_groups m _ d L) as (cs & rest & -> & G & LC). destruct (equal_at_ok rel abs p1 p2 n f f cs Hr Ha) as (b & E & Hb); [intros x Hx; apply H, G, Hx|].
    exists rest. unfold polynomials_equal. rewrite <- LC, random_points_ok by exact G. cbn [bind fst snd]. rewrite E. cbn [bind]. do 2 f_equal. apply Hb. intros x _ j _. apply close_refl, Ha.
  Qed.
End C102.

(** On the line, with exact comparison and different random numbers, the answer is correct. *)
Theorem C102_univariate : forall p1 p2 n r f g d, polynomial p1 1 n r f -> polynomial p2 1 n r g -> NoDup d -> length d = S r ->
  exists b, polynomials_equal p1 p2 r 1 0 0 d = Ok (b, []) /\ (b = true <-> forall x, f [x] = g [x]).
Proof.
  intros p1 p2 n r f g d [V1 D1] [V2 D2] N L. destruct (C102_points p1 p2 n f g r 1 0 0 d) as (xs & rest & b & E & G & LX & EQ & Hb); [lra|lra|intros x Lx; split; [apply V1|apply V2]; exact Lx|rewrite get_dimension_1; lia|].
  assert (LC : length (concat xs) = S r) by (refine (eq_trans (concat_groups 1 xs G) _); refine (eq_trans (f_equal (fun k => (k * 1)%nat) LX) _); rewrite get_dimension_1; lia).
  assert (ER : rest = []). { apply (f_equal (@length R)) in E. rewrite app_length in E. destruct rest; [reflexivity|cbn [length] in E; lia]. }
  subst rest. rewrite app_nil_r in E. exists b. split; [exact EQ|]. rewrite Hb. pose proof (groups_one xs G) as Ex. rewrite <- E in Ex. split.
  - intros H x. destruct (V1 [x] eq_refl) as [_ L1]. destruct (V2 [x] eq_refl) as [_ L2]. apply (nth_ext _ _ 0 0); [congruence|]. intros j Hj. rewrite L1 in Hj.
    pose proof (univariate_zero (F := RF) d r (fun x => nth j (f x) 0 - nth j (g x) 0) N L) as U. apply Rminus_diag_uniq. apply U.
    + apply (polydeg_ext (F := RF) 1 r (fun x => kadd (f := RF) (nth j (f x) 0) (kmul (f := RF) (-1) (nth j (g x) 0)))); [intros y _; cbn; ring|]. apply polydeg_add; [apply D1, Hj|apply polydeg_scale, D2, Hj].
    + intros y Hy. apply Rminus_diag_eq, close_zero. apply H; [|exact Hj]. rewrite Ex. apply (in_map (fun x => [x])). exact Hy.
  - intros H x Hx j Hj. assert (E1 : exists t, x = [t]) by (pose proof (G x Hx) as Lx; destruct x as [|t [|]]; try discriminate Lx; exists t; reflexivity). destruct E1 as (t & ->). rewrite H. apply close_refl. lra.
Qed.
(** The error of the answer "equal": the polynomials differ by at most the tolerance times the sum of the Lagrange basis functions of the random points. *)
Theorem C102_error_bound : forall p1 p2 n r f g d rel_tol abs_tol M j x, polynomial p1 1 n r f -> polynomial p2 1 n r g -> NoDup d -> length d = S r -> 0 <= rel_tol -> 0 <= abs_tol -> (j < n)%nat ->
  polynomials_equal p1 p2 r 1 rel_tol abs_tol d = Ok (true, []) -> (forall t, In t d -> Rabs (nth j (f [t]) 0) <= M /\ Rabs (nth j (g [t]) 0) <= M) ->
  Rabs (nth j (f [x]) 0 - nth j (g [x]) 0) <= Rmax (rel_tol * M) abs_tol * rsum (map (fun i => Rabs (fold_right Rmult 1 (map (fun k => if (k =? i)%nat then 1 else (x - nth k d 0) / (nth i d 0 - nth k d 0)) (seq 0 (length d))))) (seq 0 (length d))).
Proof.
  intros p1 p2 n r f g d rel abs M j x [V1 D1] [V2 D2] N L Hr Ha Hj EQ HM. destruct (C102_points p1 p2 n f g r 1 rel abs d) as (xs & rest & b & E & G & LX & EQ' & Hb); [exact Hr|exact Ha|intros y Ly; split; [apply V1|apply V2]; exact Ly|rewrite get_dimension_1; lia|].
  rewrite EQ in EQ'. injection EQ' as <- <-. rewrite app_nil_r in E. pose proof (groups_one xs G) as Ex. rewrite <- E in Ex. pose proof (proj1 Hb eq_refl) as H. clear Hb. set (T := Rmax (rel * M) abs).
  set (e := fun y : list RF => nth j (f y) 0 - nth j (g y) 0). assert (De : polydeg (F := RF) 1 r e).
  { apply (polydeg_ext (F := RF) 1 r (fun x => kadd (f := RF) (nth j (f x) 0) (kmul (f := RF) (-1) (nth j (g x) 0)))); [intros y _; unfold e; cbn; ring|]. apply polydeg_add; [apply D1, Hj|apply polydeg_scale, D2, Hj]. }
  assert (I : nth j (f [x]) 0 - nth j (g [x]) 0 = fold_right (fun i s => e [nth i d 0] * fold_right Rmult 1 (map (fun k => if (k =? i)%nat then 1 else (x - nth k d 0) / (nth i d 0 - nth k d 0)) (seq 0 (length d))) + s) 0 (seq 0 (length d))).
  { refine (eq_trans (interpolation (F := RF) d r e N L De x) _). rewrite <- L. reflexivity. }
  rewrite I. clear I.
  assert (B : forall i, In i (seq 0 (length d)) -> Rabs (e [nth i d 0]) <= T).
  { intros i Hi. apply in_seq in Hi. assert (Hin : In (nth i d 0) d) by (apply nth_In; lia). destruct (HM _ Hin) as [M1 M2]. eapply Rle_trans; [apply (H [nth i d 0]); [rewrite Ex; apply (in_map (fun x => [x])), Hin|exact Hj]|]. unfold T. apply Rle_max_compat_r. apply Rmult_le_compat_l; [exact Hr|apply Rmax_lub; assumption]. }
  revert B. generalize (seq 0 (length d)) at 1 3 5. intros l. induction l as [|i l IH]; intros B; cbn [map fold_right rsum].
  - rewrite Rabs_R0. apply Req_le. ring.
  - eapply Rle_trans; [apply Rabs_triang|]. rewrite Rmult_plus_distr_l. apply Rplus_le_compat; [|apply IH; intros k Hk; apply B; right; exact Hk]. rewrite Rabs_mult. apply Rmult_le_compat_r; [apply Rabs_pos|]. apply B. left. reflexivity.
Qed.

(** Schwartz-Zippel: if the random numbers are drawn uniformly from a set G, exact comparison takes different polynomials for equal with probability at most (r / |G|) ^ dim. *)
Theorem C102_false_positives : forall p1 p2 m n r f g (G : list R) x, polynomial p1 m n r f -> polynomial p2 m n r g -> length x = m -> f x <> g x -> NoDup G ->
  (count (fun d => says_equal (polynomials_equal p1 p2 r m 0 0 d)) (tuples G (get_dimension r m * m)) * length G ^ get_dimension r m <= r ^ get_dimension r m * length G ^ (get_dimension r m * m))%nat.
Proof.
  intros p1 p2 m n r f g G x [V1 D1] [V2 D2] Lx Hne N. set (dim := get_dimension r m).
  assert (exists j, (j < n)%nat /\ nth j (f x) 0 <> nth j (g x) 0) as (j & Hj & Hx).
  { destruct (V1 x Lx) as [_ L1]. destruct (V2 x Lx) as [_ L2]. clear - L1 L2 Hne. revert Hne. generalize dependent n. generalize (g x). induction (f x) as [|a u IH]; intros [|b v] n L1 L2 Hne; cbn [length] in *; try congruence.
    destruct n as [|n]; [discriminate|]. destruct (Req_EM_T a b) as [->|Hab]; [|exists 0%nat; split; [lia|exact Hab]]. destruct (IH v n) as (j & Hj & H); [congruence|congruence|congruence|]. exists (S j). split; [lia|exact H]. }
  set (e := fun y : list RF => nth j (f y) 0 - nth j (g y) 0). assert (De : polydeg (F := RF) m r e).
  { apply (polydeg_ext (F := RF) m r (fun x => kadd (f := RF) (nth j (f x) 0) (kmul (f := RF) (-1) (nth j (g x) 0)))); [intros y _; unfold e; cbn; ring|]. apply polydeg_add; [apply D1, Hj|apply polydeg_scale, D2, Hj]. }
  assert (Hex : e x <> 0) by (unfold e; apply Rminus_eq_contra, Hx). pose proof (polydeg_zeros (F := RF) G m r e x N De Lx Hex) as Z.
  rewrite tuples_concat, count_map.
  assert (B : (count (fun cs => says_equal (polynomials_equal p1 p2 r m 0 0 (concat cs))) (tuples (tuples G m) dim) <= count (fun y => kzero (F := RF) (e y)) (tuples G m) ^ dim)%nat).
  { rewrite <- count_forallb. apply count_le. intros cs Hcs. apply in_tuples in Hcs as [LC HC]. assert (GC : groups m cs) by (intros c Hc; apply HC, in_tuples in Hc; apply Hc). intros S.
    unfold polynomials_equal in S. fold dim in S. rewrite <- LC in S. rewrite <- (app_nil_r (concat cs)) in S. rewrite random_points_ok in S by exact GC. cbn [bind fst snd] in S.
    destruct (equal_at_ok 0 0 p1 p2 n f g cs) as (b & E & Hb); [lra|lra|intros y Hy; split; [apply V1|apply V2]; apply GC, Hy|]. rewrite E in S. cbn in S. apply forallb_forall. intros y Hy. apply kzero_spec. apply Rminus_diag_eq, close_zero. apply (proj1 Hb S y Hy j Hj). }
  rewrite (Nat.mul_comm dim m), Nat.pow_mul_r, <- Nat.pow_mul_l. eapply Nat.le_trans; [apply Nat.mul_le_mono_r, B|]. rewrite <- Nat.pow_mul_l. apply Nat.pow_le_mono_l. exact Z.
Qed.

(** The order of the arguments does not matter for values with the same number of components. *)
Theorem C102_symmetric : forall p1 p2 m n r f g rel_tol abs_tol d, 0 <= rel_tol -> 0 <= abs_tol -> (forall x, length x = m -> gives p1 n f x /\ gives p2 n g x) -> polynomials_equal p1 p2 r m rel_tol abs_tol d = polynomials_equal p2 p1 r m rel_tol abs_tol d.
Proof.
  intros p1 p2 m n r f g rel abs d Hr Ha H. destruct (Nat.le_gt_cases (get_dimension r m * m) (length d)) as [L|L]; [|rewrite !C102_too_few by exact L; reflexivity].
  destruct (split_groups m _ d L) as (cs & rest & -> & G & LC). unfold polynomials_equal. rewrite <- LC, !random_points_ok by exact G. cbn [bind fst snd].
  destruct (equal_at_ok rel abs p1 p2 n f g cs Hr Ha) as (b & -> & Hb); [intros x Hx; apply H, G, Hx|]. destruct (equal_at_ok rel abs p2 p1 n g f cs Hr Ha) as (c & -> & Hc); [intros x Hx; apply and_comm, H, G, Hx|]. cbn [bind]. do 2 f_equal.
  apply Bool.eq_true_iff_eq. rewrite Hb, Hc. split; intros K x Hx j Hj; apply close_sym, K; assumption.
Qed.
(** With a relative tolerance of two or more (the tests of the piecewise polynomials pass 2, presumably meant as the degree) everything is equal. *)
Theorem C102_large_tolerance : forall p1 p2 m n r f g rel_tol abs_tol d, 2 <= rel_tol -> 0 <= abs_tol -> (forall x, length x = m -> gives p1 n f x /\ gives p2 n g x) -> (get_dimension r m * m <= length d)%nat ->
  exists rest, polynomials_equal p1 p2 r m rel_tol abs_tol d = Ok (true, rest).
Proof.
  intros p1 p2 m n r f g rel abs d Hr Ha H L. destruct (C102_points p1 p2 n f g r m rel abs d) as (xs & rest & b & _ & _ & _ & E & Hb); [lra|exact Ha|exact H|exact L|]. exists rest. rewrite E. do 2 f_equal. apply Hb. intros x _ j _. apply close_large, Hr.
Qed.
Theorem C102_negative : forall p1 p2 m n r f g rel_tol abs_tol d, rel_tol < 0 \/ abs_tol < 0 -> n <> 0%nat -> (forall x, length x = m -> gives p1 n f x /\ gives p2 n g x) -> (get_dimension r m * m <= length d)%nat ->
  polynomials_equal p1 p2 r m rel_tol abs_tol d = Err ValueError.
Proof.
  intros p1 p2 m n r f g rel abs d Hneg Hn H L. destruct (split_groups m _ d L) as (cs & rest & -> & G & LC). unfold polynomials_equal. rewrite <- LC, !random_points_ok by exact G. cbn [bind fst snd].
  destruct cs as [|x cs]; [exfalso; pose proof (binomial_pos (r + m) m ltac:(lia)) as P; unfold get_dimension in LC; cbn in LC; lia|]. cbn [map equal_at]. destruct (H x) as [[E1 L1] [E2 L2]]; [apply G; left; reflexivity|]. rewrite E1, E2. cbn [bind].
  destruct (f x) as [|a [|a' u]]; destruct (g x) as [|b [|b' v]]; cbn [length] in L1, L2; try lia; cbn [value_of values_close as_float bind components_close item]; rewrite ?(PermFacts.get_ok _ 0 0) by (cbn; lia); cbn [bind nth]; rewrite isclose_negative by exact Hneg; reflexivity.
Qed.

Lemma isclose_true rel abs a b : 0 <= rel -> 0 <= abs -> close rel abs a b -> isclose rel abs a b = Ok true.
Proof. intros Hr Ha H. destruct (isclose_ok rel abs a b Hr Ha) as (c & -> & Hc). f_equal. apply Hc, H. Qed.
Lemma isclose_false rel abs a b : 0 <= rel -> 0 <= abs -> ~ close rel abs a b -> isclose rel abs a b = Ok false.
Proof. intros Hr Ha H. destruct (isclose_ok rel abs a b Hr Ha) as (c & -> & Hc). f_equal. apply Bool.not_true_iff_false. intros E. apply H, Hc, E. Qed.
Definition constant (v : vec) : callable := fun _ => Ok (value_of v).
Lemma constant_polynomial m r v : polynomial (constant v) m (length v) r (fun _ => v).
Proof. split; [intros x _; split; reflexivity|]. intros j _. apply (polydeg_le (F := RF) m 0); [lia|]. apply (polydeg_const (F := RF) m (nth j v 0)). Qed.
(** Different points are not enough in the plane: different polynomials of degree one agree in three points of a line. *)
Theorem C102_collinear_refuted : exists p1 p2 f g d, polynomial p1 2 1 1 f /\ polynomial p2 2 1 1 g /\ f [1; 0] <> g [1; 0] /\ (forall x, In x d -> 0 <= x < 1) /\ NoDup (reshape 3 2 d) /\ polynomials_equal p1 p2 1 2 0 0 d = Ok (true, []).
Proof.
  exists (fun x : arr RF => match x with Vec [u; v] => Ok (Num (u - v)) | _ => Err TypeError end), (constant [0]), (fun x => [nth 0 x 0 - nth 1 x 0]), (fun _ => [0]), [0; 0; 1 / 2; 1 / 2; 1 / 4; 1 / 4].
  split; [|split; [apply (constant_polynomial 2 1 [0])|]]; [|split; [|split; [|split]]].
  - split.
    + intros x Lx. destruct x as [|u [|v [|? ?]]]; try discriminate Lx. split; reflexivity.
    + intros j Hj. assert (j = 0)%nat by lia. subst j. apply (polydeg_ext (F := RF) 2 1 (fun x => kadd (f := RF) 0 (ksum (seq 0 2) (fun i => kmul (f := RF) (if (i =? 0)%nat then 1 else -1) (nth i x 0))))); [|exact (polydeg_affine (F := RF) 2 0 (fun i => if (i =? 0)%nat then 1 else -1))].
      intros x _. cbn. ring.
  - cbn [nth]. intros E. injection E as E. lra.
  - intros x Hx. repeat destruct Hx as [<-|Hx]; try lra. destruct Hx.
  - cbn. repeat constructor; cbn; intros H; repeat destruct H as [H|H]; try injection H as H; lra.
  - unfold polynomials_equal, random_points. change (get_dimension 1 2) with 3%nat. cbn [rand_array Nat.mul Nat.add rand bind fst snd Nat.eqb reshape firstn skipn map equal_at constant value_of values_close as_float].
    rewrite !isclose_true by (lra || (apply close_zero; lra)). reflexivity.
Qed.
(** The relation is not transitive. *)
Theorem C102_transitive_refuted : exists p1 p2 p3 d, polynomials_equal p1 p2 0 1 0 1 d = Ok (true, []) /\ polynomials_equal p2 p3 0 1 0 1 d = Ok (true, []) /\ polynomials_equal p1 p3 0 1 0 1 d = Ok (false, []).
Proof.
  exists (constant [0]), (constant [1]), (constant [2]), [1 / 2]. unfold polynomials_equal, random_points. change (get_dimension 0 1) with 1%nat. cbn [rand_array Nat.mul Nat.add rand bind fst snd Nat.eqb reshape firstn skipn map equal_at constant value_of values_close as_float].
  assert (K : forall a b, close 0 1 a b <-> Rabs (a - b) <= 1) by (intros a b; unfold close; rewrite Rmult_0_l, Rmax_right by lra; reflexivity).
  rewrite (isclose_true 0 1 0 1), (isclose_true 0 1 1 2), (isclose_false 0 1 0 2); try lra; try (split; [|split]; reflexivity); rewrite K; unfold Rabs; repeat destruct Rcase_abs; lra.
Qed.
(** Only the components of the first polynomial are compared. *)
Theorem C102_components_refuted : exists p1 p2 d, polynomials_equal p1 p2 0 1 0 0 d = Ok (true, []) /\ polynomials_equal p2 p1 0 1 0 0 d = Err IndexError.
Proof.
  exists (constant [1; 2]), (constant [1; 2; 3]), [1 / 2]. unfold polynomials_equal, random_points. change (get_dimension 0 1) with 1%nat. cbn [rand_array Nat.mul Nat.add rand bind fst snd Nat.eqb map equal_at constant value_of values_close components_close item].
  change (get [1; 2; 3] 0) with (Ok 1). change (get [1; 2; 3] 1) with (Ok 2). change (get [1; 2] 0) with (Ok 1). change (get [1; 2] 1) with (Ok 2). change (get [1; 2] 2) with (Err (A := R) IndexError). cbn [bind].
  rewrite !isclose_true by (lra || (apply close_zero; lra)). split; reflexivity.
Qed.

(** ** C103: polynomials_equal_on_simplex and piecewise_polynomials_equal *)
(** the points of the simplex and of the space it spans *)
Definition in_simplex (m : nat) (vs : list vec) (y : vec) : Prop := exists c, affine_comb (F := RF) m c vs y /\ forall t, In t c -> 0 <= t.
Definition in_span (m : nat) (vs : list vec) (y : vec) : Prop := exists c, affine_comb (F := RF) m c vs y.
Lemma spoint_span n m vs x : rows_of (F := RF) (S n) m vs -> length x = n -> affine_comb (F := RF) m (bary_of (F := RF) x) vs (spoint m vs x).
Proof. intros [LV _] Lx. apply (HomogInt.simplex_point_comb (Q := RO)). refine (eq_trans _ (eq_sym LV)). f_equal. exact Lx. Qed.
Lemma span_spoint n m vs y : rows_of (F := RF) (S n) m vs -> in_span m vs y -> exists x, length x = n /\ y = spoint m vs x.
Proof.
  intros HV (c & Hc). pose proof Hc as (Lc & _ & S1 & _). destruct HV as [LV HR]. pose proof (eq_trans Lc LV) as L. exists (tl c). assert (Lt : length (tl c) = n) by (destruct c; [discriminate L|injection L; auto]). split; [exact Lt|].
  apply (PolySimplexMul.affine_comb_unique (Q := RO) m c vs); [exact Hc|]. pose proof (spoint_span n m vs (tl c) (conj LV HR) Lt) as H. rewrite (bary_of_tl (F := RF) c) in H; [exact H|intros Z; pose proof (eq_trans (eq_sym L) Z); discriminate|exact S1].
Qed.
Lemma rsum_ksum (x : list RF) : ksum (F := RF) x (fun t => t) = rsum x. Proof. induction x as [|a x IH]; [reflexivity|]. rewrite ksum_cons, IH. reflexivity. Qed.
Lemma small_spec x : small x = true <-> rsum x <= 1.
Proof. unfold small, rltb. destruct (Rlt_dec 1 (rsum x)); cbn; split; try lra; try discriminate; reflexivity. Qed.
Lemma spoint_inside n m vs x : rows_of (F := RF) (S n) m vs -> length x = n -> small x = true -> (forall t, In t x -> 0 <= t) -> in_simplex m vs (spoint m vs x).
Proof.
  intros HV Lx Hs Hp. exists (bary_of (F := RF) x). split; [apply spoint_span with n; assumption|]. intros t [<-|Ht]; [|apply Hp, Ht]. apply small_spec in Hs. rewrite rsum_ksum. change (0 <= 1 - rsum x). lra.
Qed.
Lemma spoint_polydeg n m vs r (e : list RF -> RF) : rows_of (F := RF) (S n) m vs -> polydeg (F := RF) m r e -> polydeg (F := RF) n r (fun x => e (spoint m vs x)).
Proof.
  intros HV De. pose (gs := map (fun j (x : list RF) => kadd (ent vs 0 j) (ksum (seq 0 n) (fun i => kmul (edge (F := RF) vs i j) (nth i x k0)))) (seq 0 m)).
  apply (polydeg_ext (F := RF) n r (fun x => e (map (fun g => g x) gs))).
  - intros x Lx. f_equal. unfold gs. rewrite map_map. pose proof (spoint_span n m vs x HV Lx) as HC. pose proof HC as (_ & LS & _). symmetry. apply (VecFacts.vec_ext (F := RF) _ _ m LS); [rewrite map_length, seq_length; reflexivity|]. intros j Hj. rewrite nth_mapseq by exact Hj.
    rewrite (comb_edges (F := RF) n m vs _ _ HV HC j Hj). f_equal. apply ksum_ext. intros i _. cbn [bary_of nth]. apply Rmult_comm.
  - apply polydeg_subst with (k := m); [exact De| |unfold gs; rewrite map_length, seq_length; reflexivity]. apply Forall_forall. intros h Hh. unfold gs in Hh. apply in_map_iff in Hh as (j & <- & _). apply (polydeg_affine (F := RF)).
Qed.

Section C103.
  Context (n m : nat) (vs : list vec).
  Hypothesis Hn : n <> 0%nat.
  Hypothesis Hnm : (n <= m)%nat.
  Hypothesis HV : rows_of (F := RF) (S n) m vs.

  Lemma on_simplex_ok p1 p2 k f g r rel abs d xs rest : 0 <= rel -> 0 <= abs -> nsimplex_sampling n (get_dimension r n) d = Ok (xs, rest) -> (forall x, In x xs -> gives p1 k f (spoint m vs x) /\ gives p2 k g (spoint m vs x)) ->
    exists b, polynomials_equal_on_simplex p1 p2 r vs rel abs d = Ok (b, rest) /\ (b = true <-> forall x, In x xs -> forall j, (j < k)%nat -> close rel abs (nth j (f (spoint m vs x)) 0) (nth j (g (spoint m vs x)) 0)).
  Proof.
    intros Hr Ha ES H. assert (D : dimension (F := RF) vs = n) by (unfold dimension; destruct HV as [E _]; rewrite E; lia). unfold polynomials_equal_on_simplex. rewrite D.
    assert (G : groups n xs). { destruct (sampling_inv (simplex_skips n) _ _ _ _ ES) as (cs & G & _ & -> & _). rewrite map_id. intros c Hc. apply filter_In in Hc. apply G, Hc. }
    destruct (simplex_points n m vs xs Hn Hnm HV G) as (phi & -> & EP). cbn [bind]. rewrite ES. cbn [bind fst snd]. rewrite EP. cbn [bind]. destruct (equal_at_ok rel abs p1 p2 k f g (map (spoint m vs) xs) Hr Ha) as (b & E & Hb).
    { intros y Hy. apply in_map_iff in Hy as (x & <- & Hx). apply H, Hx. }
    rewrite map_map in E. rewrite E. exists b. split; [reflexivity|]. rewrite Hb. split.
    - intros K x Hx. apply K. apply in_map, Hx.
    - intros K y Hy. apply in_map_iff in Hy as (x & <- & Hx). apply K, Hx.
  Qed.
  Lemma on_simplex_err p1 p2 r rel abs d e : nsimplex_sampling n (get_dimension r n) d = Err e -> polynomials_equal_on_simplex p1 p2 r vs rel abs d = Err e.
  Proof.
    intros ES. assert (D : dimension (F := RF) vs = n) by (unfold dimension; destruct HV as [E _]; rewrite E; lia). unfold polynomials_equal_on_simplex. rewrite D. destruct (simplex_points n m vs [] Hn Hnm HV) as (phi & -> & _); [intros c []|]. cbn [bind]. rewrite ES. reflexivity.
  Qed.

  (** the answer compares the values in [get_dimension r n] points of the simplex *)
  Theorem C103_points : forall p1 p2 k f g r rel_tol abs_tol d, 0 <= rel_tol -> 0 <= abs_tol -> (forall t, In t d -> 0 <= t) -> (forall y, in_simplex m vs y -> gives p1 k f y /\ gives p2 k g y) ->
    (exists xs rest, nsimplex_sampling n (get_dimension r n) d = Ok (xs, rest)) ->
    exists ys rest b, length ys = get_dimension r n /\ (forall y, In y ys -> in_simplex m vs y) /\ polynomials_equal_on_simplex p1 p2 r vs rel_tol abs_tol d = Ok (b, rest) /\
      (b = true <-> forall y, In y ys -> forall j, (j < k)%nat -> Rabs (nth j (f y) 0 - nth j (g y) 0) <= Rmax (rel_tol * Rmax (Rabs (nth j (f y) 0)) (Rabs (nth j (g y) 0))) abs_tol).
  Proof.
    intros p1 p2 k f g r rel abs d Hr Ha Hd H (xs & rest & ES). destruct (sampling_inv (simplex_skips n) _ _ _ _ ES) as (cs & G & E & Ex & LX). rewrite map_id in Ex.
    assert (I : forall x, In x xs -> in_simplex m vs (spoint m vs x)).
    { intros x Hx. rewrite Ex in Hx. apply filter_In in Hx as [Hx Hs]. apply (spoint_inside n); [exact HV|apply G, Hx|exact Hs|]. intros t Ht. apply Hd. rewrite E. apply in_or_app. left. apply in_concat. exists x. split; assumption. }
    destruct (on_simplex_ok p1 p2 k f g r rel abs d xs rest Hr Ha ES) as (b & EQ & Hb); [intros x Hx; apply H, I, Hx|]. exists (map (spoint m vs) xs), rest, b. split; [rewrite map_length; exact LX|]. split; [intros y Hy; apply in_map_iff in Hy as (x & <- & Hx); apply I, Hx|]. split; [exact EQ|].
    rewrite Hb. split.
    - intros K y Hy. apply in_map_iff in Hy as (x & <- & Hx). apply K, Hx.
    - intros K x Hx. apply K, in_map, Hx.
  Qed.
  (** polynomials that agree on the simplex are always reported as equal *)
  Theorem C103_equal : forall p1 p2 k f r rel_tol abs_tol d, 0 <= rel_tol -> 0 <= abs_tol -> (forall t, In t d -> 0 <= t) -> (forall y, in_simplex m vs y -> gives p1 k f y /\ gives p2 k f y) ->
    (exists xs rest, nsimplex_sampling n (get_dimension r n) d = Ok (xs, rest)) -> exists rest, polynomials_equal_on_simplex p1 p2 r vs rel_tol abs_tol d = Ok (true, rest).
  Proof.
    intros p1 p2 k f r rel abs d Hr Ha Hd H ES. destruct (C103_points p1 p2 k f f r rel abs d Hr Ha Hd H ES) as (ys & rest & b & _ & _ & E & Hb). exists rest. rewrite E. do 2 f_equal. apply Hb. intros y _ j _. apply close_refl, Ha.
  Qed.

  (** Rejection sampling: if the random numbers are drawn uniformly from a set G, A of the points of G^n lie in the unit simplex and enough numbers are drawn, then exact comparison takes polynomials
      that differ somewhere in the space spanned by the simplex for equal with probability at most (r |G|^(n-1) / A) ^ dim. *)
  Lemma rejection_ratio {A} (acc good : A -> bool) C t : forall k,
    (count (fun cs => (k <=? length (filter acc cs)) && forallb good (firstn k (filter acc cs)))%nat (tuples C t) * count acc C ^ k = count (fun c => acc c && good c) C ^ k * count (fun cs => k <=? length (filter acc cs))%nat (tuples C t))%nat.
  Proof.
    induction t as [|t IH]; intros k; [destruct k; [reflexivity|exact (eq_sym (Nat.mul_0_r _))]|]. destruct k as [|k]; [cbn [Nat.pow Nat.leb firstn forallb andb]; lia|].
    rewrite !count_tuples_S. set (a := count acc C). set (z := count (fun c => acc c && good c) C). set (rj := count (fun c => negb (acc c)) C).
    assert (E1 : sumn (fun y => count (fun x => (S k <=? length (filter acc (x :: y)))%nat && forallb good (firstn (S k) (filter acc (x :: y)))) C) (tuples C t) =
      (z * count (fun cs => (k <=? length (filter acc cs)) && forallb good (firstn k (filter acc cs)))%nat (tuples C t) + rj * count (fun cs => (S k <=? length (filter acc cs)) && forallb good (firstn (S k) (filter acc cs)))%nat (tuples C t))%nat).
    { rewrite !count_sumn, <- !sumn_scale, <- sumn_plus. apply sumn_ext. intros y _. unfold z, rj. rewrite !count_sumn, !(Nat.mul_comm (sumn _ _)), <- !sumn_scale, <- sumn_plus. apply sumn_ext. intros x _. cbn [filter]. destruct (acc x); cbn [negb andb]; [|cbn [length]; lia].
      cbn [length Nat.leb firstn forallb]. destruct (k <=? length (filter acc y))%nat, (good x), (forallb good (firstn k (filter acc y))); cbn [andb]; lia. }
    assert (E2 : sumn (fun y => count (fun x => S k <=? length (filter acc (x :: y)))%nat C) (tuples C t) = (a * count (fun cs => k <=? length (filter acc cs))%nat (tuples C t) + rj * count (fun cs => S k <=? length (filter acc cs))%nat (tuples C t))%nat).
    { rewrite !count_sumn, <- !sumn_scale, <- sumn_plus. apply sumn_ext. intros y _. unfold a, rj. rewrite !count_sumn, !(Nat.mul_comm (sumn _ _)), <- !sumn_scale, <- sumn_plus. apply sumn_ext. intros x _. cbn [filter]. destruct (acc x); cbn [negb length Nat.leb]; lia. }
    rewrite E1, E2. pose proof (IH k) as I1. pose proof (IH (S k)) as I2. fold a z in I1, I2. cbn [Nat.pow] in *. set (T1 := count _ _) in I1 at 1 |- * at 1. set (O1 := count (fun cs => k <=? length (filter acc cs))%nat (tuples C t)) in *.
    set (T2 := count (fun cs => (S k <=? length (filter acc cs)) && forallb good (firstn (S k) (filter acc cs)))%nat (tuples C t)) in *. set (O2 := count (fun cs => S k <=? length (filter acc cs))%nat (tuples C t)) in *.
    transitivity (z * a * (T1 * a ^ k) + rj * (T2 * (a * a ^ k)))%nat; [ring|]. rewrite I1, I2. ring.
  Qed.
  Theorem C103_false_positives : forall p1 p2 k f g r (G : list R) t, polynomial p1 m k r f -> polynomial p2 m k r g -> (exists y, in_span m vs y /\ f y <> g y) -> NoDup G ->
    (count (fun d => says_equal (polynomials_equal_on_simplex p1 p2 r vs 0 0 d)) (tuples G (t * n)) * (count (fun x => rleb (rsum x) 1) (tuples G n) * length G) ^ get_dimension r n
     <= (r * length G ^ n) ^ get_dimension r n * count (fun d => ends (polynomials_equal_on_simplex p1 p2 r vs 0 0 d)) (tuples G (t * n)))%nat.
  Proof.
    intros p1 p2 k f g r G t [V1 D1] [V2 D2] (y & Hy & Hne) N. set (dim := get_dimension r n). destruct (span_spoint n m vs y HV Hy) as (x & Lx & ->). assert (LS : forall x, length x = n -> length (spoint m vs x) = m) by (intros z Lz; apply (spoint_span n m vs z HV Lz)).
    assert (exists j, (j < k)%nat /\ nth j (f (spoint m vs x)) 0 <> nth j (g (spoint m vs x)) 0) as (j & Hj & Hx).
    { destruct (V1 _ (LS x Lx)) as [_ L1]. destruct (V2 _ (LS x Lx)) as [_ L2]. revert Hne. clear - L1 L2. generalize dependent k. generalize (g (spoint m vs x)). induction (f (spoint m vs x)) as [|a u IH]; intros [|b v] k L1 L2 Hne; cbn [length] in *; try congruence.
      destruct k as [|k]; [discriminate|]. destruct (Req_EM_T a b) as [->|Hab]; [|exists 0%nat; split; [lia|exact Hab]]. destruct (IH v k) as (j & Hj & H); [congruence|congruence|congruence|]. exists (S j). split; [lia|exact H]. }
    set (e := fun z : list RF => nth j (f z) 0 - nth j (g z) 0). assert (De : polydeg (F := RF) m r e).
    { apply (polydeg_ext (F := RF) m r (fun x => kadd (f := RF) (nth j (f x) 0) (kmul (f := RF) (-1) (nth j (g x) 0)))); [intros z _; unfold e; cbn; ring|]. apply polydeg_add; [apply D1, Hj|apply polydeg_scale, D2, Hj]. }
    pose proof (spoint_polydeg n m vs r e HV De) as De'. assert (Hex : e (spoint m vs x) <> 0) by (unfold e; apply Rminus_eq_contra, Hx). pose proof (polydeg_zeros (F := RF) G n r (fun z => e (spoint m vs z)) x N De' Lx Hex) as Z.
    rewrite tuples_concat, !count_map. set (good := fun z => kzero (F := RF) (e (spoint m vs z))).
    assert (B1 : (count (fun cs => says_equal (polynomials_equal_on_simplex p1 p2 r vs 0 0 (concat cs))) (tuples (tuples G n) t) <= count (fun cs => (dim <=? length (filter small cs)) && forallb good (firstn dim (filter small cs)))%nat (tuples (tuples G n) t))%nat).
    { apply count_le. intros cs Hcs S. apply in_tuples in Hcs as [_ HC]. assert (GC : groups n cs) by (intros c Hc; apply HC, in_tuples in Hc; apply Hc). destruct (nsimplex_sampling n dim (concat cs)) as [[xs rest]|err] eqn:ES; [|rewrite (on_simplex_err p1 p2 r 0 0 _ err ES) in S; discriminate S].
      destruct (Nat.leb_spec dim (length (filter small cs))) as [L|L].
      - cbn [andb]. destruct (sampling_ok (simplex_skips n) dim cs [] GC L) as (rest' & E'). rewrite app_nil_r, map_id in E'. change (sampling (nsimplex_sample n) dim (concat cs)) with (nsimplex_sampling n dim (concat cs)) in E'. rewrite ES in E'. injection E' as -> _.
        assert (GX : forall z, In z (firstn dim (filter small cs)) -> length z = n) by (intros z Hz; assert (Hz' : In z (filter small cs)) by (rewrite <- (firstn_skipn dim (filter small cs)); apply in_or_app; left; exact Hz); apply filter_In in Hz'; apply GC, Hz').
        destruct (on_simplex_ok p1 p2 k f g r 0 0 (concat cs) _ rest ltac:(lra) ltac:(lra) ES) as (b & E & Hb); [intros z Hz; split; [apply V1|apply V2]; apply LS, GX, Hz|]. rewrite E in S. cbn in S. apply forallb_forall. intros z Hz. unfold good. apply kzero_spec. apply Rminus_diag_eq, close_zero. apply (proj1 Hb S z Hz j Hj).
      - exfalso. destruct (sampling_inv (simplex_skips n) _ _ _ _ ES) as (cs' & G' & E1 & E2 & L2). rewrite map_id in E2. destruct (prefix_groups n cs (proj1 (Nat.neq_0_lt_0 n) Hn) cs' rest GC G' E1) as (q & ->). rewrite filter_app, app_length in L. rewrite E2 in L2. pose proof (eq_ind _ (fun v => (v + length (filter small q) < dim)%nat) L _ L2) as K. cbv beta in K. lia. }
    assert (B2 : (count (fun cs => dim <=? length (filter small cs))%nat (tuples (tuples G n) t) <= count (fun cs => ends (polynomials_equal_on_simplex p1 p2 r vs 0 0 (concat cs))) (tuples (tuples G n) t))%nat).
    { apply count_le. intros cs Hcs L. apply in_tuples in Hcs as [_ HC]. assert (GC : groups n cs) by (intros c Hc; apply HC, in_tuples in Hc; apply Hc). apply Nat.leb_le in L. destruct (sampling_ok (simplex_skips n) dim cs [] GC L) as (rest & E). rewrite app_nil_r, map_id in E.
      assert (GX : forall z, In z (firstn dim (filter small cs)) -> length z = n) by (intros z Hz; assert (Hz' : In z (filter small cs)) by (rewrite <- (firstn_skipn dim (filter small cs)); apply in_or_app; left; exact Hz); apply filter_In in Hz'; apply GC, Hz').
      destruct (on_simplex_ok p1 p2 k f g r 0 0 (concat cs) _ (rest ++ []) ltac:(lra) ltac:(lra) E) as (b & -> & _); [intros z Hz; split; [apply V1|apply V2]; apply LS, GX, Hz|reflexivity]. }
    pose proof (rejection_ratio small good (tuples G n) t dim) as RR. set (T := count (fun cs => (dim <=? length (filter small cs)) && _)%nat _) in *.
    assert (EA : count (fun x => rleb (rsum x) 1) (tuples G n) = count small (tuples G n)) by (apply count_ext; intros z _; apply Bool.eq_true_iff_eq; rewrite small_spec; apply rleb_spec). rewrite EA, Nat.pow_mul_l.
    assert (BZ : (count (fun c => small c && good c) (tuples G n) <= count good (tuples G n))%nat) by (apply count_le; intros z _ Hz; apply Bool.andb_true_iff in Hz; apply Hz).
    eapply Nat.le_trans; [apply Nat.mul_le_mono_r, B1|]. rewrite Nat.mul_assoc, RR. eapply Nat.le_trans; [apply Nat.mul_le_mono_r, Nat.mul_le_mono; [apply Nat.pow_le_mono_l, BZ|apply B2]|].
    rewrite <- Nat.mul_assoc, (Nat.mul_comm (count _ (tuples (tuples G n) t))), Nat.mul_assoc. apply Nat.mul_le_mono_r. rewrite <- Nat.pow_mul_l. apply Nat.pow_le_mono_l. exact Z.
  Qed.
End C103.

Lemma firstn_all_filter {A} (p : A -> bool) l : (forall x, In x l -> p x = true) -> filter p l = l.
Proof. induction l as [|a l IH]; intros H; [reflexivity|]. cbn [filter]. rewrite (H a) by (left; reflexivity). rewrite IH by (intros; apply H; right; assumption). reflexivity. Qed.
Lemma concat_singletons (l : list R) : concat (map (fun x => [x]) l) = l. Proof. induction l as [|a l IH]; [reflexivity|]. cbn. rewrite IH. reflexivity. Qed.
(** the samples of the unit interval are the random numbers *)
Lemma segment_samples k d rest : length d = k -> (forall t, In t d -> t <= 1) -> nsimplex_sampling 1 k (d ++ rest) = Ok (map (fun x => [x]) d, rest).
Proof.
  intros L. revert d L. induction k as [|k IH]; intros d L H; destruct d as [|x d]; try discriminate L; [reflexivity|].
  assert (S1 : small [x] = true) by (apply small_spec; cbn; rewrite Rplus_0_r; apply H; left; reflexivity).
  unfold nsimplex_sampling in *. cbn [sampling app]. assert (E : nsimplex_sample 1 (x :: d ++ rest) = Ok ([x], d ++ rest)) by (apply (proj1 (simplex_skips 1) [] [x] (d ++ rest)); [intros c []|intros c []|reflexivity|exact S1]).
  rewrite E. cbn [bind fst snd]. rewrite IH; [reflexivity|injection L; auto|intros t Ht; apply H; right; exact Ht].
Qed.
(** On a segment, with exact comparison and different random numbers, the answer is correct. *)
Lemma segment_exact m vs p1 p2 k r f g d rest : (1 <= m)%nat -> rows_of (F := RF) 2 m vs -> polynomial p1 m k r f -> polynomial p2 m k r g -> NoDup d -> length d = S r -> (forall t, In t d -> 0 <= t <= 1) ->
  exists b, polynomials_equal_on_simplex p1 p2 r vs 0 0 (d ++ rest) = Ok (b, rest) /\ (b = true <-> forall y, in_span m vs y -> f y = g y).
Proof.
  intros Hm HV [V1 D1] [V2 D2] N L Hd. assert (LS : forall x, length x = 1%nat -> length (spoint m vs x) = m) by (intros z Lz; apply (spoint_span 1 m vs z HV Lz)).
  assert (ES : nsimplex_sampling 1 (get_dimension r 1) (d ++ rest) = Ok (map (fun x => [x]) d, rest)) by (apply segment_samples; [rewrite get_dimension_1; exact L|intros t Ht; apply Hd, Ht]).
  destruct (on_simplex_ok 1 m vs ltac:(lia) Hm HV p1 p2 k f g r 0 0 (d ++ rest) _ rest ltac:(lra) ltac:(lra) ES) as (b & E & Hb).
  { intros x Hx. apply in_map_iff in Hx as (t & <- & _). split; [apply V1|apply V2]; apply LS; reflexivity. }
  exists b. split; [exact E|]. rewrite Hb. split.
  - intros H y Hy. destruct (span_spoint 1 m vs y HV Hy) as (x & Lx & ->). assert (exists t, x = [t]) as (t & ->) by (destruct x as [|t [|]]; try discriminate Lx; exists t; reflexivity). destruct (V1 _ (LS [t] eq_refl)) as [_ L1]. destruct (V2 _ (LS [t] eq_refl)) as [_ L2].
    apply (nth_ext _ _ 0 0); [congruence|]. intros j Hj. rewrite L1 in Hj. set (e := fun z : list RF => nth j (f z) 0 - nth j (g z) 0). assert (De : polydeg (F := RF) m r e).
    { apply (polydeg_ext (F := RF) m r (fun x => kadd (f := RF) (nth j (f x) 0) (kmul (f := RF) (-1) (nth j (g x) 0)))); [intros z _; unfold e; cbn; ring|]. apply polydeg_add; [apply D1, Hj|apply polydeg_scale, D2, Hj]. }
    apply Rminus_diag_uniq. apply (univariate_zero (F := RF) d r (fun z => e (spoint m vs z)) N L (spoint_polydeg 1 m vs r e HV De)). intros z Hz. apply Rminus_diag_eq, close_zero. apply (H [z]); [apply (in_map (fun x => [x])), Hz|exact Hj].
  - intros H x Hx j Hj. apply in_map_iff in Hx as (t & <- & _). rewrite H; [apply close_refl; lra|]. eexists. apply (spoint_span 1 m vs [t] HV eq_refl).
Qed.
Theorem C103_segment : forall m vs p1 p2 k r f g d, (1 <= m)%nat -> rows_of (F := RF) 2 m vs -> polynomial p1 m k r f -> polynomial p2 m k r g -> NoDup d -> length d = S r -> (forall t, In t d -> 0 <= t <= 1) ->
  exists b, polynomials_equal_on_simplex p1 p2 r vs 0 0 d = Ok (b, []) /\ (b = true <-> forall y, in_span m vs y -> f y = g y).
Proof. intros m vs p1 p2 k r f g d. intros. rewrite <- (app_nil_r d). apply (segment_exact m vs p1 p2 k r f g d []); assumption. Qed.

(** *** Piecewise polynomials *)
(** simplices of dimension [n] with vertices in m-dimensional space *)
Definition mesh (n m : nat) (p : piecewise) : Prop :=
  pp_vertices p <> [] /\ (forall v, In v (pp_vertices p) -> length v = m) /\ forall t, In t (pp_triangles p) -> length t = S n /\ forall i, In i t -> (i < length (pp_vertices p))%nat.
(** the vertices of a simplex *)
Definition corners (p : piecewise) (t : list nat) : list vec := map (fun i => nth i (pp_vertices p) []) t.
Lemma corners_ok n m p t : mesh n m p -> In t (pp_triangles p) -> simplex_vertices (Q := RO) t (pp_vertices p) = Ok (corners p t) /\ rows_of (F := RF) (S n) m (corners p t).
Proof.
  intros (Hne & HL & HT) Ht. destruct (HT t Ht) as [L HI]. split.
  - unfold simplex_vertices. rewrite (PermFacts.get_ok _ 0 []) by (destruct (pp_vertices p); [contradiction|cbn; lia]). cbn [bind]. apply mapM_ok. intros i Hi. rewrite (PermFacts.get_ok _ i []) by apply HI, Hi. cbn [bind].
    assert (E : forall i, (i < length (pp_vertices p))%nat -> length (nth i (pp_vertices p) []) = m) by (intros j Hj; apply HL, nth_In, Hj). pose proof (E i (HI i Hi)) as E1. assert (E2 : length (nth 0 (pp_vertices p) []) = m) by (apply E; destruct (pp_vertices p); [contradiction|cbn; lia]).
    match goal with |- (if ?c then _ else _) = _ => assert (Ec : c = true) by (apply Nat.eqb_eq; exact (eq_trans E1 (eq_sym E2))); rewrite Ec end. reflexivity.
  - split; [unfold corners; rewrite map_length; exact L|]. intros v Hv. apply in_map_iff in Hv as (i & <- & Hi). apply HL, nth_In, HI, Hi.
Qed.
Lemma sampling_error n k d : match nsimplex_sampling n k d with Err e => e = OutOfFuel | Ok _ => True end.
Proof.
  unfold nsimplex_sampling. revert d. induction k as [|k IH]; intros d; cbn [sampling]; [exact I|].
  assert (S1 : match nsimplex_sample n d with Err e => e = OutOfFuel | Ok _ => True end).
  { unfold nsimplex_sample. assert (C : forall d, match ncube_sampling n 1 d with Err e => e = OutOfFuel | Ok _ => True end).
    { intros d0. unfold ncube_sampling. destruct (Nat.le_gt_cases (n * 1) (length d0)) as [H|H]; [|rewrite rand_array_err by exact H; reflexivity]. rewrite <- (firstn_skipn (n * 1) d0), rand_array_ok by (apply firstn_length_le; exact H). exact I. }
    pose proof (C d) as Cd. destruct (ncube_sampling n 1 d) as [q|e]; cbn [bind]; [|exact Cd]. generalize (S (length d)) (nth 0 (fst q) []) (snd q). clear - C. induction n0 as [|fuel IHf]; intros x d; cbn [simplex_loop]; [reflexivity|]. destruct (rltb 1 (rsum x)); [|exact I]. pose proof (C d) as Cd. destruct (ncube_sampling n 1 d) as [q|e]; cbn [bind]; [apply IHf|exact Cd]. }
  destruct (nsimplex_sample n d) as [q|e]; cbn [bind]; [|exact S1]. specialize (IH (snd q)). destruct (sampling (nsimplex_sample n) k (snd q)); cbn [bind]; [exact I|exact IH].
Qed.
Lemma remaining n k d xs rest : nsimplex_sampling n k d = Ok (xs, rest) -> incl rest d.
Proof. intros E. destruct (sampling_inv (simplex_skips n) _ _ _ _ E) as (cs & _ & -> & _). intros x Hx. apply in_or_app. right. exact Hx. Qed.

(** The answer: true means that the values are close in [get_dimension r n] points of every simplex, false that they are not close in a point of some simplex. *)
Theorem C103_piecewise : forall n m p1 p2 k f g rel_tol abs_tol d, n <> 0%nat -> (n <= m)%nat -> mesh n m p1 -> 0 <= rel_tol -> 0 <= abs_tol -> (forall t, In t d -> 0 <= t) ->
  (forall t y, In t (pp_triangles p1) -> in_simplex m (corners p1 t) y -> gives (pp_call p1) k f y /\ gives p2 k g y) ->
  piecewise_polynomials_equal p1 p2 rel_tol abs_tol d = Err OutOfFuel \/
  exists b rest, piecewise_polynomials_equal p1 p2 rel_tol abs_tol d = Ok (b, rest) /\
    if b then forall t, In t (pp_triangles p1) -> exists ys, length ys = get_dimension (pp_r p1) n /\ forall y, In y ys -> in_simplex m (corners p1 t) y /\ forall j, (j < k)%nat -> Rabs (nth j (f y) 0 - nth j (g y) 0) <= Rmax (rel_tol * Rmax (Rabs (nth j (f y) 0)) (Rabs (nth j (g y) 0))) abs_tol
    else exists t y j, In t (pp_triangles p1) /\ in_simplex m (corners p1 t) y /\ (j < k)%nat /\ Rmax (rel_tol * Rmax (Rabs (nth j (f y) 0)) (Rabs (nth j (g y) 0))) abs_tol < Rabs (nth j (f y) 0 - nth j (g y) 0).
Proof.
  intros n m p1 p2 k f g rel abs d Hn Hnm HM Hr Ha Hd H. unfold piecewise_polynomials_equal.
  assert (Gen : forall ts, incl ts (pp_triangles p1) -> forall d, (forall t, In t d -> 0 <= t) -> equal_on_triangles (pp_call p1) p2 (pp_r p1) ts (pp_vertices p1) rel abs d = Err OutOfFuel \/
    exists b rest, equal_on_triangles (pp_call p1) p2 (pp_r p1) ts (pp_vertices p1) rel abs d = Ok (b, rest) /\
    if b then forall t, In t ts -> exists ys, length ys = get_dimension (pp_r p1) n /\ forall y, In y ys -> in_simplex m (corners p1 t) y /\ forall j, (j < k)%nat -> Rabs (nth j (f y) 0 - nth j (g y) 0) <= Rmax (rel * Rmax (Rabs (nth j (f y) 0)) (Rabs (nth j (g y) 0))) abs
    else exists t y j, In t ts /\ in_simplex m (corners p1 t) y /\ (j < k)%nat /\ Rmax (rel * Rmax (Rabs (nth j (f y) 0)) (Rabs (nth j (g y) 0))) abs < Rabs (nth j (f y) 0 - nth j (g y) 0)).
  { clear d Hd. induction ts as [|t ts IH]; intros Hi d Hd; cbn [equal_on_triangles]; [right; exists true, d; split; [reflexivity|intros t []]|].
    assert (Ht : In t (pp_triangles p1)) by (apply Hi; left; reflexivity). destruct (corners_ok n m p1 t HM Ht) as [EC HR]. rewrite EC. cbn [bind].
    destruct (nsimplex_sampling n (get_dimension (pp_r p1) n) d) as [[xs rest]|e] eqn:ES.
    - destruct (C103_points n m (corners p1 t) Hn Hnm HR (pp_call p1) p2 k f g (pp_r p1) rel abs d Hr Ha Hd (fun y Hy => H t y Ht Hy)) as (ys & rest' & b & LY & HY & E & Hb); [eauto|]. rewrite E. cbn [bind fst snd].
      assert (HI : incl rest' d).
      { destruct (on_simplex_ok n m (corners p1 t) Hn Hnm HR (pp_call p1) p2 k f g (pp_r p1) rel abs d xs rest Hr Ha ES) as (b' & E' & _).
        - intros x Hx. apply (H t); [exact Ht|]. destruct (sampling_inv (simplex_skips n) _ _ _ _ ES) as (cs & G & Ed & Ex & _). rewrite map_id in Ex. rewrite Ex in Hx. apply filter_In in Hx as [Hx Hs]. apply (spoint_inside n); [exact HR|apply G, Hx|exact Hs|]. intros u Hu. apply Hd. rewrite Ed. apply in_or_app. left. apply in_concat. exists x. split; assumption.
        - rewrite E in E'. injection E' as _ ->. apply (remaining _ _ _ _ _ ES). }
      destruct b.
      + destruct (IH (fun x Hx => Hi x (or_intror Hx)) rest') as [EO|(b & rest2 & E2 & HB)]; [intros u Hu; apply Hd, HI, Hu|left; exact EO|]. right. exists b, rest2. split; [exact E2|]. destruct b.
        * intros t' [<-|Ht']; [|apply HB, Ht']. exists ys. split; [exact LY|]. intros y Hy. split; [apply HY, Hy|]. apply (proj1 Hb eq_refl y Hy).
        * destruct HB as (t' & y & j & H1 & H2). exists t', y, j. split; [right; exact H1|exact H2].
      + right. exists false, rest'. split; [reflexivity|].
        assert (NA : ~ forall y, In y ys -> forall j, (j < k)%nat -> close rel abs (nth j (f y) 0) (nth j (g y) 0)) by (intros K; apply Hb in K; discriminate K).
        assert (DC : forall y, {forall j, (j < k)%nat -> close rel abs (nth j (f y) 0) (nth j (g y) 0)} + {exists j, (j < k)%nat /\ ~ close rel abs (nth j (f y) 0) (nth j (g y) 0)}).
        { intros y. clear. induction k as [|k IH]; [left; intros j Hj; lia|]. destruct IH as [IH|IH]; [|right; destruct IH as (j & Hj & H); exists j; split; [lia|exact H]]. unfold close in *. destruct (Rle_dec (Rabs (nth k (f y) 0 - nth k (g y) 0)) (Rmax (rel * Rmax (Rabs (nth k (f y) 0)) (Rabs (nth k (g y) 0))) abs)) as [C|C].
          - left. intros j Hj. destruct (Nat.eq_dec j k) as [->|]; [exact C|apply IH; lia].
          - right. exists k. split; [lia|exact C]. }
        assert (EX : exists y, In y ys /\ exists j, (j < k)%nat /\ ~ close rel abs (nth j (f y) 0) (nth j (g y) 0)).
        { clear - NA DC. induction ys as [|y ys IH]; [destruct NA; intros y []|]. destruct (DC y) as [A|A]; [|exists y; split; [left; reflexivity|exact A]]. destruct IH as (y' & H1 & H2); [|exists y'; split; [right; exact H1|exact H2]]. intros K. apply NA. intros y' [<-|Hy']; [exact A|apply K, Hy']. }
        destruct EX as (y & Hy & j & Hj & HC). exists t, y, j. split; [left; reflexivity|]. split; [apply HY, Hy|]. split; [exact Hj|]. apply Rnot_le_lt. exact HC.
    - left. pose proof (sampling_error n (get_dimension (pp_r p1) n) d) as SE. rewrite ES in SE. subst e. rewrite (on_simplex_err n m (corners p1 t) Hn Hnm HR _ _ _ _ _ _ _ ES). reflexivity. }
  apply Gen; [intros t Ht; exact Ht|exact Hd].
Qed.
(** Piecewise polynomials that agree on every simplex are never reported as different. *)
Theorem C103_piecewise_equal : forall n m p1 p2 k f rel_tol abs_tol d, n <> 0%nat -> (n <= m)%nat -> mesh n m p1 -> 0 <= rel_tol -> 0 <= abs_tol -> (forall t, In t d -> 0 <= t) ->
  (forall t y, In t (pp_triangles p1) -> in_simplex m (corners p1 t) y -> gives (pp_call p1) k f y /\ gives p2 k f y) ->
  piecewise_polynomials_equal p1 p2 rel_tol abs_tol d = Err OutOfFuel \/ exists rest, piecewise_polynomials_equal p1 p2 rel_tol abs_tol d = Ok (true, rest).
Proof.
  intros n m p1 p2 k f rel abs d Hn Hnm HM Hr Ha Hd H. destruct (C103_piecewise n m p1 p2 k f f rel abs d Hn Hnm HM Hr Ha Hd H) as [E|([|] & rest & E & K)]; [left; exact E|right; exists rest; exact E|]. exfalso. destruct K as (t & y & j & _ & _ & _ & K). apply Rlt_not_le in K. apply K. apply close_refl, Ha.
Qed.
(** On the line (or on segments in space) different random numbers and exact comparison decide whether the pieces are equal. *)
Theorem C103_piecewise_segments : forall m p1 p2 k f g ds, (1 <= m)%nat -> mesh 1 m p1 -> polynomial (pp_call p1) m k (pp_r p1) f -> polynomial p2 m k (pp_r p1) g ->
  length ds = length (pp_triangles p1) -> (forall d, In d ds -> NoDup d /\ length d = S (pp_r p1) /\ forall t, In t d -> 0 <= t <= 1) ->
  exists b rest, piecewise_polynomials_equal p1 p2 0 0 (concat ds) = Ok (b, rest) /\ (b = true <-> forall t y, In t (pp_triangles p1) -> in_span m (corners p1 t) y -> f y = g y).
Proof.
  intros m p1 p2 k f g ds Hm HM P1 P2 LD HD. unfold piecewise_polynomials_equal.
  assert (Gen : forall ts, incl ts (pp_triangles p1) -> forall ds, length ds = length ts -> (forall d, In d ds -> NoDup d /\ length d = S (pp_r p1) /\ forall t, In t d -> 0 <= t <= 1) ->
    exists b rest, equal_on_triangles (pp_call p1) p2 (pp_r p1) ts (pp_vertices p1) 0 0 (concat ds) = Ok (b, rest) /\ (b = true <-> forall t y, In t ts -> in_span m (corners p1 t) y -> f y = g y)).
  { clear ds LD HD. induction ts as [|t ts IH]; intros Hi ds LD HD; [exists true, (concat ds); split; [reflexivity|]; split; [intros _ t y []|reflexivity]|]. destruct ds as [|d ds]; [discriminate LD|]. cbn [equal_on_triangles concat].
    destruct (corners_ok 1 m p1 t HM (Hi t (or_introl eq_refl))) as [EC HR]. rewrite EC. cbn [bind]. destruct (HD d (or_introl eq_refl)) as (N & L & Hd). destruct (segment_exact m (corners p1 t) (pp_call p1) p2 k (pp_r p1) f g d (concat ds) Hm HR P1 P2 N L Hd) as (b & -> & Hb). cbn [bind fst snd]. destruct b.
    - destruct (IH (fun x Hx => Hi x (or_intror Hx)) ds) as (b & rest & E & Hb'); [injection LD; auto|intros d' Hd'; apply HD; right; exact Hd'|]. exists b, rest. split; [exact E|]. rewrite Hb'. split.
      + intros K t' y [<-|Ht'] Hy; [apply (proj1 Hb eq_refl y Hy)|apply (K t' y Ht' Hy)].
      + intros K t' y Ht' Hy. apply (K t' y (or_intror Ht') Hy).
    - exists false, (concat ds). split; [reflexivity|]. split; [discriminate|]. intros K. apply Hb. intros y Hy. apply (K t y (or_introl eq_refl) Hy). }
  apply Gen; [intros t Ht; exact Ht|exact LD|exact HD].
Qed.
(** Only the simplices of the first polynomial are compared: the answer depends on the order of the arguments. *)
Definition ramp : callable := fun x => match x with Sc t => Ok (Num (Rmax 0 (t - 1))) | _ => Err TypeError end.
Theorem C103_domain_refuted : exists p1 p2 d, piecewise_polynomials_equal p1 (pp_call p2) 0 0 d = Ok (true, [1 / 4; 1 / 2]) /\ piecewise_polynomials_equal p2 (pp_call p1) 0 0 d = Ok (false, []).
Proof.
  set (p1 := mkPiecewise (constant [0]) [[0; 1]]%nat [[0]; [1]] 1). set (p2 := mkPiecewise ramp [[0; 1]; [1; 2]]%nat [[0]; [1]; [2]] 1).
  assert (S : forall a b x y rest, 0 <= x <= 1 -> 0 <= y <= 1 -> forall q1 q2 (f g : R -> R), (forall t, q1 (Sc (t : RF)) = Ok (Num (f t))) -> (forall t, q2 (Sc (t : RF)) = Ok (Num (g t))) -> exists c,
    polynomials_equal_on_simplex q1 q2 1 [[a]; [b]] 0 0 ([x; y] ++ rest) = Ok (c, rest) /\ (c = true <-> f (a + x * (b - a)) = g (a + x * (b - a)) /\ f (a + y * (b - a)) = g (a + y * (b - a)))).
  { intros a b x y rest Hx Hy q1 q2 f g H1 H2. assert (HV : rows_of (F := RF) 2 1 [[a]; [b]]) by (split; [reflexivity|intros v [<-|[<-|[]]]; reflexivity]).
    assert (ES : nsimplex_sampling 1 (get_dimension 1 1) ([x; y] ++ rest) = Ok ([[x]; [y]], rest)) by (apply (segment_samples 2 [x; y]); [reflexivity|intros t [<-|[<-|[]]]; lra]).
    assert (SP : forall t, spoint 1 [[a]; [b]] [t] = [a + t * (b - a)]).
    { intros t. unfold spoint, HomogInt.simplex_point, bary_of, ent. cbn. f_equal. ring. }
    destruct (on_simplex_ok 1 1 [[a]; [b]] ltac:(lia) ltac:(lia) HV q1 q2 1 (fun v => [f (nth 0 v 0)]) (fun v => [g (nth 0 v 0)]) 1 0 0 _ _ rest ltac:(lra) ltac:(lra) ES) as (c & E & Hc).
    { intros v [<-|[<-|[]]]; rewrite SP; split; (split; [|reflexivity]); cbn; auto. }
    exists c. split; [exact E|]. rewrite Hc. split.
    - intros K. split; apply close_zero; [specialize (K [x] (or_introl eq_refl) 0%nat)|specialize (K [y] (or_intror (or_introl eq_refl)) 0%nat)]; rewrite SP in K; apply K; lia.
    - intros [K1 K2] v Hv j Hj. assert (j = 0)%nat by lia. subst j. destruct Hv as [<-|[<-|[]]]; rewrite SP; cbn [nth]; apply close_zero; assumption. }
  exists p1, p2, [1 / 2; 1 / 4; 1 / 4; 1 / 2]. split.
  - unfold piecewise_polynomials_equal. cbn [p1 p2 pp_call pp_triangles pp_vertices pp_r equal_on_triangles]. change (simplex_vertices (Q := RO) [0; 1]%nat [[0]; [1]]) with (Ok [[0]; [1]]). cbn [bind].
    destruct (S 0 1 (1 / 2) (1 / 4) [1 / 4; 1 / 2] ltac:(lra) ltac:(lra) (constant [0]) ramp (fun _ => 0) (fun t => Rmax 0 (t - 1)) ltac:(reflexivity) ltac:(reflexivity)) as (c & E & Hc). cbn [app] in E. rewrite E. cbn [bind fst snd].
    assert (c = true) as -> by (apply Hc; rewrite !Rmax_left by lra; split; reflexivity). reflexivity.
  - unfold piecewise_polynomials_equal. cbn [p1 p2 pp_call pp_triangles pp_vertices pp_r equal_on_triangles]. change (simplex_vertices (Q := RO) [0; 1]%nat [[0]; [1]; [2]]) with (Ok [[0]; [1]]). change (simplex_vertices (Q := RO) [1; 2]%nat [[0]; [1]; [2]]) with (Ok [[1]; [2]]). cbn [bind].
    destruct (S 0 1 (1 / 2) (1 / 4) [1 / 4; 1 / 2] ltac:(lra) ltac:(lra) ramp (constant [0]) (fun t => Rmax 0 (t - 1)) (fun _ => 0) ltac:(reflexivity) ltac:(reflexivity)) as (c & E & Hc). cbn [app] in E. rewrite E. cbn [bind fst snd].
    assert (c = true) as -> by (apply Hc; rewrite !Rmax_left by lra; split; reflexivity).
    destruct (S 1 2 (1 / 4) (1 / 2) [] ltac:(lra) ltac:(lra) ramp (constant [0]) (fun t => Rmax 0 (t - 1)) (fun _ => 0) ltac:(reflexivity) ltac:(reflexivity)) as (c & E' & Hc'). cbn [app] in E'. rewrite E'. cbn [bind fst snd].
    destruct c; [exfalso|reflexivity]. destruct (proj1 Hc' eq_refl) as [K _]. rewrite Rmax_right in K by lra. lra.
Qed.

(** ** Examples *)
Definition square : callable := fun x => match x with Sc t => Ok (Num (t * t)) | _ => Err TypeError end.
Definition identity : callable := fun x => match x with Sc t => Ok (Num t) | _ => Err TypeError end.
Lemma square_polynomial : polynomial square 1 1 2 (fun x => [nth 0 x 0 * nth 0 x 0]).
Proof.
  split.
  - intros x Lx. destruct x as [|t [|]]; try discriminate Lx. split; reflexivity.
  - intros j Hj. assert (j = 0)%nat by lia. subst j. apply (polydeg_mul (F := RF) 1 1 1 (fun x => nth 0 x 0) (fun x => nth 0 x 0)); apply (polydeg_coord (F := RF) 1 0); lia.
Qed.
Lemma identity_polynomial r : (1 <= r)%nat -> polynomial identity 1 1 r (fun x => [nth 0 x 0]).
Proof.
  intros Hr. split.
  - intros x Lx. destruct x as [|t [|]]; try discriminate Lx. split; reflexivity.
  - intros j Hj. assert (j = 0)%nat by lia. subst j. apply (polydeg_le (F := RF) 1 1); [exact Hr|]. apply (polydeg_coord (F := RF) 1 0). lia.
Qed.
(** x * x and x are told apart by the points 0, 1/2 and 1, but not by the points 0 and 1 if the degree is given as 1 *)
Example C102_ex : polynomials_equal square identity 2 1 0 0 [0; 1 / 2; 1] = Ok (false, []) /\ polynomials_equal square identity 1 1 0 0 [0; 1] = Ok (true, []).
Proof.
  unfold polynomials_equal, random_points. change (get_dimension 2 1) with 3%nat. change (get_dimension 1 1) with 2%nat. cbn [rand_array Nat.mul Nat.add rand bind fst snd Nat.eqb map equal_at square identity values_close as_float]. split.
  - rewrite (isclose_true 0 0 (0 * 0) 0) by (lra || (apply close_zero; ring)). rewrite (isclose_false 0 0 (1 / 2 * (1 / 2))) by (lra || (intros H; apply close_zero in H; lra)). reflexivity.
  - rewrite !isclose_true by (lra || (apply close_zero; ring)). reflexivity.
Qed.
(** the values may differ *)
Example C102_points_ex : exists xs rest b, [0; 1 / 2; 1; 1 / 3] = concat xs ++ rest /\ groups 1 xs /\ length xs = 3%nat /\ polynomials_equal square identity 2 1 (1 / 10) (1 / 10) [0; 1 / 2; 1; 1 / 3] = Ok (b, rest).
Proof.
  destruct (C102_points square identity 1 (fun x => [nth 0 x 0 * nth 0 x 0]) (fun x => [nth 0 x 0]) 2 1 (1 / 10) (1 / 10) [0; 1 / 2; 1; 1 / 3]) as (xs & rest & b & H); [lra|lra|intros x Lx; split; [apply square_polynomial|apply (identity_polynomial 1 (le_n 1))]; exact Lx|cbn; lia|]. exists xs, rest, b. destruct H as (H1 & H2 & H3 & H4 & _). auto.
Qed.
(** three numbers out of ten: at most 8 of the 1000 choices *)
Example C102_false_positives_ex : forall G, NoDup G -> length G = 10%nat -> (count (fun d => says_equal (polynomials_equal square identity 2 1 0 0 d)) (tuples G 3) <= 8)%nat.
Proof.
  intros G N L. pose proof (C102_false_positives square identity 1 1 2 _ _ G [2] square_polynomial (identity_polynomial 2 ltac:(lia)) eq_refl) as H. change (get_dimension 2 1 * 1)%nat with 3%nat in H. change (get_dimension 2 1) with 3%nat in H. rewrite L in H. cbn [Nat.pow Nat.mul Nat.add] in H. specialize (H ltac:(cbn [nth]; intros E; injection E as E; lra) N). lia.
Qed.
Example C102_large_ex : exists rest, polynomials_equal (constant [1]) (constant [1000]) 2 1 2 (1 / 100) [0; 1 / 2; 1] = Ok (true, rest).
Proof. apply (C102_large_tolerance (constant [1]) (constant [1000]) 1 1 2 (fun _ => [1]) (fun _ => [1000])); [lra|lra|intros x _; split; split; reflexivity|cbn; lia]. Qed.
Example C103_segment_ex : exists b, polynomials_equal_on_simplex square identity 2 [[1]; [3]] 0 0 [0; 1 / 2; 1] = Ok (b, []) /\ b = false.
Proof.
  destruct (C103_segment 1 [[1]; [3]] square identity 1 2 (fun x => [nth 0 x 0 * nth 0 x 0]) (fun x => [nth 0 x 0]) [0; 1 / 2; 1] (le_n 1)) as (b & E & Hb); [split; [reflexivity|intros v [<-|[<-|[]]]; reflexivity]|exact square_polynomial|exact (identity_polynomial 2 ltac:(lia))| |reflexivity|intros t [<-|[<-|[<-|[]]]]; lra|].
  - repeat constructor; cbn; intros H; repeat destruct H as [H|H]; lra.
  - exists b. split; [exact E|]. destruct b; [exfalso|reflexivity]. pose proof (proj1 Hb eq_refl [3]) as K. cbn [nth] in K. assert (S : in_span 1 [[1]; [3]] [3]); [|specialize (K S); injection K as K; lra]. exists [0; 1]. split; [reflexivity|]. split; [reflexivity|]. split; [cbn; ring|]. intros j Hj. assert (j = 0)%nat by lia. subst j. unfold ent. cbn. ring.
Qed.
Example C103_mesh_ex : mesh 1 1 (mkPiecewise square [[0; 1]; [1; 2]]%nat [[0]; [1]; [3]] 2).
Proof. split; [discriminate|]. split; [intros v [<-|[<-|[<-|[]]]]; reflexivity|]. intros t [<-|[<-|[]]]; (split; [reflexivity|]); intros i Hi; repeat destruct Hi as [<-|Hi]; try (cbn; lia); destruct Hi. Qed.

Print Assumptions C102_points.
Print Assumptions C102_too_few.
Print Assumptions C102_equal.
Print Assumptions C102_univariate.
Print Assumptions C102_error_bound.
Print Assumptions C102_false_positives.
Print Assumptions C102_symmetric.
Print Assumptions C102_large_tolerance.
Print Assumptions C102_negative.
Print Assumptions C102_collinear_refuted.
Print Assumptions C102_transitive_refuted.
Print Assumptions C102_components_refuted.
Print Assumptions C103_points.
Print Assumptions C103_equal.
Print Assumptions C103_false_positives.
Print Assumptions C103_segment.
Print Assumptions C103_piecewise.
Print Assumptions C103_piecewise_equal.
Print Assumptions C103_piecewise_segments.
Print Assumptions C103_domain_refuted.
