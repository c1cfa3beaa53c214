(** Property C120: degenerate simplices and equality of bounding boxes. *)
From Coq Require Import Reals Lra Permutation.
From Verif Require Import Base MultiIndex Fld FldInst LinSolve PolyEval Det Linalg VecFacts SimplexGeo SimplexFacts GramSchmidt Prop_Simplex Aabb PolyEqual PolyEqualFacts Degenerate DegenFacts.
Local Close Scope R_scope.
Local Open Scope nat_scope.

(** ** Degenerate simplices *)
(** A simplex of dimension at least one with independent vertices is degenerate iff some vertex is closer than [eps] times the longest
    distance between two vertices to a point of the affine hull of the other vertices. *)
Theorem C120_degenerate : forall (Q : ofld) (ksqrt : Q -> Q), sqrt_ok ksqrt -> forall n d (vs : list (list Q)) eps, S n <= d -> rows_of (S (S n)) d vs -> affine_independent d vs ->
  exists b D, is_degenerate ksqrt vs eps = Ok b /\
    (forall u v, In u vs -> In v vs -> kle (norm2 ksqrt (vsub u v)) D) /\ (exists u v, In u vs /\ In v vs /\ D = norm2 ksqrt (vsub u v)) /\
    (b = true <-> exists i f c y, i < length vs /\ Permutation vs (f ++ [nth i vs []]) /\ affine_comb d c f y /\ klt (norm2 ksqrt (vsub (nth i vs []) y)) (kmul eps D)).
Proof.
  intros Q ksqrt Hs n d vs eps Hd HV HI. destruct (is_degenerate_spec ksqrt Hs n d vs eps Hd HV HI) as (b & E & HB). exists b, (SimplexGeo.diameter ksqrt vs). split; [exact E|].
  destruct (C65_diameter Q ksqrt Hs vs d ltac:(rewrite (proj1 HV); lia) (proj2 HV)) as (D1 & D2). split; [exact D1|]. split; [exact D2|]. exact HB.
Qed.
Print Assumptions C120_degenerate.
(** The answer is the same for a similar simplex: every vertex multiplied by [s] (also a reflection, [s < 0]) and moved by [t]. *)
Theorem C120_similar : forall (Q : ofld) (ksqrt : Q -> Q), sqrt_ok ksqrt -> forall n d s t (vs : list (list Q)) eps, S n <= d -> rows_of (S (S n)) d vs -> affine_independent d vs -> s <> k0 -> length t = d ->
  is_degenerate ksqrt (map (fun v => vadd (vscale s v) t) vs) eps = is_degenerate ksqrt vs eps.
Proof. intros Q ksqrt Hs. exact (is_degenerate_similar ksqrt Hs). Qed.
Print Assumptions C120_similar.
(** Every such simplex is degenerate for [eps > 1], and none for [eps <= 0]. *)
Theorem C120_extreme : forall (Q : ofld) (ksqrt : Q -> Q), sqrt_ok ksqrt -> forall n d (vs : list (list Q)) eps, S n <= d -> rows_of (S (S n)) d vs -> affine_independent d vs ->
  (klt k1 eps -> is_degenerate ksqrt vs eps = Ok true) /\ (kle eps k0 -> is_degenerate ksqrt vs eps = Ok false).
Proof. intros Q ksqrt Hs. exact (is_degenerate_extreme ksqrt Hs). Qed.
Print Assumptions C120_extreme.
(** A simplex with volume zero whose faces all have a volume (its vertices in a hyperplane, in general position there) is degenerate for every
    [eps > 0], and for no [eps <= 0]. *)
Theorem C120_flat : forall (Q : ofld) (ksqrt : Q -> Q), sqrt_ok ksqrt -> forall m (vs : list (list Q)) eps, rows_of (S (S (S m))) (S (S m)) vs -> ~ affine_independent (S (S m)) vs ->
  (forall i f, i < length vs -> Permutation vs (f ++ [nth i vs []]) -> affine_independent (S (S m)) f) -> is_degenerate ksqrt vs eps = Ok (kltb k0 eps).
Proof. intros Q ksqrt Hs. exact (is_degenerate_flat ksqrt Hs). Qed.
Print Assumptions C120_flat.
(** The most degenerate simplex of all, with all vertices in one point, is not degenerate for any [eps]. *)
Theorem C120_coincident_refuted : forall (Q : ofld) (ksqrt : Q -> Q), sqrt_ok ksqrt -> forall n (p : list Q) eps, is_degenerate ksqrt (repeat p (S (S n))) eps = Ok false.
Proof. intros Q ksqrt Hs. exact (is_degenerate_coincident ksqrt Hs). Qed.
Print Assumptions C120_coincident_refuted.
(** A point has no altitude: the function fails, whatever [eps]. *)
Theorem C120_point_refuted : forall (Q : ofld) (ksqrt : Q -> Q) p eps, exists e, is_degenerate ksqrt [p] eps = Err e.
Proof. intros Q ksqrt p eps. eexists. reflexivity. Qed.
Print Assumptions C120_point_refuted.

(** ** Boxes *)
(** the numbers that count as equal: within the tolerances, or the same infinity *)
Definition xnear (rel_tol abs_tol : R) (a b : xnum RO) : Prop :=
  match a, b with
  | Fin x, Fin y => (Rabs (x - y) <= Rmax (rel_tol * Rmax (Rabs x) (Rabs y)) abs_tol)%R
  | PInf, PInf | MInf, MInf => True
  | _, _ => False
  end.
Lemma xclose_ok rel abs a b : (0 <= rel)%R -> (0 <= abs)%R -> exists c, xclose rel abs a b = Ok c /\ (c = true <-> xnear rel abs a b).
Proof.
  intros Hr Ha. destruct (isclose_ok rel abs 0%R 0%R Hr Ha) as (c0 & E0 & _).
  destruct a as [| |x|], b as [| |y|]; try exact (isclose_ok rel abs x y Hr Ha); unfold xclose; rewrite E0; cbn [bind]; eexists; (split; [reflexivity|]); cbn [xnear]; split; congruence || tauto.
Qed.
Lemma is_equal_from_ok rel abs a b : (0 <= rel)%R -> (0 <= abs)%R -> forall k i, i + k <= length (fst a) -> i + k <= length (snd a) -> i + k <= length (fst b) -> i + k <= length (snd b) ->
  exists c, is_equal_from rel abs a b i k = Ok c /\ (c = true <-> forall j, i <= j < i + k -> xnear rel abs (nth j (fst a) NaN) (nth j (fst b) NaN) /\ xnear rel abs (nth j (snd a) NaN) (nth j (snd b) NaN)).
Proof.
  intros Hr Ha. induction k as [|k IH]; intros i L1 L2 L3 L4; [exists true; split; [reflexivity|]; split; [intros _ j Hj; lia|reflexivity]|]. cbn [is_equal_from].
  rewrite (PermFacts.get_ok (fst a) i NaN), (PermFacts.get_ok (fst b) i NaN) by lia. cbn [bind]. destruct (xclose_ok rel abs (nth i (fst a) NaN) (nth i (fst b) NaN) Hr Ha) as (c1 & -> & H1). cbn [bind]. destruct c1; cbn [negb].
  2:{ exists false. split; [reflexivity|]. split; [discriminate|]. intros H. apply H1. apply (H i). lia. }
  rewrite (PermFacts.get_ok (snd a) i NaN), (PermFacts.get_ok (snd b) i NaN) by lia. cbn [bind]. destruct (xclose_ok rel abs (nth i (snd a) NaN) (nth i (snd b) NaN) Hr Ha) as (c2 & -> & H2). cbn [bind]. destruct c2; cbn [negb].
  2:{ exists false. split; [reflexivity|]. split; [discriminate|]. intros H. apply H2. apply (H i). lia. }
  destruct (IH (S i)) as (c & E & HC); [lia..|]. exists c. split; [exact E|]. rewrite HC. split.
  - intros H j Hj. destruct (Nat.eq_dec j i) as [->|N]; [split; [apply H1; reflexivity|apply H2; reflexivity]|]. apply H. lia.
  - intros H j Hj. apply H. lia.
Qed.
(** a box of dimension [n] *)
Definition box (n : nat) (a : @Aabb.aabb RO) : Prop := length (fst a) = n /\ length (snd a) = n.
(** Two boxes of the same dimension compare equal iff all coordinates of both corners are within the tolerances. *)
Theorem C120_is_equal : forall n a b rel abs, box n a -> box n b -> (0 <= rel)%R -> (0 <= abs)%R ->
  exists c, is_equal a b rel abs = Ok c /\
    (c = true <-> forall j, j < n -> xnear rel abs (nth j (fst a) NaN) (nth j (fst b) NaN) /\ xnear rel abs (nth j (snd a) NaN) (nth j (snd b) NaN)).
Proof.
  intros n a b rel abs (A1 & A2) (B1 & B2) Hr Ha. unfold is_equal. rewrite A1. destruct (is_equal_from_ok rel abs a b Hr Ha n 0) as (c & E & HC); [lia..|]. exists c. split; [exact E|]. rewrite HC. split; intros H j Hj; apply H; lia.
Qed.
Print Assumptions C120_is_equal.
Lemma xnear_sym rel abs a b : xnear rel abs a b <-> xnear rel abs b a.
Proof. destruct a as [| |x|], b as [| |y|]; cbn [xnear]; try tauto. rewrite (Rabs_minus_sym x y), (Rmax_comm (Rabs x)). tauto. Qed.
(** The comparison is symmetric, and reflexive for boxes without nan (the empty box included). *)
Theorem C120_symmetric : forall n a b rel abs, box n a -> box n b -> (0 <= rel)%R -> (0 <= abs)%R -> is_equal a b rel abs = is_equal b a rel abs.
Proof.
  intros n a b rel abs A B Hr Ha. destruct (C120_is_equal n a b rel abs A B Hr Ha) as (c & -> & HC). destruct (C120_is_equal n b a rel abs B A Hr Ha) as (c' & -> & HC'). f_equal.
  assert (X : c = true <-> c' = true). { rewrite HC, HC'. split; intros H j Hj; destruct (H j Hj) as [H1 H2]; split; apply xnear_sym; assumption. }
  destruct c, c'; try reflexivity; [symmetry; apply X; reflexivity|apply X; reflexivity].
Qed.
Print Assumptions C120_symmetric.
Theorem C120_reflexive : forall n a rel abs, box n a -> ~ In NaN (fst a) -> ~ In NaN (snd a) -> (0 <= rel)%R -> (0 <= abs)%R -> is_equal a a rel abs = Ok true.
Proof.
  intros n a rel abs A N1 N2 Hr Ha. destruct (C120_is_equal n a a rel abs A A Hr Ha) as (c & -> & HC). f_equal. apply HC. destruct A as (A1 & A2).
  assert (G : forall x : xnum RO, x <> NaN -> xnear rel abs x x).
  { intros [| |x|] N; cbn [xnear]; try exact I; try (exfalso; congruence). replace (x - x)%R with 0%R by (symmetry; apply Rminus_eq_0). rewrite Rabs_R0. apply Rle_trans with abs; [exact Ha|apply Rmax_r]. }
  intros j Hj. split; apply G; intros E; [apply N1|apply N2]; rewrite <- E; apply nth_In; lia.
Qed.
Print Assumptions C120_reflexive.
(** A negative tolerance raises ValueError for boxes of positive dimension. *)
Theorem C120_negative_tolerance : forall n a b rel abs, box (S n) a -> box (S n) b -> (rel < 0 \/ abs < 0)%R -> is_equal a b rel abs = Err ValueError.
Proof.
  intros n [[|x a1] a2] [[|y b1] b2] rel abs (A1 & A2) (B1 & B2) H; try discriminate. unfold is_equal. cbn [fst length is_equal_from get nth_error bind].
  assert (E : xclose rel abs x y = Err ValueError) by (destruct x, y; unfold xclose; rewrite ?isclose_negative by exact H; reflexivity). change (get (x :: a1) 0) with (Ok x). change (get (y :: b1) 0) with (Ok y). cbn [bind]. rewrite E. reflexivity.
Qed.
Print Assumptions C120_negative_tolerance.
(** The number of coordinates is that of the first box: a box is equal to a box of higher dimension that extends it, and the reverse comparison raises IndexError. *)
Theorem C120_dimension_refuted : exists a b, is_equal a b 0%R 0%R = Ok true /\ is_equal b a 0%R 0%R = Err IndexError.
Proof.
  exists ([Fin (0%R : RO)], [Fin (1%R : RO)]), ([Fin (0%R : RO); Fin (0%R : RO)], [Fin (1%R : RO); Fin (5%R : RO)]).
  assert (E : forall x : R, isclose 0 0 x x = Ok true) by (intros x; destruct (isclose_ok 0 0 x x ltac:(lra) ltac:(lra)) as (c & -> & HC); f_equal; apply HC; unfold close; rewrite Rminus_eq_0, Rabs_R0; apply Rmax_r).
  unfold is_equal. cbn [fst snd length is_equal_from]. split.
  - cbn [get nth_error bind]. change (get [Fin (0%R : RO)] 0) with (Ok (Fin (0%R : RO))). unfold get. cbn [nth_error bind xclose]. rewrite !E. reflexivity.
  - unfold get. cbn [nth_error bind xclose]. rewrite !E. reflexivity.
Qed.
Print Assumptions C120_dimension_refuted.

(** Equality within a tolerance is not transitive. *)
Theorem C120_transitive_refuted : exists a b c, is_equal a b 0%R 1%R = Ok true /\ is_equal b c 0%R 1%R = Ok true /\ is_equal a c 0%R 1%R = Ok false.
Proof.
  set (B := fun x : R => ([Fin (x : RO)], [Fin (x : RO)]) : @Aabb.aabb RO). exists (B 0%R), (B 1%R), (B 2%R).
  assert (G : forall x y, exists c, is_equal (B x) (B y) 0%R 1%R = Ok c /\ (c = true <-> (Rabs (x - y) <= 1)%R)).
  { intros x y. destruct (C120_is_equal 1 (B x) (B y) 0%R 1%R ltac:(split; reflexivity) ltac:(split; reflexivity) ltac:(lra) ltac:(lra)) as (c & E & HC). exists c. split; [exact E|]. rewrite HC. assert (M : forall z, Rmax (0 * z) 1 = 1%R) by (intros z; rewrite Rmult_0_l; apply Rmax_right; lra). split.
    - intros H. destruct (H 0 ltac:(lia)) as [H0 _]. cbn in H0. rewrite M in H0. exact H0.
    - intros H [|j] Hj; [|lia]. cbn. rewrite M. split; exact H. }
  destruct (G 0%R 1%R) as (c1 & E1 & H1), (G 1%R 2%R) as (c2 & E2 & H2), (G 0%R 2%R) as (c3 & E3 & H3). rewrite E1, E2, E3. split; [f_equal; apply H1; apply Rabs_le; lra|]. split; [f_equal; apply H2; apply Rabs_le; lra|]. destruct c3; [|reflexivity]. exfalso. pose proof (proj1 H3 eq_refl) as H. rewrite Rabs_left in H by lra. lra.
Qed.
Print Assumptions C120_transitive_refuted.

(** ** Examples *)
Lemma unit_triangle_rows : rows_of (F := RF) 3 2 [[0; 0]; [1; 0]; [0; 1 / 1000]]%R.
Proof. split; [reflexivity|]. intros r [<-|[<-|[<-|[]]]]; reflexivity. Qed.
Lemma unit_triangle_indep : affine_independent (F := RF) 2 [[0; 0]; [1; 0]; [0; 1 / 1000]]%R.
Proof.
  intros c C1 C2. cbn [length seq] in *. rewrite !ksum_cons, !ksum_nil in C1. pose proof (C2 0%nat ltac:(lia)) as X. pose proof (C2 1%nat ltac:(lia)) as Y. rewrite !ksum_cons, !ksum_nil in X, Y. unfold ent in X, Y. cbn [nth] in X, Y.
  change (c 0%nat + (c 1%nat + (c 2%nat + 0)) = 0)%R in C1. change (c 0%nat * 0 + (c 1%nat * 1 + (c 2%nat * 0 + 0)) = 0)%R in X. change (c 0%nat * 0 + (c 1%nat * 0 + (c 2%nat * (1 / 1000) + 0)) = 0)%R in Y.
  assert (c1 : c 1%nat = 0%R :> R) by lra. assert (c2 : c 2%nat = 0%R :> R) by lra. assert (c0 : c 0%nat = 0%R :> R) by lra. intros [|[|[|i]]] Hi; [exact c0|exact c1|exact c2|lia].
Qed.
(** a flat triangle is degenerate for [eps = 1/100] *)
Example C120_ex_flat : is_degenerate (Q := RO) sqrt [[0; 0]; [1; 0]; [0; 1 / 1000]]%R (1 / 100)%R = Ok true.
Proof.
  destruct (C120_degenerate RO sqrt sqrt_ok_R 1 2 [[0; 0]; [1; 0]; [0; 1 / 1000]]%R (1 / 100)%R ltac:(lia) unit_triangle_rows unit_triangle_indep) as (b & D & E & D1 & _ & HB). rewrite E. f_equal. apply HB.
  assert (HD : (1 <= D)%R).
  { pose proof (D1 [1; 0]%R [0; 0]%R ltac:(right; left; reflexivity) ltac:(left; reflexivity)) as H. apply Rnot_lt_le in H. replace 1%R with (sqrt 1) by apply sqrt_1. refine (Rle_trans _ _ _ _ H). apply Req_le. unfold norm2. f_equal. cbn. lra. }
  exists 2%nat, [[0; 0]; [1; 0]]%R, [1; 0]%R, [0; 0]%R. split; [cbn; lia|]. split; [apply Permutation_refl|]. split.
  - split; [reflexivity|]. split; [reflexivity|]. split; [cbn; lra|]. intros [|[|j]] Hj; [cbn; lra|cbn; lra|lia].
  - change (sqrt (dot (F := RF) (vsub (F := RF) [0; 1 / 1000]%R [0; 0]%R) (vsub (F := RF) [0; 1 / 1000]%R [0; 0]%R)) < 1 / 100 * D)%R. apply Rle_lt_trans with (1 / 1000)%R; [|lra]. apply Rle_trans with (sqrt ((1 / 1000) * (1 / 1000))); [apply sqrt_le_1_alt; cbn; lra|rewrite sqrt_square; lra].
Qed.
Example C120_ex_box : is_equal ([Fin (0%R : RO); PInf], [Fin (1%R : RO); PInf]) ([Fin (0%R : RO); PInf], [Fin (1%R : RO); PInf]) 0%R 0%R = Ok true.
Proof. apply (C120_reflexive 2); [split; reflexivity|..]; try lra; intros [H|[H|[]]]; discriminate. Qed.
(** three points on a line: degenerate *)
Example C120_ex_line : is_degenerate (Q := RO) sqrt [[0; 0]; [1; 0]; [2; 0]]%R (1 / 10000)%R = Ok true.
Proof.
  assert (HV : rows_of (F := RF) 3 2 [[0; 0]; [1; 0]; [2; 0]]%R) by (split; [reflexivity|]; intros r [<-|[<-|[<-|[]]]]; reflexivity).
  refine (eq_trans (C120_flat RO sqrt sqrt_ok_R 0 [[0; 0]; [1; 0]; [2; 0]]%R (1 / 10000)%R HV _ _) _).
  - intros HI. assert (C : (fun i => nth i [1; -2; 1]%R 0%R) 0%nat = 0%R).
    { apply (HI (fun i => nth i [1; -2; 1]%R 0%R)); [cbn; lra| |cbn; lia]. intros [|[|j]] Hj; [cbn; lra|cbn; lra|lia]. }
    cbn in C. lra.
  - intros i f Hi P. assert (L : length f = 2%nat) by (pose proof (Permutation_length P) as PL; rewrite app_length, Nat.add_comm in PL; injection PL as PL; symmetry; exact PL). destruct f as [|u [|w [|? ?]]]; try discriminate L.
    assert (Hu : In u [[0; 0]; [1; 0]; [2; 0]]%R) by (apply (Permutation_in _ (Permutation_sym P)); left; reflexivity). assert (Hw : In w [[0; 0]; [1; 0]; [2; 0]]%R) by (apply (Permutation_in _ (Permutation_sym P)); right; left; reflexivity).
    assert (ND : NoDup [u; w; nth i [[0; 0]; [1; 0]; [2; 0]]%R []]).
    { apply (Permutation_NoDup P). repeat constructor; cbn; intros H; decompose [or] H; try tauto; match goal with H : _ = _ |- _ => injection H; intros; lra end. }
    assert (N : u <> w) by (inversion ND as [|? ? N1 _]; intros ->; apply N1; left; reflexivity).
    intros c C1 C2. pose proof (C2 0%nat ltac:(lia)) as X. cbn [length seq] in C1, X. rewrite !ksum_cons, !ksum_nil in C1, X. unfold ent in X. cbn [nth] in X. change (c 0%nat + (c 1%nat + 0) = 0)%R in C1. change (c 0%nat * nth 0 u 0%R + (c 1%nat * nth 0 w 0%R + 0) = 0)%R in X.
    assert (D : nth 0 u 0%R <> nth 0 w 0%R) by (cbn in Hu, Hw; decompose [or] Hu; decompose [or] Hw; try tauto; subst; cbn; try (exfalso; apply N; reflexivity); intros HH; lra).
    assert (A : forall a b x y : R, (a + (b + 0) = 0 -> a * x + (b * y + 0) = 0 -> x <> y -> a = 0 /\ b = 0)%R).
    { intros a b x y H1 H2 H3. replace b with (- a)%R in * by lra. assert (Y : (a * (x - y) = 0)%R) by lra. apply Rmult_integral in Y as [Y|Y]; lra. }
    pose proof (A _ _ _ _ C1 X D) as G.
    intros [|[|j]] Hj; [exact (proj1 G)|exact (proj2 G)|cbn in Hj; lia].
  - f_equal. apply kltb_spec. change (0 < 1 / 10000)%R. lra.
Qed.
