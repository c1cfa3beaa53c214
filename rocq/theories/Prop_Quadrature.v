(** Properties C72-C74: the fixed quadrature rules on triangles, tetrahedrons and
    intervals, and compositions of functions. *)
From Coq Require Import Reals Lra Qcanon QArith Qreals.
From Coquelicot Require Import Coquelicot.
From Verif Require Import Base MultiIndex MultiIndexCache MultiIndexFacts MultiCapFacts Fld FldInst ExNum CodeGen LinSolve VecFacts PolyFacts LagFacts Linalg Det Simplicial SimplexGeo SimplexFacts AffineFacts SimplexInside MultiCoef LagrangeCache Unisolv Poly PolyEval PolyOps PolyOpsB PolyObj IntegralCache Integrate IntFacts HasInt SimplexInt IntReal Bases PolySimplex PolySimplexFacts PolySimplexMul HomogInt PolySimplexInt SimplexIntReal QHom Quadrature QuadFacts QuadReal.
Close Scope Q_scope. Close Scope Qc_scope. Close Scope R_scope.
Local Open Scope nat_scope.

(** The polynomial with the coefficients [a] for the exponents [mis] *)
Definition poly_fn (mis : list (list nat)) (a y : list R) : R := ksum (F := RF) (combine a mis) (fun c => (fst c * mpow (F := RF) y (snd c))%R).
(** [f] is a function of [m] numbers that returns [g] of them *)
Definition computes (m : nat) (f : callable RF) (g : list R -> R) : Prop := forall x, length x = m -> c_run f (map (fun t : R => Sc (F := RF) t) x) = Ok (Sc (F := RF) (g x)).
(** the determinant of the edges at the first vertex *)
Definition edges_det (n : nat) (vs : list (list R)) : R := det (F := RF) n (fun i j => (nth j (nth (S i) vs []) 0 - nth j (nth 0 vs []) 0)%R).

Lemma poly_fn_mval m r mis a : generate_all m r = Ok mis -> length a = length mis ->
  length a = get_dimension r m /\ forall x, poly_fn mis a x = mval (F := RF) m r a x.
Proof.
  intros E La. rewrite generate_all_eq in E. injection E as <-. rewrite <- dim_all_mi in La. split; [exact La|]. intros x. exact (@sum_cf RF m r a (mpow (F := RF) x) La).
Qed.
Lemma poly_fn_polydeg m r mis a g : generate_all m r = Ok mis -> length a = length mis -> (forall x, length x = m -> g x = poly_fn mis a x) -> polydeg (F := RF) m r g.
Proof. intros E La G. destruct (poly_fn_mval m r mis a E La) as [L H]. exists a. split; [exact L|]. intros x Hx. rewrite G by exact Hx. apply H. Qed.

(** ** C72: exactness on the unit triangle and the unit tetrahedron *)
Theorem C72_unit_triangle : forall n f g a mis, 1 <= n <= 3 -> generate_all 2 n = Ok mis -> length a = length mis -> (forall x, length x = 2 -> g x = poly_fn mis a x) -> computes 2 f g ->
  exists I, quadrature_unit_triangle_fixed (F := RF) f (Z.of_nat n) = Ok (Sc I) /\ simplex_int 2 1 g I.
Proof.
  intros n f g a mis Hn E La G S. destruct (tri_exact n Hn) as (rl & E1 & E2). apply (unit_exact 2 triangle_rule _ f g rl E1); rewrite ?Nat2Z.id; [exact E2|exact S|].
  exact (poly_fn_polydeg 2 n mis a g E La G).
Qed.
Print Assumptions C72_unit_triangle.
Theorem C72_unit_tetrahedron : forall n f g a mis, n = 1 \/ n = 3 -> generate_all 3 n = Ok mis -> length a = length mis -> (forall x, length x = 3 -> g x = poly_fn mis a x) -> computes 3 f g ->
  exists I, quadrature_unit_tetrahedron_fixed (F := RF) f (Z.of_nat n) = Ok (Sc I) /\ simplex_int 3 1 g I.
Proof.
  intros n f g a mis Hn E La G S. destruct (tet_exact n Hn) as (rl & E1 & E2). apply (unit_exact 3 tetrahedron_rule _ f g rl E1); rewrite ?Nat2Z.id; [exact E2|exact S|].
  exact (poly_fn_polydeg 3 n mis a g E La G).
Qed.
Print Assumptions C72_unit_tetrahedron.

(** on any triangle and any tetrahedron, of either orientation *)
Theorem C72_triangle : forall n f g a mis (vs : list (list R)), 1 <= n <= 3 -> rows_of (F := RF) 3 2 vs -> is_univariate f = Ok false -> generate_all 2 n = Ok mis -> length a = length mis ->
  (forall x, length x = 2 -> g x = poly_fn mis a x) -> computes 2 f g ->
  exists I, quadrature_triangle_fixed (Q := RO) f vs (Z.of_nat n) = Ok (Sc I) /\ simplex_integral 2 vs g I.
Proof.
  intros n f g a mis vs Hn Hr U E La G S. destruct (tri_exact n Hn) as (rl & E1 & E2). apply (simplex_exact 2 triangle_rule ltac:(lia) _ f g rl vs E1); rewrite ?Nat2Z.id; try assumption.
  exact (poly_fn_polydeg 2 n mis a g E La G).
Qed.
Print Assumptions C72_triangle.
Theorem C72_tetrahedron : forall n f g a mis (vs : list (list R)), n = 1 \/ n = 3 -> rows_of (F := RF) 4 3 vs -> is_univariate f = Ok false -> generate_all 3 n = Ok mis -> length a = length mis ->
  (forall x, length x = 3 -> g x = poly_fn mis a x) -> computes 3 f g ->
  exists I, quadrature_tetrahedron_fixed (Q := RO) f vs (Z.of_nat n) = Ok (Sc I) /\ simplex_integral 3 vs g I.
Proof.
  intros n f g a mis vs Hn Hr U E La G S. destruct (tet_exact n Hn) as (rl & E1 & E2). apply (simplex_exact 3 tetrahedron_rule ltac:(lia) _ f g rl vs E1); rewrite ?Nat2Z.id; try assumption.
  exact (poly_fn_polydeg 3 n mis a g E La G).
Qed.
Print Assumptions C72_tetrahedron.

(** The rules with decimal weights: the error is at most [eps] times the sum of
    the absolute values of the coefficients of the polynomial on the unit simplex. *)
Theorem C72_triangle_decimal : forall f g a mis (vs : list (list R)), rows_of (F := RF) 3 2 vs -> is_univariate f = Ok false -> generate_all 2 4 = Ok mis -> length a = length mis -> computes 2 f g ->
  (forall x, length x = 2 -> forall y, affine_comb (F := RF) 2 (bary_of (F := RF) x) vs y -> g y = poly_fn mis a x) ->
  exists v I, quadrature_triangle_fixed (Q := RO) f vs 4 = Ok (Sc v) /\ simplex_integral 2 vs g I /\
    (Rabs (v - I) <= Rabs (edges_det 2 vs) * (/ 10 ^ 15 * fold_right (fun c s => Rabs c + s) 0 a))%R.
Proof.
  intros f g a mis vs Hr U E La S G. destruct (poly_fn_mval 2 4 mis a E La) as [L H]. destruct tri_near as (rl & E1 & E2).
  destruct (simplex_near 2 triangle_rule ltac:(lia) 4 f g rl vs a _ E1 E2 Hr U S L) as (v & I & H1 & H2 & H3).
  - intros x Hx. etransitivity; [apply (G x Hx)|apply H]. apply (simplex_point_comb (Q := RO) 2 vs x). exact (eq_trans (f_equal Datatypes.S Hx) (eq_sym (proj1 Hr))).
  - exists v, I. split; [exact H1|]. split; [exact H2|]. rewrite edge_det in H3. eapply Rle_trans; [exact H3|]. right. unfold edges_det. f_equal. f_equal. unfold Q2R. cbn [Qnum Qden]. rewrite Rmult_1_l. f_equal. cbn [pow]. lra.
Qed.
Print Assumptions C72_triangle_decimal.
Theorem C72_tetrahedron_decimal : forall n f g a mis (vs : list (list R)), n = 2 \/ n = 4 -> rows_of (F := RF) 4 3 vs -> is_univariate f = Ok false -> generate_all 3 n = Ok mis -> length a = length mis -> computes 3 f g ->
  (forall x, length x = 3 -> forall y, affine_comb (F := RF) 3 (bary_of (F := RF) x) vs y -> g y = poly_fn mis a x) ->
  exists v I, quadrature_tetrahedron_fixed (Q := RO) f vs (Z.of_nat n) = Ok (Sc v) /\ simplex_integral 3 vs g I /\
    (Rabs (v - I) <= Rabs (edges_det 3 vs) * (/ 10 ^ 17 * fold_right (fun c s => Rabs c + s) 0 a))%R.
Proof.
  intros n f g a mis vs Hn Hr U E La S G. destruct (poly_fn_mval 3 n mis a E La) as [L H]. destruct (tet_near n Hn) as (rl & E1 & E2).
  destruct (simplex_near 3 tetrahedron_rule ltac:(lia) (Z.of_nat n) f g rl vs a (1 # 100000000000000000)) as (v & I & H1 & H2 & H3); rewrite ?Nat2Z.id; try assumption; try exact E1.
  - intros x Hx. etransitivity; [apply (G x Hx)|apply H]. apply (simplex_point_comb (Q := RO) 3 vs x). exact (eq_trans (f_equal Datatypes.S Hx) (eq_sym (proj1 Hr))).
  - exists v, I. split; [exact H1|]. split; [exact H2|]. rewrite edge_det in H3. eapply Rle_trans; [exact H3|]. right. unfold edges_det. f_equal. f_equal. unfold Q2R. cbn [Qnum Qden]. rewrite Rmult_1_l. f_equal. cbn [pow]. lra.
Qed.
Print Assumptions C72_tetrahedron_decimal.
(** "The result is guaranteed to be exact for all polynomials of degree <= n"
    does not hold for the triangle with n = 4, even for constants. *)
Theorem C72_triangle_exact_refuted : exists f g v, computes 2 f g /\ quadrature_unit_triangle_fixed (F := RF) f 4 = Ok (Sc v) /\ simplex_int 2 1 g (/ 2) /\ v <> (/ 2)%R.
Proof.
  pose (f := mkCallable (F := RF) (Some [POSITIONAL; POSITIONAL]) (fun _ => Ok (Sc (F := RF) 1%R))). pose (g := fun _ : list R => 1%R).
  assert (S : computes 2 f g) by (intros x _; reflexivity). exists f, g. eexists. split; [exact S|]. split; [|split].
  - unfold quadrature_unit_triangle_fixed. cbn [triangle_rule Z.eqb Pos.eqb]. apply (apply_rule_eq (F := RF) 2 f g _ _ S). intros wp Hin. cbn in Hin. repeat (destruct Hin as [<-|Hin]; [reflexivity|]). destruct Hin.
  - destruct (C72_unit_triangle 1 f g [1%R; 0%R; 0%R] [[0; 0]; [1; 0]; [0; 1]]) as (I & E & H); [lia|reflexivity|reflexivity| |exact S|].
    + intros [|x [|y [|? ?]]] Hx; try discriminate Hx. unfold poly_fn, g. cbn. rring.
    + assert (EI : I = (/ 2)%R).
      { unfold quadrature_unit_triangle_fixed in E. cbn [triangle_rule Z.of_nat Pos.of_succ_nat Z.eqb Pos.eqb] in E. rewrite (apply_rule_eq (F := RF) 2 f g _ _ S) in E by (intros wp [<-|[]]; reflexivity).
        apply (f_equal (fun r : result (arr RF) => match r with Ok (Sc v) => v | _ => @k0 RF end)) in E. cbv beta iota in E. rewrite <- E. unfold rule_value, g. cbn [ksum fold_right map fst snd]. rewrite !kofQ_Q2R. unfold Q2R. cbn. field. }
      rewrite <- EI. exact H.
  - intros E. match type of E with rule_value ?c ?l _ = _ => assert (X : Q2R (moment c l [0; 0]) = Q2R (1 # 2)) end.
    + rewrite <- kofQ_Q2R, kofQ_moment. etransitivity; [|etransitivity; [exact E|]].
      * unfold rule_value. f_equal. apply (ksum_ext (F := RF)). intros wp Hin. f_equal. cbn in Hin. repeat (destruct Hin as [<-|Hin]; [unfold g; cbn; rring|]). destruct Hin.
      * unfold Q2R. cbn. lra.
    + apply eqR_Qeq in X. vm_compute in X. discriminate X.
Qed.
Print Assumptions C72_triangle_exact_refuted.
(** Any other degree is an error. *)
Theorem C72_degree_error : forall (Q : ofld) f n, (n < 1 \/ 4 < n)%Z -> quadrature_unit_triangle_fixed (F := Q) f n = Err ValueError /\ quadrature_unit_tetrahedron_fixed (F := Q) f n = Err ValueError.
Proof. intros Q f n H. unfold quadrature_unit_triangle_fixed, quadrature_unit_tetrahedron_fixed. rewrite tri_none, tet_none by exact H. split; reflexivity. Qed.
Print Assumptions C72_degree_error.

(** ** C73: intervals.  [gauss_rule d eps (x, w)]: the points and weights integrate
    the powers up to [d] over [-1, 1] up to [eps]. *)
Theorem C73_unit_interval : forall (gl : nat -> list R * list R) f p r, gauss_rule (2 * ((r + 2) / 2) - 1) 0 (gl ((r + 2) / 2)) ->
  (forall x : R, c_run f [Sc (F := RF) x] = Ok (Sc (F := RF) (rpoly p x))) -> length p <= S r ->
  exists I, quadrature_unit_interval_fixed (F := RF) gl f r = Ok (Sc (F := RF) I) /\ is_RInt (rpoly p) 0 1 I.
Proof. exact unit_interval_exact. Qed.
Print Assumptions C73_unit_interval.
Theorem C73_interval : forall (gl : nat -> list R * list R) f p r a b, gauss_rule (2 * ((r + 2) / 2) - 1) 0 (gl ((r + 2) / 2)) -> is_univariate f = Ok true ->
  (forall x : R, c_run f [Sc (F := RF) x] = Ok (Sc (F := RF) (rpoly p x))) -> length p <= S r -> (a < b)%R ->
  exists I, quadrature_interval_fixed (Q := RO) gl f a b r = Ok (Sc (F := RF) I) /\ is_RInt (rpoly p) a b I.
Proof.
  intros gl f p r a b G U S Hp Hab. destruct (interval_exact gl f p r a b G U S Hp ltac:(lra)) as (I & E & H). exists I. split; [exact E|]. rewrite Rmin_left, Rmax_right in H by lra. exact H.
Qed.
Print Assumptions C73_interval.
(** with rounded points and weights *)
Theorem C73_interval_error : forall (gl : nat -> list R * list R) f g r a b c eps, gauss_rule (2 * ((r + 2) / 2) - 1) eps (gl ((r + 2) / 2)) -> (0 <= eps)%R -> is_univariate f = Ok true ->
  (forall x : R, c_run f [Sc (F := RF) x] = Ok (Sc (F := RF) (g x))) -> length c <= S r -> (forall y, g ((a + b) / 2 + (b - a) / 2 * y) = rpoly c y)%R -> (a < b)%R ->
  exists v I, quadrature_interval_fixed (Q := RO) gl f a b r = Ok (Sc (F := RF) v) /\ is_RInt g a b I /\
    (Rabs (v - I) <= (b - a) / 2 * (eps * fold_right (fun c s => Rabs c + s) 0 c))%R.
Proof.
  intros gl f g r a b c eps G He U S Hc Hg Hab. destruct (interval_error gl f g r a b c eps G He U S Hc) as (v & I & E & HI & HE); [|lra|].
  - intros y. rewrite <- Hg. f_equal. field.
  - exists v, I. split; [exact E|]. rewrite Rmin_left, Rmax_right in HI by lra. rewrite (Rabs_right (b - a)) in HE by lra. split; [exact HI|exact HE].
Qed.
Print Assumptions C73_interval_error.
(** From [a] to [b] with [b < a] the result has the wrong sign. *)
Theorem C73_reversed_refuted : exists (gl : nat -> list R * list R) f v I, gauss_rule 1 0 (gl 1) /\ is_univariate f = Ok true /\ (forall x : R, c_run f [Sc (F := RF) x] = Ok (Sc (F := RF) 1%R)) /\
  quadrature_interval_fixed (Q := RO) gl f 1%R 0%R 0 = Ok (Sc (F := RF) v) /\ is_RInt (fun _ => 1%R) 1 0 I /\ v <> I.
Proof.
  pose (f := mkCallable (F := RF) (Some [POSITIONAL]) (fun _ => Ok (Sc (F := RF) 1%R))).
  assert (G : gauss_rule 1 0 ([0%R], [2%R])).
  { split; [reflexivity|]. intros k Hk. cbn [fst snd length seq map fold_right nth]. unfold moment1. right.
    destruct k as [|[|k]]; [| |lia]; cbn [pow INR]; match goal with |- Rabs ?t = _ => replace t with 0%R by field end; apply Rabs_R0. }
  destruct (interval_exact (fun _ => ([0%R], [2%R])) f [1%R] 0 1%R 0%R G eq_refl) as (v & E & H); [intros x; cbn; do 2 f_equal; rring|cbn; lia|lra|].
  exists (fun _ => ([0%R], [2%R])), f, v, (-1)%R. split; [exact G|]. split; [reflexivity|]. split; [reflexivity|]. split; [exact E|].
  assert (C : forall x y : R, is_RInt (fun _ => 1%R) x y (y - x)%R).
  { intros x y. evar_last; [apply is_RInt_const|]. unfold scal. cbn. unfold mult. cbn. ring. }
  split; [evar_last; [apply C|lra]|].
  rewrite Rmin_right, Rmax_left in H by lra. intros ->. assert (is_RInt (rpoly [1%R]) 0 1 1%R).
  { apply (is_RInt_ext (fun _ => 1%R)); [intros; cbn; ring|]. evar_last; [apply C|lra]. }
  pose proof (is_RInt_unique _ _ _ _ H) as U1. pose proof (is_RInt_unique _ _ _ _ H0) as U2. rewrite U2 in U1. lra.
Qed.
Print Assumptions C73_reversed_refuted.

(** ** C74: composition of functions *)
(** the composition of functions of one argument *)
Theorem C74_univariate : forall (F : fld) (f g : callable F), is_univariate f = Ok true -> is_univariate g = Ok true ->
  exists h, composition f g = Ok h /\ is_univariate h = Ok true /\ forall x y z, c_run g [x] = Ok y -> c_run f [y] = Ok z -> c_run h [x] = Ok z.
Proof.
  intros F f g Uf Ug. unfold composition. rewrite Uf, Ug. cbn [bind]. eexists. split; [reflexivity|]. split; [reflexivity|]. intros x y z Ex Ey. cbn [c_run]. rewrite Ex. cbn [bind]. exact Ey.
Qed.
Print Assumptions C74_univariate.
(** a function of several numbers after a function that returns a vector *)
Theorem C74_multivariate : forall (F : fld) (f g : callable F) m, is_univariate f = Ok false -> c_sig g = Some (repeat POSITIONAL (S m)) ->
  exists h, composition f g = Ok h /\ is_univariate h = is_univariate g /\
    forall xs v z, length xs = S m -> c_run g xs = Ok (Vec v) -> c_run f (map Sc v) = Ok z -> c_run h xs = Ok z.
Proof.
  intros F f g m Uf Ug. unfold composition. rewrite Uf. destruct m as [|m].
  - assert (U : is_univariate g = Ok true) by (unfold is_univariate; rewrite Ug; reflexivity). rewrite U. cbn [bind]. eexists. split; [reflexivity|]. split; [reflexivity|].
    intros [|x [|? ?]] v z Hx Ex Ez; try discriminate Hx. cbn [c_run]. rewrite Ex. cbn [bind star]. exact Ez.
  - assert (U : is_univariate g = Ok false) by (unfold is_univariate; rewrite Ug; cbn [repeat length Nat.ltb Nat.leb]; reflexivity). rewrite U. cbn [bind]. eexists. split; [reflexivity|]. split; [reflexivity|].
    intros xs v z Hx Ex Ez. cbn [c_run]. rewrite Ex. cbn [bind star]. exact Ez.
Qed.
Print Assumptions C74_multivariate.
(** associativity *)
Theorem C74_associative : forall (F : fld) (f g h : callable F) fg gh, composition f g = Ok fg -> composition g h = Ok gh ->
  (forall u, is_univariate h = Ok u -> exists a b, composition fg h = Ok a /\ composition f gh = Ok b /\ is_univariate a = is_univariate b /\ forall xs, c_run a xs = c_run b xs).
Proof.
  intros F f g h fg gh E1 E2 u Uh. unfold composition in E1, E2. rewrite Uh in E2.
  destruct (is_univariate f) as [fu|] eqn:Uf; cbn [bind] in E1; [|discriminate E1]. destruct (is_univariate g) as [gu|] eqn:Ug; cbn [bind] in E1, E2; [|discriminate E1].
  injection E1 as <-. injection E2 as <-. unfold composition. rewrite Uh, Uf.
  destruct gu, u, fu; cbn [bind is_univariate c_sig length Nat.ltb Nat.leb Nat.eqb assert_]; (eexists _, _; split; [reflexivity|]; split; [reflexivity|]; split; [reflexivity|]);
    (intros xs; cbn [c_run]; try (destruct xs as [|x [|? ?]]; [reflexivity| |reflexivity]); (destruct (c_run h _) as [y|]; cbn [bind]; [|reflexivity]); try (destruct (star y) as [ys|]; cbn [bind]; [|reflexivity]); reflexivity).
Qed.
Print Assumptions C74_associative.
(** A function of one variable with a second, optional, parameter cannot be
    composed with a function that returns a number. *)
Theorem C74_optional_parameter_refuted : exists (f g : callable QcF) h, (forall x, exists y, c_run f [x] = Ok y) /\ is_univariate g = Ok true /\ (forall x : QcF, exists y, c_run g [Sc x] = Ok (Sc y)) /\
  composition f g = Ok h /\ forall x : QcF, c_run h [Sc x] = Err TypeError.
Proof.
  exists (mkCallable (Some [POSITIONAL; POSITIONAL]) (fun xs => match xs with x :: _ => Ok x | [] => Err TypeError end)), (mkCallable (Some [POSITIONAL]) (fun xs => match xs with [x] => Ok x | _ => Err TypeError end)).
  eexists. split; [intros x; exists x; reflexivity|]. split; [reflexivity|]. split; [intros x; exists x; reflexivity|]. split; [reflexivity|]. intros x. reflexivity.
Qed.
Print Assumptions C74_optional_parameter_refuted.

(** ** Examples *)
(** the integral of x y over the triangle (0, 0), (2, 0), (1, 3) (clockwise as well) *)
Definition xy_fn {F : fld} : callable F := mkCallable (Some [POSITIONAL; POSITIONAL]) (fun xs => match xs with [Sc x; Sc y] => Ok (Sc (kmul x y)) | _ => Err TypeError end).
Definition num (r : result (arr QcF)) : option Q := match r with Ok (Sc v) => Some (this (v : Qc)) | _ => None end.
Example C72_triangle_value : num (quadrature_triangle_fixed (Q := QcO) xy_fn [[rat 0 1; rat 0 1]; [rat 2 1; rat 0 1]; [rat 1 1; rat 3 1]] 2) = Some 3%Q /\
  num (quadrature_triangle_fixed (Q := QcO) xy_fn [[rat 0 1; rat 0 1]; [rat 1 1; rat 3 1]; [rat 2 1; rat 0 1]] 3) = Some 3%Q.
Proof. split; vm_compute; reflexivity. Qed.
Example C72_triangle_ex : exists I, quadrature_triangle_fixed (Q := RO) xy_fn [[0%R; 0%R]; [2%R; 0%R]; [1%R; 3%R]] 2 = Ok (Sc I) /\ simplex_integral 2 [[0%R; 0%R]; [2%R; 0%R]; [1%R; 3%R]] (fun x => (nth 0 x 0 * nth 1 x 0)%R) I.
Proof.
  apply (C72_triangle 2 xy_fn (fun x => (nth 0 x 0 * nth 1 x 0)%R) [0%R; 0%R; 0%R; 0%R; 1%R; 0%R] [[0; 0]; [1; 0]; [2; 0]; [0; 1]; [1; 1]; [0; 2]]); try reflexivity; try lia.
  - split; [reflexivity|]. intros r [<-|[<-|[<-|[]]]]; reflexivity.
  - intros [|x [|y [|? ?]]] H; try discriminate H. unfold poly_fn. cbn. rring.
  - intros [|x [|y [|? ?]]] H; try discriminate H. reflexivity.
Qed.
Example C72_triangle_decimal_ex : exists v I, quadrature_triangle_fixed (Q := RO) xy_fn [[0%R; 0%R]; [1%R; 0%R]; [0%R; 1%R]] 4 = Ok (Sc v) /\ simplex_integral 2 [[0%R; 0%R]; [1%R; 0%R]; [0%R; 1%R]] (fun x => (nth 0 x 0 * nth 1 x 0)%R) I /\ (Rabs (v - I) <= / 10 ^ 15)%R.
Proof.
  destruct (C72_triangle_decimal xy_fn (fun x => (nth 0 x 0 * nth 1 x 0)%R) (map (fun mi => if list_eq_dec Nat.eq_dec mi [1; 1] then 1%R else 0%R) (all_mi 2 4)) (all_mi 2 4) [[0%R; 0%R]; [1%R; 0%R]; [0%R; 1%R]]) as (v & I & H1 & H2 & H3); try reflexivity.
  - split; [reflexivity|]. intros r [<-|[<-|[<-|[]]]]; reflexivity.
  - intros [|x [|y [|? ?]]] H; try discriminate H. reflexivity.
  - intros [|x [|y [|? ?]]] H; try discriminate H. intros z (C1 & C2 & C3 & C4).
    etransitivity; [exact (f_equal2 Rmult (C4 0 ltac:(lia)) (C4 1 ltac:(lia)))|]. unfold poly_fn. cbn. rring.
  - exists v, I. split; [exact H1|]. split; [exact H2|]. eapply Rle_trans; [exact H3|]. right. unfold edges_det. cbn -[pow Rabs]. rewrite ?Rabs_R0, ?Rabs_R1.
    match goal with |- (Rabs ?t * _ = _)%R => replace t with 1%R by rring end. rewrite Rabs_R1. ring.
Qed.
(** the two point Gauss rule *)
Example C73_interval_ex : exists I, quadrature_interval_fixed (Q := RO) (fun _ => ([(- sqrt (/ 3))%R; sqrt (/ 3)], [1%R; 1%R])) (mkCallable (F := RF) (Some [POSITIONAL]) (fun xs => match xs with [Sc x] => Ok (Sc (F := RF) (rpoly [1%R; 0%R; 2%R; 5%R] x)) | _ => Err TypeError end)) (-1)%R 4%R 3 = Ok (Sc (F := RF) I) /\
  is_RInt (rpoly [1%R; 0%R; 2%R; 5%R]) (-1) 4 I.
Proof.
  apply (C73_interval _ _ [1%R; 0%R; 2%R; 5%R] 3 (-1)%R 4%R); [|reflexivity|intros x; reflexivity|cbn; lia|lra].
  split; [reflexivity|]. intros k Hk. unfold moment1. cbn [fst snd length seq map fold_right nth].
  assert (S2 : (sqrt (/ 3) * sqrt (/ 3) = / 3)%R) by (apply sqrt_sqrt; lra). set (s := sqrt (/ 3)) in *.
  right. match goal with |- (Rabs ?t = _)%R => replace t with 0%R; [apply Rabs_R0|] end.
  cbn in Hk. destruct k as [|[|[|[|k]]]]; [| | | |lia]; cbn [pow INR]; try field.
  transitivity (2 * (s * s) - 2 / 3)%R; [rewrite S2; field|field].
Qed.
(** f(x, y) = x y after g(t) = (t, t + 1) *)
Example C74_multivariate_ex : exists h, composition (F := QcF) xy_fn (mkCallable (Some [POSITIONAL]) (fun xs => match xs with [Sc t] => Ok (Vec [t; kadd t k1]) | _ => Err TypeError end)) = Ok h /\ num (c_run h [Sc (rat 3 1)]) = Some 12%Q.
Proof. eexists. split; [reflexivity|]. vm_compute. reflexivity. Qed.
Example C74_associative_ex : exists fg gh, composition (F := QcF) xy_fn (mkCallable (Some [POSITIONAL]) (fun xs => match xs with [Sc t] => Ok (Vec [t; kadd t k1]) | _ => Err TypeError end)) = Ok fg /\
  composition (F := QcF) (mkCallable (Some [POSITIONAL]) (fun xs => match xs with [Sc t] => Ok (Vec [t; kadd t k1]) | _ => Err TypeError end)) xy_fn = Ok gh /\ is_univariate (F := QcF) xy_fn = Ok false.
Proof. eexists _, _. repeat split. Qed.
