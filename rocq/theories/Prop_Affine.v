(** Property C63: affine maps between simplices (calculus/affine_map.py and
    geometry/primitives/simplex.py). *)
From Coq Require Import Reals Lra Qcanon QArith.
From Verif Require Import Base Fld FldInst ExNum LinSolve PolyEval Det Linalg VecFacts SimplexGeo SimplexFacts GramSchmidt SimplexMetric SimplexSigned AffineFacts Prop_Simplex.
Close Scope Q_scope. Close Scope Qc_scope. Close Scope R_scope.
Local Open Scope nat_scope.

(** In the statements [pt x] is the argument or value the Python functions use
    for a point: a number on the line, an array elsewhere.  The point with
    coordinates [x] in the unit simplex has the barycentric coordinates
    1 - x1 - ... - xn, x1, ..., xn. *)
Theorem C63_from_unit : forall (F : fld) n m (vs : list (list F)), n <> 0 -> n <= m -> rows_of (S n) m vs ->
  exists phi, affine_map_from_unit vs = Ok phi /\
    forall x, length x = n -> exists y, phi (pt x) = Ok (pt y) /\ affine_comb m (ksub k1 (ksum x (fun t => t)) :: x) vs y.
Proof. intros F. exact (@from_unit_map F). Qed.
Print Assumptions C63_from_unit.

Theorem C63_to_unit : forall (Q : ofld) (ksqrt : Q -> Q) (tol : Q) n (vs : list (list Q)), n <> 0 -> rows_of (S n) n vs -> affine_independent n vs ->
  exists psi phi, affine_map_to_unit ksqrt tol vs = Ok psi /\ affine_map_from_unit vs = Ok phi /\
    (forall x, length x = n -> exists y, length y = n /\ phi (pt x) = Ok (pt y) /\ psi (pt y) = Ok (pt x)) /\
    (forall y, length y = n -> exists x, length x = n /\ psi (pt y) = Ok (pt x) /\ phi (pt x) = Ok (pt y)).
Proof.
  intros Q ksqrt tol n vs Hn HV HI. destruct (to_unit_full ksqrt tol n vs Hn HV HI) as (psi & E1 & H1). destruct (from_unit_map n n vs Hn (le_n _) HV) as (phi & E2 & H2). exists psi, phi. split; [exact E1|]. split; [exact E2|]. split.
  - intros x Lx. destruct (H2 x Lx) as (y & Ey & Hy). exists y. split; [apply Hy|]. split; [exact Ey|]. apply H1. exact Hy.
  - intros y Ly. destruct (coords_exist n vs y Hn HV (proj1 (affine_independent_det n vs Hn (proj1 HV)) HI) Ly) as (c & HC). pose proof HC as (Lc & _ & S1 & _). rewrite (proj1 HV) in Lc. assert (Ec : bary_of (tl c) = c) by (apply bary_of_tl; [lia|exact S1]). assert (Lt : length (tl c) = n) by (destruct c; [discriminate Lc|cbn in *; lia]).
    exists (tl c). split; [exact Lt|]. split; [apply H1; rewrite Ec; exact HC|]. destruct (H2 (tl c) Lt) as (y' & Ey & Hy). rewrite Ec in Hy. rewrite Ey. do 2 f_equal. apply (vec_ext _ _ n); [apply Hy|exact Ly|]. intros j Hj. rewrite (proj2 (proj2 (proj2 Hy)) j Hj). symmetry. apply (proj2 (proj2 (proj2 HC))). exact Hj.
Qed.
Print Assumptions C63_to_unit.

(** A simplex of lower dimension than its space: the map gives the coordinates
    of the orthogonal projection of a point within the tolerance, and
    AssertionError for other points. *)
Theorem C63_to_unit_embedded : forall (Q : ofld) (ksqrt : Q -> Q), sqrt_ok ksqrt -> forall (tol : Q) n m (vs : list (list Q)), n <> 0 -> n < m -> rows_of (S n) m vs -> affine_independent m vs ->
  exists psi, affine_map_to_unit ksqrt tol vs = Ok psi /\
    forall p, length p = m -> exists x y, affine_comb m (ksub k1 (ksum x (fun t => t)) :: x) vs y /\
      (forall i, i <= n -> dot (vsub p y) (vsub (nth i vs []) (nth 0 vs [])) = k0) /\
      psi (Vec p) = if kleb (norm2 ksqrt (vsub p y)) tol then Ok (pt x) else Err AssertionError.
Proof. intros Q ksqrt Hs tol. exact (to_unit_embedded ksqrt Hs tol). Qed.
Print Assumptions C63_to_unit_embedded.

Theorem C63_degenerate : forall (Q : ofld) (ksqrt : Q -> Q) (tol : Q) n m (vs : list (list Q)), n <> 0 -> n <= m -> 2 <= m -> rows_of (S n) m vs -> ~ affine_independent m vs ->
  affine_map_to_unit ksqrt tol vs = Err (if n =? m then LinAlgError else AssertionError).
Proof. intros Q ksqrt. exact (to_unit_degenerate ksqrt). Qed.
Print Assumptions C63_degenerate.

(** The transformation between two simplices of dimension at least two, or to a
    segment of the line, keeps barycentric coordinates. *)
Theorem C63_transformation : forall (Q : ofld) n m1 m2 (vs1 vs2 : list (list Q)), n <> 0 -> n <= m1 -> n <= m2 -> (m2 = 1 \/ 2 <= n) -> rows_of (S n) m1 vs1 -> affine_independent m1 vs1 -> rows_of (S n) m2 vs2 ->
  exists a b phi, affine_transformation vs1 vs2 = Ok (a, b) /\ create_affine_map a b = Ok phi /\
    forall c p1, affine_comb m1 c vs1 p1 -> exists p2, affine_comb m2 c vs2 p2 /\ phi (pt p1) = Ok (pt p2).
Proof.
  intros Q n m1 m2 vs1 vs2 Hn H1 H2 Hc HV1 HI HV2. destruct (transformation_spec n m1 m2 vs1 vs2 Hn H1 H2 Hc HV1 HI HV2) as (a & b & phi & E1 & E2 & H). exists a, b, phi. split; [exact E1|]. split; [exact E2|].
  intros c p1 HC. pose proof HC as (Lc & _ & S1 & _). rewrite (proj1 HV1) in Lc. assert (Ec : bary_of (tl c) = c) by (apply bary_of_tl; [lia|exact S1]). destruct (H (tl c) p1) as (p2 & H3 & H4); [rewrite Ec; exact HC|]. exists p2. split; [rewrite <- Ec; exact H3|exact H4].
Qed.
Print Assumptions C63_transformation.

(** For segments with images in a space of higher dimension it never does: the
    translation becomes a square matrix, and so does the image of every point. *)
Theorem C63_transformation_segments : forall (Q : ofld) m1 m2 (vs1 vs2 : list (list Q)), 1 <= m1 -> 2 <= m2 -> rows_of 2 m1 vs1 -> affine_independent m1 vs1 -> rows_of 2 m2 vs2 ->
  exists a b phi, affine_transformation vs1 vs2 = Ok (a, Mat b) /\ rows_of m2 m2 b /\ create_affine_map a (Mat b) = Ok phi /\ forall p, length p = m1 -> exists r, phi (pt p) = Ok (Mat r) /\ rows_of m2 m2 r.
Proof. intros Q. exact (@transformation_segments Q). Qed.
Print Assumptions C63_transformation_segments.

Definition seg1 : list (list QcF) := [[rat 0 1]; [rat 1 1]].
Definition seg2 : list (list QcF) := [[rat 1 1; rat 2 1]; [rat 3 1; rat 5 1]].
Lemma seg1_rows : rows_of 2 1 seg1. Proof. split; [reflexivity|]. intros r [<-|[<-|[]]]; reflexivity. Qed.
Lemma seg2_rows : rows_of 2 2 seg2. Proof. split; [reflexivity|]. intros r [<-|[<-|[]]]; reflexivity. Qed.
Lemma seg1_indep : affine_independent 1 seg1.
Proof. apply (affine_independent_det 1); [discriminate|reflexivity|intros E; apply (f_equal (fun v : Qc => this v)) in E; vm_compute in E; discriminate E]. Qed.
Theorem C63_transformation_segments_refuted : exists (vs1 vs2 : list (list QcF)) a b phi,
  rows_of 2 1 vs1 /\ affine_independent 1 vs1 /\ rows_of 2 2 vs2 /\ affine_transformation vs1 vs2 = Ok (a, b) /\ create_affine_map a b = Ok phi /\
  forall p v, length p = 1 -> phi (pt p) <> Ok (Vec v).
Proof.
  destruct (C63_transformation_segments QcO 1 2 seg1 seg2 ltac:(lia) ltac:(lia) seg1_rows seg1_indep seg2_rows) as (a & b & phi & E1 & _ & E2 & H). exists seg1, seg2, a, (Mat b), phi. split; [exact seg1_rows|]. split; [exact seg1_indep|]. split; [exact seg2_rows|]. split; [exact E1|]. split; [exact E2|].
  intros p v Lp. destruct (H p Lp) as (r & Er & _). intros E. pose proof (eq_trans (eq_sym Er) E) as E'. discriminate E'.
Qed.
Print Assumptions C63_transformation_segments_refuted.

Definition arr_q (r : result (arr QcF)) : list Q := match r with Ok (Vec v) => qlist v | Ok (Sc t) => qlist [t] | _ => [] end.
Definition app_q (f : result (arr QcF -> result (arr QcF))) (x : arr QcF) : list Q := match f with Ok g => arr_q (g x) | Err _ => [] end.
Example C63_ex : app_q (affine_map_from_unit tri_pos) (Vec [rat 1 2; rat 1 4]) = [(5#4)%Q; (1#1)%Q] /\
  app_q (affine_map_to_unit (Q := QcO) (fun x => x) (rat 0 1) tri_pos) (Vec [rat 5 4; rat 1 1]) = [(1#2)%Q; (1#4)%Q] /\
  app_q (let* ab := affine_transformation tri_pos tri_neg in create_affine_map (fst ab) (snd ab)) (Vec [rat 2 1; rat 0 1]) = [(1#1)%Q; (3#1)%Q] /\
  rows_of 3 2 tri_pos /\ affine_independent 2 tri_pos /\
  affine_map_to_unit (Q := QcO) (fun x => x) (rat 0 1) [[rat 0 1; rat 1 1]; [rat 2 1; rat 2 1]; [rat 4 1; rat 3 1]] = Err LinAlgError.
Proof. split; [vm_compute; reflexivity|]. split; [vm_compute; reflexivity|]. split; [vm_compute; reflexivity|]. split; [exact tri_pos_rows|]. split; [exact tri_pos_indep|vm_compute; reflexivity]. Qed.
Example C63_embedded_ex : exists psi, affine_map_to_unit (Q := RO) sqrt 0%R seg3 = Ok psi /\ rows_of (F := RF) 2 3 seg3 /\ affine_independent (F := RF) 3 seg3.
Proof. destruct (C63_to_unit_embedded RO sqrt sqrt_ok_R 0%R 1 3 seg3 ltac:(discriminate) ltac:(lia) seg3_rows seg3_indep) as (psi & E & _). exists psi. split; [exact E|]. split; [exact seg3_rows|exact seg3_indep]. Qed.
