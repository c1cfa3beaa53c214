(** Model of the adaptive quadratures of
    polynomials_on_simplices/calculus/quadrature.py over the real numbers
    (lines 26-34, 80-90, 113-127, 160-175, 197-217, 289-304).
    What scipy computes is a parameter; its documented contract is stated with
    the theorems. *)
From Coq Require Import Reals.
From Verif Require Import Base MultiIndex Fld FldInst LinSolve Linalg Det SimplexGeo Quadrature.

Section Adaptive.
  (** the first component of what [scipy.integrate.quadrature(f, a, b, vec_func=False)],
      [dblquad(f, a, b, gfun, hfun)] and [tplquad(f, a, b, gfun, hfun, qfun, rfun)] return *)
  Context (scipy_quadrature : callable RF -> R -> R -> result (arr RF)).
  Context (dblquad : callable RF -> R -> R -> (R -> R) -> (R -> R) -> result (arr RF)).
  Context (tplquad : callable RF -> R -> R -> (R -> R) -> (R -> R) -> (R -> R -> R) -> (R -> R -> R) -> result (arr RF)).
  Local Open Scope R_scope.

  (** 26-34 *)
  Definition quadrature_unit_interval (f : callable RF) : result (arr RF) := scipy_quadrature f 0 1.
  (** 80-90 *)
  Definition quadrature_interval (f : callable RF) (a b : R) : result (arr RF) := scipy_quadrature f a b.
  (** 113-127 *)
  Definition quadrature_unit_triangle (f : callable RF) : result (arr RF) :=
    let gfun := fun _ => 0 in
    let hfun := fun x => 1 - x in
    dblquad f 0 1 gfun hfun.
  (** 197-217 *)
  Definition quadrature_unit_tetrahedron (f : callable RF) : result (arr RF) :=
    let gfun := fun _ => 0 in
    let hfun := fun x => 1 - x in
    let qfun := fun _ _ => 0 in
    let rfun := fun x y => 1 - x - y in
    tplquad f 0 1 gfun hfun qfun rfun.
  (** 160-175 and 289-304 *)
  Definition quadrature_simplex (unit_rule : callable RF -> result (arr RF)) (f : callable RF) (vs : list (list R)) : result (arr RF) :=
    let* t := affine_transformation_from_unit (F := RF) vs in
    let (ta, tb) := t in
    let* phi := create_affine_map_callable (F := RF) ta tb true in
    let* pb_f := composition (F := RF) f phi in
    let* d := arr_det (Q := RO) ta in
    let* v := unit_rule pb_f in
    Ok (np_scale (F := RF) (kabs (Q := RO) d) v).
  Definition quadrature_triangle := quadrature_simplex quadrature_unit_triangle.
  Definition quadrature_tetrahedron := quadrature_simplex quadrature_unit_tetrahedron.
End Adaptive.
