(** Model of the comparison of polynomials:
    polynomials_equal (polynomial/polynomials_base.py 40-92),
    polynomials_equal_on_simplex (polynomial/polynomials_simplex_base.py 14-71)
    and piecewise_polynomials_equal (piecewise_polynomial/piecewise_polynomial.py
    382-411), over the real numbers (no rounding, no nan).

    As in Sampling.v the random numbers are an argument [d] and the numbers
    that are left are returned.  The polynomials are callables: functions from
    a number or an array to a value, or an exception. *)
From Coq Require Import Reals.
From Verif Require Import Base MultiIndex Fld FldInst Linalg Poly SimplexGeo KdTree RVec Angle Sampling.
Local Open Scope R_scope.

(** The values: numbers and one-dimensional arrays. *)
Inductive value : Type := Num (x : R) | Arr (v : vec).
Definition callable : Type := arr RF -> result value.

(** math.isclose (CPython, Modules/mathmodule.c) for finite numbers *)
Definition isclose (rel_tol abs_tol a b : R) : result bool :=
  if rltb rel_tol 0 || rltb abs_tol 0 then Err ValueError
  else if reqb a b then Ok true
  else
    let diff := Rabs (b - a) in
    Ok (rleb diff (Rabs (rel_tol * b)) || rleb diff (Rabs (rel_tol * a)) || rleb diff abs_tol).
(** The conversion of an argument of math.isclose: arrays of one number are
    numbers. *)
Definition as_float (v : value) : result R := match v with Num x => Ok x | Arr [x] => Ok x | Arr _ => Err TypeError end.
(** [q[i]] *)
Definition item (q : value) (i : nat) : result R := match q with Num _ => Err TypeError | Arr v => get v i end.
(** polynomials_base.py 84-86: [p] are the components from [i] on *)
Fixpoint components_close (rel_tol abs_tol : R) (p : vec) (q : value) (i : nat) : result bool :=
  match p with
  | [] => Ok true
  | a :: p =>
    let* b := item q i in
    let* c := isclose rel_tol abs_tol a b in
    if c then components_close rel_tol abs_tol p q (S i) else Ok false
  end.
(** 81-90; a TypeError in the loop over the components is caught as well *)
Definition values_close (rel_tol abs_tol : R) (p q : value) : result bool :=
  let scalar := let* a := as_float p in let* b := as_float q in isclose rel_tol abs_tol a b in
  match p with
  | Num _ => scalar
  | Arr v => match components_close rel_tol abs_tol v q 0 with Err TypeError => scalar | r => r end
  end.
(** 78-91 *)
Fixpoint equal_at (rel_tol abs_tol : R) (p1 p2 : callable) (x_values : list (arr RF)) : result bool :=
  match x_values with
  | [] => Ok true
  | x :: xs =>
    let* p := p1 x in
    let* q := p2 x in
    let* c := values_close rel_tol abs_tol p q in
    if c then equal_at rel_tol abs_tol p1 p2 xs else Ok false
  end.
(** 71-75; numbers if m = 1, otherwise the rows of an array *)
Definition random_points (dim m : nat) (d : list R) : result (list (arr RF) * list R) :=
  let* p := rand_array (dim * m) d in
  Ok (if (m =? 1)%nat then map (fun x : R => Sc (x : RF)) (fst p) else map (fun x : vec => Vec (x : list RF)) (reshape dim m (fst p)), snd p).
(** 40-92 *)
Definition polynomials_equal (p1 p2 : callable) (r m : nat) (rel_tol abs_tol : R) (d : list R) : result (bool * list R) :=
  let dim := get_dimension r m in
  let* x_values := random_points dim m d in
  let* b := equal_at rel_tol abs_tol p1 p2 (fst x_values) in
  Ok (b, snd x_values).

(** polynomials_simplex_base.py 14-71 *)
Definition polynomials_equal_on_simplex (p1 p2 : callable) (r : nat) (vertices : list vec) (rel_tol abs_tol : R) (d : list R) : result (bool * list R) :=
  let n := dimension (F := RF) vertices in
  let* phi := affine_map_from_unit (F := RF) vertices in
  let dim := get_dimension r n in
  let* s := nsimplex_sampling n dim d in
  let* x_values :=
    if (n =? 1)%nat then mapM (fun x : vec => let* x0 := get x 0 in phi (Sc (x0 : RF))) (fst s)
    else mapM (fun x : vec => phi (Vec (x : list RF))) (fst s) in
  let* b := equal_at rel_tol abs_tol p1 p2 x_values in
  Ok (b, snd s).

(** piecewise_polynomial.py 407-411: the first polynomial is given by its call,
    its triangles, vertices and degree *)
Fixpoint equal_on_triangles (p1 p2 : callable) (r : nat) (triangles : list (list nat)) (vertices : list vec) (rel_tol abs_tol : R) (d : list R) : result (bool * list R) :=
  match triangles with
  | [] => Ok (true, d)
  | triangle :: triangles =>
    let* tri_vertices := simplex_vertices (Q := RO) triangle vertices in
    let* b := polynomials_equal_on_simplex p1 p2 r tri_vertices rel_tol abs_tol d in
    if fst b then equal_on_triangles p1 p2 r triangles vertices rel_tol abs_tol (snd b) else Ok (false, snd b)
  end.
Record piecewise := mkPiecewise { pp_call : callable; pp_triangles : list (list nat); pp_vertices : list vec; pp_r : nat }.
(** 382-411 *)
Definition piecewise_polynomials_equal (p1 : piecewise) (p2 : callable) (rel_tol abs_tol : R) (d : list R) : result (bool * list R) :=
  equal_on_triangles (pp_call p1) p2 (pp_r p1) (pp_triangles p1) (pp_vertices p1) rel_tol abs_tol d.
