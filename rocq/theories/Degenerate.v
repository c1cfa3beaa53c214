(** Model of is_degenerate (geometry/primitives/simplex.py 735-754) and of the
    comparison of bounding boxes (geometry/proximity/aabb.py 94-107). *)
From Coq Require Import Reals.
From Verif Require Import Base MultiIndex Fld FldInst Linalg SimplexGeo Aabb PolyEqual.

Section Degenerate.
  Context {Q : ofld} (ksqrt : Q -> Q).
  Local Open Scope fld_scope.
  (** simplex.py 735-754.  When all vertices coincide the diameter is 0.0 and
      the quotients of numpy floats are nan or inf, not below any [eps]: the
      first case.  A face without volume also gives nan; this case is left
      unspecified here (the theorems assume faces with volume). *)
  Definition is_degenerate (vertices : list (list Q)) (eps : Q) : result bool :=
    let d := SimplexGeo.diameter ksqrt vertices in
    if (1 <? length vertices)%nat && (if kdec d 0 then true else false) then Ok false
    else
      let* hs := mapM (SimplexGeo.altitude ksqrt vertices) (seq 0 (length vertices)) in
      Ok (existsb (fun h => kltb (h / d) eps) hs).
End Degenerate.

(** math.isclose: an infinity is close to itself only, nan to nothing *)
Definition xclose (rel_tol abs_tol : R) (a b : xnum RO) : result bool :=
  match a, b with
  | Fin x, Fin y => isclose rel_tol abs_tol x y
  | _, _ =>
    let* _ := isclose rel_tol abs_tol 0%R 0%R in
    Ok (match a, b with PInf, PInf | MInf, MInf => true | _, _ => false end)
  end.
(** aabb.py 94-107: the loop over the coordinates; [k] coordinates are left *)
Fixpoint is_equal_from (rel_tol abs_tol : R) (a b : @Aabb.aabb RO) (i k : nat) : result bool :=
  match k with
  | O => Ok true
  | S k =>
    let* x := get (fst a) i in let* y := get (fst b) i in let* c := xclose rel_tol abs_tol x y in
    if negb c then Ok false else
    let* x := get (snd a) i in let* y := get (snd b) i in let* c := xclose rel_tol abs_tol x y in
    if negb c then Ok false else is_equal_from rel_tol abs_tol a b (S i) k
  end.
Definition is_equal (aabb1 aabb2 : @Aabb.aabb RO) (rel_tol abs_tol : R) : result bool :=
  is_equal_from rel_tol abs_tol aabb1 aabb2 0 (length (fst aabb1)).
