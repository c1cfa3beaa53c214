(** Model of the conversion of numbers to strings:
    polynomials_on_simplices/generic_tools/str_utils.py 8-38 [str_number], 74-133
    [is_nice_fraction], [convert_float_to_fraction] and 441-449 [_is_integer],
    with [Fraction.limit_denominator] of CPython's fractions.py.  A finite float
    is the rational number that it denotes; differences are not rounded.
    [str] of a float that is not shown as a fraction is an argument. *)
From Coq Require Import Ascii String QArith Qabs.
From Verif Require Import Base MultiIndex StrUtils.
Local Close Scope string_scope.
Local Close Scope Q_scope.
Local Open Scope list_scope.

(** CPython, Lib/fractions.py, [limit_denominator]: the loop, and what follows it; [Fraction(p, q)] is in lowest terms *)
Fixpoint limit_loop (fuel : nat) (max_denominator p0 q0 p1 q1 n d : Z) : result (Z * Z * Z * Z) :=
  match fuel with
  | O => Err OutOfFuel
  | S fuel =>
    if (d =? 0)%Z then Err ZeroDivisionError
    else
      let a := (n / d)%Z in
      let q2 := (q0 + a * q1)%Z in
      if (max_denominator <? q2)%Z then Ok (p0, q0, p1, q1)
      else limit_loop fuel max_denominator p1 q1 (p0 + a * p1) q2 d (n - a * d)
  end.
Definition fraction (p q : Z) : result Q :=
  if (q =? 0)%Z then Err ZeroDivisionError else if (0 <? q)%Z then Ok (Qred (Qmake p (Z.to_pos q))) else Ok (Qred (Qmake (- p) (Z.to_pos (- q)))).
Definition limit_denominator (x : Q) (max_denominator : Z) : result Q :=
  let x := Qred x in
  if (max_denominator <? 1)%Z then Err ValueError
  else if (Z.pos (Qden x) <=? max_denominator)%Z then Ok x
  else
    let* pq := limit_loop (2 * Z.to_nat max_denominator + 3) max_denominator 0 1 1 0 (Qnum x) (Z.pos (Qden x)) in
    let '(p0, q0, p1, q1) := pq in
    if (q1 =? 0)%Z then Err ZeroDivisionError
    else
      let k := ((max_denominator - q0) / q1)%Z in
      let* bound1 := fraction (p0 + k * p1) (q0 + k * q1) in
      let* bound2 := fraction p1 q1 in
      Ok (if Qle_bool (Qabs (bound2 - x)) (Qabs (bound1 - x)) then bound2 else bound1).

(** 74-94; 1e-10 *)
Definition nice_tolerance : Q := Qmake 1 (10 ^ 10).
Definition is_nice_fraction (f : Q) (n : Z) : result bool :=
  let* r := limit_denominator f n in
  Ok (negb (Qle_bool nice_tolerance (Qabs (r - f)))).

(** [str(i)] for an integer *)
Definition str_int (i : Z) : str := if (i <? 0)%Z then lit "-" ++ str_nat (Z.to_nat (- i)) else str_nat (Z.to_nat i).
(** 97-133 *)
Definition convert_float_to_fraction (f : Q) (latex_fraction : bool) : result str :=
  let* r := limit_denominator f 1000 in
  Ok (if (Qnum r =? 0)%Z then lit "0"
      else if (Z.pos (Qden r) =? 1)%Z then str_int (Qnum r)
      else if latex_fraction then
        if (Qnum r <? 0)%Z then lit "-\frac{" ++ str_int (- Qnum r) ++ lit "}{" ++ str_int (Z.pos (Qden r)) ++ lit "}"
        else lit "\frac{" ++ str_int (Qnum r) ++ lit "}{" ++ str_int (Z.pos (Qden r)) ++ lit "}"
      else str_int (Qnum r) ++ lit " / " ++ str_int (Z.pos (Qden r))).
(** [int(f)] and 441-449 *)
Definition py_int (f : Q) : Z := Z.quot (Qnum f) (Z.pos (Qden f)).
Definition is_integer (f : Q) : bool := Qeq_bool f (inject_Z (py_int f)).
(** 8-38 *)
Definition str_number (str_float : Q -> str) (a : Q) (latex_fraction prettify_fractions : bool) (n : Z) : result str :=
  if is_integer a then Ok (str_int (py_int a))
  else
    let* nice := if prettify_fractions then is_nice_fraction a n else Ok false in
    if nice then convert_float_to_fraction a latex_fraction else Ok (str_float a).
(** 41-71 *)
Definition str_number_array (str_float : Q -> str) (a : list Q) (latex latex_column_vector : bool) (latex_array_style : str) : result str :=
  let* texts := mapM (fun n => str_number str_float n latex true 10) a in
  Ok (if latex then
        lit "\begin{" ++ latex_array_style ++ lit "}" ++ join (if latex_column_vector then lit " \\ " else lit " & ") texts ++ lit "\end{" ++ latex_array_style ++ lit "}"
      else lit "[" ++ join (lit ", ") texts ++ lit "]").
