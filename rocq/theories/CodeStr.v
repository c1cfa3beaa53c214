(** Model of the source code of single polynomials as text:
    generate_function_specific in polynomial/code_generation/generate_monomial_polynomial_functions.py 61-68
    (and in the same words generate_barycentric_polynomial_functions_simplex.py 60-67,
    generate_lagrange_polynomial_functions_simplex.py 63-70);
    code_str in polynomials_monomial_basis.py 276, polynomials_unit_simplex_bernstein_basis.py 365,
    polynomials_unit_simplex_lagrange_basis.py 471 and, on a simplex,
    polynomials_simplex_bernstein_basis.py 309-323, polynomials_simplex_lagrange_basis.py 385-399.
    The text of the body (CodeGen.v) and the texts of the numbers and arrays of
    the affine map are arguments. *)
From Coq Require Import Ascii String ZArith.
From Verif Require Import Base StrUtils CodeWriter SourceFiles Identifier.
Local Close Scope string_scope.
Local Open Scope list_scope.

(** [generate_function_specific], the code *)
Definition generate_function_specific (fn_name body : str) : result str :=
  let w := inc_indent (wl new_writer (lit "def " ++ fn_name ++ lit "(x):")) in
  let* w := wc w body in
  Ok (code (dec_indent w)).
(** [self._eval_code.replace(self._eval_fn_name, fn_name)] *)
Definition code_str (eval_code eval_fn_name fn_name : str) : str := str_replace eval_fn_name fn_name 0 eval_code.
(** [code_str] on a simplex; [a], [b]: [str] of the numbers if [m == 1], else [__repr__] of the arrays *)
Definition code_str_simplex (m : nat) (a b eval_code eval_fn_name fn_name : str) : result str :=
  let w := inc_indent (wl new_writer (lit "def " ++ fn_name ++ lit "(y):")) in
  let w := if m =? 1 then wl w (lit "x = " ++ a ++ lit " * y + " ++ b)
    else wl (wl (wl w (lit "a = np." ++ a)) (lit "b = np." ++ b)) (lit "x = np.dot(a, y) + b") in
  let* lines := split (code_str eval_code eval_fn_name (lit "temp")) [newline] in
  let w := verbatim w (join [newline] (tl lines)) in
  Ok (code (dec_indent w)).
(** [__repr__] of a two-dimensional array of floats; cells and restrictions as for [str_float_array] in Identifier.v *)
Definition repr_float_array (rows : list (list Z)) : str :=
  lit "array([" ++ join (lit "," ++ newline :: lit "       ") (map (fun row => lit "[" ++ join (lit ", ") row ++ lit "]") (float_cells rows)) ++ lit "])".
