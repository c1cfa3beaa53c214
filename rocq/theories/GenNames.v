(** Model of the names and docstrings of generated functions:
    polynomial/code_generation/generate_polynomial_functions.py 8-95, and the
    names in generate_monomial_polynomial_functions.py 31, 62,
    generate_barycentric_polynomial_functions_simplex.py 30, 61 and
    generate_lagrange_polynomial_functions_simplex.py 34, 64.
    The hash value of the coefficients is an argument. *)
From Coq Require Import Ascii String ZArith.
From Verif Require Import Base StrUtils NumStr CodeWriter SourceFiles.
Local Close Scope string_scope.
Local Open Scope list_scope.

Inductive family : Type := Monomial | Barycentric | Lagrange.
Definition family_text (f : family) : str := match f with Monomial => lit "monomial" | Barycentric => lit "barycentric" | Lagrange => lit "lagrange" end.
(** 8-24 [generate_function_specific_name] *)
Definition generate_function_specific_name (coeff_hash : Z) : str :=
  let coeff_hash := if (coeff_hash <? 0)%Z then (coeff_hash * -1)%Z else coeff_hash in str_int coeff_hash.
(** the names after [def] in [generate_function_general] and [generate_function_specific] *)
Definition general_name (f : family) (m r : nat) : str := family_text f ++ lit "_polynomial_" ++ str_nat m ++ str_nat r.
Definition specific_name (f : family) (m r : nat) (coeff_hash : Z) : str :=
  lit "eval_" ++ family_text f ++ lit "_polynomial_" ++ str_nat m ++ str_nat r ++ lit "_" ++ generate_function_specific_name coeff_hash.

(** 59-67 *)
Definition template_docstring_univariate : str := lit "r""""""
Evaluate a univariate degree <R> <BASE> polynomial<DOMAIN>.

.. math::<LATEX_STR>.

:param a: Coefficient in front of each <BASE> base polynomial, :math:`\text{a}[i] = a_i`.
:param x: Point where the polynomial should be evaluated.
:return: Value of the polynomial.
""""""".
(** 70-80 *)
Definition template_docstring_multivariate : str := lit "r""""""
Evaluate a <MULTIVARIATE> degree <R> <BASE> polynomial<DOMAIN>.

.. math::<LATEX_STR>.

:param a: Coefficient in front of each <BASE> base polynomial, :math:`\text{a}[i] = a_{\nu_i}`, where
    :math:`\nu_i` is the i:th multi-index in the sequence of all multi-indices of dimension <DIM> with norm
    :math:`\leq r` (see :func:`polynomials_on_simplices.algebra.multiindex.generate` function).
:param x: Point where the polynomial should be evaluated.
:return: Value of the polynomial.
""""""".
(** 83-88 [_domain] *)
Definition domain_text (m : nat) : str := match m with 1 => lit "unit interval" | 2 => lit "unit triangle" | 3 => lit "unit tetrahedron" | _ => lit "unit simplex" end.
(** 91-95 [_multivariate] *)
Definition multivariate_text (m : nat) : str := match m with 2 => lit "bivariate" | 3 => lit "trivariate" | _ => lit "multivariate" end.
(** 27-56 [generate_docstring] *)
Definition generate_docstring (m r : nat) (basis latex_str : str) : result str :=
  let replace old new s := str_replace (lit old) new 0 s in
  let docstring := if m =? 1 then template_docstring_univariate
    else replace "<DIM>"%string (str_nat m) (replace "<MULTIVARIATE>"%string (multivariate_text m) template_docstring_multivariate) in
  let docstring := replace "<R>"%string (str_nat r) docstring in
  let docstring := replace "<BASE>"%string basis docstring in
  let docstring := if str_eqb basis (lit "monomial") then replace "<DOMAIN>"%string [] docstring else replace "<DOMAIN>"%string (lit " on the " ++ domain_text m) docstring in
  if existsb (Ascii.eqb newline) latex_str then
    let* lines := split latex_str [newline] in
    Ok (replace "<LATEX_STR>"%string ([newline; newline] ++ lit "    " ++ join ([newline] ++ lit "    ") lines) docstring)
  else Ok (replace "<LATEX_STR>"%string (lit " " ++ latex_str) docstring).
