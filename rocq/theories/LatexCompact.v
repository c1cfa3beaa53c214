(** Model of the compact LaTeX strings of basis functions and of the functions
    that select the strings of a basis:
    polynomial/polynomials_monomial_basis.py 581-612, 637-656,
    polynomial/polynomials_unit_simplex_bernstein_basis.py 900-931, 956-975,
    polynomial/polynomials_unit_simplex_lagrange_basis.py 788-865, 868-917,
    polynomial/polynomials_unit_simplex_bases.py 269-378.
    An integer [nu] is the list with that element (the code converts it).
    Numbers in a multi-index are shown as [str] of a Python int (a numpy integer before numpy 2). *)
From Coq Require Import Ascii String QArith Qcanon.
From Verif Require Import Base MultiIndex StrUtils NumStr Fld FldInst MultiCoef Poly Latex.
Local Close Scope string_scope.
Local Close Scope Q_scope.
Local Close Scope Qc_scope.
Local Open Scope nat_scope.
Local Open Scope list_scope.

(** multiindex.py 59-66: [str(tuple(components))] *)
Definition str_tuple (nu : list nat) : str :=
  match nu with
  | [a] => lit "(" ++ str_nat a ++ lit ",)"
  | _ => lit "(" ++ join (lit ", ") (map str_nat nu) ++ lit ")"
  end.
(** monomial 581-612 *)
Definition monomial_basis_fn_latex_compact (nu : list nat) : str :=
  match nu with
  | [0] => lit "1"
  | [1] => lit "x"
  | [e] => lit "x^" ++ str_nat e
  | _ => lit "x^{" ++ str_tuple nu ++ lit "}"
  end.
(** Bernstein 900-931 and Lagrange 838-865, with the letter [b] or [l] *)
Definition letter_compact (letter : str) (nu : list nat) (r : nat) : str :=
  match nu with
  | [e] => letter ++ lit "_{" ++ str_nat e ++ lit ", " ++ str_nat r ++ lit "}(x)"
  | _ => letter ++ lit "_{" ++ str_tuple nu ++ lit ", " ++ str_nat r ++ lit "}(x)"
  end.
Definition bernstein_basis_fn_latex_compact (nu : list nat) (r : nat) : str := letter_compact (lit "b") nu r.
Definition lagrange_basis_fn_latex_compact (nu : list nat) (r : nat) : str := letter_compact (lit "l") nu r.
(** Lagrange 788-835: the coefficients are the numbers of [lagrange_basis_fn_monomial], exactly *)
Definition lagrange_basis_fn_latex (nu : list nat) (r : nat) : result str :=
  let* l_monomial := lagrange_basis_fn_monomial (F := QcF) nu r in
  let* mis := mapM (generate (p_m l_monomial) r) (seq 0 (length (hd [] (p_cols l_monomial)))) in
  lagrange_latex_of (map this (hd [] (p_cols l_monomial))) mis.
(** monomial 637-656, Bernstein 956-975, Lagrange 898-917, 868-895 *)
Definition monomial_basis_latex_compact (r n : nat) : result (list str) := let* mis := generate_all n r in Ok (map monomial_basis_fn_latex_compact mis).
Definition bernstein_basis_latex_compact (r n : nat) : result (list str) := let* mis := generate_all n r in Ok (map (fun mi => bernstein_basis_fn_latex_compact mi r) mis).
Definition lagrange_basis_latex_compact (r n : nat) : result (list str) := let* mis := generate_all n r in Ok (map (fun mi => lagrange_basis_fn_latex_compact mi r) mis).
Definition lagrange_basis_latex (r n : nat) : result (list str) := let* mis := generate_all n r in mapM (fun mi => lagrange_basis_fn_latex mi r) mis.
(** Lagrange 439-461 [PolynomialLagrange.latex_str_expanded], scalar valued *)
Definition lagrange_latex_str_expanded (str_float : Q -> str) (coeff : list Q) (r m : nat) : result str :=
  let* basis_strs := lagrange_basis_latex r m in
  expanded str_float coeff basis_strs.

(** bases 269-294 *)
Definition polynomial_basis_fn_latex (nu : list nat) (r : nat) (basis : str) : result str :=
  if str_eqb basis (lit "monomial") then Ok (monomial_basis_fn_latex nu)
  else if str_eqb basis (lit "Lagrange") then lagrange_basis_fn_latex nu r
  else if str_eqb basis (lit "Bernstein") then bernstein_basis_fn_latex nu r
  else Err ValueError.
(** bases 297-324 *)
Definition polynomial_basis_fn_latex_compact (nu : list nat) (r : nat) (basis : str) : result str :=
  if str_eqb basis (lit "monomial") then Ok (monomial_basis_fn_latex_compact nu)
  else if str_eqb basis (lit "Lagrange") then Ok (lagrange_basis_fn_latex_compact nu r)
  else if str_eqb basis (lit "Bernstein") then Ok (bernstein_basis_fn_latex_compact nu r)
  else Err ValueError.
(** bases 327-351 *)
Definition polynomial_basis_latex (r n : nat) (basis : str) : result (list str) :=
  if str_eqb basis (lit "monomial") then monomial_basis_latex r n
  else if str_eqb basis (lit "Lagrange") then lagrange_basis_latex r n
  else if str_eqb basis (lit "Bernstein") then bernstein_basis_latex r n
  else Err ValueError.
(** bases 354-378 *)
Definition polynomial_basis_latex_compact (r n : nat) (basis : str) : result (list str) :=
  if str_eqb basis (lit "monomial") then monomial_basis_latex_compact r n
  else if str_eqb basis (lit "Lagrange") then lagrange_basis_latex_compact r n
  else if str_eqb basis (lit "Bernstein") then bernstein_basis_latex_compact r n
  else Err ValueError.
