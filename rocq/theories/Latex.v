(** Model of the generation of LaTeX strings:
    generic_tools/str_utils.py 136-330 [str_sum], [str_multi_sum], [str_product], [str_multi_product], [str_exponent], [str_dot_product],
    polynomial/polynomials_monomial_basis.py 249-266 (scalar valued), 539-634,
    polynomial/polynomials_unit_simplex_bernstein_basis.py 325-355 (scalar valued), 840-897, 934-953,
    polynomial/polynomials_unit_simplex_lagrange_basis.py 439-461 (scalar valued), 788-835, 868-895,
    polynomial/polynomials_simplex_lagrange_basis.py 334-356 and polynomials_simplex_bernstein_basis.py 258-280 (scalar valued).
    Coefficients are rational numbers; [str] of a float that is not shown as a fraction is an argument. *)
From Coq Require Import Ascii String QArith Factorial.
From Verif Require Import Base MultiIndex StrUtils NumStr Fld MultiCoef.
Local Close Scope string_scope.
Local Close Scope Q_scope.
Local Open Scope nat_scope.
Local Open Scope list_scope.

(** str_utils.py 136-165 *)
Definition str_sum (a b : str) : str :=
  if str_eqb a (lit "0") then b
  else if str_eqb b (lit "0") then a
  else if startswith (lit "-") b then a ++ lit " - " ++ tl b
  else a ++ lit " + " ++ b.
(** 168-190 *)
Definition str_multi_sum (a : list str) : str := fold_left str_sum a (lit "0").
(** 193-232; [fuel] bounds the recursion, which strips minus signs *)
Fixpoint str_product_fuel (fuel : nat) (a b multiplication_character : str) : str :=
  match fuel with
  | O => []
  | S fuel =>
    if str_eqb a (lit "0") || str_eqb b (lit "0") then lit "0"
    else if str_eqb a (lit "1") then b
    else if str_eqb b (lit "1") then a
    else if startswith (lit "-") a then
      if startswith (lit "-") b then str_product_fuel fuel (tl a) (tl b) multiplication_character
      else lit "-" ++ str_product_fuel fuel (tl a) b multiplication_character
    else if startswith (lit "-") b then lit "-" ++ str_product_fuel fuel a (tl b) multiplication_character
    else if negb (str_eqb multiplication_character []) then a ++ lit " " ++ multiplication_character ++ lit " " ++ b
    else a ++ lit " " ++ b
  end.
Definition str_product (a b multiplication_character : str) : str := str_product_fuel (S (length a + length b)) a b multiplication_character.
(** 235-258 *)
Definition str_multi_product (a : list str) (multiplication_character : str) : str := fold_left (fun res value => str_product res value multiplication_character) a (lit "1").
(** 261-300 *)
Definition str_exponent (base exp str_type : str) : str :=
  if str_eqb base (lit "0") then (if str_eqb exp (lit "0") then lit "1" else lit "0")
  else if str_eqb exp (lit "0") then lit "1"
  else if str_eqb exp (lit "1") then base
  else if str_eqb str_type (lit "python") then base ++ lit "**" ++ exp
  else if (length exp =? 1)%nat then base ++ lit "^" ++ exp
  else base ++ lit "^{" ++ exp ++ lit "}".
(** 303-330 for two lists *)
Definition str_dot_product (a b : list str) (multiplication_character : str) : result str :=
  if (length a =? length b)%nat then Ok (fold_left (fun res p => str_sum res (str_product (fst p) (snd p) multiplication_character)) (combine a b) (lit "0"))
  else Err AssertionError.

(** polynomials_monomial_basis.py 563-566, Bernstein 867-870: [variables] *)
Definition variable (n i : nat) : str := if n =? 1 then lit "x" else lit "x_" ++ str_nat (S i).
(** 568-575, Bernstein 872-879 *)
Definition power_parts (nu : list nat) : list str :=
  flat_map (fun p => match snd p with O => [] | 1 => [variable (length nu) (fst p)] | e => [variable (length nu) (fst p) ++ lit "^" ++ str_nat e] end) (combine (seq 0 (length nu)) nu).
(** 539-578 *)
Definition monomial_basis_fn_latex (nu : list nat) : str :=
  match power_parts nu with [] => lit "1" | parts => join (lit " ") parts end.
(** 615-634 *)
Definition monomial_basis_latex (r n : nat) : result (list str) := let* mis := generate_all n r in Ok (map monomial_basis_fn_latex mis).
(** [str_number(c, latex_fraction=True)] for all coefficients *)
Definition coefficient_strs (str_float : Q -> str) (coeff : list Q) : result (list str) := mapM (fun c => str_number str_float c true true 10) coeff.
(** 249-266 [Polynomial.latex_str], scalar valued *)
Definition latex_str (str_float : Q -> str) (coeff : list Q) (r m : nat) : result str :=
  let* coeff_strs := coefficient_strs str_float coeff in
  let* basis_strs := monomial_basis_latex r m in
  str_dot_product coeff_strs basis_strs [].

(** Bernstein 890-893: [int(binom(r, nu[0]))], [int(multiindex.multinom_general(r, nu))] *)
Definition bernstein_factor (nu : list nat) (r : nat) : result nat :=
  let* e := general_to_exact_norm nu r in Ok (fact (norm e) / mi_factorial e).
(** 840-897; [r - norm(nu)] is negative only for an invalid multi-index *)
Definition bernstein_basis_fn_latex (nu : list nat) (r : nat) : result str :=
  let n := length nu in
  let e := r - norm nu in
  let part := lit "(1" ++ concat (map (fun i => lit " - " ++ variable n i) (seq 0 n)) ++ lit ")" in
  let latex_str_parts := power_parts nu ++ match e with O => [] | 1 => [part] | _ => [part ++ lit "^" ++ str_nat e] end in
  let* c := bernstein_factor nu r in
  Ok (if c =? 1 then join (lit " ") latex_str_parts else str_nat c ++ lit " " ++ join (lit " ") latex_str_parts).
(** 934-953 *)
Definition bernstein_basis_latex (r n : nat) : result (list str) := let* mis := generate_all n r in mapM (fun mi => bernstein_basis_fn_latex mi r) mis.
(** [c.isnumeric()] for an ASCII character *)
Definition isnumeric (c : ascii) : bool := ((48 <=? nat_of_ascii c) && (nat_of_ascii c <? 58))%bool.
(** 347-355: the loop *)
Definition bernstein_expanded (coeff_strs basis_strs : list str) : result str :=
  foldM (fun res p =>
    let '(c, b) := p in
    match b with
    | [] => Err IndexError
    | b0 :: _ => Ok (str_sum res (if isnumeric b0 then str_product c b (lit "\cdot") else str_product c b []))
    end) (lit "0") (combine coeff_strs basis_strs).
(** 325-355 [PolynomialBernstein.latex_str_expanded], scalar valued *)
Definition bernstein_latex_str_expanded (str_float : Q -> str) (coeff : list Q) (r m : nat) : result str :=
  let* coeff_strs := coefficient_strs str_float coeff in
  let* basis_strs := bernstein_basis_latex r m in
  bernstein_expanded coeff_strs basis_strs.

(** Lagrange 807-835, given the coefficients of the basis function in the monomial basis; 812 [generate] is the multi-index with number i *)
Definition lagrange_latex_of (coeff : list Q) (mis : list (list nat)) : result str :=
  let* text := foldM (fun text p =>
    let '(c, mi) := p in
    let m := monomial_basis_fn_latex mi in
    if Qeq_bool c 0 then Ok text
    else match text with
    | [] =>
      if Qeq_bool c 1 then Ok m
      else if Qeq_bool c (-1) then Ok (lit "-" ++ m)
      else let* s := convert_float_to_fraction c false in Ok (s ++ lit " " ++ m)
    | _ =>
      if Qeq_bool c 1 then Ok (text ++ lit " + " ++ m)
      else if Qeq_bool c (-1) then Ok (text ++ lit " - " ++ m)
      else if negb (Qle_bool 0 c) then let* s := convert_float_to_fraction (- c) false in Ok (text ++ lit " - " ++ s ++ lit " " ++ m)
      else let* s := convert_float_to_fraction c false in Ok (text ++ lit " + " ++ s ++ lit " " ++ m)
    end) [] (combine coeff mis) in
  Ok (match text with [] => lit "1" | _ => text end).
(** Lagrange 439-461, simplex Lagrange 334-356, simplex Bernstein 258-280, scalar valued, given the strings of the basis functions *)
Definition expanded (str_float : Q -> str) (coeff : list Q) (basis_strs : list str) : result str :=
  let* coeff_strs := coefficient_strs str_float coeff in
  str_dot_product coeff_strs (map (fun b => if 3 <? length b then lit "(" ++ b ++ lit ")" else b) basis_strs) [].
