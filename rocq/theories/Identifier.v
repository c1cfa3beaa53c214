(** Model of the identifiers of polynomial bases:
    polynomial/polynomials_monomial_basis.py 32-39,
    polynomials_unit_simplex_bernstein_basis.py 43-50,
    polynomials_unit_simplex_lagrange_basis.py 42-49,
    polynomials_simplex_bernstein_basis.py 35-51,
    polynomials_simplex_lagrange_basis.py 39-55,
    and of [str] for the vertices of a simplex: nested lists and numpy arrays. *)
From Coq Require Import Ascii String ZArith.
From Verif Require Import Base StrUtils NumStr CodeWriter Poly.
Local Close Scope string_scope.
Local Open Scope list_scope.

(** the three identifiers without vertices *)
Definition unique_identifier (b : basis) : str :=
  match b with Monomial => lit "monomial" | Bernstein => lit "Bernstein" | Lagrange => lit "Lagrange" end.
(** Bernstein 44-51, Lagrange 48-55; [vertices] is [str(vertices)] *)
Definition unique_identifier_simplex (name vertices : str) : result str :=
  let identifier := wl new_writer (name ++ lit "(") in
  let identifier := inc_indent identifier in
  let* identifier := wc identifier vertices in
  let identifier := dec_indent identifier in
  Ok (code (wl identifier (lit ")"))).
Definition unique_identifier_bernstein_basis_simplex (vertices : str) : result str := unique_identifier_simplex (lit "Bernstein") vertices.
Definition unique_identifier_lagrange_basis_simplex (vertices : str) : result str := unique_identifier_simplex (lit "Lagrange") vertices.

(** [str] of a nested list; [show] is [repr] of a coordinate *)
Definition str_nested {A} (show : A -> str) (vertices : list (list A)) : str :=
  lit "[" ++ join (lit ", ") (map (fun row => lit "[" ++ join (lit ", ") (map show row) ++ lit "]") vertices) ++ lit "]".

(** [str] of a two-dimensional numpy array with the given cells.  The lines
    are not longer than 75 characters and there are no more than 1000 cells
    (longer lines are broken, and more cells are left out). *)
Definition str_cells (cells : list (list str)) : str :=
  lit "[" ++ join (newline :: lit " ") (map (fun row => lit "[" ++ join (lit " ") row ++ lit "]") cells) ++ lit "]".
Definition spaces (n : nat) : str := repeat (ascii_of_nat 32) n.
(** the length of the longest text *)
Definition width (texts : list (list str)) : nat := list_max (map (@length ascii) (concat texts)).
(** an array of integers: the cells are aligned to the right *)
Definition int_cells (vertices : list (list Z)) : list (list str) :=
  let texts := map (map str_int) vertices in
  let w := width texts in
  map (map (fun s => spaces (w - length s) ++ s)) texts.
Definition str_int_array (vertices : list (list Z)) : str := str_cells (int_cells vertices).

(** An array of floats, shown with at most 8 digits after the point.  A
    coordinate is the integer [z] standing for z 10^-9.  Modelled for arrays
    that numpy shows without exponent: non-zero coordinates between 10^-4 and
    10^8, the largest less than 1000 times the smallest, none halfway between
    two multiples of 10^-8.  Digits that are all zero are left out, and cells
    are aligned at the point. *)
Definition round8 (z : Z) : Z := ((z + 5) / 10)%Z.
Fixpoint fraction_text (k : nat) (f : Z) : str :=
  match k with
  | O => []
  | S k => if (f =? 0)%Z then [] else ascii_of_nat (48 + Z.to_nat (f / 10 ^ Z.of_nat k)) :: fraction_text k (f mod 10 ^ Z.of_nat k)%Z
  end.
Definition whole_text (r : Z) : str := (if (r <? 0)%Z then lit "-" else []) ++ str_nat (Z.to_nat (Z.abs r / 10 ^ 8)).
Definition float_cells (vertices : list (list Z)) : list (list str) :=
  let wholes := map (map (fun z => whole_text (round8 z))) vertices in
  let fractions := map (map (fun z => fraction_text 8 (Z.abs (round8 z) mod 10 ^ 8)%Z)) vertices in
  let wl_ := width wholes in
  let wr := width fractions in
  map (map (fun z =>
    let l := whole_text (round8 z) in
    let f := fraction_text 8 (Z.abs (round8 z) mod 10 ^ 8)%Z in
    spaces (wl_ - length l) ++ l ++ lit "." ++ f ++ spaces (wr - length f))) vertices.
Definition str_float_array (vertices : list (list Z)) : str := str_cells (float_cells vertices).
