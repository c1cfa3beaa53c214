(** Model of the string representations of objects:
    algebra/multiindex.py 32-67, algebra/permutations.py 71-107,
    algebra/modular_arithmetic.py 39-43, and of the arguments in the
    representations of polynomials (polynomials_monomial_basis.py 69-71,
    polynomials_unit_simplex_bernstein_basis.py 95-97,
    polynomials_unit_simplex_lagrange_basis.py 257-259).
    Components and values are Python ints (numpy 2 shows its integers otherwise). *)
From Coq Require Import Ascii String.
From Verif Require Import Base MultiIndex ModArith StrUtils NumStr Fld LatexCompact Permutations Poly.
Local Close Scope string_scope.
Local Open Scope nat_scope.
Local Open Scope list_scope.

(** [str] of a list of natural numbers *)
Definition str_list (l : list nat) : str := lit "[" ++ join (lit ", ") (map str_nat l) ++ lit "]".
(** multiindex.py 51-58, 60-67 *)
Definition multiindex_repr (a : list nat) : str := lit "polynomials_on_simplices.algebra.multiindex.MultiIndex(" ++ str_list a ++ lit ")".
Definition multiindex_str (a : list nat) : str := str_tuple a.
(** permutations.py 91-98, 100-107 *)
Definition permutation_repr (p : list nat) : str := lit "polynomials_on_simplices.algebra.permutations.Permutation(" ++ str_tuple p ++ lit ")".
Definition permutation_str (p : list nat) : str := str_tuple (to_one_based p).
(** modular_arithmetic.py 39-40, 42-43 *)
Definition modulo_repr (a : imod) : str := lit "polynomials_on_simplices.algebra.modular_arithmetic.IntegerModuloN(" ++ str_int (im_i a) ++ lit ", " ++ str_int (im_n a) ++ lit ")".
Definition modulo_str (a : imod) : str := str_int (im_i a) ++ lit "_" ++ str_int (im_n a).

(** Python values: integers, tuples and lists of integers *)
Inductive pyval : Type := PInt (z : Z) | PTuple (l : list Z) | PList (l : list Z).
Definition as_int (v : pyval) : result Z := match v with PInt z => Ok z | _ => Err TypeError end.
(** multiindex.py 32-49 [MultiIndex.__init__]; a component that is no number cannot be compared with 0 *)
Definition multiindex_new (components : list pyval) : result (list Z) :=
  let* l :=
    match components with
    | [] => Err IndexError
    | [PInt z] => Ok [z]
    | [PTuple l] | [PList l] => Ok l
    | _ => mapM as_int components
    end in
  if existsb (fun z => (z <? 0)%Z) l then Err ValueError else Ok l.
(** permutations.py 71-89 [Permutation.__init__]; values that are no numbers are not modelled *)
Definition permutation_new (values : list pyval) : result (list Z) :=
  match values with
  | [] => Err IndexError
  | [PInt _] => Err ValueError
  | [PTuple l] | [PList l] => Ok l
  | _ => mapM as_int values
  end.
(** modular_arithmetic.py 31-37 *)
Definition modulo_new (args : list pyval) : result imod :=
  match args with
  | [PInt i; PInt n] => im_new i n
  | _ => Err TypeError
  end.

(** The arguments in the representation of a polynomial: the coefficients, [domain_dimension()], [degree()]. *)
Definition poly_repr_arguments {F : fld} (p : poly F) : list (list F) * nat * nat := (p_cols p, p_m p, p_r p).
(** The constructor called with these positional arguments: [__init__(self, coeff, r, m)] *)
Definition poly_of_arguments {F : fld} (b : basis) (args : list (list F) * nat * nat) : result (poly F) :=
  let '(coeff, r, m) := args in new_poly b coeff (Some r) m.
