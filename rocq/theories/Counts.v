(** Model of the counting functions: algebra/permutations.py 667-745,
    geometry/mesh/simplicial_complex.py 148-185 and of the random multi-index
    (algebra/multiindex.py 587-600). *)
From Coq Require Import Reals Factorial ZArith.
From Flocq Require Import Core.
From Verif Require Import Base MultiIndex.
Local Close Scope R_scope.
Local Open Scope nat_scope.

(** [math.factorial]: ValueError for negative numbers *)
Definition py_factorial (n : Z) : result Z := if (n <? 0)%Z then Err ValueError else Ok (Z.of_nat (fact (Z.to_nat n))).
(** The floating point number nearest to a real number (double precision, ties to even).
    The OverflowError of a quotient beyond the largest double is not modelled. *)
Definition double (x : R) : R := round radix2 (FLT_exp (-1074) 53) ZnearestE x.
(** [a / b] for Python ints: the nearest float of the exact quotient *)
Definition int_truediv (a b : Z) : result R := if (b =? 0)%Z then Err ZeroDivisionError else Ok (double (IZR a / IZR b)).

(** permutations.py 667-676 *)
Definition num_permutations (n : Z) : result Z := py_factorial n.
(** permutations.py 697-709 *)
Definition num_subset_permutations (n k : Z) : result R :=
  let* a := py_factorial n in let* b := py_factorial (n - k) in int_truediv a b.
(** permutations.py 733-745; [int(scipy.special.binom(n, k))], exactly *)
Definition num_increasing_subset_permutations (n : nat) (k : Z) : nat := if (k <? 0)%Z then 0 else binomial n (Z.to_nat k).
(** simplicial_complex.py 148-157, 160-167, 170-185 *)
Definition simplex_dimension (s : list nat) : Z := (Z.of_nat (length s) - 1)%Z.
Definition num_simplex_vertices (n : Z) : Z := (n + 1)%Z.
Definition num_simplex_boundary_simplices (n : Z) : Z := (n + 1)%Z.
(** multiindex.py 587-600: [i] is the result of [np.random.randint(0, dim)], in the half open interval *)
Definition random_multiindex (randint : nat -> nat) (n r : nat) : result (list nat) :=
  let dim := num_multiindices n r in
  let i := randint dim in
  generate n r i.
