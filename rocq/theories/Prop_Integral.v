(** Property theorems for integration over the unit simplex (C47 of properties.jsonl). *)
From Coq Require Import Reals Lra Qcanon.
From Coquelicot Require Import Coquelicot.
From Verif Require Import Base MultiIndex MultiIndexFacts MultiCapFacts MultiIndexCache Fld FldInst CodeGen CodeGenFacts LinSolve MultiCoef MultiCoefFacts LagrangeCache Unisolv Poly PolyFacts LagFacts PolyEval PolyOps PolyOpsB PolyDeriv PolyObj PolyPow PolyCalls IntegralCache Integrate IntFacts SimplexInt SimplexPos IntReal IntPos ExNum.
From Coq Require Import QArith.
Local Open Scope fld_scope.

(** [simplex_int m 1 f v] (SimplexInt.v): [v] is the iterated Riemann integral
    of [f] over the points of R^m with non-negative coordinates of sum at most
    1.  It is a function of [f]: *)
Theorem C47_integral_unique : forall m f v w, simplex_int m 1 f v -> simplex_int m 1 f w -> v = w.
Proof. intros m f v w. apply simplex_int_unique. lra. Qed.
Print Assumptions C47_integral_unique.
Theorem C47_integrate_unit_simplex : forall b m n r (p : poly RF), poly_of b m n r p ->
  exists v, integrate_unit_simplex p = Ok v /\ length v = n /\
    forall k, (k < n)%nat -> simplex_int m 1 (fun x => match call p x with Ok u => nth k u 0%R | Err _ => 0%R end) (nth k v 0%R).
Proof. exact integrate_components. Qed.
Print Assumptions C47_integrate_unit_simplex.

(** The closed formulas for the basis functions, without a bound on the degree. *)
Theorem C47_bernstein_basis_fn : forall r nu, (list_sum nu <= r)%nat ->
  simplex_int (length nu) 1 (fun x => (INR (fact r) / (INR (fold_right Nat.mul 1%nat (map fact nu)) * INR (fact (r - list_sum nu))) *
      (fold_right Rmult 1 (map (fun xa => fst xa ^ snd xa) (combine x nu)) * (1 - fold_right Rplus 0 x) ^ (r - list_sum nu)))%R)
    (integrate_bernstein_basis_fn_unit_simplex (F := RF) r (length nu)).
Proof. exact bern_basis_formula. Qed.
Print Assumptions C47_bernstein_basis_fn.
Theorem C47_homogeneous : forall nu, simplex_int (length nu) 1 (fun x => fold_right Rmult 1%R (map (fun xa => (fst xa ^ snd xa)%R) (combine x nu)))
    (integrate_homogeneous_polynomial_unit_simplex (F := RF) nu).
Proof. exact homogeneous_formula. Qed.
Print Assumptions C47_homogeneous.
(** The table entries, in every field of characteristic zero. *)
Theorem C47_table : forall (F : fld) n r l mis i nu pq, assoc monomial_integrals_unit_simplex_all_cache (n, r) = Some l -> generate_all n r = Ok mis ->
  length l = length mis /\ (nth_error mis i = Some nu -> nth_error l i = Some pq ->
    cached_integral (F := F) pq = kofnat (fold_right Nat.mul 1%nat (map fact nu)) / kofnat (fact (n + list_sum nu))).
Proof. exact @table_formula. Qed.
Print Assumptions C47_table.
(** The second table, indexed by exponents, which no function reads *)
Theorem C47_individual_table : forall n r d nu p q, In ((n, r), d) monomial_integrals_unit_simplex_individual_cache -> In (nu, (p, q)) d ->
  length nu = n /\ (list_sum nu <= r)%nat /\ q <> 0%Z /\ (p * Z.of_nat (fact (n + list_sum nu)) = q * Z.of_nat (fold_right Nat.mul 1%nat (map fact nu)))%Z.
Proof. exact individual_table. Qed.
Print Assumptions C47_individual_table.
(** The L2 inner product and norm *)
Theorem C47_l2_inner_product : forall m r s (p q : poly RF), poly_of Monomial m 1 r p -> poly_of Monomial m 1 s q -> ((0 < m)%nat -> (r + s < 20)%nat) ->
  exists v, l2_inner_product_unit p q = Ok v /\
    simplex_int m 1 (fun x => match call p x, call q x with Ok [u], Ok [w] => (u * w)%R | _, _ => 0%R end) v.
Proof. exact l2_inner. Qed.
Print Assumptions C47_l2_inner_product.
Theorem C47_l2_definite : forall m r (p : poly RF), poly_of Monomial m 1 r p -> ((0 < m)%nat -> (r + r < 20)%nat) ->
  exists v, l2_norm2_unit p = Ok v /\ (0 <= v)%R /\ (v = 0%R <-> forall c a, In c (p_cols p) -> In a c -> a = 0%R).
Proof. exact l2_definite. Qed.
Print Assumptions C47_l2_definite.
(** For polynomials of degree 10 and more the norm is an assertion error. *)
Theorem C47_l2_degree_limit_refuted : exists m r, forall (p : poly RF), poly_of Monomial m 1 r p -> (r < 20)%nat /\ l2_norm2_unit p = Err AssertionError.
Proof.
  exists 1%nat, 10%nat. intros p Hp. split; [repeat constructor|]. unfold l2_norm2_unit, l2_inner_product_unit. rewrite (calls_mul_limit Monomial 1 10 10 p p Hp Hp); [reflexivity| |]; repeat constructor.
Qed.
Print Assumptions C47_l2_degree_limit_refuted.

Example C47_example :
  (* 2 + 3 x - y + 6 x y over the triangle, 1 - x over the interval in the Bernstein basis, and a Lagrange polynomial *)
  match new_poly (F := QcF) Monomial [[rat 2 1; rat 3 1; rat 0 1; rat (-1) 1; rat 6 1; rat 0 1]; [rat 0 1; rat 0 1; rat 12 1; rat 0 1; rat 0 1; rat 0 1]] (Some 2%nat) 2,
        new_poly (F := QcF) Bernstein [[rat 1 1; rat 0 1]] (Some 1%nat) 1,
        new_poly (F := QcF) Lagrange [[rat 0 1; rat 1 4; rat 1 1]] (Some 2%nat) 1 with
  | Ok p, Ok q, Ok t => (qres (integrate_unit_simplex p), qres (integrate_unit_simplex q), qres (integrate_unit_simplex t))
  | _, _, _ => ([], [], []) end = ([(19#12)%Q; 1%Q], [(1#2)%Q], [(1#3)%Q]).
Proof. vm_compute. reflexivity. Qed.
Example C47_example_l2 :
  match new_poly (F := QcF) Monomial [[rat 0 1; rat 1 1; rat (-1) 1]] (Some 1%nat) 2 with
  | Ok p => (qval (l2_norm2_unit p), assoc monomial_integrals_unit_simplex_all_cache (2, 1)%nat) | Err _ => (None, None) end = (Some (1#12)%Q, Some [(1, 2); (1, 6); (1, 6)]%Z).
Proof. vm_compute. reflexivity. Qed.
