(** Model of the integration of polynomials over the unit simplex:
    polynomials_on_simplices/calculus/polynomial/polynomials_calculus.py 177-198,
    polynomials_simplex_monomial_basis_calculus.py,
    polynomials_simplex_bernstein_basis_calculus.py and
    polynomials_simplex_lagrange_basis_calculus.py (same directory).

    [a] is one column of a coefficient array, the code multiplies whole rows
    by numbers and adds rows. *)
From Verif Require Import Base MultiIndex MultiIndexCache Fld CodeGen LinSolve MultiCoef Poly IntegralCache.
From Coq Require Import Field_theory Field.

Section Integrate.
  Context {F : fld}.
  Local Open Scope fld_scope.

  (** polynomials_simplex_bernstein_basis_calculus.py 14-39 *)
  Definition integrate_bernstein_basis_fn_unit_simplex (r n : nat) : F :=
    1 / kofnat (fold_left (fun denom i => denom * (r + i))%nat (seq 1 n) 1%nat).
  (** [sum(a)] *)
  Definition py_sum (a : list F) : F := fold_left kadd a 0.
  (** 42-70 *)
  Definition integrate_bernstein_polynomial_unit_simplex (r : nat) (a : list F) (n : nat) : result F :=
    let* _ := assert_ (length a =? get_dimension r n)%nat in
    Ok (integrate_bernstein_basis_fn_unit_simplex r n * py_sum a).

  (** polynomials_simplex_monomial_basis_calculus.py 27-53 *)
  Definition integrate_homogeneous_polynomial_unit_simplex (nu : list nat) : F :=
    1 / multinom nu * integrate_bernstein_basis_fn_unit_simplex (norm nu) (length nu).

  Definition key_eqb (a b : nat * nat) : bool := (fst a =? fst b)%nat && (snd a =? snd b)%nat.
  Fixpoint assoc {B} (d : list ((nat * nat) * B)) (k : nat * nat) : option B :=
    match d with [] => None | (k', v) :: d' => if key_eqb k' k then Some v else assoc d' k end.
  Definition cached_integral (pq : Z * Z) : F := match snd pq with 1%Z => kofZ (fst pq) | q => kofZ (fst pq) / kofZ q end.
  (** 104-140 *)
  Definition integrate_polynomial_unit_simplex (r n : nat) (a : list F) : result F :=
    let* _ := assert_ (length a =? get_dimension r n)%nat in
    match assoc monomial_integrals_unit_simplex_all_cache (n, r) with
    | Some mons => Ok (fold_left (fun s p => s + fst p * cached_integral (snd p)) (combine a mons) 0)
    | None =>
        let* mis := generate_all n r in
        foldM (fun res i =>
          let* nu := get mis i in
          let* ai := get a i in
          Ok (res + ai * integrate_homogeneous_polynomial_unit_simplex nu)) 0 (seq 0 (length mis))
    end.

  (** polynomials_simplex_lagrange_basis_calculus.py 19-63 *)
  Definition integrate_lagrange_basis_fn_unit_simplex (nu : list nat) (r : nat) : result F :=
    let* c := get_lagrange_basis_fn_coefficients nu r in
    integrate_polynomial_unit_simplex r (length nu) c.
  (** 66-97 *)
  Definition integrate_lagrange_polynomial_unit_simplex (r : nat) (a : list F) (n : nat) : result F :=
    let* _ := assert_ (length a =? get_dimension r n)%nat in
    let* mis := generate_all n r in
    foldM (fun res i =>
      let* nu := get mis i in
      let* ai := get a i in
      let* v := integrate_lagrange_basis_fn_unit_simplex nu r in
      Ok (res + ai * v)) 0 (seq 0 (length mis)).

  (** polynomials_calculus.py 177-198 [integrate_unit_simplex] *)
  Definition integrate_unit_simplex (p : poly F) : result (list F) :=
    mapM (fun c =>
      match p_basis p with
      | Monomial => integrate_polynomial_unit_simplex (p_r p) (p_m p) c
      | Lagrange => integrate_lagrange_polynomial_unit_simplex (p_r p) c (p_m p)
      | Bernstein => integrate_bernstein_polynomial_unit_simplex (p_r p) c (p_m p)
      end) (p_cols p).

  (** polynomials_simplex_monomial_basis_calculus.py 178-195, for scalar valued
      polynomials ([p1 * p2] asserts that) *)
  Definition l2_inner_product_unit (p1 p2 : poly F) : result F :=
    let* p := mul p1 p2 in
    integrate_polynomial_unit_simplex (p_r p) (p_m p) (hd [] (p_cols p)).
  (** 198-211 *)
  Definition l2_norm2_unit (p : poly F) : result F := l2_inner_product_unit p p.
End Integrate.
