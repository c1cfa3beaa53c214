(** Model of polynomials_on_simplices/polynomial/polynomials_unit_simplex_bases.py,
    of the dual bases in polynomials_monomial_basis.py,
    polynomials_unit_simplex_bernstein_basis.py and
    polynomials_unit_simplex_lagrange_basis.py, and of the derivatives in
    calculus/polynomial/polynomials_calculus.py.  Basis identifiers are the
    constructors of [basis], so "Unknown polynomial basis" cannot occur.
    Multi-indices are given as tuples or MultiIndex. *)
From Verif Require Import Base MultiIndex MultiIndexCache Fld CodeGen LinSolve MultiCoef Poly IntegralCache Integrate.
From Coq Require Import Field_theory Field.

Section Bases.
  Context {F : fld}.
  Local Open Scope fld_scope.

  (** polynomials_calculus.py 63-98 [derivative], for a multi-index [alpha] *)
  Definition derivative (p : poly F) (alpha : list nat) : result (poly F) :=
    let* _ := assert_ (length alpha =? domain_dimension p)%nat in
    foldM (fun dp i =>
      let* ai := get alpha i in
      foldM (fun dp _ => partial_derivative dp i) dp (seq 0 ai)) p (seq 0 (length alpha)).
  (** 24-42 [gradient] for scalar valued polynomials *)
  Definition gradient1 (p : poly F) : result (list (poly F)) :=
    mapM (partial_derivative p) (seq 0 (domain_dimension p)).
  (** 45-60 [jacobian]; [gradient] of a vector valued polynomial is the same *)
  Definition jacobian (p : poly F) : result (list (list (poly F))) :=
    mapM (fun i => let* pi := getitem p i in gradient1 pi) (seq 0 (target_dimension p)).
  (** 101-130 [hessian]: the entries with [i <= j] are computed, the others are
      references to them *)
  Definition hessian (p : poly F) : result (list (list (poly F))) :=
    let m := domain_dimension p in
    let* _ := assert_ (target_dimension p =? 1)%nat in
    mapM (fun i => mapM (fun j =>
      let i' := Nat.min i j in
      let j' := Nat.max i j in
      let* a0 := get (zero_multiindex m) i' in
      let* alpha := set (zero_multiindex m) i' (a0 + 1)%nat in
      let* a1 := get alpha j' in
      let* alpha := set alpha j' (a1 + 1)%nat in
      derivative p alpha) (seq 0 m)) (seq 0 m).

  (** geometry/primitives/simplex.py 281-300 [volume_unit] *)
  Definition volume_unit (n : nat) : F := 1 / kofnat (fact n).

  (** ** Dual bases *)

  (** monomial 410-447 [dual_monomial_basis_fn] *)
  Definition dual_monomial_basis_fn (mu : list nat) (p : poly F) : result (list F) :=
    let* dp := derivative p mu in
    let* v := call dp (repeat 0 (length mu)) in
    Ok (map (fun a => a / kofnat (mi_factorial mu)) v).

  (** [np.linalg.inv] *)
  Definition np_inv (a : list (list F)) : result (list (list F)) := solve a (identity (length a)).
  (** Bernstein 618-626: the coefficients for one variable *)
  Definition dual_coeff_1 (r j k : nat) : F :=
    let factor := kpow (- (1)) (j + k) / (binomF r j * binomF r k) in
    let c := fold_left (fun c l => c + kofnat (2 * l + 1) *
        (binomF (r + l + 1) (r - j) * binomF (r - l) (r - j) * binomF (r + l + 1) (r - k) * binomF (r - l) (r - k)))
      (seq 0 (S (Nat.min j k))) 0 in
    c * factor.
  (** 632-647: entry (i, j) of the Gram matrix ([a[j][i] = a[i][j]]) *)
  Definition gram_entry (r m : nat) (mis : list (list nat)) (i j : nat) : result F :=
    let factor := integrate_bernstein_basis_fn_unit_simplex (2 * r) m in
    let* nu := get mis (Nat.min i j) in
    let* f1 := multinom_general r nu in
    let* tau := get mis (Nat.max i j) in
    let* f2 := multinom_general r tau in
    let* g := multinom_general (2 * r) (mi_add nu tau) in
    Ok (f1 * f2 / g * factor).
  (** 575-652 [dual_bernstein_basis_polynomial] *)
  Definition dual_bernstein_basis_polynomial (mu : list nat) (r : nat) : result (poly F) :=
    let m := length mu in
    if (r =? 0)%nat then
      let* u := unit_polynomial Bernstein 0 m 1 in truediv u (volume_unit m)
    else
      let dim := get_dimension r m in
      if (m =? 1)%nat then
        let j := hd 0%nat mu in
        new_poly Bernstein [map (dual_coeff_1 r j) (seq 0 dim)] (Some r) m
      else
        let* mis := generate_all m r in
        let* a := mapM (fun i => mapM (gram_entry r m mis i) (seq 0 dim)) (seq 0 dim) in
        let* a_inv := np_inv a in
        let* i := get_index mu r in
        let* v := set (repeat 0 dim) i 1 in
        new_poly Bernstein [mat_vec a_inv v] (Some r) m.
  (** 655-669 [dual_bernstein_polynomial_basis] *)
  Definition dual_bernstein_polynomial_basis (r n : nat) : result (list (poly F)) :=
    let* mis := generate_all n r in mapM (fun mi => dual_bernstein_basis_polynomial mi r) mis.
  (** 672-710 [dual_bernstein_basis_fn] *)
  Definition dual_bernstein_basis_fn (mu : list nat) (r : nat) (p : poly F) : result (list F) :=
    let m := length mu in
    let* d := dual_bernstein_basis_polynomial mu r in
    match p_basis p with
    | Bernstein =>
        let* t := mul d p in
        mapM (fun c => integrate_bernstein_polynomial_unit_simplex (2 * r) c m) (p_cols t)
    | _ =>
        let* dm := to_monomial_basis d in
        let* pm := to_monomial_basis p in
        let* t := mul dm pm in
        mapM (integrate_polynomial_unit_simplex (2 * r) m) (p_cols t)
    end.

  (** bases 148-180 [dual_polynomial_basis_fn] *)
  Definition dual_polynomial_basis_fn (mu : list nat) (r : nat) (b : basis) (p : poly F) : result (list F) :=
    match b with
    | Monomial => dual_monomial_basis_fn mu p
    | Lagrange => dual_lagrange_basis_fn mu r p
    | Bernstein => dual_bernstein_basis_fn mu r p
    end.
  (** 183-200 [dual_polynomial_basis] (monomial 450-465, Bernstein 713-728,
      Lagrange 698-713), all members applied to [p] *)
  Definition dual_polynomial_basis (r n : nat) (b : basis) (p : poly F) : result (list (list F)) :=
    let* mis := generate_all n r in
    mapM (fun mi => dual_polynomial_basis_fn mi r b p) mis.
  (** 203-238: vector valued dual basis functions (monomial 468-506, Bernstein
      731-770, Lagrange 716-755) *)
  Definition dual_vector_valued_basis_fn (mu : list nat) (r i n : nat) (b : basis) (p : poly F) : result (list F) :=
    if (n =? 1)%nat then
      let* _ := assert_ (i =? 0)%nat in dual_polynomial_basis_fn mu r b p
    else
      let* _ := assert_ (i <? n)%nat in
      let* _ := assert_ (target_dimension p =? n)%nat in
      let* pi := getitem p i in
      dual_polynomial_basis_fn mu r b pi.

  (** The single number of a scalar result *)
  Definition scalar (v : list F) : result F := match v with [a] => Ok a | _ => Err ValueError end.
  (** 26-57 [convert_polynomial_to_basis].  The coefficient array is filled
      column by column here, entry by entry in the code. *)
  Definition convert_polynomial_to_basis (p : poly F) (target : basis) : result (poly F) :=
    if basis_eqb (p_basis p) target then Ok p
    else match target with
    | Monomial => to_monomial_basis p
    | _ =>
      let m := domain_dimension p in
      let n := target_dimension p in
      let r := degree p in
      let* mis := generate_all m r in
      let column q := mapM (fun mu => let* v := dual_polynomial_basis_fn mu r target q in scalar v) mis in
      let* cols :=
        if (n =? 1)%nat then let* c := column p in Ok [c]
        else mapM (fun j => let* q := getitem p j in column q) (seq 0 n) in
      new_poly target cols (Some r) m
    end.

  (** 60-78 [polynomial_basis_fn] *)
  Definition polynomial_basis_fn (nu : list nat) (r : nat) (b : basis) : result (poly F) :=
    match b with Monomial => monomial_basis_fn nu | _ => basis_fn b nu r end.
  (** 81-96 [polynomial_basis] *)
  Definition polynomial_basis (r n : nat) (b : basis) : result (list (poly F)) :=
    let* mis := generate_all n r in mapM (fun mi => polynomial_basis_fn mi r b) mis.
  (** 99-119 [vector_valued_polynomial_basis_fn] *)
  Definition vector_valued_polynomial_basis_fn (nu : list nat) (r i n : nat) (b : basis) : result (poly F) :=
    match b with
    | Monomial => vector_valued_basis_fn Monomial nu (norm nu) i n
    | _ => vector_valued_basis_fn b nu r i n
    end.
  (** 122-145 [vector_valued_polynomial_basis]; for n = 1 the first two
      arguments are passed in the wrong order *)
  Definition vector_valued_polynomial_basis (r m n : nat) (b : basis) (interleaved : bool) : result (list (poly F)) :=
    if (n =? 1)%nat then polynomial_basis m r b
    else
      let* mis := generate_all m r in
      if interleaved
      then mapM (fun mi_i => vector_valued_polynomial_basis_fn (fst mi_i) r (snd mi_i) n b) (list_prod mis (seq 0 n))
      else mapM (fun i_mi => vector_valued_polynomial_basis_fn (snd i_mi) r (fst i_mi) n b) (list_prod (seq 0 n) mis).

  (** Bernstein 803-837 [degree_elevated_bernstein_basis_fn] *)
  Definition degree_elevated_bernstein_basis_fn (nu : list nat) (r s : nat) : result (poly F) :=
    let* _ := assert_ (r <? s)%nat in
    let m := length nu in
    let dim := get_dimension s m in
    if (m =? 1)%nat then
      let i := hd 0%nat nu in
      let c := binomF r i in
      let* coeff := foldM (fun coeff k => set coeff k (c * binomF (s - r) (k - i) / binomF s k)) (repeat 0 dim) (seq i (s - r + 1)) in
      new_poly Bernstein [coeff] (Some s) m
    else
      let* c := multinom_general r nu in
      let* mus := generate_all m (s - r) in
      let* coeff := foldM (fun coeff mu =>
        let* idx := get_index (mi_add nu mu) s in
        let* g := multinom_general s (mi_add nu mu) in
        set coeff idx (c * binomF (s - r) (norm mu) * multinom mu / g)) (repeat 0 dim) mus in
      new_poly Bernstein [coeff] (Some s) m.
  (** 1016-1041 [barycentric_polynomial_general] *)
  Definition barycentric_polynomial_general (r : nat) (a : list F) (x : list F) : result F :=
    if (length x =? 1)%nat then
      foldM (fun value i =>
        let* ai := get a i in
        let* _ := assert_ (i <=? r)%nat in   (* a negative power of [1 - x] is not modelled *)
        Ok (value + ai * kpow (hd 0 x) i * kpow (1 - hd 0 x) (r - i))) 0 (seq 0 (length a))
    else
      let* mis := generate_all (length x) r in
      let* st := foldM (fun st nu =>
        let* ai := get a (snd st) in
        let* xn := power x nu in
        Ok (fst st + ai * xn * kpow (1 - ksum x (fun v => v)) (r - norm nu), S (snd st))) (0, 0%nat) mis in
      Ok (fst st).
End Bases.
