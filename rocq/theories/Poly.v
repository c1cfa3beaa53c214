(** Model of the polynomial classes on the unit simplex:
    polynomial/polynomials_base.py, polynomial/polynomials_monomial_basis.py,
    polynomial/polynomials_unit_simplex_bernstein_basis.py and
    polynomial/polynomials_unit_simplex_lagrange_basis.py (all under
    /repo/polynomials_on_simplices).

    A coefficient array is stored by columns: [coeff[:, k]] for a vector
    valued polynomial with n components, a single column for a scalar valued
    one (numpy's row assignments act on every column in the same way).  A
    point is a list of [m] numbers (a plain number when m = 1), a value is the
    list of its n components (a plain number when n = 1). *)
From Verif Require Import Base MultiIndex MultiIndexCache Fld CodeGen LinSolve MultiCoef LagrangeCache.
From Coq Require Import Field_theory Field.

(** The basis identifiers [basis()] returns. *)
Inductive basis : Type := Monomial | Bernstein | Lagrange.
Definition basis_eqb (a b : basis) : bool :=
  match a, b with Monomial, Monomial | Bernstein, Bernstein | Lagrange, Lagrange => true | _, _ => false end.

(** polynomials_base.py 11-20 [get_dimension] *)
Definition get_dimension (r n : nat) : nat := binomial (r + n) n.

(** polynomials_base.py 23-37 [get_degree_from_dimension] *)
Definition get_degree_from_dimension (dim n : nat) : result nat :=
  match find (fun r => get_dimension r n =? dim) (seq 0 20) with
  | Some r => Ok r
  | None => Err AssertionError
  end.

Section Poly.
  Context {F : fld}.
  Local Open Scope fld_scope.

  Definition kofZ (z : Z) : F :=
    match z with
    | Z0 => 0
    | Zpos p => kofnat (Pos.to_nat p)
    | Zneg p => - kofnat (Pos.to_nat p)
    end.

  (** ** Lagrange points and coefficients *)

  (** polynomials_unit_simplex_lagrange_basis.py 52-84
      [generate_lagrange_point] *)
  Definition generate_lagrange_point (n r : nat) (nu : list nat) : list F :=
    match r with O => repeat 0 n | _ => map (fun a => kofnat a / kofnat r) nu end.

  (** 87-122 [generate_lagrange_points]; np.linspace(0, 1, r + 1) has the
      entries i / r, and the single entry 0 when r = 0. *)
  Definition generate_lagrange_points (n r : nat) : result (list (list F)) :=
    if (n =? 1)%nat then
      Ok (map (fun i => match r with O => [0] | _ => [kofnat i / kofnat r] end) (seq 0 (S r)))
    else
      match r with
      | O => Ok (repeat (repeat 0 n) (get_dimension 0 n))
      | _ => let* mis := generate_all n r in Ok (map (generate_lagrange_point n r) mis)
      end.

  (** 198-222 [generate_lagrange_base_coefficients], as a list of rows *)
  Definition vandermonde (n r : nat) (points : list (list F)) : result (list (list F)) :=
    if (n =? 1)%nat then
      Ok (map (fun p => map (fun j => kpow (hd 0 p) j) (seq 0 (length points))) points)
    else
      let* mis := generate_all n r in
      mapM (fun p => mapM (fun mi => power p mi) mis) points.
  Definition generate_lagrange_base_coefficients (r n : nat) : result (list (list F)) :=
    let* points := generate_lagrange_points n r in
    let* a := vandermonde n r points in
    solve a (identity (length points)).

  (** 156-175 [generate_lagrange_basis_fn_coefficients] *)
  Definition generate_lagrange_basis_fn_coefficients (nu : list nat) (r : nat) : result (list F) :=
    let n := length nu in
    let* i := get_index nu r in
    let* a := generate_lagrange_base_coefficients r n in
    Ok (mat_col a i).

  Definition cached_number (pq : Z * nat) : F :=
    match snd pq with 1%nat => kofZ (fst pq) | q => kofZ (fst pq) / kofnat q end.
  Fixpoint lookup {B} (d : list (list nat * B)) (mi : list nat) : result B :=
    match d with
    | [] => Err KeyError
    | (k, v) :: d' => if leqb k mi then Ok v else lookup d' mi
    end.
  (** The cached dictionary for [n] and [r], if [n] and [r] are in the ranges
      tested at 142-143 and 189-190 *)
  Definition cached (n r : nat) : option (list (list nat * list (Z * nat))) :=
    match n, r with
    | S n', S r' => match nth_error lagrange_basis_coefficients_cache n' with Some t => nth_error t r' | None => None end
    | _, _ => None
    end.

  (** 125-153 [get_lagrange_basis_fn_coefficients] for a MultiIndex or tuple *)
  Definition get_lagrange_basis_fn_coefficients (nu : list nat) (r : nat) : result (list F) :=
    match cached (length nu) r with
    | Some d => let* c := lookup d nu in Ok (map cached_number c)
    | None => generate_lagrange_basis_fn_coefficients nu r
    end.

  (** 178-195 [get_lagrange_base_coefficients] *)
  Definition get_lagrange_base_coefficients (r n : nat) : result (list (list F)) :=
    match cached n r with
    | Some d =>
        let rows := map (fun e => map cached_number (snd e)) d in
        Ok (transpose (length (hd [] rows)) rows)
    | None => generate_lagrange_base_coefficients r n
    end.

  (** ** Objects *)

  Record poly := mkPoly {
    p_basis : basis;
    p_cols : list (list F);     (* coeff *)
    p_r : nat;
    p_m : nat;
    p_code : list (code F) }.   (* the compiled function, one expression per component *)

  (** Class specific code generation for one component.
      - Polynomial.__init__ 63: the coefficients themselves
        (generate_monomial_polynomial_functions.py
        [generate_function_eval_specific_scalar_valued]);
      - PolynomialBernstein.__init__ 78-89: coefficients times binomial or
        multinomial coefficients;
      - PolynomialLagrange.__init__ 251 and
        generate_lagrange_polynomial_functions_simplex.py 144-175: the
        monomial coefficients [np.dot(l, a)]. *)
  Definition bernstein_a (m r : nat) (c : list F) : result (list F) :=
    if (m =? 1)%nat then
      mapM (fun i => let* ci := get c i in Ok (ci * binomF r i)) (seq 0 (S r))
    else
      let* mis := generate_all m r in
      mapM (fun p => let* f := multinom_general r (snd p) in let* ci := get c (fst p) in Ok (ci * f))
           (combine (seq 0 (length mis)) mis).
  Definition eval_code (b : basis) (m r : nat) (c : list F) : result (code F) :=
    match b with
    | Monomial => monomial_code m r (map str_number c)
    | Bernstein => let* a := bernstein_a m r c in barycentric_code m r (map str_number a)
    | Lagrange =>
        let* l := get_lagrange_base_coefficients r m in
        monomial_code m r (map str_number (mat_vec l c))
    end.

  (** polynomials_base.py 159-189 [PolynomialBase.__init__] followed by the
      code generation of the subclass.  [r = None] is the default argument. *)
  Definition new_poly (b : basis) (cols : list (list F)) (r : option nat) (m : nat) : result poly :=
    let len := length (hd [] cols) in
    let* _ := assert_ (0 <? len) in
    let* r' :=
      match r with
      | Some r =>
          let* _ :=
            if (0 <? m)%nat then let* d := get_degree_from_dimension len m in assert_ (r =? d)
            else assert_ (len =? 1) in
          Ok r
      | None => get_degree_from_dimension len m
      end in
    let* codes := mapM (eval_code b m r') cols in
    Ok (mkPoly b cols r' m codes).

  (** 194-219 *)
  Definition domain_dimension (p : poly) : nat := p_m p.
  Definition target_dimension (p : poly) : nat := length (p_cols p).
  Definition degree (p : poly) : nat := p_r p.

  (** [__call__]: run the generated function *)
  Definition call (p : poly) (x : list F) : result (list F) := mapM (run_code [] x) (p_code p).

  (** Rows of a coefficient array and back. *)
  Definition row (cols : list (list F)) (i : nat) : list F := map (fun c => nth i c 0) cols.
  Definition cols_of_rows (n : nat) (rows : list (list F)) : list (list F) :=
    map (fun k => map (fun rw => nth k rw 0) rows) (seq 0 n).

  (** polynomials_base.py 243-256 [__getitem__] *)
  Definition getitem (p : poly) (i : nat) : result poly :=
    let* _ := assert_ (i <? target_dimension p) in
    if (target_dimension p =? 1)%nat then new_poly (p_basis p) (p_cols p) (Some (p_r p)) (p_m p)
    else let* c := get (p_cols p) i in new_poly (p_basis p) [c] (Some (p_r p)) (p_m p).

  (** ** zero_polynomial and unit_polynomial
      monomial 659-696, Bernstein 978-1013, Lagrange 920-955 *)
  Definition zero_polynomial (b : basis) (r m n : nat) : result poly :=
    new_poly b (repeat (repeat 0 (get_dimension r m)) n) (Some r) m.
  Definition unit_polynomial (b : basis) (r m n : nat) : result poly :=
    let dim := get_dimension r m in
    let column := match b with Monomial => upd (repeat 0 dim) 0 1 | _ => repeat 1 dim end in
    new_poly b (repeat column n) (Some r) m.

  (** ** Basis functions: monomial 279-314, Bernstein 368-404, Lagrange
      474-507.  The monomial basis function has degree [norm(nu)]. *)
  Definition basis_fn (b : basis) (nu : list nat) (r : nat) : result poly :=
    let m := length nu in
    let dim := get_dimension r m in
    let* i := get_index nu r in
    let* c := set (repeat 0 dim) i 1 in
    new_poly b [c] (Some r) m.
  Definition monomial_basis_fn (nu : list nat) : result poly := basis_fn Monomial nu (norm nu).
  (** monomial 332-380, Bernstein 422-471, Lagrange 525-574 *)
  Definition vector_valued_basis_fn (b : basis) (nu : list nat) (r i n : nat) : result poly :=
    if (n =? 1)%nat then
      let* _ := assert_ (i =? 0) in basis_fn b nu r
    else
      let* _ := assert_ (i <? n) in
      let m := length nu in
      let dim := get_dimension r m in
      let* j := get_index nu r in
      let* c := set (repeat 0 dim) j 1 in
      new_poly b (upd (repeat (repeat 0 dim) n) i c) (Some r) m.

  (** ** multiply_with_constant (339-357) and __truediv__ (359-369).  Division
      by zero gives nan or inf in numpy; here it is left unspecified. *)
  Definition scale (p : poly) (c : F) : result poly :=
    new_poly (p_basis p) (map (map (fun v => v * c)) (p_cols p)) (Some (p_r p)) (p_m p).
  Definition outer (p : poly) (c : list F) : result poly :=
    let* _ := assert_ (target_dimension p =? 1) in
    new_poly (p_basis p) (map (fun ck => map (fun v => v * ck) (hd [] (p_cols p))) c) (Some (p_r p)) (p_m p).
  Definition truediv (p : poly) (s : F) : result poly :=
    new_poly (p_basis p) (map (map (fun v => v / s)) (p_cols p)) (Some (p_r p)) (p_m p).
  (** [b * a] for [a] an entry of a coefficient array: a number when the array
      has one column and a row (ndarray) otherwise *)
  Definition mul_entry (p : poly) (a : list F) : result poly :=
    match a with [c] => scale p c | _ => outer p a end.

  (** ** degree_elevate *)

  (** polynomials_monomial_basis.py 228-238: [acc] is the array under
      construction, [idx] and [cur] are [curr_idx] and [curr_mi]. *)
  Definition elevate_step (m r : nat) (c : list F) (st : list F * nat * list nat) (imi : nat * list nat)
    : result (list F * nat * list nat) :=
    let '(acc, idx, cur) := st in
    if leqb (snd imi) cur then
      let* v := get c idx in
      let* acc' := set acc (fst imi) v in
      let idx' := S idx in
      if (idx' <? length c)%nat then let* cur' := generate m r idx' in Ok (acc', idx', cur')
      else Ok (acc', idx', cur)
    else Ok st.
  Definition elevate_monomial (m r s : nat) (c : list F) : result (list F) :=
    let* cur := generate m r 0 in
    let* mis := generate_all m s in
    let* st := foldM (elevate_step m r c) (repeat 0 (get_dimension s m), 0%nat, cur)
                     (combine (seq 0 (length mis)) mis) in
    Ok (fst (fst st)).

  (** polynomials_unit_simplex_bernstein_basis.py 276-295 *)
  Definition elevate_bernstein (m r s : nat) (c : list F) : result (list F) :=
    if (m =? 1)%nat then
      mapM (fun k =>
        let f := 1 / binomF s k in
        foldM (fun acc i => let* ci := get c i in
                 Ok (acc + binomF r i * binomF (s - r) (k - i) * f * ci)) 0
              (seq (k - (s - r)) (S (Nat.min r k) - (k - (s - r)))))
        (seq 0 (get_dimension s m))
    else
      let* mis := generate_all m s in
      mapM (fun mu =>
        let* g := multinom_general s mu in
        let f := 1 / g in
        let* sigmas := generate_all_multi_cap mu in
        foldM (fun acc sigma =>
          if (norm sigma + (s - r) <? norm mu)%nat then Ok acc
          else if (r <? norm sigma)%nat then Ok acc
          else
            let* idx := get_index sigma r in
            let* g1 := multinom_general r sigma in
            let* d := mi_minus mu sigma in
            let* ci := get c idx in
            Ok (acc + g1 * binomF (s - r) (norm d) * multinom d * f * ci)) 0 sigmas)
        mis.

  (** polynomials_unit_simplex_lagrange_basis.py 659-695 and 698-713: the dual
      basis functions evaluate at the Lagrange point *)
  Definition dual_lagrange_basis_fn (mu : list nat) (r : nat) (p : poly) : result (list F) :=
    call p (generate_lagrange_point (length mu) r mu).
  (** 400-408 *)
  Definition elevate_lagrange (p : poly) (s : nat) : result (list (list F)) :=
    let* mis := generate_all (p_m p) s in
    let* rows := mapM (fun mu => dual_lagrange_basis_fn mu s p) mis in
    Ok (cols_of_rows (target_dimension p) rows).

  (** monomial 201-238, Bernstein 247-295, Lagrange 376-408 *)
  Definition degree_elevate (p : poly) (s : nat) : result poly :=
    let r := p_r p in
    let m := p_m p in
    let* _ := assert_ (r <=? s) in
    if (s =? r)%nat then new_poly (p_basis p) (p_cols p) (Some r) m
    else
      let* cols :=
        match p_basis p with
        | Monomial => mapM (elevate_monomial m r s) (p_cols p)
        | Bernstein => mapM (elevate_bernstein m r s) (p_cols p)
        | Lagrange => elevate_lagrange p s
        end in
      new_poly (p_basis p) cols (Some s) m.

  (** ** polynomials_base.py 275-317 [__add__] and [__sub__]; [op] is the
      operation on the coefficient arrays.  After degree elevation the
      recursive call is the equal degree case. *)
  Definition check_operands (p q : poly) : result unit :=
    let* _ := assert_ (domain_dimension p =? domain_dimension q) in
    let* _ := assert_ (target_dimension p =? target_dimension q) in
    assert_ (basis_eqb (p_basis p) (p_basis q)).
  Definition same_degree (op : F -> F -> F) (p q : poly) : result poly :=
    let* _ := check_operands p q in
    new_poly (p_basis p)
      (map (fun cd => map (fun v => op (fst v) (snd v)) (combine (fst cd) (snd cd))) (combine (p_cols p) (p_cols q)))
      (Some (p_r p)) (p_m p).
  Definition linear_op (op : F -> F -> F) (p q : poly) : result poly :=
    let* _ := check_operands p q in
    if (degree p =? degree q)%nat then same_degree op p q
    else if (degree q <? degree p)%nat then
      let* q' := degree_elevate q (degree p) in same_degree op p q'
    else
      let* p' := degree_elevate p (degree q) in same_degree op p' q.
  Definition add (p q : poly) : result poly := linear_op kadd p q.
  Definition sub (p q : poly) : result poly := linear_op ksub p q.

  (** ** to_monomial_basis *)

  (** Bernstein 501-553 [bernstein_basis_fn_monomial] (for a tuple [nu]; the
      quotients are integers) *)
  Definition bernstein_basis_fn_monomial (nu : list nat) (r : nat) : result poly :=
    let m := length nu in
    let dim := get_dimension r m in
    let c0 := kofnat (fact r) / kofnat (mi_factorial nu) in
    let* _ := assert_ (norm nu <=? r) in   (* generate_all asserts r >= 0 *)
    let* mus := generate_all m (r - norm nu) in
    let* c := foldM (fun acc mu =>
      let v := c0 / (kofnat (mi_factorial mu) * kofnat (fact (r - norm nu - norm mu))) in
      let v := if Nat.odd (norm mu) then v * (- (1)) else v in
      let* j := get_index (mi_add mu nu) r in
      set acc j v) (repeat 0 dim) mus in
    new_poly Monomial [c] (Some r) m.
  (** Lagrange 604-637 [lagrange_basis_fn_monomial] *)
  Definition lagrange_basis_fn_monomial (nu : list nat) (r : nat) : result poly :=
    let* c := get_lagrange_basis_fn_coefficients nu r in
    new_poly Monomial [c] (Some r) (length nu).
  (** Bernstein 556-572 and Lagrange 640-656 *)
  Definition basis_monomial (b : basis) (r n : nat) : result (list poly) :=
    let* mis := generate_all n r in
    mapM (fun mi => match b with
                    | Lagrange => lagrange_basis_fn_monomial mi r
                    | _ => bernstein_basis_fn_monomial mi r
                    end) mis.
  (** monomial 240-247, Bernstein 297-306, Lagrange 410-418.  The class level
      dictionary of Lagrange basis polynomials (245-248, 420) only memoises
      [lagrange_basis_monomial(r, m)] and is not modelled. *)
  Definition to_monomial_basis (p : poly) : result poly :=
    match p_basis p with
    | Monomial => Ok p
    | b =>
      let* bs := basis_monomial b (p_r p) (p_m p) in
      let* terms := mapM (fun ib => mul_entry (snd ib) (row (p_cols p) (fst ib)))
                         (combine (seq 0 (length (hd [] (p_cols p)))) bs) in
      let* z := zero_polynomial Monomial 0 (p_m p) (target_dimension p) in
      foldM add z terms
    end.

  (** ** __mul__ of two polynomials *)

  (** np.convolve of two non-empty arrays *)
  Definition convolve (a b : list F) : list F :=
    map (fun k => ksum (seq 0 (S k)) (fun i => nth i a 0 * nth (k - i) b 0)) (seq 0 (length a + length b - 1)).
  (** monomial 122-140 *)
  Definition mul_monomial (m r1 r2 : nat) (a b : list F) : result (list F) :=
    if (m =? 1)%nat then Ok (convolve a b)
    else
      let r := (r1 + r2)%nat in
      let* mus := generate_all m r1 in
      let* nus := generate_all m r2 in
      foldM (fun acc i =>
        let* ai := get a i in
        if kdec ai 0 then Ok acc
        else
          let* mu := get mus i in
          foldM (fun acc j =>
            let* bj := get b j in
            if kdec bj 0 then Ok acc
            else
              let* nu := get nus j in
              let* k := get_index (mi_add mu nu) r in
              let* old := get acc k in
              set acc k (old + ai * bj)) acc (seq 0 (length b)))
        (repeat 0 (get_dimension r m)) (seq 0 (length a)).
  (** Bernstein 141-170 *)
  Definition mul_bernstein (m r s : nat) (a b : list F) : result (list F) :=
    if (m =? 1)%nat then
      mapM (fun k =>
        foldM (fun acc i =>
          let* ai := get a i in
          let* bj := get b (k - i) in
          Ok (acc + binomF r i * binomF s (k - i) / binomF (r + s) k * ai * bj)) 0
          (seq (k - s) (S (Nat.min r k) - (k - s))))
        (seq 0 (get_dimension (r + s) m))
    else
      let* taus := generate_all m (r + s) in
      mapM (fun tau =>
        let* nus := generate_all_multi_cap tau in
        foldM (fun acc nu =>
          let* d := mi_minus tau nu in
          if (s <? norm d)%nat then Ok acc
          else if (r <? norm nu)%nat then Ok acc
          else
            let* i := get_index nu r in
            let* j := get_index d s in
            let* g1 := multinom_general r nu in
            let* g2 := multinom_general s d in
            let* g3 := multinom_general (r + s) tau in
            let* ai := get a i in
            let* bj := get b j in
            Ok (acc + g1 * g2 / g3 * ai * bj)) 0 nus)
        taus.
  (** Lagrange 299-305; [p(x)] of a scalar valued polynomial is its single
      component *)
  Definition call1 (p : poly) (x : list F) : result F :=
    let* v := call p x in get v 0.
  Definition mul_lagrange (p q : poly) : result (list F) :=
    let* xs := generate_lagrange_points (p_m p) (p_r p + p_r q) in
    mapM (fun x => let* u := call1 p x in let* v := call1 q x in Ok (u * v)) xs.
  (** monomial 93-140, Bernstein 119-170, Lagrange 281-306.  The Lagrange
      class accepts any polynomial as second factor. *)
  Definition mul (p q : poly) : result poly :=
    let* _ := assert_ (domain_dimension p =? domain_dimension q) in
    let* _ := assert_ (target_dimension p =? 1) in
    let* _ := assert_ (target_dimension q =? 1) in
    let a := hd [] (p_cols p) in
    let b := hd [] (p_cols q) in
    let m := p_m p in
    let r := (p_r p + p_r q)%nat in
    match p_basis p with
    | Monomial =>
        let* _ := assert_ (basis_eqb (p_basis q) Monomial) in
        let* c := mul_monomial m (p_r p) (p_r q) a b in new_poly Monomial [c] (Some r) m
    | Bernstein =>
        let* _ := assert_ (basis_eqb (p_basis q) Bernstein) in
        let* c := mul_bernstein m (p_r p) (p_r q) a b in new_poly Bernstein [c] (Some r) m
    | Lagrange =>
        let* c := mul_lagrange p q in new_poly Lagrange [c] (Some r) m
    end.

  (** ** __pow__ with an integer exponent: monomial 156-163, Bernstein 186-193,
      Lagrange 322-329 *)
  Fixpoint pow (p : poly) (e : nat) : result poly :=
    let* _ := assert_ (target_dimension p =? 1) in
    match e with
    | O => unit_polynomial (p_basis p) 0 (p_m p) 1
    | 1%nat => new_poly (p_basis p) (p_cols p) (Some (p_r p)) (p_m p)
    | S e' => let* q := pow p e' in mul p q
    end.

  (** ** __pow__ with a multi-index exponent *)
  (** Bernstein 194-205; [fuel] is the norm of the exponent *)
  Fixpoint pow_mi_bernstein (fuel : nat) (p : poly) (e : list nat) : result poly :=
    let* _ := assert_ (length e =? target_dimension p) in
    if (norm e =? 0)%nat then new_poly Bernstein [[1]] (Some 0%nat) (p_m p)
    else
      match fuel with
      | O => Err OutOfFuel
      | S f =>
        match find (fun i => negb (nth i e 0%nat =? 0)%nat) (seq 0 (length e)) with
        | None => Err TypeError   (* the method would return None *)
        | Some i =>
          let* ei := unit_multiindex (target_dimension p) i in
          let* c := if (target_dimension p =? 1)%nat then Err IndexError else get (p_cols p) i in
          let* pi := new_poly Bernstein [c] (Some (p_r p)) (p_m p) in
          let* e' := mi_minus e ei in
          let* q := pow_mi_bernstein f p e' in
          mul pi q
        end
      end.
  Definition pow_mi (p : poly) (e : list nat) : result poly :=
    match p_basis p with
    | Monomial =>   (* 164-170 *)
        let* _ := assert_ (length e =? target_dimension p) in
        let* one := monomial_basis_fn (zero_multiindex (p_m p)) in
        foldM (fun q i => let* pi := getitem p i in let* ei := get e i in let* f := pow pi ei in mul q f)
              one (seq 0 (length e))
    | Bernstein => pow_mi_bernstein (norm e) p e
    | Lagrange =>   (* 330-342; a number has no len() *)
        let* _ := assert_ (length e =? target_dimension p) in
        let m := p_m p in
        let r := (p_r p * norm e)%nat in
        let* xs := generate_lagrange_points m r in
        let* c := mapM (fun x => let* v := call p x in
                          if (target_dimension p =? 1)%nat then Err TypeError else power v e) xs in
        new_poly Lagrange [c] (Some r) m
    end.

  (** ** partial_derivative *)
  (** monomial 189-199 *)
  Definition derive_monomial (m r i : nat) (c : list F) : result (list F) :=
    let* taus := generate_all m (r - 1) in
    mapM (fun tau =>
      let* e := unit_multiindex m i in
      let* ti := get tau i in
      let* idx := get_index (mi_add tau e) r in
      let* v := get c idx in
      Ok (kofnat (ti + 1) * v)) taus.
  (** Bernstein 224-245 *)
  Definition derive_bernstein (m r i : nat) (c : list F) : result (list F) :=
    let* d :=
      if (m =? 1)%nat then
        mapM (fun k => let* u := get c (k + 1) in let* v := get c k in Ok (u - v)) (seq 0 r)
      else
        let* mus := generate_all m (r - 1) in
        mapM (fun mu =>
          let* e := unit_multiindex m i in
          let* k1 := get_index (mi_add mu e) r in
          let* k2 := get_index mu r in
          let* u := get c k1 in let* v := get c k2 in Ok (u - v)) mus in
    Ok (map (fun v => v * kofnat r) d).
  (** monomial 172-199, Bernstein 207-245, Lagrange 344-374 *)
  Definition derive_poly_monomial (p : poly) (i : nat) : result poly :=
    let m := p_m p in
    let r := p_r p in
    let* _ := assert_ (i <? m) in
    if (r =? 0)%nat then zero_polynomial Monomial 0 m (target_dimension p)
    else
      let* cols := mapM (derive_monomial m r i) (p_cols p) in new_poly Monomial cols (Some (r - 1)%nat) m.
  Definition partial_derivative (p : poly) (i : nat) : result poly :=
    let m := p_m p in
    let r := p_r p in
    let n := target_dimension p in
    match p_basis p with
    | Monomial => derive_poly_monomial p i
    | Bernstein =>
        let* _ := assert_ (i <? m) in
        if (r =? 0)%nat then zero_polynomial Bernstein 0 m n
        else let* cols := mapM (derive_bernstein m r i) (p_cols p) in new_poly Bernstein cols (Some (r - 1)%nat) m
    | Lagrange =>
        let* _ := assert_ (i <? m) in
        if (r =? 0)%nat then zero_polynomial Lagrange 0 m n
        else
          let* q := to_monomial_basis p in
          let* dq := derive_poly_monomial q i in
          let* xs := generate_lagrange_points m (r - 1) in
          let* rows := mapM (call dq) xs in
          new_poly Lagrange (cols_of_rows n rows) (Some (r - 1)%nat) m
    end.
End Poly.
Arguments poly F : clear implicits.
