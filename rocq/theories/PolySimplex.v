(** Model of the polynomial classes on a simplex:
    polynomial/polynomials_simplex_base.py,
    polynomial/polynomials_simplex_bernstein_basis.py and
    polynomial/polynomials_simplex_lagrange_basis.py, and of the integrals in
    calculus/polynomial/polynomials_simplex_*_basis_calculus.py (all under
    /repo/polynomials_on_simplices).

    The two classes share most of their code; the class is the basis (Bernstein
    or Lagrange) of the polynomial on the unit simplex each object holds.
    Points are numbers or one-dimensional arrays ([pt]).  [str(vertices)], which
    [basis()] is made of, only enters through the comparison [veq] of the
    strings of two vertex arrays.  String functions are not modelled. *)
From Verif Require Import Base MultiIndex MultiIndexCache Fld FldInst CodeGen LinSolve Det Linalg Simplicial SimplexGeo MultiCoef LagrangeCache Poly IntegralCache Integrate Bases.
From Verif Require SetTheory.

Section PolySimplex.
  Context {Q : ofld} (ksqrt : Q -> Q) (tol : Q) (veq : list (list Q) -> list (list Q) -> bool).
  Local Open Scope fld_scope.

  Record spoly := mkSpoly {
    sp_vs : list (list Q);                     (* vertices *)
    sp_u : poly Q;                             (* _unit_simplex_polynomial *)
    sp_ab : arr Q * arr Q;                     (* _a, _b *)
    sp_phi : arr Q -> result (arr Q) }.        (* _phi_inv *)

  (** polynomials_simplex_base.py 79-96, Bernstein 62-79, Lagrange 122-140:
      the coefficients, degree and dimensions of the object are those of the
      polynomial on the unit simplex *)
  Definition new_spoly (b : basis) (cols : list (list Q)) (vs : list (list Q)) (r : option nat) : result spoly :=
    match vs with
    | [] => Err IndexError
    | v0 :: _ =>
      let m := length v0 in
      let* u := new_poly b cols r m in
      let* ab := affine_transformation_to_unit vs in
      let* phi := affine_map_to_unit ksqrt tol vs in
      Ok (mkSpoly vs u ab phi)
    end.
  Definition sp_basis (p : spoly) : basis := p_basis (sp_u p).
  Definition sp_cols (p : spoly) : list (list Q) := p_cols (sp_u p).
  Definition sp_r (p : spoly) : nat := p_r (sp_u p).
  Definition sp_m (p : spoly) : nat := p_m (sp_u p).
  Definition sp_n (p : spoly) : nat := target_dimension (sp_u p).

  (** The polynomial on the unit simplex evaluated at a number or array.  A
      number in place of an array can be passed if no coordinate is read. An
      array in place of a number is not modelled. *)
  Definition call_arr (u : poly Q) (x : arr Q) : result (list Q) :=
    match x with
    | Sc t => if (p_m u =? 1)%nat then call u [t] else match call u [] with Ok v => Ok v | Err _ => Err IndexError end
    | Vec v => if (p_m u =? 1)%nat then Err RuntimeError else call u v
    | Mat _ => Err RuntimeError
    end.
  (** Bernstein 94-103, Lagrange 155-164 *)
  Definition sp_call (p : spoly) (x : arr Q) : result (list Q) :=
    let* y := sp_phi p x in call_arr (sp_u p) y.
  Definition sp_call1 (p : spoly) (x : arr Q) : result Q := let* v := sp_call p x in get v 0.

  (** polynomials_simplex_base.py 98-111 *)
  Definition sp_getitem (p : spoly) (i : nat) : result spoly :=
    let* _ := assert_ (i <? sp_n p)%nat in
    if (sp_n p =? 1)%nat then new_spoly (sp_basis p) (sp_cols p) (sp_vs p) (Some (sp_r p))
    else let* c := get (sp_cols p) i in new_spoly (sp_basis p) [c] (sp_vs p) (Some (sp_r p)).
  (** [self.basis() == other.basis()] *)
  Definition same_sbasis (p q : spoly) : bool := basis_eqb (sp_basis p) (sp_basis q) && veq (sp_vs p) (sp_vs q).
  Definition sp_check (p q : spoly) : result unit :=
    let* _ := assert_ (sp_m p =? sp_m q)%nat in
    let* _ := assert_ (sp_n p =? sp_n q)%nat in
    assert_ (same_sbasis p q).
  (** Bernstein 198-220, Lagrange 275-297 *)
  Definition sp_degree_elevate (p : spoly) (s : nat) : result spoly :=
    let* _ := assert_ (sp_r p <=? s)%nat in
    if (s =? sp_r p)%nat then new_spoly (sp_basis p) (sp_cols p) (sp_vs p) (Some (sp_r p))
    else let* u := degree_elevate (sp_u p) s in new_spoly (sp_basis p) (p_cols u) (sp_vs p) (Some s).
  (** polynomials_simplex_base.py 113-155 *)
  Definition sp_same_degree (op : Q -> Q -> Q) (p q : spoly) : result spoly :=
    let* _ := sp_check p q in
    new_spoly (sp_basis p)
      (map (fun cd => map (fun v => op (fst v) (snd v)) (combine (fst cd) (snd cd))) (combine (sp_cols p) (sp_cols q)))
      (sp_vs p) (Some (sp_r p)).
  Definition sp_linear_op (op : Q -> Q -> Q) (p q : spoly) : result spoly :=
    let* _ := sp_check p q in
    if (sp_r p =? sp_r q)%nat then sp_same_degree op p q
    else if (sp_r q <? sp_r p)%nat then
      let* q' := sp_degree_elevate q (sp_r p) in sp_same_degree op p q'
    else
      let* p' := sp_degree_elevate p (sp_r q) in sp_same_degree op p' q.
  Definition sp_add := sp_linear_op kadd.
  Definition sp_sub := sp_linear_op ksub.
  (** 157-187 *)
  Definition sp_scale (p : spoly) (c : Q) : result spoly :=
    new_spoly (sp_basis p) (map (map (fun v => v * c)) (sp_cols p)) (sp_vs p) (Some (sp_r p)).
  Definition sp_outer (p : spoly) (c : list Q) : result spoly :=
    let* _ := assert_ (sp_n p =? 1)%nat in
    new_spoly (sp_basis p) (map (fun ck => map (fun v => v * ck) (hd [] (sp_cols p))) c) (sp_vs p) (Some (sp_r p)).
  Definition sp_truediv (p : spoly) (s : Q) : result spoly :=
    new_spoly (sp_basis p) (map (map (fun v => v / s)) (sp_cols p)) (sp_vs p) (Some (sp_r p)).

  (** Bernstein 707-754, Lagrange 734-782 *)
  Definition sp_zero (b : basis) (vs : list (list Q)) (r n : nat) : result spoly :=
    match vs with
    | [] => Err IndexError
    | v0 :: _ => new_spoly b (repeat (repeat 0 (get_dimension r (length v0))) n) vs (Some r)
    end.
  Definition sp_unit (b : basis) (vs : list (list Q)) (r n : nat) : result spoly :=
    match vs with
    | [] => Err IndexError
    | v0 :: _ => new_spoly b (repeat (repeat 1 (get_dimension r (length v0))) n) vs (Some r)
    end.

  (** Lagrange 58-82; the array of length one the code passes on and returns on
      the line is a number here *)
  Definition generate_lagrange_point_simplex (vs : list (list Q)) (r : nat) (nu : list nat) : result (arr Q) :=
    let x := generate_lagrange_point (dimension vs) r nu in
    let* phi := affine_map_from_unit vs in
    phi (pt x).
  (** 85-111; note the embedding dimension *)
  Definition generate_lagrange_points_simplex (vs : list (list Q)) (r : nat) : result (list (arr Q)) :=
    let* phi := affine_map_from_unit vs in
    match vs with
    | [] => Err IndexError
    | v0 :: _ =>
      let* xbar := generate_lagrange_points (length v0) r in
      mapM (fun x => phi (pt x)) xbar
    end.

  (** Bernstein 105-126, Lagrange 166-191.  The Lagrange class accepts any
      polynomial as second factor. *)
  Definition sp_mul (p q : spoly) : result spoly :=
    match sp_basis p with
    | Lagrange =>
      let* _ := assert_ (sp_m p =? sp_m q)%nat in
      let* _ := assert_ (sp_n p =? 1)%nat in
      let* _ := assert_ (sp_n q =? 1)%nat in
      let r := (sp_r p + sp_r q)%nat in
      let* xs := generate_lagrange_points_simplex (sp_vs p) r in
      let* c := mapM (fun x => let* u := sp_call1 p x in let* v := sp_call1 q x in Ok (u * v)) xs in
      new_spoly Lagrange [c] (sp_vs p) (Some r)
    | b =>
      let* _ := assert_ (same_sbasis p q) in
      let* _ := assert_ (sp_n p =? 1)%nat in
      let* _ := assert_ (sp_n q =? 1)%nat in
      let* u := mul (sp_u p) (sp_u q) in
      new_spoly b (p_cols u) (sp_vs p) (Some (sp_r p + sp_r q)%nat)
    end.
  (** Bernstein 128-150 (integer exponent), Lagrange 207-214; for exponent 0
      the Lagrange class returns a polynomial of degree 1 *)
  Fixpoint sp_pow_lagrange (p : spoly) (e : nat) : result spoly :=
    let* _ := assert_ (sp_n p =? 1)%nat in
    match e with
    | O => sp_unit Lagrange (sp_vs p) 1 1
    | 1%nat => new_spoly Lagrange (sp_cols p) (sp_vs p) (Some (sp_r p))
    | S e' => let* q := sp_pow_lagrange p e' in sp_mul p q
    end.
  Definition sp_pow (p : spoly) (e : nat) : result spoly :=
    match sp_basis p with
    | Lagrange => sp_pow_lagrange p e
    | b => let* u := pow (sp_u p) e in new_spoly b (p_cols u) (sp_vs p) (Some (sp_r p * e)%nat)
    end.
  (** Bernstein 143-150 and Lagrange 215-227, exponent a multi-index *)
  Definition sp_pow_mi (p : spoly) (e : list nat) : result spoly :=
    match sp_basis p with
    | Lagrange =>
      let* _ := assert_ (length e =? sp_n p)%nat in
      let r := (sp_r p * norm e)%nat in
      let* xs := generate_lagrange_points_simplex (sp_vs p) r in
      let* c := mapM (fun x => let* v := sp_call p x in
                        if (sp_n p =? 1)%nat then Err TypeError else power v e) xs in
      new_spoly Lagrange [c] (sp_vs p) (Some r)
    | b =>
      let* u := pow_mi (sp_u p) e in
      let* r := foldM (fun r i => let* pi := sp_getitem p i in let* ei := get e i in Ok (r + sp_r pi * ei)%nat)
                      0%nat (seq 0 (length e)) in
      new_spoly b (p_cols u) (sp_vs p) (Some r)
    end.

  (** Bernstein 152-196, Lagrange 229-273; [a[k, i]] *)
  Definition entry (a : arr Q) (k i : nat) : result Q :=
    match a with Mat rows => let* row := get rows k in get row i | _ => Err IndexError end.
  Definition column_sum (c d : list Q) : list Q := map (fun v => fst v + snd v) (combine c d).
  Definition scaled_column (u : poly Q) (s : Q) : list Q := map (fun v => v * s) (hd [] (p_cols u)).
  Definition sp_partial_derivative (p : spoly) (i : nat) : result spoly :=
    let m := sp_m p in
    let n := sp_n p in
    let r := sp_r p in
    let b := sp_basis p in
    let new cols := new_spoly b cols (sp_vs p) (Some (r - 1)%nat) in
    let a := fst (sp_ab p) in
    let* _ := assert_ (i <? m)%nat in
    if (r =? 0)%nat then sp_zero b (sp_vs p) 0 n
    else if (m =? 1)%nat then
      match a with
      | Sc s =>
        if (n =? 1)%nat then
          let* db := partial_derivative (sp_u p) 0 in
          let* d := new (p_cols db) in
          sp_scale d s
        else
          let* jb := jacobian (sp_u p) in
          let* cols := mapM (fun j => let* row := get jb j in let* d := get row 0 in Ok (scaled_column d s)) (seq 0 n) in
          new cols
      | _ => Err RuntimeError
      end
    else if (n =? 1)%nat then
      let* gb := gradient1 (sp_u p) in
      let term k := let* g := get gb k in
                    let* d := new (p_cols g) in
                    let* s := entry a k i in sp_scale d s in
      let* d0 := term 0%nat in
      foldM (fun d k => let* t := term k in sp_add d t) d0 (seq 1 (m - 1))
    else
      let* jb := jacobian (sp_u p) in
      let* cols := mapM (fun j =>
        let* row := get jb j in
        let term k := let* d := get row k in let* s := entry a k i in Ok (scaled_column d s) in
        let* c0 := term 0%nat in
        foldM (fun c k => let* t := term k in Ok (column_sum c t)) c0 (seq 1 (m - 1))) (seq 0 n) in
      new cols.
  (** polynomials_calculus.py 63-98 *)
  Definition sp_derivative (p : spoly) (alpha : list nat) : result spoly :=
    let* _ := assert_ (length alpha =? sp_m p)%nat in
    foldM (fun dp i =>
      let* ai := get alpha i in
      foldM (fun dp _ => sp_partial_derivative dp i) dp (seq 0 ai)) p (seq 0 (length alpha)).
  (** polynomials_monomial_basis.py 410-447 applied to a polynomial on a simplex *)
  Definition sp_dual_monomial (mu : list nat) (p : spoly) : result (list Q) :=
    let* dp := sp_derivative p mu in
    let* v := sp_call dp (pt (repeat 0 (length mu))) in
    Ok (map (fun a => a / kofnat (mi_factorial mu)) v).
  (** Bernstein 222-238, Lagrange 299-315 *)
  Definition sp_to_monomial (p : spoly) : result (poly Q) :=
    let* mis := generate_all (sp_m p) (sp_r p) in
    let* rows := mapM (fun mu => sp_dual_monomial mu p) mis in
    new_poly Monomial (cols_of_rows (sp_n p) rows) (Some (sp_r p)) (sp_m p).

  (** Bernstein 326-355, Lagrange 402-431, [nu] a tuple or MultiIndex *)
  Definition sp_basis_fn (b : basis) (nu : list nat) (r : nat) (vs : list (list Q)) : result spoly :=
    let* i := get_index nu r in
    let* c := set (repeat 0 (get_dimension r (length nu))) i 1 in
    new_spoly b [c] vs (Some r).
  (** Bernstein 358-372, Lagrange 434-448 *)
  Definition sp_basis_all (b : basis) (r : nat) (vs : list (list Q)) : result (list spoly) :=
    let* mis := generate_all (dimension vs) r in
    mapM (fun mi => sp_basis_fn b mi r vs) mis.
  (** Bernstein 375-413, Lagrange 451-489 *)
  Definition sp_vector_basis_fn (b : basis) (nu : list nat) (r i : nat) (vs : list (list Q)) (n : nat) : result spoly :=
    if (n =? 1)%nat then let* _ := assert_ (i =? 0)%nat in sp_basis_fn b nu r vs
    else
      let* _ := assert_ (i <? n)%nat in
      let dim := get_dimension r (length nu) in
      let* j := get_index nu r in
      let* c := set (repeat 0 dim) j 1 in
      new_spoly b (upd (repeat (repeat 0 dim) n) i c) vs (Some r).
  (** Bernstein 416-443, Lagrange 492-519 *)
  Definition sp_vector_basis (b : basis) (r : nat) (vs : list (list Q)) (n : nat) (interleaved : bool) : result (list spoly) :=
    let* mis := generate_all (dimension vs) r in
    if interleaved
    then mapM (fun mi_i => sp_vector_basis_fn b (fst mi_i) r (snd mi_i) vs n) (list_prod mis (seq 0 n))
    else mapM (fun i_mi => sp_vector_basis_fn b (snd i_mi) r (fst i_mi) vs n) (list_prod (seq 0 n) mis).

  (** ** Integrals *)
  (** [det]: bernstein_basis_calculus.py 94-99, lagrange_basis_calculus.py
      123-128, bernstein_basis.py 508-513; numpy.linalg.det of a matrix that is
      not square is a LinAlgError *)
  Definition positive_det (vs : list (list Q)) : result Q :=
    let* ab := affine_transformation_from_unit vs in
    let* det := match fst ab with
                | Sc x => Ok x
                | Vec _ => Err LinAlgError
                | Mat a => if (ncols a =? length a)%nat then Ok (np_det a) else Err LinAlgError end in
    let* _ := assert_ (kltb 0 det) in
    Ok det.
  (** bernstein_basis_calculus.py 73-129 *)
  Definition integrate_bernstein_basis_fn_simplex (r : nat) (vs : list (list Q)) : result Q :=
    let* det := positive_det vs in
    Ok (det * integrate_bernstein_basis_fn_unit_simplex r (dimension vs)).
  Definition integrate_bernstein_polynomial_simplex (r : nat) (a : list Q) (vs : list (list Q)) : result Q :=
    let* _ := assert_ (length a =? get_dimension r (dimension vs))%nat in
    let* c := integrate_bernstein_basis_fn_simplex r vs in
    Ok (c * py_sum a).
  (** lagrange_basis_calculus.py 100-162 *)
  Definition integrate_lagrange_basis_fn_simplex (nu : list nat) (r : nat) (vs : list (list Q)) : result Q :=
    let* iu := integrate_lagrange_basis_fn_unit_simplex nu r in
    let* det := positive_det vs in
    Ok (det * iu).
  Definition integrate_lagrange_polynomial_simplex (r : nat) (a : list Q) (vs : list (list Q)) : result Q :=
    let n := dimension vs in
    let* _ := assert_ (length a =? get_dimension r n)%nat in
    let* mis := generate_all n r in
    foldM (fun res i =>
      let* nu := get mis i in
      let* ai := get a i in
      let* v := integrate_lagrange_basis_fn_simplex nu r vs in
      Ok (res + ai * v)) 0 (seq 0 (length mis)).
  (** monomial_basis_calculus.py 56-101; [signs] is the set {-1, 1}.  The branch
      of the code for [q = 1] iterates over the signs themselves, which [tuple_of]
      turns into tuples of length one. *)
  Definition sign_of (s : bool) : Q := if s then - (1) else 1.
  Definition tuple_of (v : SetTheory.val bool) : list bool := match v with SetTheory.El a => [a] | SetTheory.Tp l => l end.
  Definition signed_term (vs : list (list Q)) (nu : list nat) (i : list nat) (eps : list bool) : result Q :=
    let w := fold_left (fun w s => w * sign_of s) eps 1 in
    let x := fold_left (fun x k => vadd x (vscale (sign_of (nth k eps false)) (vtx vs (nth k i 0%nat))))
                       (seq 0 (length eps)) (repeat 0 (embedding_dimension vs)) in
    let* p := power x nu in
    Ok (w * p).
  Definition integrate_homogeneous_polynomial_simplex (nu : list nat) (vs : list (list Q)) : result Q :=
    let* v := volume ksqrt vs in
    let q := norm nu in
    if (q =? 0)%nat then Ok v
    else
      let n := (length vs - 1)%nat in
      let* is_ := generate_all_non_decreasing q n in
      let* eps := SetTheory.nfold_cartesian_product Bool.bool_dec [true; false] q in
      let* res := foldM (fun res i => foldM (fun res e => let* t := signed_term vs nu i (tuple_of e) in Ok (res + t)) res eps) 0 is_ in
      Ok (res * (v / (kpow (1 + 1) q * kofnat (fact q) * binomF (q + n) q))).
  (** 143-175 *)
  Definition integrate_polynomial_simplex (r : nat) (a : list Q) (vs : list (list Q)) : result Q :=
    let n := (length vs - 1)%nat in
    let* mis := generate_all n r in
    foldM (fun res i =>
      let* nu := get mis i in
      let* ai := get a i in
      let* v := integrate_homogeneous_polynomial_simplex nu vs in
      Ok (res + ai * v)) 0 (seq 0 (length mis)).
  (** 214-254, for polynomials in the monomial basis *)
  Definition l2_inner_product_simplex (p1 p2 : poly Q) (vs : list (list Q)) : result Q :=
    let* p := mul p1 p2 in
    integrate_polynomial_simplex (p_r p) (hd [] (p_cols p)) vs.
  Definition l2_norm2_simplex (p : poly Q) (vs : list (list Q)) : result Q := l2_inner_product_simplex p p vs.
  (** polynomials_calculus.py 201-236, for the coefficients of a polynomial of
      degree [r] in the basis [b]: [basis().startswith(...)] holds for the bases
      on the unit simplex and for those on a simplex.  The sums in the two
      functions act on each component of vector coefficients. *)
  Definition integrate_simplex (b : basis) (cols : list (list Q)) (r : nat) (vs : list (list Q)) : result (list Q) :=
    match b with
    | Lagrange => mapM (fun a => integrate_lagrange_polynomial_simplex r a vs) cols
    | Bernstein => mapM (fun a => integrate_bernstein_polynomial_simplex r a vs) cols
    | Monomial => Err TypeError
    end.

  (** ** Dual bases *)
  (** Bernstein 488-514 *)
  Definition dual_bernstein_basis_polynomial_simplex (mu : list nat) (r : nat) (vs : list (list Q)) : result spoly :=
    let* db := dual_bernstein_basis_polynomial mu r in
    let* det := positive_det vs in
    new_spoly Bernstein (map (map (fun v => 1 / det * v)) (p_cols db)) vs (Some r).
  (** 537-574 for a polynomial on the simplex and for a Polynomial *)
  Definition dual_bernstein_basis_fn_simplex (mu : list nat) (r : nat) (vs : list (list Q)) (p : spoly) : result (list Q) :=
    let* d := dual_bernstein_basis_polynomial_simplex mu r vs in
    match sp_basis p with
    | Bernstein =>
      let* t := sp_mul d p in
      mapM (fun c => integrate_bernstein_polynomial_simplex (2 * r) c vs) (sp_cols t)
    | _ => Err AssertionError
    end.
  Definition dual_bernstein_basis_fn_simplex_monomial (mu : list nat) (r : nat) (vs : list (list Q)) (p : poly Q) : result (list Q) :=
    let* d := dual_bernstein_basis_polynomial_simplex mu r vs in
    let* _ := assert_ (basis_eqb (p_basis p) Monomial) in
    let* dm := sp_to_monomial d in
    let* t := mul dm p in
    mapM (fun c => integrate_polynomial_simplex (2 * r) c vs) (p_cols t).
  (** Lagrange 564-601 *)
  Definition dual_lagrange_basis_fn_simplex (mu : list nat) (r : nat) (vs : list (list Q)) (p : spoly) : result (list Q) :=
    let* x := generate_lagrange_point_simplex vs r mu in
    sp_call p x.
End PolySimplex.
Arguments spoly Q : clear implicits.
