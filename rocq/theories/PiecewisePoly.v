(** Model of the piecewise polynomial classes (all under
    /repo/polynomials_on_simplices/piecewise_polynomial):
    - piecewise_polynomial.py 414-869 (the base class, "base" below)
    - piecewise_polynomial_bernstein_basis.py and
      piecewise_polynomial_lagrange_basis.py ("Bernstein", "Lagrange")
    - continuous_piecewise_polynomial_bernstein_basis.py and
      continuous_piecewise_polynomial_lagrange_basis.py ("cont. Bernstein",
      "cont. Lagrange").

    One record for the four classes: [w_b] and [w_cont] tell which class it is.
    Triangles, vertices and boundary simplices are arrays (lists of lists of
    equal length), vertices of a mesh on the line have one component.
    Coefficients are given by rows, one for each degree of freedom.  Sets are
    lists without repetition; the order in which Python iterates over a set is
    the order of the list.  The sum of coefficient arrays of different lengths
    is a ValueError; numpy's broadcasting of arrays of length one is not
    modelled.  [numpy.empty] is modelled as [numpy.zeros].  Strings, plots and
    the approximate comparison of piecewise polynomials are not modelled. *)
From Verif Require Import Base MultiIndex MultiIndexCache Fld FldInst CodeGen LinSolve Det Linalg Simplicial SimplexGeo MultiCoef LagrangeCache Poly IntegralCache Integrate Bases PolySimplex LocalToGlobal.
From Verif Require KdTree.

Section Piecewise.
  Context {Q : ofld} (ksqrt : Q -> Q) (tol eps : Q) (veq : list (list Q) -> list (list Q) -> bool).
  (** the principal axis the kd tree is split along, see KdTree.v *)
  Context (pca : list (list Q) -> list Q).
  Local Open Scope fld_scope.
  Notation pt := SimplexGeo.pt.

  (** base 489-570 *)
  Record pw := mkPw {
    w_b : basis;
    w_cont : bool;
    w_rows : list (list Q);                     (* coeff *)
    w_tris : list (list nat);                   (* triangles *)
    w_verts : list (list Q);                    (* vertices *)
    w_r : nat;
    w_n : nat;
    w_m : nat;
    w_tau : tau_fn;
    w_bs : option (list (list nat));            (* boundary_simplices *)
    w_keep : bool;                              (* keep_boundary_dofs_last *)
    w_supp : list nat;                          (* triangles_in_the_support *)
    w_tree : KdTree.heap Q * nat;               (* _bsp_tree *)
    w_polys : list (nat * list (spoly Q)) }.    (* _basis_polynomials *)

  (** Indexing of a numpy array by an integer: a negative index counts from the
      end *)
  Definition np_index (len : nat) (i : Z) : result nat :=
    if (0 <=? i)%Z then (if (i <? Z.of_nat len)%Z then Ok (Z.to_nat i) else Err IndexError)
    else if (0 <=? Z.of_nat len + i)%Z then Ok (Z.to_nat (Z.of_nat len + i)) else Err IndexError.
  Definition row_at (rows : list (list Q)) (i : Z) : result (list Q) := let* k := np_index (length rows) i in get rows k.
  Definition row_set (rows : list (list Q)) (i : Z) (v : list Q) : result (list (list Q)) := let* k := np_index (length rows) i in set rows k v.
  Definition zero_row (v : list Q) : bool := forallb (fun t => if kdec t 0 then true else false) v.

  (** base 549-556 *)
  Fixpoint any_nonzero (tau : tau_fn) (rows : list (list Q)) (j : nat) (mis : list (list nat)) : result bool :=
    match mis with
    | [] => Ok false
    | mi :: t =>
      let* i := tau (Z.of_nat j) mi in
      let* v := row_at rows i in
      if zero_row v then any_nonzero tau rows j t else Ok true
    end.
  Definition support_of (tau : tau_fn) (rows : list (list Q)) (ntri : nat) (mis : list (list nat)) : result (list nat) :=
    foldM (fun s j => let* b := any_nonzero tau rows j mis in Ok (if b then s ++ [j] else s)) [] (seq 0 ntri).

  (** Dictionaries keyed by the index of a simplex *)
  Fixpoint dfind {V} (k : nat) (d : list (nat * V)) : option V :=
    match d with [] => None | (x, v) :: d' => if (k =? x)%nat then Some v else dfind k d' end.
  Definition dget {V} (d : list (nat * V)) (k : nat) : result V := match dfind k d with Some v => Ok v | None => Err KeyError end.
  Definition tri_vertices (tris : list (list nat)) (verts : list (list Q)) (j : nat) : result (list (list Q)) :=
    let* tri := get tris j in KdTree.simplex_vertices tri verts.
  (** Bernstein 69-75, Lagrange 68-74 *)
  Definition fill_polys (b : basis) (r : nat) (tris : list (list nat)) (verts : list (list Q)) (polys : option (list (nat * list (spoly Q)))) (supp : list nat)
    : result (list (nat * list (spoly Q))) :=
    mapM (fun j =>
      let* ps := match polys with
                 | Some d => dget d j
                 | None => let* vs := tri_vertices tris verts j in sp_basis_all ksqrt tol b r vs
                 end in
      Ok (j, ps)) supp.

  (** The map for the classes of [cont] (static method of the two base classes) *)
  Definition gen_map (cont : bool) (tris : list (list nat)) (r : nat) (bs : option (list (list nat))) (keep : bool) : result (tau_fn * Z) :=
    let* g := generate_local_to_global_map cont tris r bs keep in Ok (fst g).

  (** base 489-570, Bernstein 36-75, Lagrange 36-74, cont. Bernstein 35-78,
      cont. Lagrange 35-78 *)
  Definition new_pw (b : basis) (cont : bool) (rows : list (list Q)) (tris : list (list nat)) (verts : list (list Q)) (r : nat)
    (tau : option tau_fn) (bs : option (list (list nat))) (keep : bool) (supp : option (list nat)) (tree : option (KdTree.heap Q * nat))
    (polys : option (list (nat * list (spoly Q)))) : result pw :=
    let* tau' :=
      match tau with
      | Some t => Ok t
      | None =>
        let* g := generate_local_to_global_map cont tris r bs keep in
        let '(t, num, nonb) := g in
        (* 522: two values are expected *)
        let* _ := if cont then Ok tt else match nonb with Some _ => Err ValueError | None => Ok tt end in
        let* _ := assert_ (num =? Z.of_nat (length rows))%Z in
        Ok t
      end in
    let* row0 := get rows 0 in
    let* v0 := get verts 0 in
    let m := length v0 in
    let* mis := generate_all m r in
    let* supp' := match supp with Some s => Ok s | None => support_of tau' rows (length tris) mis end in
    let* tree' := match tree with
                  | Some t => Ok t
                  | None => let '(h, res) := KdTree.create_kd_tree pca tris verts 11 false 10 (Some 5%nat) (Some supp') in
                            let* root := res in Ok (h, root)
                  end in
    let* polys' := fill_polys b r tris verts polys supp' in
    Ok (mkPw b cont rows tris verts r (length row0) m tau' bs keep supp' tree' polys').

  Definition mem (j : nat) (l : list nat) : bool := existsb (Nat.eqb j) l.

  (** base 646-678 *)
  Definition pw_eval (p : pw) (j : nat) (x : arr Q) : result (list Q) :=
    if negb (mem j (w_supp p)) then Ok (repeat 0 (w_n p))
    else
      let* mis := generate_all (w_m p) (w_r p) in
      foldM (fun value knu =>
        let* i := w_tau p (Z.of_nat j) (snd knu) in
        if (i =? -1)%Z then Ok value
        else
          let* c := row_at (w_rows p) i in
          let* ps := dget (w_polys p) j in
          let* bk := get ps (fst knu) in
          let* v := sp_call1 bk x in
          Ok (map (fun t => fst t + snd t * v) (combine value c)))
        (repeat 0 (w_n p)) (combine (seq 0 (length mis)) mis).

  (** base 618-644; [inside_simplex] as called with its default arguments *)
  Fixpoint first_inside (tris : list (list nat)) (verts : list (list Q)) (y : list Q) (l : list nat) : result (option nat) :=
    match l with
    | [] => Ok None
    | j :: t =>
      let* vs := tri_vertices tris verts j in
      let* b := inside_simplex ksqrt eps y vs true 0 in
      if b then Ok (Some j) else first_inside tris verts y t
    end.
  Definition pw_call (p : pw) (y : list Q) : result (list Q) :=
    let (h, root) := w_tree p in
    let* leaf := KdTree.find_leaf_containing_point h root y in
    let* nd := get h leaf in
    let* o := first_inside (w_tris p) (w_verts p) y (KdTree.n_pot nd) in
    match o with
    | None => Ok (repeat 0 (w_n p))
    | Some j => pw_eval p j (pt y)
    end.

  (** [self.__class__(coeff, ..., self.r, self.tau, ..., support, self._bsp_tree, self._basis_polynomials)] *)
  Definition renew (p : pw) (rows : list (list Q)) (supp : option (list nat)) : result pw :=
    new_pw (w_b p) (w_cont p) rows (w_tris p) (w_verts p) (w_r p) (Some (w_tau p)) (w_bs p) (w_keep p) supp (Some (w_tree p)) (Some (w_polys p)).

  (** base 680-696 *)
  Definition pw_getitem (p : pw) (i : nat) : result pw :=
    let* _ := assert_ (i <? w_n p)%nat in
    if (w_n p =? 1)%nat then renew p (w_rows p) (Some (w_supp p))
    else renew p (map (fun row => [nth i row 0]) (w_rows p)) None.

  (** Bernstein 218-243, Lagrange 223-248 *)
  Definition pw_restrict (p : pw) (i : nat) : result (spoly Q) :=
    let* _ := assert_ (i <? length (w_tris p))%nat in
    let* vs := tri_vertices (w_tris p) (w_verts p) i in
    if negb (mem i (w_supp p)) then sp_zero ksqrt tol (w_b p) vs (w_r p) (w_n p)
    else
      let* mis := generate_all (w_m p) (w_r p) in
      let* rows := mapM (fun mi => let* idx := w_tau p (Z.of_nat i) mi in row_at (w_rows p) idx) mis in
      new_spoly ksqrt tol (w_b p) (cols_of_rows (w_n p) rows) vs (Some (w_r p)).

  (** Storing the coefficients of one simplex *)
  Definition store (tau : tau_fn) (j : nat) (rows : list (list Q)) (knu : list Q * list nat) : result (list (list Q)) :=
    let* i := tau (Z.of_nat j) (snd knu) in row_set rows i (fst knu).
  (** The row of coefficients [p.coeff[k]] *)
  Definition sp_row (s : spoly Q) (k : nat) : list Q := row (sp_cols s) k.

  (** Bernstein 176-216, Lagrange 181-221 *)
  Definition pw_elevate (p : pw) (s : nat) : result pw :=
    let* _ := assert_ (w_r p <=? s)%nat in
    if (s =? w_r p)%nat then renew p (w_rows p) (Some (w_supp p))
    else
      let* g := gen_map (w_cont p) (w_tris p) s (w_bs p) (w_keep p) in
      let (tau, num) := g in
      let* mis := generate_all (w_m p) s in
      let* rows := foldM (fun rows j =>
        let* q := pw_restrict p j in
        let* q := sp_degree_elevate ksqrt tol q s in
        foldM (fun rows k => let* mi := get mis k in store tau j rows (sp_row q k, mi)) rows (seq 0 (length (hd [] (sp_cols q)))))
        (repeat (repeat 0 (w_n p)) (Z.to_nat num)) (seq 0 (length (w_tris p))) in
      new_pw (w_b p) (w_cont p) rows (w_tris p) (w_verts p) s (Some tau) (w_bs p) (w_keep p) (Some (w_supp p)) (Some (w_tree p)) None.

  (** Equality of the data of two arrays *)
  Definition nat_rows_dec : forall a b : list (list nat), {a = b} + {a <> b} := list_eq_dec (list_eq_dec Nat.eq_dec).
  Definition rows_dec : forall a b : list (list Q), {a = b} + {a <> b} := list_eq_dec (list_eq_dec kdec).
  Definition same_mesh (p q : pw) : result unit :=
    let* _ := assert_ (if nat_rows_dec (w_tris p) (w_tris q) then true else false) in
    let* _ := assert_ (if rows_dec (w_verts p) (w_verts q) then true else false) in
    match w_bs p, w_bs q with
    | None, None => Ok tt
    | Some a, Some b => assert_ (if nat_rows_dec a b then true else false)
    | _, _ => Err AttributeError
    end.
  (** base 706-716, 734-744 *)
  Definition pw_check (p q : pw) : result unit :=
    let* _ := assert_ (w_m p =? w_m q)%nat in
    let* _ := assert_ (w_n p =? w_n q)%nat in
    let* _ := assert_ (basis_eqb (w_b p) (w_b q)) in
    same_mesh p q.
  (** base 698-752 *)
  Definition pw_same_degree (op : Q -> Q -> Q) (p q : pw) : result pw :=
    let* _ := pw_check p q in
    if (length (w_rows p) =? length (w_rows q))%nat
    then renew p (map (fun ab => map (fun v => op (fst v) (snd v)) (combine (fst ab) (snd ab))) (combine (w_rows p) (w_rows q))) None
    else Err ValueError.
  Definition pw_linear_op (op : Q -> Q -> Q) (p q : pw) : result pw :=
    let* _ := pw_check p q in
    if (w_r p =? w_r q)%nat then pw_same_degree op p q
    else if (w_r q <? w_r p)%nat then let* q' := pw_elevate q (w_r p) in pw_same_degree op p q'
    else let* p' := pw_elevate p (w_r q) in pw_same_degree op p' q.
  Definition pw_add := pw_linear_op kadd.
  Definition pw_sub := pw_linear_op ksub.
  (** base 775-803 *)
  Definition pw_scale (p : pw) (c : Q) : result pw :=
    renew p (map (map (fun v => v * c)) (w_rows p)) (Some (if kdec c 0 then [] else w_supp p)).
  Definition pw_outer (p : pw) (c : list Q) : result pw :=
    let* _ := assert_ (w_n p =? 1)%nat in
    renew p (map (fun row => map (fun ck => nth 0 row 0 * ck) c) (w_rows p)) (Some (if zero_row c then [] else w_supp p)).
  (** base 805-815 *)
  Definition pw_truediv (p : pw) (s : Q) : result pw :=
    renew p (map (map (fun v => v / s)) (w_rows p)) (Some (w_supp p)).

  (** Bernstein 86-130, Lagrange 85-128 (the other factor a piecewise
      polynomial) *)
  Definition pw_mul (p q : pw) : result pw :=
    let* _ := assert_ (w_m p =? w_m q)%nat in
    let* _ := same_mesh p q in
    let* _ := assert_ (Bool.eqb (w_keep p) (w_keep q)) in
    let* _ := assert_ (w_n p =? 1)%nat in
    let* _ := assert_ (w_n q =? 1)%nat in
    let m := w_m p in
    let r := (w_r p + w_r q)%nat in
    let* g := gen_map (w_cont p) (w_tris p) r (w_bs p) (w_keep p) in
    let (tau, num) := g in
    let supp := filter (fun j => mem j (w_supp q)) (w_supp p) in
    let* mis := generate_all m r in
    let* rows := foldM (fun rows j =>
      match w_b p with
      | Lagrange =>
        let* vs := tri_vertices (w_tris p) (w_verts p) j in
        foldM (fun rows nu =>
          let* x := generate_lagrange_point_simplex vs r nu in
          let* u := pw_eval p j x in
          let* v := pw_eval q j x in
          store tau j rows ([nth 0 u 0 * nth 0 v 0], nu)) rows mis
      | _ =>
        let* pj := pw_restrict p j in
        let* qj := pw_restrict q j in
        let* t := sp_mul ksqrt tol veq pj qj in
        foldM (fun rows knu => let* c := get (hd [] (sp_cols t)) (fst knu) in store tau j rows ([c], snd knu)) rows (combine (seq 0 (length mis)) mis)
      end) (repeat [0] (Z.to_nat num)) supp in
    new_pw (w_b p) (w_cont p) rows (w_tris p) (w_verts p) r (Some tau) (w_bs p) (w_keep p) (Some supp) (Some (w_tree p)) None.

  (** Bernstein 457-528, Lagrange 465-536, cont. Bernstein 346-417, cont.
      Lagrange 343-414 *)
  Definition unit_dim (cont : bool) (tris : list (list nat)) (verts : list (list Q)) : nat := if cont then length verts else length tris.
  Definition pw_zero (b : basis) (cont : bool) (tris : list (list nat)) (verts : list (list Q)) (n : nat) (tau : option tau_fn) (bs : option (list (list nat))) (keep : bool) (tree : option (KdTree.heap Q * nat)) : result pw :=
    new_pw b cont (repeat (repeat 0 n) (unit_dim cont tris verts)) tris verts (if cont then 1 else 0)%nat tau bs keep (Some []) tree None.
  Definition pw_unit (b : basis) (cont : bool) (tris : list (list nat)) (verts : list (list Q)) (n : nat) (tau : option tau_fn) (bs : option (list (list nat))) (keep : bool) (tree : option (KdTree.heap Q * nat)) : result pw :=
    new_pw b cont (repeat (repeat 1 n) (unit_dim cont tris verts)) tris verts (if cont then 1 else 0)%nat tau bs keep (Some (seq 0 (length tris))) tree None.
  Definition unit_like (p : pw) : result pw :=
    pw_unit (w_b p) (w_cont p) (w_tris p) (w_verts p) 1 None (w_bs p) (w_keep p) (Some (w_tree p)).

  (** Bernstein 132-157, Lagrange 130-155, integer exponent *)
  Fixpoint pw_pow (p : pw) (e : nat) : result pw :=
    let* _ := assert_ (w_n p =? 1)%nat in
    match e with
    | O => unit_like p
    | 1%nat => renew p (w_rows p) (Some (w_supp p))
    | S e' => let* q := pw_pow p e' in pw_mul p q
    end.
  (** Bernstein 158-174, exponent a multi-index; [fuel] bounds its norm *)
  Fixpoint first_nonzero (e : list nat) : option nat :=
    match e with [] => None | O :: t => match first_nonzero t with Some i => Some (S i) | None => None end | _ :: _ => Some O end.
  Fixpoint pw_pow_mi_bernstein (fuel : nat) (p : pw) (e : list nat) : result pw :=
    match fuel with
    | O => Err OutOfFuel
    | S f =>
      let* _ := assert_ (length e =? w_n p)%nat in
      if (norm e =? 0)%nat then unit_like p
      else
        match first_nonzero e with
        | None => Err TypeError
        | Some i =>
          (* [self.coeff[:, i]] of a one-dimensional array is an IndexError *)
          if (w_n p =? 1)%nat then Err IndexError
          else
            let* pi := renew p (map (fun row => [nth i row 0]) (w_rows p)) (Some (w_supp p)) in
            let* ei := unit_multiindex (w_n p) i in
            let* e' := mi_minus e ei in
            let* q := pw_pow_mi_bernstein f p e' in
            pw_mul pi q
        end
    end.
  (** Lagrange 156-179 *)
  Definition pw_pow_mi_lagrange (p : pw) (e : list nat) : result pw :=
    let* _ := assert_ (length e =? w_n p)%nat in
    let r := (w_r p * norm e)%nat in
    if (r =? 0)%nat then unit_like p
    else
      let* g := gen_map (w_cont p) (w_tris p) r (w_bs p) (w_keep p) in
      let (tau, num) := g in
      let* mis := generate_all (w_m p) r in
      let* rows := foldM (fun rows j =>
        let* vs := tri_vertices (w_tris p) (w_verts p) j in
        foldM (fun rows nu =>
          let* x := generate_lagrange_point_simplex vs r nu in
          let* i := tau (Z.of_nat j) nu in
          let* u := pw_eval p j x in
          (* a number is not subscriptable *)
          let* v := if (w_n p =? 1)%nat then Err TypeError else power u e in
          row_set rows i [v]) rows mis) (repeat [0] (Z.to_nat num)) (w_supp p) in
      new_pw (w_b p) (w_cont p) rows (w_tris p) (w_verts p) r (Some tau) (w_bs p) (w_keep p) (Some (w_supp p)) (Some (w_tree p)) None.
  Definition pw_pow_mi (p : pw) (e : list nat) : result pw :=
    match w_b p with Lagrange => pw_pow_mi_lagrange p e | _ => pw_pow_mi_bernstein (S (norm e)) p e end.

  (** cont. Bernstein 80-123, cont. Lagrange 80-119; the degree of a
      continuous piecewise polynomial is at least one *)
  Definition weak_partial_derivative (p : pw) (i : nat) : result pw :=
    let r := (w_r p - 1)%nat in
    let* g := gen_map false (w_tris p) r (w_bs p) (w_keep p) in
    let (tau, num) := g in
    let* mis := generate_all (w_m p) r in
    let* rows := foldM (fun rows j =>
      let* pj := pw_restrict p j in
      let* vs := tri_vertices (w_tris p) (w_verts p) j in
      match w_b p with
      | Lagrange =>
        foldM (fun rows nu =>
          let* k := tau (Z.of_nat j) nu in
          if (k =? -1)%Z then Ok rows
          else
            let* x := generate_lagrange_point_simplex vs r nu in
            let* d := sp_partial_derivative ksqrt tol veq pj i in
            let* v := sp_call d x in
            row_set rows k v) rows mis
      | _ =>
        (* the counter [l] of the dual basis functions *)
        let* st := foldM (fun st nu =>
          let '(rows, l) := st in
          let* k := tau (Z.of_nat j) nu in
          if (k =? -1)%Z then Ok st
          else
            let* mu := get mis l in
            let* v := (if (w_n p =? 1)%nat then
                         let* d := sp_partial_derivative ksqrt tol veq pj i in
                         let* v := dual_bernstein_basis_fn_simplex ksqrt tol veq mu r vs d in
                         Ok [nth 0 v 0]
                       else
                         mapM (fun n =>
                           let* pn := sp_getitem ksqrt tol pj n in
                           let* d := sp_partial_derivative ksqrt tol veq pn i in
                           let* v := dual_bernstein_basis_fn_simplex ksqrt tol veq mu r vs d in
                           Ok (nth 0 v 0)) (seq 0 (w_n p))) in
            let* rows := row_set rows k v in
            Ok (rows, S l)) (rows, O) mis in
        Ok (fst st)
      end) (repeat (repeat 0 (w_n p)) (Z.to_nat num)) (seq 0 (length (w_tris p))) in
    new_pw (w_b p) false rows (w_tris p) (w_verts p) r (Some tau) (w_bs p) (w_keep p) (Some (w_supp p)) (Some (w_tree p)) None.

  (** ** Bases *)
  (** Bernstein 257-301, Lagrange 262-306, cont. Bernstein 137-183, cont.
      Lagrange 133-179; [map] stands for the arguments [tau] and [num_dofs] *)
  Definition map_arg (cont : bool) (tris : list (list nat)) (r : nat) (map : option (tau_fn * Z)) (bs : option (list (list nat))) (keep : bool) : result (tau_fn * Z) :=
    match map with Some g => Ok g | None => gen_map cont tris r bs keep end.
  Definition pw_basis_fn (b : basis) (cont : bool) (tris : list (list nat)) (verts : list (list Q)) (r i : nat) (map : option (tau_fn * Z)) (bs : option (list (list nat))) (keep : bool) (tree : option (KdTree.heap Q * nat)) (polys : option (list (nat * list (spoly Q)))) : result pw :=
    let* g := map_arg cont tris r map bs keep in
    let* rows := set (repeat [0] (Z.to_nat (snd g))) i [1] in
    new_pw b cont rows tris verts r (Some (fst g)) bs keep None tree polys.
  (** Bernstein 304-347, Lagrange 309-352, cont. Bernstein 186-231, cont.
      Lagrange 182-227 *)
  Definition pw_basis (b : basis) (cont : bool) (tris : list (list nat)) (verts : list (list Q)) (r : nat) (map : option (tau_fn * Z)) (bs : option (list (list nat))) (keep : bool) (tree : option (KdTree.heap Q * nat)) : result (list pw) :=
    let* g := map_arg cont tris r map bs keep in
    let* polys := mapM (fun j => let* vs := tri_vertices tris verts j in let* ps := sp_basis_all ksqrt tol b r vs in Ok (j, ps)) (seq 0 (length tris)) in
    mapM (fun i => pw_basis_fn b cont tris verts r i (Some g) bs keep tree (Some polys)) (seq 0 (Z.to_nat (snd g))).

  (** Bernstein 350-403, Lagrange 355-411, cont. Bernstein 234-290, cont.
      Lagrange 230-287.  Which element [_get_any_element_from_set] returns
      (cont. Bernstein 420-430) is left open. *)
  Context (pick : list (nat * list nat) -> nat * list nat).
  Definition local_of (cont : bool) (tris : list (list nat)) (verts : list (list Q)) (r : nat) (g : tau_fn * Z) (i : nat) : result (nat * list nat) :=
    let* v0 := get verts 0 in
    if cont then
      let* pre := generate_local_to_global_preimage_map (fst g) (length tris) (snd g) r (length v0) in
      let* s := pre [Z.of_nat i] in
      let* _ := assert_ (0 <? length s)%nat in
      Ok (pick s)
    else
      let* inv := generate_inverse_local_to_global_map (fst g) (length tris) (snd g) r (length v0) in
      inv (Z.of_nat i).
  Definition dual_pw_basis_fn (b : basis) (cont : bool) (tris : list (list nat)) (verts : list (list Q)) (r i : nat) (map : option (tau_fn * Z)) (bs : option (list (list nat))) (keep : bool)
    : result (pw -> result (list Q)) :=
    let* g := map_arg cont tris r map bs keep in
    let* jnu := local_of cont tris verts r g i in
    let* vs := tri_vertices tris verts (fst jnu) in
    match b with
    | Lagrange =>
      let* x := generate_lagrange_point_simplex vs r (snd jnu) in
      Ok (fun p => pw_eval p (fst jnu) x)
    | _ =>
      Ok (fun p => let* pj := pw_restrict p (fst jnu) in dual_bernstein_basis_fn_simplex ksqrt tol veq (snd jnu) r vs pj)
    end.
  (** Bernstein 406-454, Lagrange 414-462, cont. Bernstein 293-343, cont.
      Lagrange 290-340 *)
  Definition dual_pw_basis (b : basis) (cont : bool) (tris : list (list nat)) (verts : list (list Q)) (r : nat) (map : option (tau_fn * Z)) (bs : option (list (list nat))) (keep : bool)
    : result (list (pw -> result (list Q))) :=
    let* g := map_arg cont tris r map bs keep in
    mapM (fun i => dual_pw_basis_fn b cont tris verts r i (Some g) bs keep) (seq 0 (Z.to_nat (snd g))).
End Piecewise.
Arguments pw Q : clear implicits.
