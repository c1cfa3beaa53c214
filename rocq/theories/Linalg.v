(** Model of polynomials_on_simplices/calculus/affine_map.py, of parts of
    linalg/basis.py and linalg/vector_space_projection.py, and of
    calculus/real_interval.py.

    numpy arrays of dimension 0, 1 and 2 are the three cases of [arr]; a matrix
    is the list of its rows.  Arithmetic is exact; numpy.linalg.inv is exact
    Gaussian elimination and raises LinAlgError for a singular matrix. *)
From Verif Require Import Base Fld FldInst LinSolve Det.

Section Arrays.
  Context {F : fld}.
  Local Open Scope fld_scope.

  Inductive arr : Type := Sc (x : F) | Vec (v : list F) | Mat (rows : list (list F)).

  (** number of columns *)
  Definition ncols (a : list (list F)) : nat := length (hd [] a).
  (** elementwise operation on two one-dimensional arrays with broadcasting of
      arrays of length one *)
  Definition bcast (f : F -> F -> F) (u v : list F) : result (list F) :=
    if (length u =? length v)%nat then Ok (map (fun p => f (fst p) (snd p)) (combine u v))
    else if (length u =? 1)%nat then Ok (map (f (hd 0 u)) v)
    else if (length v =? 1)%nat then Ok (map (fun x => f x (hd 0 v)) u)
    else Err ValueError.
  Fixpoint bcast_rows (f : F -> F -> F) (a : list (list F)) (v : list F) : result (list (list F)) :=
    match a with
    | [] => Ok []
    | u :: a' => let* r := bcast f u v in let* rs := bcast_rows f a' v in Ok (r :: rs)
    end.
  (** [a + b], except for two two-dimensional arrays *)
  Definition np_add (a b : arr) : result arr :=
    match a, b with
    | Sc x, Sc y => Ok (Sc (x + y))
    | Sc x, Vec v => Ok (Vec (map (fun y => x + y) v))
    | Vec u, Sc y => Ok (Vec (map (fun x => x + y) u))
    | Vec u, Vec v => let* w := bcast kadd u v in Ok (Vec w)
    | Sc x, Mat m => Ok (Mat (map (map (fun y => x + y)) m))
    | Mat m, Sc y => Ok (Mat (map (map (fun x => x + y)) m))
    | Mat m, Vec v => let* w := bcast_rows kadd m v in Ok (Mat w)
    | Vec v, Mat m => let* w := bcast_rows (fun x y => y + x) m v in Ok (Mat w)
    | Mat _, Mat _ => Err RuntimeError
    end.
  (** [c * a] for a number [c] *)
  Definition np_scale (c : F) (a : arr) : arr :=
    match a with Sc x => Sc (c * x) | Vec v => Vec (map (fun x => c * x) v) | Mat m => Mat (map (map (fun x => c * x)) m) end.
  Definition mat_mul (a b : list (list F)) : list (list F) := map (fun row => map (fun j => dot row (mat_col b j)) (seq 0 (ncols b))) a.
  (** [np.dot(a, b)] *)
  Definition np_dot (a b : arr) : result arr :=
    match a, b with
    | Sc x, _ => Ok (np_scale x b)
    | _, Sc y => Ok (np_scale y a)
    | Vec u, Vec v => if (length u =? length v)%nat then Ok (Sc (dot u v)) else Err ValueError
    | Mat m, Vec v => if (ncols m =? length v)%nat then Ok (Vec (mat_vec m v)) else Err ValueError
    | Vec u, Mat m => if (length u =? length m)%nat then Ok (Vec (map (fun j => dot u (mat_col m j)) (seq 0 (ncols m)))) else Err ValueError
    | Mat m, Mat m' => if (ncols m =? length m')%nat then Ok (Mat (mat_mul m m')) else Err ValueError
    end.
  (** [-a] *)
  Definition np_neg (a : arr) : arr := np_scale (- (1)) a.
  (** [a[0]] *)
  Definition np_first (a : arr) : result arr :=
    match a with
    | Sc _ => Err TypeError
    | Vec v => match v with [] => Err IndexError | x :: _ => Ok (Sc x) end
    | Mat m => match m with [] => Err IndexError | r :: _ => Ok (Vec r) end
    end.
  (** [len(a)] *)
  Definition np_len (a : arr) : result nat := match a with Sc _ => Err TypeError | Vec v => Ok (length v) | Mat m => Ok (length m) end.
  Definition is_number (a : arr) : bool := match a with Sc _ => true | _ => false end.

  (** [np.linalg.inv(a)] of a square matrix *)
  Definition np_inv (a : list (list F)) : result (list (list F)) :=
    if (ncols a =? length a)%nat then solve a (identity (length a)) else Err LinAlgError.
  (** [np.linalg.pinv(a)] of a matrix with independent columns, that is
      (a^T a)^-1 a^T.  For other matrices numpy also returns a pseudoinverse; the
      model stops with LinAlgError. *)
  Definition np_pinv (a : list (list F)) : result (list (list F)) :=
    let at_ := transpose (ncols a) a in solve (mat_mul at_ a) at_.

  (** ** affine_map.py *)
  (** 14-90 with [multiple_arguments=False]; a function is returned *)
  Definition create_affine_map (a b : arr) : result (arr -> result arr) :=
    match a with
    | Sc x =>
      let* _ := assert_ (is_number b) in
      Ok (fun y => np_add (np_scale x y) b)
    | Vec v =>
      match b with
      | Sc _ => Ok (fun y => let* d := np_dot a y in np_add d b)
      | _ => Ok (fun y => match y with Sc t => np_add (Vec (map (fun x => x * t) v)) b
                                     | Vec u => let* w := bcast kmul v u in np_add (Vec w) b
                                     | Mat _ => Err RuntimeError end)
      end
    | Mat m =>
      if (ncols m =? 1)%nat then
        if (length m =? 1)%nat then Err AssertionError
        else
          let* l := np_len b in
          let* _ := assert_ (l =? length m)%nat in
          Ok (fun y => match y with Sc t => np_add (Vec (map (fun x => x * t) (concat m))) b
                                  | Vec u => let* w := bcast kmul (concat m) u in np_add (Vec w) b
                                  | Mat _ => Err RuntimeError end)
      else
        if (length m =? 1)%nat then
          let* _ := assert_ (is_number b) in
          Ok (fun y => let* d := np_dot a y in let* d0 := np_first d in np_add d0 b)
        else
          let* l := np_len b in
          let* _ := assert_ (l =? length m)%nat in
          Ok (fun y => let* d := np_dot a y in np_add d b)
    end.

  (** 93-115; a number [a = 0] is ZeroDivisionError (for numpy.float64 it is a
      warning and inf) *)
  Definition inverse_affine_transformation (a b : arr) : result (arr * arr) :=
    match a with
    | Sc x =>
      if kdec x 0 then Err ZeroDivisionError
      else let* d := np_dot (np_neg b) (Sc (1 / x)) in Ok (Sc (1 / x), d)
    | Vec _ => Err LinAlgError
    | Mat m =>
      let* i := np_inv m in
      let* d := np_dot (Mat i) b in
      Ok (Mat i, np_neg d)
    end.

  (** 118-130 *)
  Definition is_invertible (a : list (list F)) : bool := match np_inv a with Ok _ => true | Err _ => false end.
  (** 133-156 for a two-dimensional array [a], and a one-dimensional one, which
      is reshaped to one column *)
  Definition pseudoinverse_mat (m : list (list F)) (b : arr) : result (arr * arr) :=
    let* _ := assert_ (is_invertible (mat_mul (transpose (ncols m) m) m)) in
    let* i := np_pinv m in
    let* d := np_dot (Mat i) b in
    if (ncols m =? 1)%nat then let* d0 := np_first (np_neg d) in Ok (Mat i, d0) else Ok (Mat i, np_neg d).
  Definition pseudoinverse_affine_transformation (a b : arr) : result (arr * arr) :=
    match a with
    | Sc _ => Err AttributeError
    | Vec v => pseudoinverse_mat (map (fun x => [x]) v) b
    | Mat m => pseudoinverse_mat m b
    end.

  (** 159-172 *)
  Definition affine_composition (phi1 phi2 : arr * arr) : result (arr * arr) :=
    let (a1, b1) := phi1 in
    let (a2, b2) := phi2 in
    let* a := np_dot a2 a1 in
    let* d := np_dot a2 b1 in
    let* b := np_add d b2 in
    Ok (a, b).
End Arrays.
Arguments arr F : clear implicits.

(** ** basis.py; a basis matrix is given by the list of its columns *)
Section Basis.
  Context {F : fld}.
  Local Open Scope fld_scope.
  (** the matrix with these columns, of length [m] *)
  Definition of_cols (m : nat) (b : list (list F)) : list (list F) := transpose m b.
  (** 108-118 for a vector: [np.dot(np.linalg.pinv(basis), v)] *)
  Definition transform_to_basis (v : list F) (b : list (list F)) : result (list F) :=
    let* p := np_pinv (of_cols (length v) b) in
    Ok (mat_vec p v).
  (** 121-130 *)
  Definition transform_from_basis (v : list F) (m : nat) (b : list (list F)) : list F := mat_vec (of_cols m b) v.
End Basis.

Section Geometry.
  Context {Q : ofld} (ksqrt : Q -> Q).
  Local Open Scope fld_scope.
  (** [np.linalg.norm] of a vector *)
  Definition norm2 (v : list Q) : Q := ksqrt (dot v v).
  (** 165-180: numpy's QR decomposition with the columns of q flipped to have a
      non-negative product with the given ones.  For independent vectors that is
      the result of the Gram-Schmidt process, which is used here. *)
  Definition gs_step (qs : list (list Q)) (v : list Q) : list (list Q) :=
    let u := fold_left (fun u q => vsub u (vscale (dot v q) q)) qs v in
    qs ++ [vscale (1 / norm2 u) u].
  Definition gram_schmidt_rn (b : list (list Q)) : list (list Q) := fold_left gs_step b [].

  (** ** vector_space_projection.py *)
  (** 26-34 *)
  Definition vector_projection (a b : list Q) : list Q := vscale (dot a b / dot b b) b.
  (** 37-45 *)
  Definition vector_rejection (a b : list Q) : list Q := vsub a (vector_projection a b).
  (** 10-23 *)
  Definition interval_projection (p a b : Q) : Q :=
    if kleb a p && kleb p b then p else if kltb b p then b else a.
  (** 78-130: the value of [subspace_projection_map(basis, origin)] at [x]: with
      [A] = q q^T it is A x + (I - A) origin *)
  Definition subspace_projection (b : list (list Q)) (origin x : list Q) : list Q :=
    let qs := gram_schmidt_rn b in
    let n := length origin in
    let A := map (fun i => map (fun j => ksum qs (fun q => nth i q 0 * nth j q 0)) (seq 0 n)) (seq 0 n) in
    let IA := map (fun i => map (fun j => (if (i =? j)%nat then 1 else 0) - nth j (nth i A []) 0) (seq 0 n)) (seq 0 n) in
    vadd (mat_vec A x) (mat_vec IA origin).

  (** ** real_interval.py *)
  (** 6-16 *)
  Definition kmin (a b : Q) : Q := if kltb b a then b else a.
  Definition kmax (a b : Q) : Q := if kltb a b then b else a.
  Definition constrain_to_range (s lo hi : Q) : Q := kmax (kmin s hi) lo.
  (** 19-68 *)
  Definition in_closed_range (s lo hi : Q) : bool := kleb lo s && kleb s hi.
  Definition in_open_range (s lo hi : Q) : bool := kltb lo s && kltb s hi.
  Definition in_left_closed_range (s lo hi : Q) : bool := kleb lo s && kltb s hi.
  Definition in_right_closed_range (s lo hi : Q) : bool := kltb lo s && kleb s hi.
End Geometry.
