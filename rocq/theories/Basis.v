(** Model of polynomials_on_simplices/linalg/basis.py and of
    linalg/vector_space_projection.py 67-130 (see also Linalg.v).

    A matrix is the list of its rows, its columns are the basis vectors.
    Arithmetic is exact. *)
From Verif Require Import Base Fld FldInst MultiIndex LinSolve Det Linalg.

Section Basis.
  Context {F : fld}.
  Local Open Scope fld_scope.
  (** 8-22 *)
  Definition cartesian_basis (dimension : nat) : list (list F) := identity dimension.
  (** 25-39 for i >= 0 *)
  Definition cartesian_basis_vector (i dimension : nat) : result (list F) :=
    match nth_error (cartesian_basis dimension) i with Some r => Ok r | None => Err IndexError end.
  (** 42-53; an array of length one is broadcast to the column *)
  Definition basis_matrix (basis_vectors_array : list (list F)) : result (list (list F)) :=
    let dim := length basis_vectors_array in
    let* cols := mapM (fun v => if (length v =? dim)%nat then Ok v else if (length v =? 1)%nat then Ok (repeat (hd 0 v) dim) else Err ValueError) basis_vectors_array in
    Ok (transpose dim cols).
  (** 56-63 *)
  Definition basis_vectors (basis : list (list F)) : list (list F) := transpose (ncols basis) basis.
  (** [a.T] *)
  Definition np_T (a : arr F) : arr F := match a with Mat m => Mat (transpose (ncols m) m) | _ => a end.
  (** 66-76 *)
  Definition metric_tensor (basis : arr F) : result (arr F) := np_dot (np_T basis) basis.
  (** 79-90; division by zero is inf with a warning in numpy *)
  Definition inverse_metric_tensor (basis : arr F) : result (arr F) :=
    let* g := metric_tensor basis in
    match g with
    | Sc x => if kdec x 0 then Err ZeroDivisionError else Ok (Sc (1 / x))
    | Vec _ => Err LinAlgError
    | Mat m => let* i := np_inv m in Ok (Mat i)
    end.
  (** 93-105 *)
  Definition dual_basis (basis : arr F) : result (arr F) :=
    match basis with
    | Sc x => if kdec x 0 then Err ZeroDivisionError else Ok (Sc (1 / x))
    | Vec _ => Err LinAlgError
    | Mat m => let* i := np_inv m in Ok (np_T (Mat i))
    end.
  (** 108-118, for a vector or a matrix *)
  Definition to_basis (v : arr F) (basis : list (list F)) : result (arr F) :=
    let* p := np_pinv basis in
    np_dot (Mat p) v.
  (** 121-130 *)
  Definition from_basis (v : arr F) (basis : list (list F)) : result (arr F) := np_dot (Mat basis) v.
  (** 133-142 *)
  Definition transform (v : arr F) (basis0 basis1 : list (list F)) : result (arr F) :=
    let* p := np_pinv basis1 in
    let* w := np_dot (Mat basis0) v in
    np_dot (Mat p) w.
End Basis.

Section Ordered.
  Context {Q : ofld}.
  Local Open Scope fld_scope.
  (** [np.abs], [1e-10] and [np.linalg.det] *)
  Definition absolute (x : Q) : Q := if kltb x 0 then - x else x.
  Definition tol10 : Q := 1 / kpow (kofnat 10) 10.
  Definition det_of (m : list (list Q)) : result Q :=
    if (ncols m =? length m)%nat then Ok (np_det m) else Err LinAlgError.
  (** 145-162 *)
  Definition transform_bilinear_form (b basis0 basis1 : list (list Q)) : result (arr Q) :=
    let* d0 := det_of basis0 in
    if kltb tol10 (absolute (d0 - 1)) then Err ValueError else
    let* d1 := det_of basis1 in
    if kltb tol10 (absolute (d1 - 1)) then Err ValueError else
    let* q := np_dot (np_T (Mat basis0)) (Mat basis1) in
    let* bq := np_dot (Mat b) q in
    np_dot (np_T q) bq.
  (** 165-180, [basis] and [q], the first result of [np.linalg.qr(basis)], given
      by the lists of their columns *)
  Definition flip_columns (q basis : list (list Q)) : list (list Q) :=
    map (fun i => let c := nth i q [] in if kltb (dot c (nth i basis [])) 0 then vscale (- (1)) c else c) (seq 0 (length basis)).
  (** 183-200; [ip] is the inner product, the first [i] vectors are already
      orthonormalised *)
  Definition ortho_step (ksqrt : Q -> Q) (ip : list Q -> list Q -> Q) (done : list (list Q)) (v : list Q) : list (list Q) :=
    let u := fold_left (fun u q => vsub u (vscale (ip u q) q)) done v in
    done ++ [vscale (1 / ksqrt (ip u u)) u].
  Definition gram_schmidt_orthonormalization (ksqrt : Q -> Q) (ip : list Q -> list Q -> Q) (basis : list (list Q)) : result (list (list Q)) :=
    let* _ := assert_ (0 <? length basis)%nat in
    Ok (fold_left (ortho_step ksqrt ip) basis []).

  (** ** vector_space_projection.py *)
  (** 67-75 *)
  Definition vector_plane_projection (v n : list Q) : list Q := vector_rejection v n.
  (** 78-105, [basis] given by the list of its columns, which are independent;
      [n] is the number of its rows *)
  Definition subspace_projection_transformation (ksqrt : Q -> Q) (n : nat) (basis : list (list Q)) (origin : option (list Q)) : result (arr Q * arr Q) :=
    let* _ := assert_ (length basis <=? n)%nat in
    let origin := match origin with Some o => o | None => repeat 0 n end in
    let q := gram_schmidt_rn ksqrt basis in
    let a := map (fun i => map (fun j => ksum q (fun q => nth i q 0 * nth j q 0)) (seq 0 n)) (seq 0 n) in
    let ia := map (fun i => map (fun j => (if (i =? j)%nat then 1 else 0) - nth j (nth i a []) 0) (seq 0 n)) (seq 0 n) in
    let* b := np_dot (Mat ia) (Vec origin) in
    Ok (Mat a, b).
  (** 108-130 *)
  Definition subspace_projection_map (ksqrt : Q -> Q) (n : nat) (basis : list (list Q)) (origin : option (list Q)) : result (arr Q -> result (arr Q)) :=
    let* ab := subspace_projection_transformation ksqrt n basis origin in
    create_affine_map (fst ab) (snd ab).
End Ordered.
