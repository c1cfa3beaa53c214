(** Model of polynomials_on_simplices/geometry/mesh/point_clouds.py.  Real numbers
    without rounding.  A point cloud is the list of its points together with their
    dimension [m]; [None] is nan.  [np.linalg.eigh] is an argument. *)
From Coq Require Import Reals Lra Psatz Lia.
From Verif Require Import Base RVec Angle.
From Verif Require Permutations.
Local Open Scope R_scope.

(** 6-24 [embed_point_in_rn] *)
Definition embed_point_in_rn (point : vec) (n : nat) : result vec :=
  let m := length point in
  let* _ := assert_ (m <? n)%nat in
  Ok (point ++ repeat 0 (n - m)).
(** 27-48 [embed_point_cloud_in_rn] *)
Definition embed_point_cloud_in_rn (m : nat) (points : list vec) (n : nat) : result (list vec) :=
  let* _ := assert_ (m <? n)%nat in
  Ok (map (fun p : vec => p ++ repeat 0 (n - m)) points).
(** [points[:, j]] *)
Definition column (points : list vec) (j : nat) : list R := map (fun p : vec => nth j p 0) points.
(** 51-72 [mean] of a one-dimensional array, and of the points *)
Definition mean1 (l : list R) : option R := match l with [] => None | _ => Some (rsum l / INR (length l)) end.
Definition mean (m : nat) (points : list vec) : option vec :=
  match points with [] => None | _ => Some (map (fun j => rsum (column points j) / INR (length points)) (seq 0 m)) end.
(** 75-93 [median]: np.median sorts and takes the middle element, or the mean of the two elements in the middle *)
Definition middle (l : list R) : R :=
  let s := Permutations.sort rleb l in
  let h := (length l / 2)%nat in
  if (length l mod 2 =? 0)%nat then (nth (h - 1) s 0 + nth h s 0) / 2 else nth h s 0.
Definition median1 (l : list R) : option R := match l with [] => None | _ => Some (middle l) end.
Definition median (m : nat) (points : list vec) : option vec :=
  match points with [] => None | _ => Some (map (fun j => middle (column points j)) (seq 0 m)) end.
(** 112-113: [x.T x] for the points minus their mean; without points it is the zero matrix *)
Definition centered (m : nat) (points : list vec) : list vec :=
  match mean m points with None => [] | Some c => map (fun p => vsub p c) points end.
Definition scatter (m : nat) (x : list vec) : list vec :=
  map (fun j => map (fun k => rsum (map (fun p : vec => nth j p 0 * nth k p 0) x)) (seq 0 m)) (seq 0 m).
(** 96-115 [principal_component_axis]: the last column of the matrix of eigenvectors *)
Definition principal_component_axis (eigh : list vec -> list R * list vec) (m : nat) (points : list vec) : result vec :=
  let xtx := scatter m (centered m points) in
  let v := snd (eigh xtx) in
  if (m =? 0)%nat then Err IndexError else Ok (map (fun row : vec => nth (m - 1) row 0) v).
