(** Model of the geometric part of
    polynomials_on_simplices/geometry/mesh/triangle_mesh.py over the real
    numbers (no rounding).  The combinatorial part is in Simplicial.v.  Vertex
    indices are natural numbers.  A row of an array of floats is [Some v], or
    [None] when numpy makes all its entries nan (0 / 0), and nan spreads through
    sums. *)
From Coq Require Import Reals.
From Verif Require Import Base MultiIndex RVec Angle Rotation Triangle.
Local Open Scope R_scope.

Notation row := (option vec).
(** r[...] += w for two rows of the same length *)
Definition row_add (r w : row) : row := match r, w with Some a, Some b => Some (vadd a b) | _, _ => None end.
(** v / numpy.linalg.norm(v) *)
Definition row_normalize (r : row) : row := match r with Some v => if reqb (vnorm v) 0 then None else Some (vdivs v (vnorm v)) | None => None end.
(** n[k] += w *)
Definition row_add_at (n : list row) (k : nat) (w : row) : result (list row) := let* r := get n k in set n k (row_add r w).
(** v.shape[1] *)
Definition mesh_dim (v : list vec) : nat := length (nth 0 v []).

(** 10-17, numpy.amax of an empty array is a ValueError *)
Definition get_num_vertices (t : list (list nat)) : result nat :=
  match concat t with [] => Err ValueError | x :: l => Ok (S (fold_left Nat.max l x)) end.
(** 20-32 *)
Definition vertices (tr : list nat) (v : list vec) : result (list vec) :=
  let* _ := get v 0 in
  mapM (fun j => let* k := get tr j in get v k) (seq 0 3).
(** triangle.normal assigned to a row with three entries (a number, for vertices in the plane, is repeated); nan for a triangle without area *)
Definition normal_row (p : list vec) : result row :=
  let* w := area_weighted_normal p in
  if reqb (cross_norm w) 0 then Ok None
  else
    let* n := normal p in
    Ok (Some (match n with CS x => repeat x 3 | CV m => m end)).
(** 35-47 *)
Definition normals (t : list (list nat)) (v : list vec) : result (list row) :=
  mapM (fun tr => let* p := vertices tr v in normal_row p) t.
(** 81-93: a centroid is assigned to a row with three entries *)
Definition centroids (t : list (list nat)) (v : list vec) : result (list vec) :=
  mapM (fun tr =>
    let* p := vertices tr v in
    let c := centroid p in
    if (length c =? 3)%nat then Ok c else if (length c =? 1)%nat then Ok (repeat (nth 0 c 0) 3) else Err ValueError) t.
(** 96-114 *)
Definition mesh_centroid (t : list (list nat)) (v : list vec) : result row :=
  let* v0 := get v 0 in
  let* ca := foldM (fun (ca : vec * R) tr =>
    let* p := vertices tr v in
    let ct := centroid p in
    let* a := area p in
    Ok (vadd (fst ca) (vscale a ct), snd ca + a)) (vzero (length v0), 0) t in
  Ok (if reqb (snd ca) 0 then None else Some (vdivs (fst ca) (snd ca))).
(** 1 / math.tan(alpha): math.tan(pi / 2) is a large number, so that the quotient is zero up to rounding *)
Definition py_cot (alpha : R) : result R := if reqb (sin alpha) 0 then Err ZeroDivisionError else Ok (cos alpha / sin alpha).
(** 117-139 *)
Definition vertex_normals_cotangent (t : list (list nat)) (v : list vec) : result (list row) :=
  let* n := foldM (fun n tr =>
    let* p := vertices tr v in
    let e := edges p in
    foldM (fun n j =>
      let* alpha := angle p j in
      let* cota := py_cot alpha in
      let* v0 := get tr ((j + 1) mod 3) in
      let* v1 := get tr ((j + 2) mod 3) in
      let* n := row_add_at n v0 (Some (vscale cota (vx e j))) in
      row_add_at n v1 (Some (vscale (-1) (vscale cota (vx e j))))) n (seq 0 3)) (repeat (Some (vzero (mesh_dim v))) (length v)) t in
  Ok (map (fun r => option_map (vscale (-1)) (row_normalize r)) n).
(** the values of the parameter weight; any other string acts as None *)
Inductive weight : Type := WNone | WArea | WAngle | WCentroid.
(** 165-176 *)
Definition corner_weight (w : weight) (p : list vec) (x : vec) (j : nat) : result R :=
  match w with
  | WNone => Ok 1
  | WArea => area p
  | WAngle => angle p j
  | WCentroid => Ok (/ vnorm (vsub (centroid p) x))
  end.
(** 142-182: triangle normals have three entries, so that vertices in the plane do not fit *)
Definition vertex_normals (t : list (list nat)) (v : list vec) (w : weight) : result (list row) :=
  let* tn := normals t v in
  let* n := foldM (fun n (ti : list nat * row) =>
    let* p := vertices (fst ti) v in
    foldM (fun n j =>
      let* k := get (fst ti) j in
      let* x := get v k in
      let* a := corner_weight w p x j in
      if (mesh_dim v =? 3)%nat then row_add_at n k (option_map (vscale a) (snd ti)) else Err ValueError) n (seq 0 3))
    (repeat (Some (vzero (mesh_dim v))) (length v)) (combine t tn) in
  Ok (map row_normalize n).
