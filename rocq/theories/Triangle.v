(** Model of polynomials_on_simplices/geometry/primitives/triangle.py and of
    linalg/vector_space_projection.py 48-64 (the rest is in Linalg.v) over the real numbers (no
    rounding).  Division by zero of real numbers, nan and inf in numpy, is
    excluded by hypotheses except where it is said.  The vertices are the rows
    of an array with three rows. *)
From Coq Require Import Reals.
From Verif Require Import Base MultiIndex RVec Angle Rotation.
Local Open Scope R_scope.

(** ** vector_space_projection.py *)
(** 48-64 *)
Definition vector_oblique_projection_2 (a b c : vec) : vec :=
  let mb := mvec [[0; -1]; [1; 0]] c in
  let mp := map (fun r => vdivs r (vdot b mb)) (outer b mb) in
  mvec mp a.

(** ** triangle.py *)
Notation tri := (list vec).
Definition vx (vs : tri) (i : nat) : vec := nth i vs [].
Definition dim (vs : tri) : nat := length (vx vs 0).
(** 10-23 *)
Definition edges (vs : tri) : list vec := map (fun i => vsub (vx vs ((i + 2) mod 3)) (vx vs ((i + 1) mod 3))) (seq 0 3).
(** 26-36 *)
Definition edge_lengths (vs : tri) : list R := map vnorm (edges vs).
(** 39-55 *)
Definition diameter (vs : tri) : R := let el := edge_lengths vs in Rmax (nth 0 el 0) (Rmax (nth 1 el 0) (nth 2 el 0)).

(** np.cross: a number for two dimensional vectors *)
Inductive crossres : Type := CS (x : R) | CV (v : vec).
Definition np_cross (u v : vec) : result crossres :=
  if (length u =? 2)%nat && (length v =? 2)%nat then Ok (CS (nth 0 u 0 * nth 1 v 0 - nth 1 u 0 * nth 0 v 0))
  else if (length u =? 3)%nat && (length v =? 3)%nat then Ok (CV (cross3 u v))
  else Err ValueError.
Definition cross_norm (c : crossres) : R := match c with CS x => Rabs x | CV v => vnorm v end.
Definition cross_div (c : crossres) (s : R) : crossres := match c with CS x => CS (x / s) | CV v => CV (vdivs v s) end.
(** 235-247 *)
Definition area_weighted_normal (vs : tri) : result crossres := let v := edges vs in np_cross (vx v 0) (vx v 1).
(** 250-261 *)
Definition normal (vs : tri) : result crossres :=
  let v := edges vs in
  let* n := np_cross (vx v 0) (vx v 1) in
  Ok (cross_div n (cross_norm n)).
(** 264-275 *)
Definition area (vs : tri) : result R :=
  let v := edges vs in
  let* n := np_cross (vx v 0) (vx v 1) in
  Ok (/ 2 * cross_norm n).
(** 278-287 *)
Definition perimeter (vs : tri) : R := rsum (edge_lengths vs).

(** 78-106 *)
Definition dual_edges (vs : tri) : result (list vec) :=
  let* _ := assert_ ((dim vs =? 2)%nat || (dim vs =? 3)%nat) in
  let v := edges vs in
  if (dim vs =? 2)%nat then
    Ok (map (fun i =>
      let t := [- nth 1 (vx v i) 0; nth 0 (vx v i) 0] in
      if rltb 0 (vdot t (vx v ((i + 1) mod 3))) then vscale (-1) t else t) (seq 0 3))
  else
    let* n := normal vs in
    match n with
    | CV n => Ok (map (fun i => cross3 (vx v i) n) (seq 0 3))
    | CS _ => Err RuntimeError
    end.
(** the formula of lines 125 and 144 *)
Definition altitude_of (vs : tri) (a : R) (i : nat) : R := 2 * a / vnorm (vsub (vx vs ((i + 1) mod 3)) (vx vs ((i + 2) mod 3))).
(** 109-127 *)
Definition altitude_vectors (vs : tri) : result (list vec) :=
  let* a := area vs in
  let* hv := dual_edges vs in
  Ok (map (fun i => let h := altitude_of vs a i in vdivs (vscale h (vx hv i)) (vnorm (vx hv i))) (seq 0 3)).
(** 130-145 *)
Definition altitudes (vs : tri) : result (list R) :=
  let* a := area vs in
  Ok (map (altitude_of vs a) (seq 0 3)).
(** 148-165 *)
Definition altitude_feet (vs : tri) : list vec :=
  map (fun i =>
    let v0 := vx vs i in
    let v1 := vx vs ((i + 1) mod 3) in
    let v2 := vx vs ((i + 2) mod 3) in
    let s := - vdot (vsub v2 v1) (vsub v1 v0) / vdot (vsub v2 v1) (vsub v2 v1) in
    vadd (vscale (1 - s) v1) (vscale s v2)) (seq 0 3).

(** 186-213 *)
Definition basis (vs : tri) : result (list vec) :=
  let* _ := assert_ ((dim vs =? 2)%nat || (dim vs =? 3)%nat) in
  let v := edges vs in
  let b0 := vdivs (vx v 0) (vnorm (vx v 0)) in
  if (dim vs =? 2)%nat then
    let b1 := vsub (vx v 1) (vscale (vdot (vx v 1) b0) b0) in
    Ok [b0; vdivs b1 (vnorm b1)]
  else
    let* n := normal vs in
    match n with
    | CV n => Ok [b0; cross3 n b0]
    | CS _ => Err RuntimeError
    end.
(** 216-232 *)
Definition in_triangleplane_coords (vs : tri) (v : vec) : result vec :=
  let* b := basis vs in
  Ok (map (fun i => vdot v (vx b i)) (seq 0 2)).
(** 58-75 *)
Definition edges_2 (vs : tri) : result (list vec) :=
  let v := edges vs in
  let* b := basis vs in
  Ok (map (fun i => map (fun j => vdot (vx v i) (vx b j)) (seq 0 2)) (seq 0 3)).
(** 168-183 *)
Definition dual_edges_2 (vs : tri) : result (list vec) :=
  let* t := dual_edges vs in
  mapM (fun i => in_triangleplane_coords vs (vx t i)) (seq 0 3).
(** 290-303 *)
Definition angle (vs : tri) (i : nat) : result R :=
  let v := edges vs in
  let u0 := vscale (-1) (vx v ((i + 1) mod 3)) in
  let u1 := vx v ((i + 2) mod 3) in
  compute_angle u0 u1.
(** 306-319 *)
Definition medians (vs : tri) : list vec :=
  map (fun i => vsub (vscale (/ 2) (vadd (vx vs ((i + 1) mod 3)) (vx vs ((i + 2) mod 3)))) (vx vs i)) (seq 0 3).
(** 322-338 *)
Definition medians_2 (vs : tri) : result (list vec) :=
  let m := medians vs in
  mapM (fun i => in_triangleplane_coords vs (vx m i)) (seq 0 3).

(** ** Coordinates *)
(** 341-351 *)
Definition barycentric_to_cartesian (bary : vec) (vs : tri) : vec :=
  vadd (vadd (vscale (nth 0 bary 0) (vx vs 0)) (vscale (nth 1 bary 0) (vx vs 1))) (vscale (nth 2 bary 0) (vx vs 2)).
(** np.linalg.solve for a two by two matrix: the solution of the equations *)
Definition solve2 (a : mat) (b : vec) : result vec :=
  let d := ent a 0 0 * ent a 1 1 - ent a 0 1 * ent a 1 0 in
  if reqb d 0 then Err LinAlgError
  else Ok [(nth 0 b 0 * ent a 1 1 - ent a 0 1 * nth 1 b 0) / d; (ent a 0 0 * nth 1 b 0 - nth 0 b 0 * ent a 1 0) / d].
(** 354-383 *)
Definition cartesian_to_barycentric (cartesian : vec) (vs : tri) : result vec :=
  let* e := edges_2 vs in
  let* m := medians_2 vs in
  let* v1 := in_triangleplane_coords vs (vsub cartesian (vx vs 0)) in
  let v1 := vector_oblique_projection_2 v1 (vx e 2) (vx m 2) in
  let* v2 := in_triangleplane_coords vs (vsub cartesian (vx vs 1)) in
  let v2 := vector_oblique_projection_2 v2 (vx e 0) (vx m 0) in
  let r1 := vdot v1 (vx e 2) / vdot (vx e 2) (vx e 2) in
  let r2 := vdot v2 (vx e 0) / vdot (vx e 0) (vx e 0) in
  let* x := solve2 [[/ 2; - / 2]; [/ 2; 1]] [/ 2 - r1; 1 - r2] in
  Ok [nth 0 x 0; nth 1 x 0; 1 - nth 0 x 0 - nth 1 x 0].
(** 425-443 *)
Definition trilinear_to_side_distances (trilinear : vec) (vs : tri) : result vec :=
  let el := edge_lengths vs in
  let denominator := fold_left (fun d i => d + nth i el 0 * nth i trilinear 0) (seq 0 3) 0 in
  let* a := area vs in
  let k := 2 * a / denominator in
  Ok (vscale k trilinear).
(** 446-457 *)
Definition side_distances_to_trilinear (side_distances : vec) : vec := side_distances.
(** 460-475 *)
Definition normalize_trilinear_coordinates := trilinear_to_side_distances.
(** 386-401 *)
Definition barycentric_to_trilinear (bary : vec) (vs : tri) : result vec :=
  let e := edges vs in
  normalize_trilinear_coordinates (map (fun i => nth i bary 0 / vnorm (vx e i)) (seq 0 3)) vs.
(** 404-422 *)
Definition trilinear_to_barycentric (trilinear : vec) (vs : tri) : vec :=
  let e := edges vs in
  let bary := map (fun i => nth i trilinear 0 * vnorm (vx e i)) (seq 0 3) in
  vscale (1 / rsum bary) bary.

(** ** Centres *)
(** 478-487 *)
Definition centroid (vs : tri) : vec := vdivs (vadd (vadd (vx vs 0) (vx vs 1)) (vx vs 2)) 3.
(** 490-505 *)
Definition circumcenter (vs : tri) : result vec :=
  let* trilinear := mapM (fun i => let* a := angle vs i in Ok (cos a)) (seq 0 3) in
  Ok (barycentric_to_cartesian (trilinear_to_barycentric trilinear vs) vs).
(** 508-523 *)
Definition circumradius (vs : tri) : R :=
  let el := edge_lengths vs in
  let a := nth 0 el 0 in
  let b := nth 1 el 0 in
  let c := nth 2 el 0 in
  a * b * c / sqrt ((a + b + c) * (b + c - a) * (c + a - b) * (a + b - c)).
(** 526-546; the loop ends with [break] at a right angle *)
Fixpoint orthocenter_loop (vs : tri) (is_ : list nat) (trilinear : vec) : result vec :=
  match is_ with
  | [] => Ok trilinear
  | i :: is_ =>
    let* alpha := angle vs i in
    if negb (reqb alpha (PI / 2)) then
      let* alpha := angle vs i in
      orthocenter_loop vs is_ (set_nth i (1 / cos alpha) trilinear)
    else Ok (set_nth i 1 (vzero 3))
  end.
Definition orthocenter (vs : tri) : result vec :=
  let* trilinear := orthocenter_loop vs (seq 0 3) (vzero 3) in
  Ok (barycentric_to_cartesian (trilinear_to_barycentric trilinear vs) vs).
(** 549-561 *)
Definition incenter (vs : tri) : vec := barycentric_to_cartesian (trilinear_to_barycentric [1; 1; 1] vs) vs.
(** 564-576 *)
Definition inradius (vs : tri) : result R :=
  let* a := area vs in
  let s := perimeter vs / 2 in
  Ok (a / s).

(** 579-597 *)
Definition inside_triangle (point : vec) (vs : tri) (include_boundary : bool) : result bool :=
  let* bary := cartesian_to_barycentric point vs in
  let in_range := if include_boundary then in_closed_range else in_open_range in
  Ok (forallb (fun b => in_range b 0 1) bary).

(** 600-621; a quotient with denominator zero has numerator zero here, it is
    nan, and [nan > d] is false *)
Definition is_degenerate (vs : tri) (eps : R) : bool :=
  let d := cos eps ^ 2 in
  let e := edges vs in
  let squared i := vdot (vx e i) (vx e i) in
  let dot2 i := vdot (vx e ((i + 1) mod 3)) (vx e ((i + 2) mod 3)) ^ 2 in
  existsb (fun i =>
    let den := squared ((i + 1) mod 3)%nat * squared ((i + 2) mod 3)%nat in
    negb (reqb den 0) && rltb d (dot2 i / den)) (seq 0 3).
