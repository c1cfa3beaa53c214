(** Model of the midpoint rules of
    polynomials_on_simplices/calculus/quadrature.py (326-379) and of
    [general_tetrahedron_vertices]
    (geometry/mesh/basic_meshes/tet_meshes.py 156-171) over the real numbers.
    The number [n] of parts of an edge is a natural number. *)
From Coq Require Import Reals.
From Verif Require Import Base MultiIndex Fld FldInst LinSolve Det Linalg SimplexGeo Mesh KdTree RVec Triangle MeshNormals Quadrature.
Local Open Scope nat_scope.

(** tet_meshes.py 156-171: [np.dot(a, vertices[i]) + b] is assigned to the row
    [vertices[i]] with three entries *)
Definition general_tetrahedron_vertices {F : fld} (tet_vertices : list (list F)) (E : nat) : result (list (list F)) :=
  let* _ := assert_ (2 <=? E) in
  let* vertices := tetrahedron_vertices E in
  let* ab := affine_transformation_from_unit tet_vertices in
  mapM (fun v =>
    let* d := np_dot (fst ab) (Vec v) in
    let* p := np_add d (snd ab) in
    match p with Vec r => if length r =? 3 then Ok r else Err ValueError | _ => Err ValueError end) vertices.

(** the body of the loops of 347-350 and 375-378: one cell with the vertices
    [cell_vertices]; [dim] coordinates of the midpoint are passed to [f] *)
Definition midpoint_term (dim : nat) (f : callable RF) (weight : R) (integral : arr RF) (cell_vertices : list (list R)) : result (arr RF) :=
  let midpoint := SimplexGeo.centroid (F := RF) cell_vertices in
  let* xs := mapM (get midpoint) (seq 0 dim) in
  let* y := c_run f (map (fun t : R => Sc (F := RF) t) xs) in
  np_add integral (np_scale (F := RF) weight y).

(** quadrature.py 326-351 *)
Definition quadrature_triangle_midpoint_rule (f : callable RF) (vs : list (list R)) (n : nat) : result (arr RF) :=
  let* sub_triangles := triangle_triangulation (n + 1) in
  let* v0 := get vs 0 in
  let* v1 := get vs 1 in
  let* v2 := get vs 2 in
  let* sub_vertices := general_triangle_vertices (F := RF) v0 v1 v2 (n + 1) in
  let* a := Triangle.area vs in
  let sub_triangle_area := (a / INR (length sub_triangles))%R in
  foldM (fun integral i =>
    let* t := get sub_triangles i in
    let* tri_vertices := MeshNormals.vertices t sub_vertices in
    midpoint_term 2 f sub_triangle_area integral tri_vertices) (Sc (F := RF) 0%R) (seq 0 (length sub_triangles)).

(** quadrature.py 354-379 *)
Definition quadrature_tetrahedron_midpoint_rule (f : callable RF) (vs : list (list R)) (n : nat) : result (arr RF) :=
  let* sub_tetrahedrons := tetrahedron_triangulation (n + 1) in
  let* sub_vertices := general_tetrahedron_vertices (F := RF) vs (n + 1) in
  let* v := SimplexGeo.volume (Q := RO) sqrt vs in
  let sub_tetrahedron_volume := (v / INR (length sub_tetrahedrons))%R in
  foldM (fun integral i =>
    let* t := get sub_tetrahedrons i in
    let* tet_vertices := KdTree.simplex_vertices (Q := RO) t sub_vertices in
    midpoint_term 3 f sub_tetrahedron_volume integral tet_vertices) (Sc (F := RF) 0%R) (seq 0 (length sub_tetrahedrons)).
