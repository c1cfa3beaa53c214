(** Model of polynomials_on_simplices/geometry/mesh/basic_meshes/triangle_meshes.py
    and tet_meshes.py.

    An array created with [np.empty((num, k))] and filled row after row by a
    counter [idx] is modelled by the list of the rows in the order they are
    written, together with the check [alloc] that their number is the allocated
    one.  Resolutions are natural numbers (for [edge_resolution = 0] the
    truncated [edge_resolution - 1] is not Python's -1, see DESIGN.md). *)
From Verif Require Import Base MultiIndex MultiIndexCache Fld.

(** Writing past the last row raises IndexError.  Rows that were never written
    would contain arbitrary numbers; that is no exception in Python, it is
    marked as RuntimeError here, and theorems exclude it. *)
Definition alloc {A} (num : nat) (rows : list A) : result (list A) :=
  if num <? length rows then Err IndexError
  else if length rows <? num then Err RuntimeError
  else Ok rows.

(** ** triangle_meshes.py *)
(** 8-34 *)
Definition rectangle_triangulation (w h : nat) : result (list (list nat)) :=
  let* _ := assert_ ((1 <? w) && (1 <? h)) in
  alloc (2 * (w - 1) * (h - 1))
    (flat_map (fun i => flat_map (fun j =>
       [ [i * w + j; i * w + j + 1; (i + 1) * w + j];
         [i * w + j + 1; (i + 1) * w + j + 1; (i + 1) * w + j] ]) (seq 0 (w - 1))) (seq 0 (h - 1))).

(** 332-342; the rows are changed in place *)
Definition offset_triangulation_vertices (triangles : list (list nat)) (offset : nat) : list (list nat) :=
  map (map (fun v => v + offset)) triangles.

(** 127-157 *)
Definition annulus_triangulation (ang rad : nat) : result (list (list nat)) :=
  if ang <? 3 then Err ValueError
  else if rad <? 2 then Err ValueError
  else
    alloc (2 * (rad - 1) * ang)
      (flat_map (fun i => flat_map (fun j =>
         [ [i * ang + j; (i + 1) * ang + j; (i + 1) * ang + (j + 1) mod ang];
           [i * ang + j; (i + 1) * ang + (j + 1) mod ang; i * ang + (j + 1) mod ang] ]) (seq 0 ang)) (seq 0 (rad - 1))).

(** 96-124; the assignment to the slice [triangles[angular_resolution:]] raises
    ValueError unless the numbers of rows agree, and the offset is applied to a
    view of that slice *)
Definition disc_triangulation (ang rad : nat) : result (list (list nat)) :=
  if ang <? 3 then Err ValueError
  else if rad <? 2 then Err ValueError
  else
    let num := ang + 2 * (rad - 2) * ang in
    let center := map (fun i => [0; 1 + i; 1 + (i + 1) mod ang]) (seq 0 ang) in
    if 2 <? rad then
      let* out := annulus_triangulation ang (rad - 1) in
      if length out =? num - ang then alloc num (center ++ offset_triangulation_vertices out 1) else Err ValueError
    else alloc num center.

(** 160-189; [i0] is computed in floating point as
    [(2 * edge_resolution - mi[1] + 1) / 2 * mi[1] + mi[0]] and truncated when it
    is stored in an integer array *)
Definition tri_index (E : nat) (m0 m1 : nat) : nat := (2 * E - m1 + 1) * m1 / 2 + m0.
Definition triangle_triangulation (E : nat) : result (list (list nat)) :=
  let* mis := generate_all 2 (E - 1) in
  alloc ((E - 1) ^ 2)
    (flat_map (fun mi =>
       let m0 := nth 0 mi 0 in let m1 := nth 1 mi 0 in
       if norm mi <? E - 1 then
         let i0 := tri_index E m0 m1 in
         let i1 := tri_index E m0 (m1 + 1) in
         [i0; i0 + 1; i1] :: (if norm mi <? E - 2 then [[i0 + 1; i1 + 1; i1]] else [])
       else []) mis).

Section Vertices.
  Context {F : fld}.
  Local Open Scope fld_scope.
  Notation two := (1 + 1).

  (** [i / (n - 1)] *)
  Definition frac (i n : nat) : F := kofnat i / kofnat (n - 1).

  (** 37-65 *)
  Definition rectangle_vertices (width height : F) (w h : nat) : result (list (list F)) :=
    let* _ := assert_ ((1 <? w) && (1 <? h))%nat in
    alloc (w * h)
      (flat_map (fun i =>
         let s := frac i h in
         let y := (1 - s) * - height / two + s * height / two in
         map (fun j =>
           let t := frac j w in
           let x := (1 - t) * - width / two + t * width / two in
           [x; y; 0]) (seq 0 w)) (seq 0 h)).

  (** 68-93 *)
  Definition unit_square_vertices (w h : nat) : result (list (list F)) :=
    let* _ := assert_ ((1 <? w) && (1 <? h))%nat in
    alloc (w * h)
      (flat_map (fun i => let y := frac i h in map (fun j => [frac j w; y; 0]) (seq 0 w)) (seq 0 h)).

  (** The double loop of 206-211, 232-237 and 257-263: the rows of the vertex
      array of a triangle with [E] vertices per edge.  The division by
      [edge_resolution - 1] raises ZeroDivisionError when the loop is entered with
      [edge_resolution = 1]. *)
  Definition triangle_rows (E : nat) (vertex : nat -> nat -> list F) : result (list (list F)) :=
    if (E =? 1)%nat then Err ZeroDivisionError
    else alloc (E * (E + 1) / 2) (flat_map (fun row => map (fun col => vertex row col) (seq 0 (E - row))) (seq 0 E)).

  (** 192-213 *)
  Definition triangle_vertices (width height : F) (E : nat) : result (list (list F)) :=
    triangle_rows E (fun row col => [frac col E * width; frac row E * height; 0]).

  (** 216-239; [sqrt3] is [np.sqrt(3)] *)
  Definition equilateral_triangle_vertices (sqrt3 edge_length : F) (E : nat) : result (list (list F)) :=
    let width := edge_length in
    let height := sqrt3 / two * edge_length in
    triangle_rows E (fun row col =>
      [frac col E * width + kofnat row * width / kofnat (E - 1) / two; frac row E * height; 0]).

  (** [a + b] and [c * a] of arrays *)
  Definition vadd (a b : list F) : list F := map (fun p => fst p + snd p) (combine a b).
  Definition vscale (c : F) (a : list F) : list F := map (fun x => c * x) a.

  (** 242-265 for an array of three vertices of the same dimension *)
  Definition general_triangle_vertices (v0 v1 v2 : list F) (E : nat) : result (list (list F)) :=
    triangle_rows E (fun row col =>
      let w := frac row E in let v := frac col E in let u := 1 - v - w in
      vadd (vadd (vscale u v0) (vscale v v1)) (vscale w v2)).
End Vertices.

(** ** tet_meshes.py *)
(** 9-49 *)
Definition rectangular_box_triangulation (w h d : nat) : result (list (list nat)) :=
  if w <? 2 then Err ValueError
  else if h <? 2 then Err ValueError
  else if d <? 2 then Err ValueError
  else
    let np := w * h in
    alloc (6 * (w - 1) * (h - 1) * (d - 1))
      (flat_map (fun i => flat_map (fun j => flat_map (fun k =>
         let a1 := i * np + j * w + k in
         let a2 := a1 + 1 in
         let a3 := a1 + w in
         let a4 := a1 + w + 1 in
         let a5 := a1 + np in
         let a6 := a1 + np + 1 in
         let a7 := a1 + np + w in
         let a8 := a1 + np + w + 1 in
         [ [a1; a2; a3; a5]; [a5; a6; a2; a3]; [a5; a6; a3; a7];
           [a2; a4; a3; a6]; [a6; a4; a3; a7]; [a6; a8; a4; a7] ])
         (seq 0 (w - 1))) (seq 0 (h - 1))) (seq 0 (d - 1))).

(** 52-80 *)
Definition unit_cube_vertices {F : fld} (w h d : nat) : result (list (list F)) :=
  if w <? 2 then Err ValueError
  else if h <? 2 then Err ValueError
  else if d <? 2 then Err ValueError
  else
    alloc (w * h * d)
      (flat_map (fun i => flat_map (fun j => map (fun k => [frac k w; frac j h; frac i d])
         (seq 0 w)) (seq 0 h)) (seq 0 d)).

(** 174-188, 191-207, 210-231 *)
Definition cut_prism (i0 i1 i2 i3 i4 : nat) : list (list nat) := [ [i0; i2; i1; i3]; [i3; i2; i1; i4] ].
Definition prism (i0 i1 i2 i3 i4 i5 : nat) : list (list nat) := [ [i0; i1; i2; i3]; [i3; i4; i1; i2]; [i3; i4; i2; i5] ].
Definition box_tets (i0 i1 i2 i3 i4 i5 i6 i7 : nat) : list (list nat) :=
  [ [i0; i1; i2; i4]; [i4; i5; i1; i2]; [i4; i5; i2; i6]; [i1; i3; i2; i5]; [i5; i3; i2; i6]; [i5; i7; i3; i6] ].

(** 97-126, the body of the loop for one multi-index; [a], [b], [c] are its three
    components and [mi + (0, 1, 0)] is the sum of the multi-index and the tuple.
    The three comparisons exclude each other. *)
Definition tet_cell (E : nat) (mi : list nat) : result (list (list nat)) :=
  let a := nth 0 mi 0 in let b := nth 1 mi 0 in let c := nth 2 mi 0 in
  if norm mi + 3 <? E then
    let* i0 := get_index mi (E - 1) in let i1 := i0 + 1 in
    let* i2 := get_index [a; b + 1; c] (E - 1) in let i3 := i2 + 1 in
    let* i4 := get_index [a; b; c + 1] (E - 1) in let i5 := i4 + 1 in
    let* i6 := get_index [a; b + 1; c + 1] (E - 1) in let i7 := i6 + 1 in
    Ok (box_tets i0 i1 i2 i3 i4 i5 i6 i7)
  else if norm mi + 3 =? E then
    let* i0 := get_index mi (E - 1) in let i1 := i0 + 1 in
    let* i2 := get_index [a; b + 1; c] (E - 1) in let i3 := i2 + 1 in
    let* i4 := get_index [a; b; c + 1] (E - 1) in let i5 := i4 + 1 in
    let* i6 := get_index [a; b + 1; c + 1] (E - 1) in
    Ok (prism i0 i1 i2 i4 i5 i6 ++ cut_prism i1 i2 i3 i5 i6)
  else if norm mi + 2 =? E then
    let* i0 := get_index mi (E - 1) in let i1 := i0 + 1 in
    let* i2 := get_index [a; b + 1; c] (E - 1) in
    let* i3 := get_index [a; b; c + 1] (E - 1) in
    Ok [ [i0; i1; i2; i3] ]
  else Ok [].

(** 83-128 *)
Definition tetrahedron_triangulation (E : nat) : result (list (list nat)) :=
  let* _ := assert_ (2 <=? E) in
  let* mis := generate_all 3 (E - 1) in
  let* rows := mapM (tet_cell E) mis in
  alloc ((E - 1) ^ 3) (concat rows).

(** 131-153 *)
Definition tetrahedron_vertices {F : fld} (E : nat) : result (list (list F)) :=
  let* _ := assert_ (2 <=? E) in
  alloc ((E + 2) * (E + 1) * E / 6)
    (flat_map (fun w => flat_map (fun v => map (fun u => [frac u E; frac v E; frac w E])
       (seq 0 (E - v - w))) (seq 0 (E - w))) (seq 0 E)).
