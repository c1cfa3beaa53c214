(** C26-C28, C61, C62: the basic triangle and tetrahedron meshes.

    [edges t] are the three directed edges of a triangle, [faces t] the four
    faces of a tetrahedron, [corners vs t] the vertex coordinates, [in_hull k]
    the convex hull in R^k, [in_interior k] its points with positive weights. *)
From Coq Require Import Reals Lra Qcanon QArith.
From Verif Require Import Base MultiIndex MultiIndexFacts MultiIndexCache Fld FldInst KdMesh Mesh MeshFacts MeshNum MeshGeo MeshVerts MeshProps ExNum.
Import ListNotations.

Definition qpts (r : result (list (list QcF))) : option (list (list Q)) := match r with Ok l => Some (map qlist l) | Err _ => None end.

(** ** C26 rectangle *)
Theorem C26_counts : forall (F : fld) (W H : F) w h, (1 < w)%nat -> (1 < h)%nat -> exists tris vs,
  rectangle_triangulation w h = Ok tris /\ rectangle_vertices W H w h = Ok vs /\ length tris = (2 * (w - 1) * (h - 1))%nat /\ length vs = (w * h)%nat /\
  (forall t, In t tris -> length t = 3%nat /\ forall i, In i t -> (i < length vs)%nat) /\
  forall p, In p vs -> length p = 3%nat.
Proof. intros F. exact (@rectangle_counts F). Qed.
Print Assumptions C26_counts.
Example C26_counts_ex : rectangle_triangulation 3 2 = Ok [[0; 1; 3]; [1; 4; 3]; [1; 2; 4]; [2; 5; 4]]%nat
  /\ qpts (rectangle_vertices (rat 4 1) (rat 2 1) 3 2) = Some [[-2; -1; 0]; [0; -1; 0]; [2; -1; 0]; [-2; 1; 0]; [0; 1; 0]; [2; 1; 0]]%Q.
Proof. vm_compute. auto. Qed.

Theorem C26_small_resolution : forall (F : fld) (W H : F) w h, (w <= 1 \/ h <= 1)%nat ->
  rectangle_triangulation w h = Err AssertionError /\ rectangle_vertices W H w h = Err AssertionError /\ unit_square_vertices (F := F) w h = Err AssertionError.
Proof.
  intros F W H w h Hc. unfold rectangle_triangulation, rectangle_vertices, unit_square_vertices.
  assert (E : ((1 <? w) && (1 <? h))%nat = false) by (apply Bool.andb_false_iff; destruct Hc; [left|right]; apply Nat.ltb_ge; lia).
  rewrite E. auto.
Qed.
Print Assumptions C26_small_resolution.
Example C26_small_resolution_ex : rectangle_triangulation 1 5 = Err AssertionError.
Proof. reflexivity. Qed.

Theorem C26_area : forall (F : fld) (W H : F) w h tris vs, (1 < w)%nat -> (1 < h)%nat -> rectangle_triangulation w h = Ok tris -> rectangle_vertices W H w h = Ok vs ->
  (forall t, In t tris -> signed_area vs t = W * H / ((1 + 1) * kofnat (w - 1) * kofnat (h - 1)))%K /\ ksum tris (signed_area vs) = (W * H)%K.
Proof. intros F W H w h tris vs Hw Hh ET EV. split; [exact (rectangle_area W H w h tris vs Hw Hh ET EV)|exact (rectangle_area_sum W H w h tris vs Hw Hh ET EV)]. Qed.
Print Assumptions C26_area.
Example C26_area_ex : match rectangle_vertices (rat 4 1) (rat 2 1) 3 2 with Ok vs => map (fun t => this (signed_area vs t : Qc)) [[0; 1; 3]; [1; 4; 3]; [1; 2; 4]; [2; 5; 4]]%nat | Err _ => [] end = [2; 2; 2; 2]%Q.
Proof. vm_compute. reflexivity. Qed.

(** Every directed edge is used at most once, and it is used in the other
    direction by a second triangle exactly when it is not on a side of the
    rectangle. *)
Theorem C26_conforming : forall (F : fld) (W H : F) w h tris vs, W <> 0%K -> H <> 0%K -> (1 < w)%nat -> (1 < h)%nat -> rectangle_triangulation w h = Ok tris -> rectangle_vertices W H w h = Ok vs ->
  NoDup (flat_map edges tris) /\
  forall i j, In (i, j) (flat_map edges tris) -> let X k := coord 0 (nth k vs []) in let Y k := coord 1 (nth k vs []) in
    (In (j, i) (flat_map edges tris) <->
     ~ (X i = X j /\ (X i = - W / (1 + 1) \/ X i = W / (1 + 1)))%K /\ ~ (Y i = Y j /\ (Y i = - H / (1 + 1) \/ Y i = H / (1 + 1)))%K).
Proof. intros F W H w h tris vs HW HH Hw Hh ET EV. split; [exact (rectangle_edges w h tris Hw Hh ET)|exact (rectangle_conforming W H w h tris vs HW HH Hw Hh ET EV)]. Qed.
Print Assumptions C26_conforming.
Example C26_conforming_ex : flat_map edges [[0; 1; 3]; [1; 4; 3]]%nat = [(0, 1); (1, 3); (3, 0); (1, 4); (4, 3); (3, 1)]%nat /\ rat 4 1 <> @k0 QcF.
Proof. split; [reflexivity|]. intros E. apply (f_equal (fun q : Qc => this q)) in E. discriminate. Qed.

(** The triangles cover the rectangle and nothing else, and no two of them
    have a common interior point. *)
Theorem C26_covers : forall (W H : RO) w h tris vs, (0 < W)%R -> (0 < H)%R -> (1 < w)%nat -> (1 < h)%nat -> rectangle_triangulation w h = Ok tris -> rectangle_vertices W H w h = Ok vs ->
  (forall x y, (- W / 2 <= x <= W / 2 /\ - H / 2 <= y <= H / 2)%R <-> exists t, In t tris /\ in_hull (Q := RO) 3 (corners vs t) [x; y; 0%R]) /\
  forall t t' x, In t tris -> In t' tris -> in_interior (Q := RO) 3 (corners vs t) x -> in_interior (Q := RO) 3 (corners vs t') x -> t = t'.
Proof. intros W H w h tris vs HW HH Hw Hh ET EV. split; [exact (rectangle_cover W H w h tris vs HW HH Hw Hh ET EV)|exact (rectangle_disjoint W H w h tris vs HW HH Hw Hh ET EV)]. Qed.
Print Assumptions C26_covers.
Example C26_covers_ex : exists tris vs, rectangle_triangulation 3 2 = Ok tris /\ rectangle_vertices (F := RO) 4%R 2%R 3 2 = Ok vs /\ (0 < 4)%R /\ (0 < 2)%R /\ length tris = 4%nat.
Proof. destruct (C26_counts RO 4%R 2%R 3 2 ltac:(lia) ltac:(lia)) as (tris & vs & A & B & C & _). exists tris, vs. repeat split; auto; lra. Qed.

(** The unit square is the unit rectangle moved by (1/2, 1/2). *)
Theorem C26_unit_square : forall (F : fld) w h, (1 < w)%nat -> (1 < h)%nat -> exists vs us, rectangle_vertices (F := F) 1%K 1%K w h = Ok vs /\ unit_square_vertices w h = Ok us /\
  us = map (fun p => [coord 0 p + 1 / (1 + 1); coord 1 p + 1 / (1 + 1); 0]%K) vs.
Proof. intros F. exact (@unit_square_eq F). Qed.
Print Assumptions C26_unit_square.
Example C26_unit_square_ex : qpts (unit_square_vertices 3 2) = Some [[0; 0; 0]; [1 # 2; 0; 0]; [1; 0; 0]; [0; 1; 0]; [1 # 2; 1; 0]; [1; 1; 0]]%Q.
Proof. vm_compute. reflexivity. Qed.

(** ** C27 triangle *)
Theorem C27_counts : forall (F : fld) (v0 v1 v2 : list F) E, (2 <= E)%nat -> length v1 = length v0 -> length v2 = length v0 -> exists tris vs,
  triangle_triangulation E = Ok tris /\ general_triangle_vertices v0 v1 v2 E = Ok vs /\ length tris = ((E - 1) ^ 2)%nat /\ length vs = (E * (E + 1) / 2)%nat /\
  (forall t, In t tris -> length t = 3%nat /\ forall i, In i t -> (i < length vs)%nat) /\
  forall p, In p vs -> length p = length v0.
Proof. intros F. exact (@triangle_counts F). Qed.
Print Assumptions C27_counts.
Example C27_counts_ex : triangle_triangulation 3 = Ok [[0; 1; 3]; [1; 4; 3]; [1; 2; 4]; [3; 4; 5]]%nat
  /\ qpts (general_triangle_vertices [rat 0 1; rat 0 1] [rat 4 1; rat 0 1] [rat 0 1; rat 2 1] 3) = Some [[0; 0]; [2; 0]; [4; 0]; [0; 1]; [2; 1]; [0; 2]]%Q.
Proof. vm_compute. auto. Qed.

(** One vertex per edge: no triangle, and the vertex functions divide by zero. *)
Theorem C27_one_vertex : triangle_triangulation 1 = Ok [] /\ forall (F : fld) (v0 v1 v2 : list F), general_triangle_vertices v0 v1 v2 1 = Err ZeroDivisionError.
Proof. split; [reflexivity|]. intros. reflexivity. Qed.
Print Assumptions C27_one_vertex.

(** The closed formula for the vertex index is the position of the
    multi-index in [generate_all 2 (E - 1)]. *)
Theorem C27_index : forall E a b, (1 <= E)%nat -> (a + b <= E - 1)%nat -> pos (all_mi 2 (E - 1)) [a; b] = Some (tri_index E a b).
Proof. exact tri_index_pos. Qed.
Print Assumptions C27_index.
Example C27_index_ex : tri_index 4 1 2 = 8%nat /\ nth_error (all_mi 2 3) 8 = Some [1; 2]%nat.
Proof. vm_compute. auto. Qed.

(** The vertex with this index has the barycentric coordinates
    (1 - (a + b) / (E - 1), a / (E - 1), b / (E - 1)). *)
Theorem C27_vertices : forall (F : fld) (v0 v1 v2 : list F) E vs, (2 <= E)%nat -> length v1 = length v0 -> length v2 = length v0 -> general_triangle_vertices v0 v1 v2 E = Ok vs ->
  forall a b j, (a + b < E)%nat ->
  nth j (nth (tri_index E a b) vs []) 0%K = (nth j v0 0 + kofnat a * ((nth j v1 0 - nth j v0 0) / kofnat (E - 1)) + kofnat b * ((nth j v2 0 - nth j v0 0) / kofnat (E - 1)))%K.
Proof. intros F v0 v1 v2 E vs HE H1 H2 EV. destruct (general_vertices_eq v0 v1 v2 E HE H1 H2) as (vs' & EV' & _ & _ & N). rewrite EV' in EV. injection EV as <-. exact N. Qed.
Print Assumptions C27_vertices.

Theorem C27_area : forall (F : fld) (v0 v1 v2 : list F) E tris vs, (2 <= E)%nat -> length v1 = length v0 -> length v2 = length v0 -> triangle_triangulation E = Ok tris -> general_triangle_vertices v0 v1 v2 E = Ok vs ->
  (forall t, In t tris -> signed_area vs t = signed_area [v0; v1; v2] [0; 1; 2]%nat / kofnat ((E - 1) ^ 2))%K /\ ksum tris (signed_area vs) = signed_area [v0; v1; v2] [0; 1; 2]%nat.
Proof. intros F v0 v1 v2 E tris vs HE H1 H2 ET EV. split; [exact (general_area v0 v1 v2 E tris vs HE H1 H2 ET EV)|exact (general_area_sum v0 v1 v2 E tris vs HE H1 H2 ET EV)]. Qed.
Print Assumptions C27_area.
Example C27_area_ex : match general_triangle_vertices [rat 0 1; rat 0 1] [rat 4 1; rat 0 1] [rat 0 1; rat 2 1] 3 with Ok vs => map (fun t => this (signed_area vs t : Qc)) [[0; 1; 3]; [1; 4; 3]; [1; 2; 4]; [3; 4; 5]]%nat | Err _ => [] end = [1; 1; 1; 1]%Q.
Proof. vm_compute. reflexivity. Qed.

Theorem C27_conforming : forall (F : fld) (W H : F) E tris vs, W <> 0%K -> H <> 0%K -> (2 <= E)%nat -> triangle_triangulation E = Ok tris -> triangle_vertices W H E = Ok vs ->
  NoDup (flat_map edges tris) /\
  forall i j, In (i, j) (flat_map edges tris) -> let X k := coord 0 (nth k vs []) in let Y k := coord 1 (nth k vs []) in
    (In (j, i) (flat_map edges tris) <->
     (~ (X i = 0 /\ X j = 0) /\ ~ (Y i = 0 /\ Y j = 0) /\ ~ (X i / W + Y i / H = 1 /\ X j / W + Y j / H = 1))%K).
Proof. intros F W H E tris vs HW HH HE ET EV. split; [exact (triangle_edges E tris ltac:(lia) ET)|exact (triangle_conforming W H E tris vs HW HH HE ET EV)]. Qed.
Print Assumptions C27_conforming.
Example C27_conforming_ex : qpts (triangle_vertices (rat 4 1) (rat 2 1) 3) = Some [[0; 0; 0]; [2; 0; 0]; [4; 0; 0]; [0; 1; 0]; [2; 1; 0]; [0; 2; 0]]%Q.
Proof. vm_compute. reflexivity. Qed.

Theorem C27_covers : forall k (v0 v1 v2 : list RO) E tris vs, length v0 = k -> length v1 = k -> length v2 = k -> (2 <= E)%nat -> triangle_triangulation E = Ok tris -> general_triangle_vertices v0 v1 v2 E = Ok vs ->
  forall x, in_hull (Q := RO) k [v0; v1; v2] x <-> exists t, In t tris /\ in_hull (Q := RO) k (corners vs t) x.
Proof. exact triangle_cover. Qed.
Print Assumptions C27_covers.
Theorem C27_disjoint : forall k (v0 v1 v2 : list RO) E tris vs, length v0 = k -> length v1 = k -> length v2 = k -> (2 <= E)%nat -> triangle_triangulation E = Ok tris -> general_triangle_vertices v0 v1 v2 E = Ok vs ->
  (forall al be : R, (forall j, (j < k)%nat -> al * (nth j v1 0 - nth j v0 0) + be * (nth j v2 0 - nth j v0 0) = 0) -> al = 0 /\ be = 0)%R ->
  forall t t' x, In t tris -> In t' tris -> in_interior (Q := RO) k (corners vs t) x -> in_interior (Q := RO) k (corners vs t') x -> t = t'.
Proof. exact triangle_disjoint. Qed.
Print Assumptions C27_disjoint.
Example C27_covers_ex : exists tris vs, triangle_triangulation 3 = Ok tris /\ general_triangle_vertices (F := RO) [0; 0]%R [4; 0]%R [0; 2]%R 3 = Ok vs /\ length tris = 4%nat /\
  (forall al be : R, (forall j, (j < 2)%nat -> al * (nth j [4; 0] 0 - nth j [0; 0] 0) + be * (nth j [0; 2] 0 - nth j [0; 0] 0) = 0) -> al = 0 /\ be = 0)%R.
Proof.
  destruct (C27_counts RO [0; 0]%R [4; 0]%R [0; 2]%R 3 ltac:(lia) eq_refl eq_refl) as (tris & vs & A & B & C & _). exists tris, vs. repeat split; auto.
  - specialize (H 0%nat ltac:(lia)). cbn in H. lra.
  - specialize (H 1%nat ltac:(lia)). cbn in H. lra.
Qed.

(** The two special vertex functions are the general one. *)
Theorem C27_triangle_vertices : forall (F : fld) (W H : F) E, triangle_vertices W H E = general_triangle_vertices [0; 0; 0]%K [W; 0; 0]%K [0; H; 0]%K E.
Proof. intros F. exact (@triangle_general F). Qed.
Print Assumptions C27_triangle_vertices.
Theorem C27_equilateral_vertices : forall (F : fld) (s L : F) E, exists v0 v1 v2, equilateral_triangle_vertices s L E = general_triangle_vertices v0 v1 v2 E /\
  length v0 = 3%nat /\ length v1 = 3%nat /\ length v2 = 3%nat /\
  ((s * s = kofnat 3)%K -> forall a b, In (a, b) [(v0, v1); (v1, v2); (v2, v0)] -> ksum (seq 0 3) (fun j => (nth j b 0 - nth j a 0) * (nth j b 0 - nth j a 0))%K = (L * L)%K).
Proof. intros F. exact (@equilateral_sides F). Qed.
Print Assumptions C27_equilateral_vertices.
Example C27_equilateral_ex : exists s : R, (s * s = 3)%R.
Proof. exists (sqrt 3). apply sqrt_sqrt. lra. Qed.

(** ** C28 box *)
Theorem C28_counts : forall (F : fld) w h d, (1 < w)%nat -> (1 < h)%nat -> (1 < d)%nat -> exists tets vs,
  rectangular_box_triangulation w h d = Ok tets /\ unit_cube_vertices (F := F) w h d = Ok vs /\
  length tets = (6 * (w - 1) * (h - 1) * (d - 1))%nat /\ length vs = (w * h * d)%nat /\
  (forall t, In t tets -> length t = 4%nat /\ forall i, In i t -> (i < length vs)%nat) /\ NoDup tets.
Proof.
  intros F w h d Hw Hh Hd. destruct (box_eq w h d Hw Hh Hd) as [E _]. destruct (unit_cube_eq (F := F) w h d Hw Hh Hd) as (vs & EV & _).
  eexists _, vs. split; [exact E|]. split; [exact EV|]. destruct (box_facts w h d _ vs Hw Hh Hd E EV) as (A & B & C & D & _). auto.
Qed.
Print Assumptions C28_counts.
Example C28_counts_ex : rectangular_box_triangulation 2 2 2 = Ok [[0; 1; 2; 4]; [4; 5; 1; 2]; [4; 5; 2; 6]; [1; 3; 2; 5]; [5; 3; 2; 6]; [5; 7; 3; 6]]%nat
  /\ qpts (unit_cube_vertices 2 2 2) = Some [[0; 0; 0]; [1; 0; 0]; [0; 1; 0]; [1; 1; 0]; [0; 0; 1]; [1; 0; 1]; [0; 1; 1]; [1; 1; 1]]%Q.
Proof. vm_compute. auto. Qed.

Theorem C28_small_resolution : forall (F : fld) w h d, (w <= 1 \/ h <= 1 \/ d <= 1)%nat -> rectangular_box_triangulation w h d = Err ValueError.
Proof.
  intros F w h d Hc. unfold rectangular_box_triangulation.
  destruct (w <? 2)%nat eqn:A; [reflexivity|]. destruct (h <? 2)%nat eqn:B; [reflexivity|]. destruct (d <? 2)%nat eqn:C; [reflexivity|].
  apply Nat.ltb_ge in A, B, C. lia.
Qed.
Print Assumptions C28_small_resolution.

Theorem C28_volume : forall (F : fld) w h d tets (vs : list (list F)), (1 < w)%nat -> (1 < h)%nat -> (1 < d)%nat -> rectangular_box_triangulation w h d = Ok tets -> unit_cube_vertices w h d = Ok vs ->
  (forall t, In t tets -> signed_volume vs t = 1 / (kofnat 6 * kofnat (w - 1) * kofnat (h - 1) * kofnat (d - 1)))%K /\ ksum tets (signed_volume vs) = 1%K.
Proof. intros F w h d tets vs Hw Hh Hd ET EV. split; [exact (box_volume w h d tets vs Hw Hh Hd ET EV)|exact (box_volume_sum w h d tets vs Hw Hh Hd ET EV)]. Qed.
Print Assumptions C28_volume.
Example C28_volume_ex : match rectangular_box_triangulation 2 2 2, unit_cube_vertices (F := QcF) 2 2 2 with Ok ts, Ok vs => map (fun t => this (signed_volume vs t : Qc)) ts | _, _ => [] end = repeat (1 # 6)%Q 6.
Proof. vm_compute. reflexivity. Qed.

(** A face is on a side of the cube or belongs to a second tetrahedron. *)
Theorem C28_conforming : forall (F : fld) w h d tets (vs : list (list F)), (1 < w)%nat -> (1 < h)%nat -> (1 < d)%nat -> rectangular_box_triangulation w h d = Ok tets -> unit_cube_vertices w h d = Ok vs ->
  forall t f, In t tets -> In f (faces t) ->
  (exists k v, (k < 3)%nat /\ (v = 0 \/ v = 1)%K /\ forall i, In i f -> coord k (nth i vs []) = v) \/ exists t', In t' tets /\ t' <> t /\ incl f t'.
Proof. intros F w h d tets vs Hw Hh Hd ET EV. apply (box_facts w h d tets vs Hw Hh Hd ET EV). Qed.
Print Assumptions C28_conforming.

Theorem C28_covers : forall w h d tets (vs : list (list RO)), (1 < w)%nat -> (1 < h)%nat -> (1 < d)%nat -> rectangular_box_triangulation w h d = Ok tets -> unit_cube_vertices w h d = Ok vs ->
  (forall x y z, (0 <= x <= 1 /\ 0 <= y <= 1 /\ 0 <= z <= 1)%R <-> exists t, In t tets /\ in_hull (Q := RO) 3 (corners vs t) [x; y; z]) /\
  forall t t' x, In t tets -> In t' tets -> in_interior (Q := RO) 3 (corners vs t) x -> in_interior (Q := RO) 3 (corners vs t') x -> t = t'.
Proof. intros w h d tets vs Hw Hh Hd ET EV. split; [exact (box_covering w h d tets vs Hw Hh Hd ET EV)|exact (box_disjoint w h d tets vs Hw Hh Hd ET EV)]. Qed.
Print Assumptions C28_covers.
Example C28_covers_ex : exists tets vs, rectangular_box_triangulation 3 2 4 = Ok tets /\ unit_cube_vertices (F := RO) 3 2 4 = Ok vs /\ length tets = 36%nat.
Proof. destruct (C28_counts RO 3 2 4 ltac:(lia) ltac:(lia) ltac:(lia)) as (tets & vs & A & B & C & _). exists tets, vs. auto. Qed.

(** ** C61 annulus and disc *)
Theorem C61_annulus : forall A n, (3 <= A)%nat -> (2 <= n)%nat -> exists tris, annulus_triangulation A n = Ok tris /\
  length tris = (2 * (n - 1) * A)%nat /\ (forall t, In t tris -> length t = 3%nat /\ forall i, In i t -> (i < A * n)%nat) /\
  NoDup (flat_map edges tris) /\
  forall i j, In (i, j) (flat_map edges tris) -> (In (j, i) (flat_map edges tris) <-> ~ (i < A /\ j < A)%nat /\ ~ ((n - 1) * A <= i /\ (n - 1) * A <= j)%nat).
Proof. intros A n HA Hn. destruct (annulus_eq A n HA Hn) as [E _]. eexists. split; [exact E|]. exact (annulus_facts A n _ HA Hn E). Qed.
Print Assumptions C61_annulus.
Example C61_annulus_ex : annulus_triangulation 3 2 = Ok [[0; 3; 4]; [0; 4; 1]; [1; 4; 5]; [1; 5; 2]; [2; 5; 3]; [2; 3; 0]]%nat.
Proof. vm_compute. reflexivity. Qed.

Theorem C61_disc : forall A n, (3 <= A)%nat -> (2 <= n)%nat -> exists tris, disc_triangulation A n = Ok tris /\
  length tris = (A + 2 * (n - 2) * A)%nat /\ (forall t, In t tris -> length t = 3%nat /\ forall i, In i t -> (i < 1 + A * (n - 1))%nat) /\
  NoDup (flat_map edges tris) /\
  forall i j, In (i, j) (flat_map edges tris) -> (In (j, i) (flat_map edges tris) <-> ~ (1 + (n - 2) * A <= i /\ 1 + (n - 2) * A <= j)%nat).
Proof. intros A n HA Hn. destruct (disc_eq A n HA Hn) as [E _]. eexists. split; [exact E|]. exact (disc_facts A n _ HA Hn E). Qed.
Print Assumptions C61_disc.
Example C61_disc_ex : disc_triangulation 3 3 = Ok [[0; 1; 2]; [0; 2; 3]; [0; 3; 1]; [1; 4; 5]; [1; 5; 2]; [2; 5; 6]; [2; 6; 3]; [3; 6; 4]; [3; 4; 1]]%nat.
Proof. vm_compute. reflexivity. Qed.

Theorem C61_small_resolution : forall A n, (A <= 2 \/ n <= 1)%nat -> annulus_triangulation A n = Err ValueError /\ disc_triangulation A n = Err ValueError.
Proof.
  intros A n Hc. unfold annulus_triangulation, disc_triangulation. destruct (A <? 3)%nat eqn:EA; [auto|]. destruct (n <? 2)%nat eqn:EN; [auto|].
  apply Nat.ltb_ge in EA, EN. lia.
Qed.
Print Assumptions C61_small_resolution.

(** ** C62 tetrahedron *)
Theorem C62_counts : forall (F : fld) E, (2 <= E)%nat -> exists tets vs,
  tetrahedron_triangulation E = Ok tets /\ tetrahedron_vertices (F := F) E = Ok vs /\
  length tets = ((E - 1) ^ 3)%nat /\ length vs = ((E + 2) * (E + 1) * E / 6)%nat /\
  (forall t, In t tets -> length t = 4%nat /\ forall i, In i t -> (i < length vs)%nat) /\ NoDup tets.
Proof.
  intros F E HE. pose proof (tet_eq E HE) as ET. destruct (tetrahedron_vertices_eq (F := F) E HE) as (vs & EV & _).
  eexists _, vs. split; [exact ET|]. split; [exact EV|]. destruct (tet_facts E _ vs HE ET EV) as (A & B & C & D & _). auto.
Qed.
Print Assumptions C62_counts.
Example C62_counts_ex : tetrahedron_triangulation 2 = Ok [[0; 1; 2; 3]]%nat /\ match tetrahedron_triangulation 4 with Ok l => length l | Err _ => 0%nat end = 27%nat
  /\ qpts (tetrahedron_vertices 2) = Some [[0; 0; 0]; [1; 0; 0]; [0; 1; 0]; [0; 0; 1]]%Q.
Proof. vm_compute. auto. Qed.

Theorem C62_volume : forall (F : fld) E tets (vs : list (list F)), (2 <= E)%nat -> tetrahedron_triangulation E = Ok tets -> tetrahedron_vertices E = Ok vs ->
  (forall t, In t tets -> signed_volume vs t = 1 / (kofnat 6 * kofnat ((E - 1) ^ 3)))%K /\ ksum tets (signed_volume vs) = (1 / kofnat 6)%K.
Proof. intros F E tets vs HE ET EV. split; [exact (tet_volume E tets vs HE ET EV)|exact (tet_volume_sum E tets vs HE ET EV)]. Qed.
Print Assumptions C62_volume.
Example C62_volume_ex : match tetrahedron_triangulation 3, tetrahedron_vertices (F := QcF) 3 with Ok ts, Ok vs => map (fun t => this (signed_volume vs t : Qc)) ts | _, _ => [] end = repeat (1 # 48)%Q 8.
Proof. vm_compute. reflexivity. Qed.

Theorem C62_conforming : forall (F : fld) E tets (vs : list (list F)), (2 <= E)%nat -> tetrahedron_triangulation E = Ok tets -> tetrahedron_vertices E = Ok vs ->
  forall t f, In t tets -> In f (faces t) ->
  (exists k, (k < 3)%nat /\ forall i, In i f -> coord k (nth i vs []) = 0%K) \/ (forall i, In i f -> (coord 0 (nth i vs []) + coord 1 (nth i vs []) + coord 2 (nth i vs []) = 1)%K) \/
  exists t', In t' tets /\ t' <> t /\ incl f t'.
Proof. intros F E tets vs HE ET EV. apply (tet_facts E tets vs HE ET EV). Qed.
Print Assumptions C62_conforming.

Theorem C62_covers : forall E tets (vs : list (list RO)), (2 <= E)%nat -> tetrahedron_triangulation E = Ok tets -> tetrahedron_vertices E = Ok vs ->
  (forall x y z, (0 <= x /\ 0 <= y /\ 0 <= z /\ x + y + z <= 1)%R <-> exists t, In t tets /\ in_hull (Q := RO) 3 (corners vs t) [x; y; z]) /\
  forall t t' x, In t tets -> In t' tets -> in_interior (Q := RO) 3 (corners vs t) x -> in_interior (Q := RO) 3 (corners vs t') x -> t = t'.
Proof. intros E tets vs HE ET EV. split; [exact (tet_covering E tets vs HE ET EV)|exact (tet_disjoint E tets vs HE ET EV)]. Qed.
Print Assumptions C62_covers.
Example C62_covers_ex : exists tets vs, tetrahedron_triangulation 5 = Ok tets /\ tetrahedron_vertices (F := RO) 5 = Ok vs /\ length tets = 64%nat.
Proof. destruct (C62_counts RO 5 ltac:(lia)) as (tets & vs & A & B & C & _). exists tets, vs. auto. Qed.
