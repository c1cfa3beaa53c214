(** Model of
    - polynomials_on_simplices/geometry/space_partitioning/kd_tree.py
    - polynomials_on_simplices/geometry/space_partitioning/tree_traversal.py
    - polynomials_on_simplices/geometry/space_partitioning/kd_mesh_tree/simplicial_mesh_kd_tree.py
    - simplex_vertices of polynomials_on_simplices/geometry/mesh/simplicial_complex.py
    - centroid of polynomials_on_simplices/geometry/primitives/simplex.py
    - median of polynomials_on_simplices/geometry/mesh/point_clouds.py

    The nodes of a tree refer to each other (parent and children) and are
    modified in place, so the model has a heap: the list of all nodes ever
    created, a node being its position in the list.  The nodes of the base
    class and of the mesh class share one record; [n_pot] is only used by the
    mesh class.  Points are lists of exact numbers; a number given for a point
    of a one dimensional mesh is represented by the list of that number. *)
From Verif Require Import Base MultiIndex Fld FldInst Aabb.

Section KdTree.
  Context {Q : ofld}.
  Local Open Scope fld_scope.

  (** kd_tree.py 24-45, simplicial_mesh_kd_tree.py 28-50 *)
  Record node : Type := mkNode {
    n_parent : option nat;
    n_side : nat;
    n_children : option (nat * nat);
    n_point : option (list Q);
    n_idx : option nat;
    n_k : nat;
    n_pot : list nat }.   (* potentially_intersecting_simplices *)
  Definition heap : Type := list node.
  Definition set_plane (nd : node) (pt : option (list Q)) (j : option nat) : node :=
    mkNode (n_parent nd) (n_side nd) (n_children nd) pt j (n_k nd) (n_pot nd).
  Definition set_children (nd : node) (c : option (nat * nat)) : node :=
    mkNode (n_parent nd) (n_side nd) c (n_point nd) (n_idx nd) (n_k nd) (n_pot nd).
  Definition set_pot (nd : node) (l : list nat) : node :=
    mkNode (n_parent nd) (n_side nd) (n_children nd) (n_point nd) (n_idx nd) (n_k nd) l.

  (** kd_tree.py 47-59 *)
  Definition is_root (nd : node) : bool := match n_parent nd with None => true | Some _ => false end.
  Definition is_leaf (nd : node) : bool := match n_children nd with None => true | Some _ => false end.

  (** The attribute [None] is not subscriptable. *)
  Definition not_none {A} (o : option A) : result A := match o with Some a => Ok a | None => Err TypeError end.

  (** kd_tree.py 186-213; the recursion follows the parents, which are older
      than their children *)
  Fixpoint in_node_space_fuel (fuel : nat) (h : heap) (i : nat) (point : list Q) : result bool :=
    match fuel with
    | O => Err OutOfFuel
    | S f =>
      let* nd := get h i in
      match n_parent nd with
      | None => Ok true
      | Some p =>
        let* parent := get h p in
        let* j := not_none (n_idx parent) in
        let* x := get point j in
        let* pt := not_none (n_point parent) in
        let* y := get pt j in
        let b := if (n_side nd =? 0)%nat then kleb (x - y) 0 else kleb 0 (x - y) in
        if b then in_node_space_fuel f h p point else Ok false
      end
    end.
  Definition in_node_space (h : heap) (i : nat) (point : list Q) : result bool := in_node_space_fuel (S i) h i point.

  (** 216-235 *)
  Fixpoint node_aabb_fuel (fuel : nat) (h : heap) (i : nat) : result (aabb Q) :=
    match fuel with
    | O => Err OutOfFuel
    | S f =>
      let* nd := get h i in
      match n_parent nd with
      | None => Ok (full (n_k nd))
      | Some p =>
        let* b := node_aabb_fuel f h p in
        let* parent := get h p in
        let* pt := not_none (n_point parent) in
        let* j := not_none (n_idx parent) in
        let* y := get pt j in
        if (n_side nd =? 0)%nat
        then let* hi := set (snd b) j (Fin y) in Ok (fst b, hi)
        else let* lo := set (fst b) j (Fin y) in Ok (lo, snd b)
      end
    end.
  Definition node_aabb (h : heap) (i : nat) : result (aabb Q) := node_aabb_fuel (S i) h i.

  (** 238-257 and 171-183; the recursion follows the children, which are
      younger than their parent *)
  Fixpoint find_leaf_fuel (fuel : nat) (h : heap) (i : nat) (point : list Q) : result nat :=
    match fuel with
    | O => Err OutOfFuel
    | S f =>
      let* nd := get h i in
      match n_children nd with
      | None => Ok i
      | Some (a, b) =>
        let* j := not_none (n_idx nd) in
        let* x := get point j in
        let* pt := not_none (n_point nd) in
        let* y := get pt j in
        if kltb (x - y) 0 then find_leaf_fuel f h a point else find_leaf_fuel f h b point
      end
    end.
  Definition find_leaf_containing_point (h : heap) (i : nat) (point : list Q) : result nat := find_leaf_fuel (S (length h)) h i point.

  (** 61-73, 152-159 *)
  Definition sibling (h : heap) (i : nat) : result (option nat) :=
    let* nd := get h i in
    match n_parent nd with
    | None => Ok None
    | Some p =>
      let* parent := get h p in
      let* ab := not_none (n_children parent) in
      Ok (Some (if (n_side nd =? 0)%nat then snd ab else fst ab))
    end.
  (** 122-139 *)
  Fixpoint address_fuel (fuel : nat) (h : heap) (i : nat) : result (list nat) :=
    match fuel with
    | O => Err OutOfFuel
    | S f =>
      let* nd := get h i in
      match n_parent nd with
      | None => Ok [0%nat]
      | Some p => let* a := address_fuel f h p in Ok (a ++ [n_side nd])
      end
    end.
  Definition address (h : heap) (i : nat) : result (list nat) := address_fuel (S i) h i.
  (** 141-150 *)
  Fixpoint depth_fuel (fuel : nat) (h : heap) (i : nat) : result nat :=
    match fuel with
    | O => Err OutOfFuel
    | S f =>
      let* nd := get h i in
      match n_parent nd with
      | None => Ok 0%nat
      | Some p => let* d := depth_fuel f h p in Ok (d + 1)%nat
      end
    end.
  Definition depth (h : heap) (i : nat) : result nat := depth_fuel (S i) h i.
  (** tree_traversal.py 4-20, 23-40 *)
  Fixpoint get_descendant_by_address (h : heap) (i : nat) (a : list nat) : result nat :=
    match a with
    | [] => Ok i
    | c :: t =>
      let* nd := get h i in
      let* ab := not_none (n_children nd) in
      let* child := get [fst ab; snd ab] c in
      get_descendant_by_address h child t
    end.
  Definition get_node_by_address (h : heap) (root : nat) (a : list nat) : result nat :=
    let* a0 := get a 0 in
    let* _ := assert_ (a0 =? 0)%nat in
    if (length a =? 1)%nat then Ok root else get_descendant_by_address h root (tl a).

  (** ** The mesh *)
  (** simplicial_complex.py 269-288: a row of another length than the first
      vertex cannot be stored in the array. *)
  Definition simplex_vertices (simplex : list nat) (vertex_list : list (list Q)) : result (list (list Q)) :=
    let* v0 := get vertex_list 0 in
    mapM (fun s => let* v := get vertex_list s in if (length v =? length v0)%nat then Ok v else Err ValueError) simplex.
  (** simplex.py 484-491 *)
  Definition centroid (vertices : list (list Q)) : list Q :=
    map (fun i => ksum vertices (fun v => nth i v 0) / kofnat (length vertices)) (seq 0 (length (hd [] vertices))).
  (** point_clouds.py 73-91: numpy sorts every component and takes the middle
      one or the mean of the two middle ones. *)
  Fixpoint insert (x : Q) (l : list Q) : list Q := match l with [] => [x] | y :: t => if kleb x y then x :: l else y :: insert x t end.
  Definition sort (l : list Q) : list Q := fold_right insert [] l.
  Definition median1 (l : list Q) : Q :=
    let s := sort l in let n := length l in
    if Nat.odd n then nth (n / 2) s 0 else (nth (n / 2 - 1) s 0 + nth (n / 2) s 0) / (1 + 1).
  Definition median (points : list (list Q)) : list Q :=
    map (fun i => median1 (map (fun p => nth i p 0) points)) (seq 0 (length (hd [] points))).

  (** A tree of the base class, or the simplices and vertices of the mesh. *)
  Inductive cls : Type := Plain | Mesh (simplices : list (list nat)) (vertices : list (list Q)).

  (** simplicial_mesh_kd_tree.py 141-173 *)
  Definition get_potentially_intersecting_simplices (h : heap) (i : nat) (simplices : list (list nat)) (vertices : list (list Q)) (interest : option (list nat)) : result (list nat) :=
    let* nd := get h i in
    match n_parent nd with
    | None => Ok (match interest with None => seq 0 (length simplices) | Some l => l end)
    | Some p =>
      let* b := node_aabb h i in
      let* parent := get h p in
      foldM (fun acc s =>
        let* simplex := get simplices s in
        let* v := simplex_vertices simplex vertices in
        let* eb := create (map (map Fin) v) in
        let* ib := intersection b eb in
        let* e := is_empty ib in
        Ok (if negb e then acc ++ [s] else acc)) [] (n_pot parent)
    end.

  (** kd_tree.py 24-45 and simplicial_mesh_kd_tree.py 28-50: the new node and
      the heap afterwards, also when an exception is raised *)
  Definition new_node (c : cls) (h : heap) (parent : option nat) (k side : nat) (interest : option (list nat)) : heap * result nat :=
    let i := length h in
    let h1 := h ++ [mkNode parent side None None None k []] in
    match c with
    | Plain => (h1, Ok i)
    | Mesh simplices vertices =>
      match get_potentially_intersecting_simplices h1 i simplices vertices interest with
      | Err e => (h1, Err e)
      | Ok l => (h ++ [mkNode parent side None None None k l], Ok i)
      end
    end.

  (** kd_tree.py 75-97 and simplicial_mesh_kd_tree.py 52-75; in one dimension
      a number is accepted for the point *)
  Inductive ppoint : Type := PNum (x : Q) | PVec (l : list Q).
  Definition subdivide (c : cls) (h : heap) (i : nat) (pp : ppoint) (j : nat) : heap * result unit :=
    match nth_error h i with
    | None => (h, Err TypeError)      (* not a node *)
    | Some nd =>
      if negb (is_leaf nd) then (h, Err RuntimeError)
      else if negb (j <? n_k nd)%nat then (h, Err AssertionError)
      else
        match (match pp with PNum x => if (n_k nd =? 1)%nat then Ok [x] else Err TypeError | PVec l => Ok l end) with
        | Err e => (h, Err e)
        | Ok pt =>
          if negb (length pt =? n_k nd)%nat then (h, Err AssertionError)
          else
            let nd1 := set_plane nd (Some pt) (Some j) in
            let h1 := upd h i nd1 in
            match new_node c h1 (Some i) (n_k nd) 0 None with
            | (h2, Err e) => (h2, Err e)
            | (h2, Ok a) =>
              match new_node c h2 (Some i) (n_k nd) 1 None with
              | (h3, Err e) => (h3, Err e)
              | (h3, Ok b) => (upd h3 i (set_children nd1 (Some (a, b))), Ok tt)
              end
            end
        end
    end.
  (** kd_tree.py 99-107 *)
  Definition cut_subtree (h : heap) (i : nat) : heap * result unit :=
    match nth_error h i with
    | None => (h, Err TypeError)
    | Some nd => (upd h i (set_children (set_plane nd None None) None), Ok tt)
    end.
  (** kd_tree.py 162-170; in the heap the root of the tree is node 0 *)
  Definition create_tree (k : nat) : heap := fst (new_node Plain [] None k 0 None).

  (** kd_tree.py 109-120: [recurse] with a function that may modify the tree *)
  Fixpoint recurse (fuel : nat) (fn : heap -> nat -> heap * result unit) (h : heap) (i : nat) : heap * result unit :=
    match fuel with
    | O => (h, Err OutOfFuel)
    | S f =>
      match fn h i with
      | (h1, Err e) => (h1, Err e)
      | (h1, Ok _) =>
        match nth_error h1 i with
        | None => (h1, Err TypeError)
        | Some nd =>
          match n_children nd with
          | None => (h1, Ok tt)
          | Some (a, b) =>
            match recurse f fn h1 a with
            | (h2, Err e) => (h2, Err e)
            | (h2, Ok _) => recurse f fn h2 b
            end
          end
        end
      end
    end.

  (** The first position of the largest element, [pa.index(max(pa))] *)
  Fixpoint argmax_from (best : Q) (bi i : nat) (l : list Q) : nat :=
    match l with
    | [] => bi
    | x :: t => if kltb best x then argmax_from x i (S i) t else argmax_from best bi (S i) t
    end.
  Definition argmax (l : list Q) : result nat := match l with [] => Err ValueError | x :: t => Ok (argmax_from x 0 1 t) end.
  Definition kabs (x : Q) : Q := if kltb x 0 then - x else x.

  Section Create.
    (** numpy's eigenvectors: the axis is left open, any function of the points
        will do *)
    Variable principal_component_axis : list (list Q) -> list Q.
    Variables (simplices : list (list nat)) (vertices : list (list Q)).
    (** simplicial_mesh_kd_tree.py 103-118, 120-134; [max_in_leaf] is only looked
        at when [fixed_depth] is False, and comparing with [None] is a
        TypeError *)
    Definition subdivide_fn (fixed_depth : bool) (max_depth : nat) (max_in_leaf : option nat) (h : heap) (i : nat) : heap * result unit :=
      match depth h i with
      | Err e => (h, Err e)
      | Ok d =>
        if (d =? max_depth)%nat then (h, Ok tt)
        else
          match nth_error h i with
          | None => (h, Err TypeError)
          | Some nd =>
            if (length (n_pot nd) =? 0)%nat then (h, Ok tt)
            else
              match (if fixed_depth then Ok false else let* m := not_none max_in_leaf in Ok (length (n_pot nd) <=? m)%nat) with
              | Err e => (h, Err e)
              | Ok true => (h, Ok tt)
              | Ok false =>
                match (let* points := mapM (fun s => let* simplex := get simplices s in let* v := simplex_vertices simplex vertices in Ok (centroid v)) (n_pot nd) in
                       let* axis := argmax (map kabs (principal_component_axis points)) in
                       Ok (median points, axis)) with
                | Err e => (h, Err e)
                | Ok (pt, axis) => subdivide (Mesh simplices vertices) h i (PVec pt) axis
                end
              end
          end
      end.
    (** 78-138: [k] is the length of the first vertex *)
    Definition create_kd_tree (fuel : nat) (fixed_depth : bool) (max_depth : nat) (max_in_leaf : option nat) (interest : option (list nat)) : heap * result nat :=
      match get vertices 0 with
      | Err e => ([], Err e)
      | Ok v0 =>
        match new_node (Mesh simplices vertices) [] None (length v0) 0 interest with
        | (h, Err e) => (h, Err e)
        | (h, Ok root) =>
          match recurse fuel (subdivide_fn fixed_depth max_depth max_in_leaf) h root with
          | (h', Err e) => (h', Err e)
          | (h', Ok _) => (h', Ok root)
          end
        end
      end.
  End Create.
End KdTree.
Arguments node Q : clear implicits. Arguments heap Q : clear implicits. Arguments cls Q : clear implicits. Arguments ppoint Q : clear implicits.
