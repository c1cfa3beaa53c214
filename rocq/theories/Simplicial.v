(** Model of polynomials_on_simplices/geometry/mesh/simplicial_complex.py and
    the combinatorial part of geometry/mesh/triangle_mesh.py.  A simplex is
    the list of its vertex indices (non-negative ints). *)
From Verif Require Import Base MultiIndex Permutations.

(** [np.delete(simplex, i)] *)
Definition delete_at {A} (i : nat) (s : list A) : list A := firstn i s ++ skipn (S i) s.

(** [s[-1], s[-2] = s[-2], s[-1]] on a copy; IndexError when there are fewer
    than two entries. *)
Definition swap_last {A} (s : list A) : result (list A) :=
  match rev s with
  | a :: b :: t => Ok (rev (b :: a :: t))
  | _ => Err IndexError
  end.

(** simplicial_complex.py 40-42: the i-th boundary simplex *)
Definition boundary_face (s : list nat) (i : nat) : result (list nat) :=
  let b := delete_at i s in
  if (i mod 2 =? 1) && (1 <? length b) then swap_last b else Ok b.

(** 9-44 [simplex_boundary]; the empty list makes [np.empty((0, -1))] raise
    ValueError. *)
Definition simplex_boundary (s : list nat) : result (list (list nat)) :=
  match s with
  | [] => Err ValueError
  | [_] => Ok []
  | _ => mapM (boundary_face s) (seq 0 (length s))
  end.

(** 47-64 [simplex_boundary_map].  For a vertex the code returns the empty
    array and the scalar 0 as coefficients. *)
Inductive chain_coeffs : Type := Scalar (z : Z) | Coeffs (l : list Z).
Definition simplex_boundary_map (s : list nat) : result (list (list nat) * chain_coeffs) :=
  match s with
  | [] => Err ValueError
  | [_] => Ok ([], Scalar 0)
  | _ => Ok (map (fun i => delete_at i s) (seq 0 (length s)),
             Coeffs (map (fun i => (-1) ^ Z.of_nat i)%Z (seq 0 (length s))))
  end.

(** Python set operations on sets of tuples. *)
Definition tuple_mem (t : list nat) (s : list (list nat)) : bool := existsb (leqb t) s.
Definition set_add (t : list nat) (s : list (list nat)) : list (list nat) :=
  if tuple_mem t s then s else s ++ [t].
Definition set_union (s u : list (list nat)) : list (list nat) :=
  fold_left (fun acc t => set_add t acc) u s.

Definition sorted (l : list nat) : list nat := sort Nat.leb l.

(** 67-91 [simplex_sub_simplices]; recursion on the dimension, [fuel] bounds
    its depth. *)
Fixpoint sub_simplices_fuel (fuel : nat) (s : list nat) (include_self : bool)
  : result (list (list nat)) :=
  match fuel with
  | O => Err OutOfFuel
  | S fuel' =>
    let start := if include_self then [sorted s] else [] in
    if 1 <? length s then
      let* bs := simplex_boundary s in
      fold_left (fun acc b =>
        let* a := acc in
        let* nested := sub_simplices_fuel fuel' b true in
        Ok (set_union a nested)) bs (Ok start)
    else Ok start
  end.
Definition simplex_sub_simplices (s : list nat) (include_self : bool) : result (list (list nat)) :=
  sub_simplices_fuel (S (length s)) s include_self.

(** 149-157 [simplex_dimension] (len - 1, as an int) *)
Definition simplex_dimension (s : list nat) : Z := (Z.of_nat (length s) - 1)%Z.

(** 94-115 [simplex_sub_simplices_fixed_dimension] *)
Definition simplex_sub_simplices_fixed_dimension (s : list nat) (k : Z) : result (list (list nat)) :=
  let* _ := assert_ (0 <=? k)%Z in
  let* _ := assert_ (k <=? simplex_dimension s)%Z in
  let* subs := simplex_sub_simplices s true in
  Ok (filter (fun t => (simplex_dimension t =? k)%Z) subs).

(** 118-146 [opposite_sub_simplex]; the assert on line 141 tests a generator
    object, which is always true. *)
Definition opposite_sub_simplex (s sub : list nat) : list nat :=
  filter (fun i => negb (existsb (Nat.eqb i) sub)) s.

(** 187-233 [boundary].  State: boundary_set, boundary_dictionary (insertion
    order), idx. *)
Record bstate : Type := mkBS {
  bs_set : list (list nat);
  bs_dict : list (list nat * (list nat * nat));
  bs_idx : nat }.
Fixpoint remove_first (t : list nat) (s : list (list nat)) : result (list (list nat)) :=
  match s with
  | [] => Err KeyError
  | x :: s' => if leqb t x then Ok s' else let* r := remove_first t s' in Ok (x :: r)
  end.
Fixpoint dict_pop {V} (t : list nat) (d : list (list nat * V)) : result (list (list nat * V)) :=
  match d with
  | [] => Err KeyError
  | (x, v) :: d' => if leqb t x then Ok d' else let* r := dict_pop t d' in Ok ((x, v) :: r)
  end.
(** [d[t] = v]: replace in place or append. *)
Fixpoint dict_set {V} (t : list nat) (v : V) (d : list (list nat * V)) : list (list nat * V) :=
  match d with
  | [] => [(t, v)]
  | (x, w) :: d' => if leqb t x then (x, v) :: d' else (x, w) :: dict_set t v d'
  end.
(** 220-230: one boundary simplex *)
Definition boundary_step (st : bstate) (bs : list nat) : result bstate :=
  let sbs := sorted bs in
  if tuple_mem sbs (bs_set st) then
    let* s' := remove_first sbs (bs_set st) in
    let* d' := dict_pop sbs (bs_dict st) in
    Ok (mkBS s' d' (bs_idx st + 1))
  else
    Ok (mkBS (set_add sbs (bs_set st)) (dict_set sbs (bs, bs_idx st) (bs_dict st)) (bs_idx st + 1)).
(** 219-230 *)
Definition boundary_loop (st : bstate) (simplices : list (list nat)) : result bstate :=
  foldM (fun st s => let* bs := simplex_boundary s in foldM boundary_step st bs) st simplices.
(** [np.array(rows, dtype=int)]: rows of different length raise ValueError. *)
Definition np_rows (l : list (list nat)) : result (list (list nat)) :=
  match l with
  | [] => Ok []
  | r :: t => if forallb (fun x => length x =? length r) t then Ok l else Err ValueError
  end.
Definition boundary (simplices : list (list nat)) : result (list (list nat)) :=
  let* st := boundary_loop (mkBS [] [] 0) simplices in
  let values := map snd (bs_dict st) in
  np_rows (map fst (sort (fun a b => snd a <=? snd b) values)).

(** 236-266 [boundary_map_matrix] for [k >= 1]: the triples (data, row, col) of
    the sparse matrix.  [simplices] is the list (indexed by dimension) of the
    lists of simplices. *)
Definition simplex_to_index (faces : list (list nat)) (t : list nat) : option nat :=
  element_index leqb (map sorted faces) 0 (sorted t).
Definition matrix_entries_of_face (faces : list (list nat)) (j : nat) (bsa : list nat * Z)
  : result (Z * nat * nat) :=
  let '(bs, a) := bsa in
  match simplex_to_index faces bs with
  | None => Err KeyError
  | Some i =>
    let* f := get faces i in
    let* p := construct_permutation_general Nat.eqb f bs true in
    let* sg := sign p in
    Ok ((sg * a)%Z, i, j)
  end.
Definition matrix_column (faces : list (list nat)) (js : nat * list nat) : result (list (Z * nat * nat)) :=
  let '(j, s) := js in
  let* bc := simplex_boundary_map s in
  match snd bc with
  | Scalar _ => Err TypeError                       (* zip over the int 0 *)
  | Coeffs cs => mapM (matrix_entries_of_face faces j) (combine (fst bc) cs)
  end.
Definition boundary_map_matrix (simplices : list (list (list nat))) (k : nat)
  : result (list (Z * nat * nat)) :=
  let* faces := get simplices (k - 1) in
  let* ss := get simplices k in
  let* cols := mapM (matrix_column faces) (combine (seq 0 (length ss)) ss) in
  Ok (concat cols).
(** scipy's coo_matrix adds up duplicate entries. *)
Definition matrix_entry (m : list (Z * nat * nat)) (i j : nat) : Z :=
  zsum (map (fun e => fst (fst e)) (filter (fun e => (snd (fst e) =? i) && (snd e =? j)) m)).

(** 322-332 [swap_simplex_orientation] *)
Definition swap_simplex_orientation (s : list nat) : result (list nat) := swap_last s.
(** 335-343 [swap_orientation] (in place; the new content of the list) *)
Definition swap_orientation (simplices : list (list nat)) : result (list (list nat)) :=
  mapM swap_simplex_orientation simplices.

(** 346-363 [_find_boundary_simplex] *)
Definition find_boundary_simplex (s bsx : list nat) : result (option (list nat)) :=
  let* bs := simplex_boundary s in
  Ok (find (fun b => forallb (fun v => existsb (Nat.eqb v) bsx) b) bs).

(** 366-386 [_substitute_vertex_indices]: for every (old, new) the first
    position of [old] in the original simplex gets the value [new]. *)
Fixpoint first_pos (s : list nat) (v : nat) : option nat :=
  match s with
  | [] => None
  | x :: t => if x =? v then Some 0 else option_map S (first_pos t v)
  end.
Definition substitute_vertex_indices (s : list nat) (sm : list (nat * nat)) : list nat :=
  fold_left (fun u on => match first_pos s (fst on) with
                         | Some n => upd u n (snd on)
                         | None => u end) sm s.

(** 291-319 [simplex_boundary_orientation] *)
Definition simplex_boundary_orientation (s bsx : list nat) : result Z :=
  let* _ := assert_ (length bsx + 1 =? length s) in
  let* ob := find_boundary_simplex s bsx in
  match ob with
  | None => Err ValueError
  | Some b =>
    let sm := combine (sorted bsx) (seq 0 (length bsx)) in
    let b' := substitute_vertex_indices b sm in
    let bsx' := substitute_vertex_indices bsx sm in
    let* p := construct_permutation bsx' b' (length s) in
    sign p
  end.

(** ** triangle_mesh.py *)
(** [l[i]] of a triangle *)
Definition tv (t : list nat) (i : nat) : nat := nth i t 0.
(** triangle_mesh.py 185-202 [neighbour] *)
Definition neighbour (t : list (list nat)) (i j : nat) : option nat :=
  let tri := nth i t [] in
  let v0 := tv tri ((j + 1) mod 3) in
  let v1 := tv tri ((j + 2) mod 3) in
  find (fun k => negb (k =? i) && (existsb (Nat.eqb v0) (nth k t []) && existsb (Nat.eqb v1) (nth k t [])))
       (seq 0 (length t)).

(** 220-232 [vertex_position] *)
Definition vertex_position (tri : list nat) (v : nat) : option nat :=
  find (fun i => tv tri i =? v) [0; 1; 2].

(** 255-275 [has_same_orientation]; [common] is the iteration order of the set
    intersection, positions are ints. *)
Definition has_same_orientation (common t1 t2 : list nat) : result bool :=
  let* c0 := get common 0 in
  let* c1 := get common 1 in
  match vertex_position t1 c0, vertex_position t1 c1, vertex_position t2 c0, vertex_position t2 c1 with
  | Some i10, Some i11, Some i20, Some i21 =>
    let order1 := ((Z.of_nat i10 - Z.of_nat i11) mod 3)%Z in
    let order2 := ((Z.of_nat i20 - Z.of_nat i21) mod 3)%Z in
    Ok (negb (order1 =? order2)%Z)
  | _, _, _, _ => Err TypeError
  end.

(** 278-302 [has_same_edge_orientation]; the search loop leaves [idx = -1] when
    nothing is found. *)
Definition has_same_edge_orientation (t : list (list nat)) (i e : nat) : bool :=
  match neighbour t i e with
  | None => true
  | Some k =>
    let v0 := tv (nth i t []) ((e + 1) mod 3) in
    let idx := match vertex_position (nth k t []) v0 with Some n => Z.of_nat n | None => (-1)%Z end in
    let v1 := tv (nth i t []) ((e + 2) mod 3) in
    tv (nth k t []) (Z.to_nat ((idx - 1) mod 3)) =? v1
  end.

(** 316-328 [has_consistent_orientation] *)
Definition has_consistent_orientation (t : list (list nat)) : bool :=
  forallb (fun i => forallb (has_same_edge_orientation t i) [0; 1; 2]) (seq 0 (length t)).

(** 305-313 [swap_orientation] of one triangle, in place *)
Definition tri_swap (tri : list nat) : list nat := upd (upd tri 1 (tv tri 2)) 2 (tv tri 1).
Definition tri_swap_orientation (t : list (list nat)) (i : nat) : list (list nat) :=
  upd t i (tri_swap (nth i t [])).
(** Change the orientation of all triangles: the function called for every
    index. *)
Definition tri_swap_all (t : list (list nat)) : list (list nat) :=
  fold_left tri_swap_orientation (seq 0 (length t)) t.

(** 50-78 [edge_index] *)
Definition edge_index (tri : list nat) (edge : nat * nat) : result nat :=
  match find (fun i => let a := tv tri ((i + 1) mod 3) in let b := tv tri ((i + 2) mod 3) in
                ((a =? fst edge) && (b =? snd edge)) || ((b =? fst edge) && (a =? snd edge))) [0; 1; 2] with
  | Some i => Ok i
  | None => Err AssertionError
  end.

(** 235-252 [opposite_vertex] (205-217 [has_vertex] inlined) *)
Definition opposite_vertex (t : list (list nat)) (tri e : nat) : option nat :=
  match neighbour t tri e with
  | None => None
  | Some k =>
    option_map (tv (nth k t [])) (find (fun i => negb (existsb (fun m => tv (nth tri t []) m =? tv (nth k t []) i) [0;1;2])) [0;1;2])
  end.
