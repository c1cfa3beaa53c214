(** Model of polynomials_on_simplices/algebra/permutations.py.
    A permutation (tuple of ints) is a [list nat]; entries are non-negative
    (Python would accept negative entries as indices from the end, which is
    not modelled except where the code itself computes negative indices). *)
From Verif Require Import Base MultiIndex.

(** Python [sorted] (stable): insertion sort that inserts before the first
    strictly larger element, from the right, is a stable sort.  [leb x y]
    reads "x may stay before y". *)
Fixpoint insert {A} (leb : A -> A -> bool) (x : A) (l : list A) : list A :=
  match l with
  | [] => [x]
  | y :: t => if leb x y then x :: y :: t else y :: insert leb x t
  end.
Fixpoint sort {A} (leb : A -> A -> bool) (l : list A) : list A :=
  match l with [] => [] | x :: t => insert leb x (sort leb t) end.

(** Lexicographic comparison of pairs (Python tuple comparison). *)
Definition pair_leb (a b : nat * nat) : bool :=
  (fst a <? fst b) || ((fst a =? fst b) && (snd a <=? snd b)).
(** Comparison of (key, value) pairs by key only ([sorted(..., key=...)]). *)
Definition key_leb {V} (a b : nat * V) : bool := fst a <=? fst b.

(** Python [seq.index(v)]: first position, ValueError when absent. *)
Fixpoint index_from (l : list nat) (v i : nat) : result nat :=
  match l with
  | [] => Err ValueError
  | x :: t => if x =? v then Ok i else index_from t v (S i)
  end.
Definition index (l : list nat) (v : nat) : result nat := index_from l v 0.

(** [tuple(zip(...pairs))[1]]: second components; [zip] of an empty sequence is
    empty, so that subscript 1 raises IndexError. *)
Definition second_line {A} (l : list (nat * A)) : result (list A) :=
  match l with [] => Err IndexError | _ => Ok (map snd l) end.

(** permutations.py 209-224 [to_two_line_notation] *)
Definition to_two_line_notation (p : list nat) : list nat * list nat := (seq 0 (length p), p).

(** 227-244 [from_two_line_notation] *)
Definition from_two_line_notation (t : list nat * list nat) : result (list nat) :=
  second_line (sort pair_leb (combine (fst t) (snd t))).

(** 247-267 [cycle]; the while loop appends to [cycle_list] ([acc], kept in
    order). *)
Fixpoint cycle_loop (fuel : nat) (p : list nat) (start : nat) (acc : list nat) (next : nat)
  : result (list nat) :=
  match fuel with
  | O => Err OutOfFuel
  | S fuel' =>
    if next =? start then Ok acc
    else let* next' := get p next in cycle_loop fuel' p start (acc ++ [next]) next'
  end.
Definition cycle_fuel (fuel : nat) (p : list nat) (start : nat) : result (list nat) :=
  let* next := get p start in cycle_loop fuel p start [start] next.
(** The fuel [length p] is enough for every permutation (CycleFacts). *)
Definition cycle (p : list nat) (start : nat) : result (list nat) := cycle_fuel (length p) p start.

(** 289-290: mark all elements of a cycle as visited. *)
Fixpoint mark (visited : list bool) (c : list nat) : result (list bool) :=
  match c with
  | [] => Ok visited
  | x :: t => let* v' := set visited x true in mark v' t
  end.

(** 285-291: loop body over the range [is]. *)
Fixpoint cycles_loop (p : list nat) (is : list nat) (visited : list bool) (cs : list (list nat))
  : result (list (list nat)) :=
  match is with
  | [] => Ok cs
  | i :: is' =>
    let* v := get visited i in
    if v then cycles_loop p is' visited cs
    else
      let* c := cycle p i in
      let* visited' := mark visited c in
      cycles_loop p is' visited' (cs ++ [c])
  end.

(** 270-292 [to_cycle_notation] *)
Definition to_cycle_notation (p : list nat) : result (list (list nat)) :=
  cycles_loop p (seq 0 (length p)) (repeat false (length p)) [].

(** 311-313: record one cycle in [image] ([None] stands for the -1 filler).
    [first] is [perm_cycle[0]]; the pairs (x, y) of consecutive elements. *)
Fixpoint record_cycle (image : list (option nat)) (first : nat) (c : list nat)
  : result (list (option nat)) :=
  match c with
  | [] => Err IndexError            (* perm_cycle[len - 1] of an empty tuple *)
  | [x] => set image x (Some first)
  | x :: ((y :: _) as t) => let* im := set image x (Some y) in record_cycle im first t
  end.
Fixpoint record_cycles (image : list (option nat)) (cs : list (list nat))
  : result (list (option nat)) :=
  match cs with
  | [] => Ok image
  | c :: t => let* im := record_cycle image (hd 0 c) c in record_cycles im t
  end.
(** 315-318: unset entries map to themselves. *)
Fixpoint fill (i : nat) (image : list (option nat)) : list nat :=
  match image with
  | [] => []
  | Some v :: t => v :: fill (S i) t
  | None :: t => i :: fill (S i) t
  end.
(** 295-318 [from_cycle_notation] *)
Definition from_cycle_notation (cs : list (list nat)) (n : nat) : result (list nat) :=
  let* im := record_cycles (repeat None n) cs in Ok (fill 0 im).

(** 335-337 *)
Definition cycle_transpositions (c : list nat) : list (nat * nat) :=
  match c with [] => [] | x :: t => map (fun y => (x, y)) t end.
(** 321-338 [to_transpositions] *)
Definition to_transpositions (p : list nat) : result (list (nat * nat)) :=
  let* cs := to_cycle_notation p in Ok (flat_map cycle_transpositions cs).

(** 497-520 [swap] *)
Definition swap (p : list nat) (t : nat * nat) : result (list nat) :=
  let '(i, j) := t in
  let* a := get p j in
  let* b := get p i in
  let* p' := set p i a in
  set p' j b.

(** 341-358 [from_transpositions]; [swaps p ts] applies the swaps of [ts] in
    order. *)
Fixpoint swaps (p : list nat) (ts : list (nat * nat)) : result (list nat) :=
  match ts with
  | [] => Ok p
  | t :: ts' => let* p' := swap p t in swaps p' ts'
  end.
Definition from_transpositions (ts : list (nat * nat)) (n : nat) : result (list nat) :=
  swaps (seq 0 n) (rev ts).

(** 361-380 [to_one_based], 383-402 [from_one_based] (on entries >= 1; on an
    entry 0 Python gives -1, here 0). *)
Definition to_one_based (p : list nat) : list nat := map (fun x => x + 1) p.
Definition from_one_based (p : list nat) : list nat := map (fun x => x - 1) p.

(** 405-417 [identity] *)
Definition identity (n : nat) : list nat := seq 0 n.

(** 420-434 [inverse] *)
Definition inverse (p : list nat) : result (list nat) :=
  let t := to_two_line_notation p in from_two_line_notation (snd t, fst t).

(** 437-452 [composition]; the sort keys are computed first, in order. *)
Definition composition (sigma pi : list nat) : result (list nat) :=
  let t := to_two_line_notation sigma in
  let pairs := combine (fst t) (snd t) in
  let* keyed := mapM (fun x => let* k := index pi (fst x) in Ok (k, x)) pairs in
  second_line (map snd (sort key_leb keyed)).

(** 455-475 [sign] *)
Definition sign (p : list nat) : result Z :=
  let* cs := to_cycle_notation p in
  Ok ((-1) ^ Z.of_nat (length (filter (fun c => Nat.even (length c)) cs)))%Z.

(** 478-494 [num_fixed_points] *)
Fixpoint num_fixed_points_from (i : nat) (p : list nat) : nat :=
  match p with
  | [] => 0
  | x :: t => (if x =? i then 1 else 0) + num_fixed_points_from (S i) t
  end.
Definition num_fixed_points (p : list nat) : nat := num_fixed_points_from 0 p.

(** 523-544 [permute_values]: [s] is the deep copy being filled, positions
    [i, i+1, ...]. *)
Fixpoint permute_loop {A} (p : list nat) (i : nat) (sequence s : list A) : result (list A) :=
  match p with
  | [] => Ok s
  | x :: t =>
    let* v := get sequence x in
    let* s' := set s i v in
    permute_loop t (S i) sequence s'
  end.
Definition permute_values {A} (p : list nat) (sequence : list A) : result (list A) :=
  permute_loop p 0 sequence sequence.

(** 547-564 [permute_positions] *)
Definition permute_positions {A} (p : list nat) (sequence : list A) : result (list A) :=
  let* q := inverse p in permute_values q sequence.

(** 567-591 [permutation_matrix_values]: n x n integer matrix, row major. *)
Definition permutation_matrix_values (p : list nat) : result (list (list Z)) :=
  mapM (fun x => set (repeat 0%Z (length p)) x 1%Z) p.

(** numpy [.T] of an n x n matrix. *)
Definition transpose (n : nat) (m : list (list Z)) : list (list Z) :=
  map (fun j => map (fun row => nth j row 0%Z) m) (seq 0 n).
(** 594-614 [permutation_matrix_positions] *)
Definition permutation_matrix_positions (p : list nat) : result (list (list Z)) :=
  let* m := permutation_matrix_values p in Ok (transpose (length p) m).

(** 617-630 [cyclic_permutations]: entries [permutation[i - j]], the index may
    be negative (Python wraps from the end). *)
Definition pyget {A} (l : list A) (i : Z) : result A :=
  match pyidx (length l) i with
  | Some k => get l k
  | None => Err IndexError
  end.
Definition cyclic_permutations (p : list nat) : result (list (list nat)) :=
  mapM (fun j => mapM (fun i => pyget p (Z.of_nat i - Z.of_nat j)) (seq 0 (length p)))
       (seq 0 (length p)).

(** 633-649 [circularly_equivalent] (tuple arguments) *)
Definition circularly_equivalent (p1 p2 : list nat) : result bool :=
  let* cs := cyclic_permutations p2 in Ok (existsb (leqb p1) cs).

(** 748-761 [generate_subset_permutations] *)
Fixpoint gen_subset {A} (array : list A) (k : nat) : list (list A) :=
  match k with
  | O => [[]]
  | S k' =>
    flat_map (fun i =>
      match nth_error array i with
      | Some x => map (cons x) (gen_subset (firstn i array ++ skipn (S i) array) k')
      | None => []                                 (* i < len(array): not reached *)
      end) (seq 0 (length array))
  end.

(** 764-780 [generate_increasing_subset_permutations];
    [range(len(array) - k + 1)] is empty when it is not positive. *)
Fixpoint gen_increasing {A} (array : list A) (k : nat) : list (list A) :=
  match k with
  | O => [[]]
  | S k' =>
    flat_map (fun i =>
      match nth_error array i with
      | Some x => map (cons x) (gen_increasing (skipn (S i) array) k')
      | None => []
      end) (seq 0 (S (length array) - k))
  end.

(** 679-694 [subset_permutations], 711-730 [increasing_subset_permutations],
    652-664 [permutations]; [k] is an int, possibly negative. *)
Definition subset_permutations (n : nat) (k : Z) : list (list nat) :=
  if ((k <=? 0) || (Z.of_nat n <? k))%Z then [] else gen_subset (seq 0 n) (Z.to_nat k).
Definition increasing_subset_permutations (n : nat) (k : Z) : list (list nat) :=
  if ((k <=? 0) || (Z.of_nat n <? k))%Z then [] else gen_increasing (seq 0 n) (Z.to_nat k).
Definition permutations (n : nat) : list (list nat) := subset_permutations n (Z.of_nat n).

(** 783-795 [generate_random_permutation]: [choices] are the values returned by
    the successive [random.randint(0, n - 1 - i)] calls, i = 0, 1, ...;
    a missing choice is reported as RuntimeError (model artefact). *)
Fixpoint shuffle_loop (steps i : nat) (array choices : list nat) : result (list nat) :=
  match steps with
  | O => Ok array
  | S steps' =>
    match choices with
    | [] => Err RuntimeError
    | c :: cs =>
      let j := c + i in
      let* a := get array j in
      let* b := get array i in
      let* array1 := set array i a in
      let* array2 := set array1 j b in
      shuffle_loop steps' (S i) array2 cs
    end
  end.
Definition generate_random_permutation (choices : list nat) (n : nat) : result (list nat) :=
  shuffle_loop (n - 1) 0 (seq 0 n) choices.
(** 798-806 *)
Definition generate_random_subset_permutation (choices : list nat) (n k : nat) : result (list nat) :=
  let* p := generate_random_permutation choices n in Ok (firstn k p).
(** 809-821 *)
Definition generate_random_increasing_subset_permutation (choices : list nat) (n k : nat)
  : result (list nat) :=
  let* p := generate_random_subset_permutation choices n k in Ok (sort Nat.leb p).

(** 824-849 [construct_permutation] *)
Fixpoint construct_loop (dc : list (nat * nat)) (p : list nat) : result (list nat) :=
  match dc with
  | [] => Ok p
  | (d, c) :: t =>
    let* v := get p d in
    if v =? c then construct_loop t p
    else
      let* idx := index p c in
      let* a := get p idx in
      let* p1 := set p d a in
      let* p2 := set p1 idx v in
      construct_loop t p2
  end.
Definition construct_permutation (domain codomain : list nat) (n : nat) : result (list nat) :=
  let* _ := assert_ (length domain =? length codomain) in
  construct_loop (combine domain codomain) (seq 0 n).

(** 873-876: the dict element -> last index with that element. *)
Fixpoint element_index {A} (eqb : A -> A -> bool) (domain : list A) (i : nat) (c : A) : option nat :=
  match domain with
  | [] => None
  | x :: t =>
    match element_index eqb t (S i) c with
    | Some k => Some k
    | None => if eqb x c then Some i else None
    end
  end.
(** 852-886 [construct_permutation_general] over any hashable element type
    with a decidable equality. *)
Definition construct_permutation_general {A} (eqb : A -> A -> bool) (domain codomain : list A)
    (by_value : bool) : result (list nat) :=
  let* p := mapM (fun c => match element_index eqb domain 0 c with
                           | Some k => Ok k | None => Err KeyError end) codomain in
  if by_value then Ok p else inverse p.

(** 131-142 [Permutation.__eq__] *)
Definition perm_eq (p q : list nat) : result bool :=
  if negb (length p =? length q) then Err ValueError
  else Ok (forallb (fun xy => fst xy =? snd xy) (combine p q)).
(** 166-176 [Permutation.__pow__] *)
Definition perm_pow (p : list nat) (e : Z) : result (list nat) :=
  if (e =? -1)%Z then inverse p else Err ValueError.
(** 178-189 [Permutation.__call__] / [__getitem__] *)
Definition perm_call (p : list nat) (i : Z) : result nat :=
  let* _ := assert_ (0 <=? i)%Z in
  let* _ := assert_ (i <? Z.of_nat (length p))%Z in
  get p (Z.to_nat i).
