(** Model of the local-to-global maps of piecewise polynomials:
    piecewise_polynomial/piecewise_polynomial.py 35-379,
    piecewise_polynomial/continuous_piecewise_polynomial.py 29-418 and
    [get_associated_sub_simplex] from
    polynomial/polynomials_unit_simplex_lagrange_basis.py 958-1004.

    Simplified: degrees and vertex indices are naturals, a multi-index is a
    list (a [MultiIndex] object hashes and compares like its tuple), an integer
    used in place of a one component multi-index is not modelled. *)
From Verif Require Import Base MultiIndex Permutations Simplicial.

(** Dictionary lookup with a tuple key. *)
Fixpoint dict_find {V} (t : list nat) (d : list (list nat * V)) : option V :=
  match d with
  | [] => None
  | (x, v) :: d' => if leqb t x then Some v else dict_find t d'
  end.

(** polynomials_unit_simplex_lagrange_basis.py 958-1004; [None] stands for the
    default argument. *)
Definition associated_step (mi s : list nat) (st : list nat * list nat) (i : nat) : result (list nat * list nat) :=
  if nth i mi 0 =? 0 then Ok st
  else let* v := get s i in Ok (fst st ++ [v], snd st ++ [nth i mi 0]).
Definition get_associated_sub_simplex (nu : list nat) (r : nat) (simplex : option (list nat))
  : result (list nat * list nat) :=
  let s := match simplex with Some s => s | None => seq 0 (length nu + 1) end in
  if r =? 0 then Ok (s, zero_multiindex (length nu))
  else
    let* mi := general_to_exact_norm nu r in
    foldM (associated_step mi s) ([], []) (seq 0 (length mi)).

(** [a', b' = zip( *sorted(zip(a, b)))]; unpacking an empty zip raises
    ValueError (piecewise_polynomial.py 155, continuous_... 159). *)
Definition sort_zip (ab : list nat * list nat) : result (list nat * list nat) :=
  match sort pair_leb (combine (fst ab) (snd ab)) with
  | [] => Err ValueError
  | l => Ok (map fst l, map snd l)
  end.

(** piecewise_polynomial.py 137-140, continuous_... 142-145 *)
Definition boundary_subs (bs : option (list (list nat))) : result (list (list nat)) :=
  match bs with
  | None => Ok []
  | Some l => foldM (fun acc b => let* u := simplex_sub_simplices b true in Ok (set_union acc u)) [] l
  end.

(** Loop state: the dictionary of the current triangle, the two counters and
    (continuous case only) [sub_simplex_basis_fns]. *)
Record lstate : Type := mkL {
  l_dict : list (list nat * Z);
  l_glob : Z;
  l_bnd : Z;
  l_sub : list (list nat * list (list nat * Z)) }.

(** piecewise_polynomial.py 150-171 (body of the loop over multi-indices) *)
Definition disc_key (r : nat) (tri mi : list nat) : result (list nat) :=
  if 0 <? r then
    let* sub := get_associated_sub_simplex mi r (Some tri) in
    let* ss := sort_zip sub in Ok (fst ss)
  else Ok (sorted tri).
Definition disc_step (bsub : list (list nat)) (keep : bool) (r : nat) (tri : list nat)
  (st : lstate) (mi : list nat) : result lstate :=
  let* ss := disc_key r tri mi in
  if tuple_mem ss bsub then
    if negb keep then Ok st
    else Ok (mkL (dict_set mi (l_bnd st) (l_dict st)) (l_glob st) (l_bnd st - 1) (l_sub st))
  else Ok (mkL (dict_set mi (l_glob st) (l_dict st)) (l_glob st + 1) (l_bnd st) (l_sub st)).

(** continuous_piecewise_polynomial.py 155-185 (body of the loop over
    multi-indices) *)
Definition cont_step (bsub : list (list nat)) (keep : bool) (r n : nat) (tri : list nat)
  (st : lstate) (mi : list nat) : result lstate :=
  let* sub := get_associated_sub_simplex mi r (Some tri) in
  let* ss := sort_zip sub in
  let inb := tuple_mem (fst ss) bsub in
  if inb && negb keep then Ok st
  else if length (fst sub) =? n + 1 then
    Ok (mkL (dict_set mi (l_glob st) (l_dict st)) (l_glob st + 1) (l_bnd st) (l_sub st))
  else
    let fns := match dict_find (fst ss) (l_sub st) with
               | None => dict_set (fst ss) [] (l_sub st) | Some _ => l_sub st end in
    let d := match dict_find (fst ss) fns with None => [] | Some d => d end in
    match dict_find (snd ss) d with
    | Some v => Ok (mkL (dict_set mi v (l_dict st)) (l_glob st) (l_bnd st) fns)
    | None =>
      if negb inb then
        Ok (mkL (dict_set mi (l_glob st) (l_dict st)) (l_glob st + 1) (l_bnd st)
                (dict_set (fst ss) (dict_set (snd ss) (l_glob st) d) fns))
      else
        Ok (mkL (dict_set mi (l_bnd st) (l_dict st)) (l_glob st) (l_bnd st - 1)
                (dict_set (fst ss) (dict_set (snd ss) (l_bnd st) d) fns))
    end.

(** 145-172 / 150-186: the loop over triangles; each starts with an empty
    dictionary and appends it at the end. *)
Definition tri_step (step : list nat -> lstate -> list nat -> result lstate) (mis : list (list nat))
  (acc : list (list (list nat * Z)) * lstate) (tri : list nat)
  : result (list (list (list nat * Z)) * lstate) :=
  let st := snd acc in
  let* st' := foldM (step tri) (mkL [] (l_glob st) (l_bnd st) (l_sub st)) mis in
  Ok (fst acc ++ [l_dict st'], st').

(** 174-189 / 188-203: boundary functions are renumbered to come last. *)
Definition renumber (nn : Z) (d : list (list nat * Z)) : list (list nat * Z) :=
  map (fun kv => if (snd kv <? 0)%Z then (fst kv, nn + (- snd kv) - 1)%Z else kv) d.
Definition num_boundary (maps : list (list (list nat * Z))) : Z :=
  fold_left (fun m d => fold_left (fun m kv => if (snd kv <? 0)%Z then Z.max m (- snd kv) else m) d m) maps 0%Z.
Definition finish (keep : bool) (acc : list (list (list nat * Z)) * lstate)
  : list (list (list nat * Z)) * Z * option Z :=
  let (maps, st) := acc in
  if keep then (map (renumber (l_glob st)) maps, (l_glob st + num_boundary maps)%Z, Some (l_glob st))
  else (maps, l_glob st, None).

(** piecewise_polynomial.py 110-189 *)
Definition disc_dictionaries (triangles : list (list nat)) (r : nat) (bs : option (list (list nat))) (keep : bool)
  : result (list (list (list nat * Z)) * Z * option Z) :=
  let* t0 := get triangles 0 in
  let n := length t0 - 1 in
  let* bsub := boundary_subs bs in
  let* mis := generate_all n r in
  let* acc := foldM (tri_step (disc_step bsub keep r) mis) ([], mkL [] 0 (-1) []) triangles in
  Ok (finish keep acc).

(** continuous_piecewise_polynomial.py 113-203 *)
Definition cont_dictionaries (triangles : list (list nat)) (r : nat) (bs : option (list (list nat))) (keep : bool)
  : result (list (list (list nat * Z)) * Z * option Z) :=
  let* _ := assert_ (1 <=? r) in
  let* t0 := get triangles 0 in
  let n := length t0 - 1 in
  let* bsub := boundary_subs bs in
  let* mis := generate_all n r in
  let* acc := foldM (tri_step (cont_step bsub keep r n) mis) ([], mkL [] 0 (-1) []) triangles in
  Ok (finish keep acc).

(** The callables [tau] (piecewise_polynomial.py 95-102, continuous_... 98-105). *)
Definition tau_fn := Z -> list nat -> result Z.
Definition make_tau (ntri : nat) (maps : list (list (list nat * Z))) : tau_fn := fun j nu =>
  let* _ := assert_ (0 <=? j)%Z in
  let* _ := assert_ (j <? Z.of_nat ntri)%Z in
  match dict_find nu (nth (Z.to_nat j) maps []) with Some v => Ok v | None => Ok (-1)%Z end.
(** 35-107 / 29-110 [generate_local_to_global_map]: (tau, number of dofs,
    number of non-boundary dofs if keep_boundary_dofs_last). *)
Definition generate_local_to_global_map (continuous : bool) (triangles : list (list nat)) (r : nat)
  (bs : option (list (list nat))) (keep : bool) : result (tau_fn * Z * option Z) :=
  let* m := (if continuous then cont_dictionaries else disc_dictionaries) triangles r bs keep in
  let '(maps, count, nonb) := m in
  Ok (make_tau (length triangles) maps, count, nonb).

(** piecewise_polynomial.py 192-291 and continuous_... 206-314 (same code) *)
Inductive vordering := interleaved | sequential.
Definition vtau_fn := Z -> list nat -> Z -> result Z.
Definition make_vector_tau (ntri n : nat) (count : Z) (o : vordering) (tau : tau_fn) : vtau_fn := fun j nu k =>
  let* _ := assert_ (0 <=? j)%Z in
  let* _ := assert_ (j <? Z.of_nat ntri)%Z in
  let* _ := assert_ (0 <=? k)%Z in
  let* _ := assert_ (k <? Z.of_nat n)%Z in
  let* vs := tau j nu in
  if (vs =? -1)%Z then Ok (-1)%Z
  else match o with
       | interleaved => Ok (Z.of_nat n * vs + k)%Z
       | sequential => Ok (k * count + vs)%Z
       end.
Definition generate_vector_valued_local_to_global_map (continuous : bool) (triangles : list (list nat)) (r n : nat)
  (bs : option (list (list nat))) (keep : bool) (o : vordering) : result (vtau_fn * Z * option Z) :=
  let* _ := assert_ (1 <? n) in
  let* m := generate_local_to_global_map continuous triangles r bs keep in
  let '(tau, count, nonb) := m in
  Ok (make_vector_tau (length triangles) n count o tau, (Z.of_nat n * count)%Z,
      match nonb with None => None | Some c => Some (Z.of_nat n * c)%Z end).

(** Dictionaries with integer keys. *)
Fixpoint zfind {V} (k : Z) (d : list (Z * V)) : option V :=
  match d with [] => None | (x, v) :: d' => if (k =? x)%Z then Some v else zfind k d' end.
Fixpoint zset {V} (k : Z) (v : V) (d : list (Z * V)) : list (Z * V) :=
  match d with
  | [] => [(k, v)]
  | (x, w) :: d' => if (k =? x)%Z then (x, v) :: d' else (x, w) :: zset k v d'
  end.

(** The arguments visited by the loops of the functions below, in order. *)
Definition local_indices (num_triangles : nat) (mis : list (list nat)) : list (nat * list nat) :=
  flat_map (fun j => map (fun nu => (j, nu)) mis) (seq 0 num_triangles).

(** piecewise_polynomial.py 294-334 [generate_inverse_local_to_global_map] *)
Definition inverse_step (tau : tau_fn) (d : list (Z * (nat * list nat))) (x : nat * list nat)
  : result (list (Z * (nat * list nat))) :=
  let* dof := tau (Z.of_nat (fst x)) (snd x) in
  if (dof =? -1)%Z then Ok d else Ok (zset dof x d).
Definition generate_inverse_local_to_global_map (tau : tau_fn) (num_triangles : nat) (num_dofs : Z) (r m : nat)
  : result (Z -> result (nat * list nat)) :=
  let* mis := generate_all m r in
  let* d := foldM (inverse_step tau) [] (local_indices num_triangles mis) in
  Ok (fun i =>
    let* _ := assert_ (0 <=? i)%Z in
    let* _ := assert_ (i <? num_dofs)%Z in
    match zfind i d with Some v => Ok v | None => Err KeyError end).

(** piecewise_polynomial.py 337-379 *)
Definition vlocal_indices (num_triangles n : nat) (mis : list (list nat)) : list (nat * list nat * nat) :=
  flat_map (fun x => map (fun k => (x, k)) (seq 0 n)) (local_indices num_triangles mis).
Definition vinverse_step (tau : vtau_fn) (d : list (Z * (nat * list nat * nat))) (x : nat * list nat * nat)
  : result (list (Z * (nat * list nat * nat))) :=
  let* dof := tau (Z.of_nat (fst (fst x))) (snd (fst x)) (Z.of_nat (snd x)) in
  if (dof =? -1)%Z then Ok d else Ok (zset dof x d).
Definition generate_inverse_vector_valued_local_to_global_map (tau : vtau_fn) (num_triangles : nat) (num_dofs : Z)
  (r m n : nat) : result (Z -> result (nat * list nat * nat)) :=
  let* mis := generate_all m r in
  let* d := foldM (vinverse_step tau) [] (vlocal_indices num_triangles n mis) in
  Ok (fun i =>
    let* _ := assert_ (0 <=? i)%Z in
    let* _ := assert_ (i <? num_dofs)%Z in
    match zfind i d with Some v => Ok v | None => Err KeyError end).

(** continuous_piecewise_polynomial.py 317-365 and, with the extra component
    index, 368-418: the preimage map.  Sets of local indices are lists without
    repetition; generic in the type [X] of local indices. *)
Section Preimage.
  Context {X : Type} (eq_dec : forall x y : X, {x = y} + {x <> y}).
  Definition padd (x : X) (s : list X) : list X := if in_dec eq_dec x s then s else s ++ [x].
  Definition punion (s u : list X) : list X := fold_left (fun acc x => padd x acc) u s.
  Definition preimage_step (tau : X -> result Z) (d : list (Z * list X)) (x : X) : result (list (Z * list X)) :=
    let* dof := tau x in
    if (dof =? -1)%Z then Ok d
    else match zfind dof d with
         | Some s => Ok (zset dof (padd x s) d)
         | None => Ok (zset dof [x] d)
         end.
  Definition preimage_map (num_dofs : Z) (d : list (Z * list X)) (si : list Z) : result (list X) :=
    foldM (fun value i =>
      let* _ := assert_ (0 <=? i)%Z in
      let* _ := assert_ (i <? num_dofs)%Z in
      match zfind i d with Some s => Ok (punion value s) | None => Err KeyError end) [] si.
End Preimage.
Definition local_dec (x y : nat * list nat) : {x = y} + {x <> y}.
Proof. decide equality; [apply list_eq_dec, Nat.eq_dec|apply Nat.eq_dec]. Defined.
Definition vlocal_dec (x y : nat * list nat * nat) : {x = y} + {x <> y}.
Proof. decide equality; [apply Nat.eq_dec|apply local_dec]. Defined.
Definition generate_local_to_global_preimage_map (tau : tau_fn) (num_triangles : nat) (num_dofs : Z) (r m : nat)
  : result (list Z -> result (list (nat * list nat))) :=
  let* mis := generate_all m r in
  let* d := foldM (preimage_step local_dec (fun x => tau (Z.of_nat (fst x)) (snd x))) []
                  (local_indices num_triangles mis) in
  Ok (preimage_map local_dec num_dofs d).
Definition generate_vector_valued_local_to_global_preimage_map (tau : vtau_fn) (num_triangles : nat) (num_dofs : Z)
  (r m n : nat) : result (list Z -> result (list (nat * list nat * nat))) :=
  let* mis := generate_all m r in
  let* d := foldM (preimage_step vlocal_dec (fun x => tau (Z.of_nat (fst (fst x))) (snd (fst x)) (Z.of_nat (snd x)))) []
                  (vlocal_indices num_triangles n mis) in
  Ok (preimage_map vlocal_dec num_dofs d).
