(** Model of polynomials_on_simplices/algebra/multiindex.py: free functions
    and the two iterators.  A multi-index is the list of its components;
    dimensions, degrees and components are [nat] (the constructor rejects
    negative components; the objects themselves, with the rejection of
    negative values, are modelled in MultiIndexObj.v).
    [n] and [r] are non-negative: generate_all asserts [r >= 0] (line 406). *)
From Verif Require Import Base ModArith.

(** multiindex.py 259-266 [norm] *)
Definition norm (a : list nat) : nat := nsum a.

(** 221-234 [zero_multiindex] *)
Definition zero_multiindex (n : nat) : list nat := repeat 0 n.

(** 237-256 [unit_multiindex]; numpy raises IndexError when [i >= n]
    (negative [i] is not modelled). *)
Definition unit_multiindex (n i : nat) : result (list nat) := set (zero_multiindex n) i 1.

(** 269-279 [factorial] *)
Definition mi_factorial (a : list nat) : nat := fold_left (fun f c => f * fact c) a 1.

(** 347-367 [is_increasing]: the loop over [i in range(n - 1)]. *)
Fixpoint is_increasing (a : list nat) : bool :=
  match a with
  | x :: ((y :: _) as t) => if y <=? x then false else is_increasing t
  | _ => true
  end.

(** 370-392 [is_non_decreasing] *)
Fixpoint is_non_decreasing (a : list nat) : bool :=
  match a with
  | x :: ((y :: _) as t) => if y <? x then false else is_non_decreasing t
  | _ => true
  end.

(** 602-616 state of a MultiIndexIterator. [_components] is None before the
    first call to [__next__]; [_help_components] is the list of
    IntegerModuloN counters. *)
Record iter : Type := mkIter {
  it_n : nat; it_r : nat; it_norm : Z;
  it_comps : option (list nat); it_help : list imod }.

(** 606-615 [__init__] *)
Definition iter_new (n r : nat) : iter :=
  mkIter n r 0 None (repeat (mkIM (0 mod (Z.of_nat r + 1)) (Z.of_nat r + 1)) n).

(** 634-653 [_increase_component]; the mutable attributes are threaded through
    as [(norm, comps, help)] and are returned also when StopIteration is
    raised.  Recursion goes over [i] upwards; [fuel] bounds it. *)
Fixpoint increase_component (fuel n r : nat) (nm : Z) (c : list nat) (h : list imod) (i : nat)
  : (Z * list nat * list imod) * option err :=
  match fuel with
  | O => ((nm, c, h), Some OutOfFuel)
  | S fuel' =>
    if n <=? i then ((nm, c, h), Some StopIteration)
    else if (nm =? Z.of_nat r)%Z then
      let nm' := (nm - Z.of_nat (nth i c O))%Z in
      let h' := upd h i (mkIM (0 mod (Z.of_nat r + 1)) (Z.of_nat r + 1)) in
      let c' := upd c i 0 in
      increase_component fuel' n r nm' c' h' (i + 1)
    else
      match im_add (nth i h (mkIM 0 1)) (OInt 1) with
      | Err e => ((nm, c, h), Some e)
      | Ok hi =>
        let h' := upd h i hi in
        match im_eq hi (OInt 0) with
        | Err e => ((nm, c, h'), Some e)
        | Ok true =>
            let nm' := (nm - Z.of_nat (nth i c O))%Z in
            let c' := upd c i 0 in
            increase_component fuel' n r nm' c' h' (i + 1)
        | Ok false => (((nm + 1)%Z, upd c i (nth i c 0 + 1), h'), None)
        end
      end
  end.

(** 620-632 [__next__] and [_increase_components] *)
Definition iter_next (it : iter) : result (list nat) * iter :=
  match it_comps it with
  | None =>
      (Ok (zero_multiindex (it_n it)),
       mkIter (it_n it) (it_r it) (it_norm it) (Some (repeat 0 (it_n it))) (it_help it))
  | Some c =>
      let '((nm', c', h'), e) :=
        increase_component (S (it_n it)) (it_n it) (it_r it) (it_norm it) c (it_help it) 0 in
      let it' := mkIter (it_n it) (it_r it) nm' (Some c') h' in
      (match e with Some x => Err x | None => Ok c' end, it')
  end.

(** A [for] loop / list comprehension over an iterator: call [__next__] until
    it raises StopIteration; any other exception propagates. *)
Fixpoint drain (fuel : nat) (it : iter) : result (list (list nat)) :=
  match fuel with
  | O => Err OutOfFuel
  | S fuel' =>
    match iter_next it with
    | (Ok mi, it') => let* l := drain fuel' it' in Ok (mi :: l)
    | (Err StopIteration, _) => Ok []
    | (Err e, _) => Err e
    end
  end.

(** 395-407 [generate_all].  The bound [(r+1)^n + 1] on the number of calls
    of [__next__] is large enough (shown in MultiIndexFacts.v). *)
Definition generate_all (n r : nat) : result (list (list nat)) :=
  drain (S (S r ^ n)) (iter_new n r).

(** 461-479 [generate]: [i] discarded calls of next, then one more. *)
Fixpoint generate_from (it : iter) (i : nat) : result (list nat) :=
  match i with
  | O => fst (iter_next it)
  | S i' => match iter_next it with
            | (Ok _, it') => generate_from it' i'
            | (Err e, _) => Err e
            end
  end.
Definition generate (n r i : nat) : result (list nat) := generate_from (iter_new n r) i.

(** 549-570 [general_to_exact_norm] *)
Definition general_to_exact_norm (a : list nat) (r : nat) : result (list nat) :=
  if norm a <=? r then Ok ((r - norm a) :: a) else Err AssertionError.

(** 573-584 [exact_norm_to_general] (for a multi-index argument, slicing of an
    empty sequence gives an empty sequence). *)
Definition exact_norm_to_general (a : list nat) : list nat := tl a.

(** List comprehension whose body may raise. *)
Fixpoint mapM {A B} (f : A -> result B) (l : list A) : result (list B) :=
  match l with
  | [] => Ok []
  | a :: t => let* b := f a in let* t' := mapM f t in Ok (b :: t')
  end.

(** 423-432 [generate_all_exact_norm], for [n >= 1]. *)
Definition generate_all_exact_norm (n r : nat) : result (list (list nat)) :=
  let* l := generate_all (n - 1) r in mapM (fun mi => general_to_exact_norm mi r) l.

(** 536-546 [num_multiindices]: scipy's [binom(n + r, r)] (a float computation
    rounded by int) is modelled by the exact binomial coefficient, computed by
    Pascal's rule. *)
Fixpoint binomial (n k : nat) : nat :=
  match n, k with
  | _, O => 1
  | O, S _ => 0
  | S n', S k' => binomial n' k' + binomial n' k
  end.
Definition num_multiindices (n r : nat) : nat := binomial (n + r) r.

(** A nested dictionary literal [{(n, r): {mi: idx}}] as an association list. *)
Definition order_cache := list ((nat * nat) * list (list nat * nat)).

Fixpoint cache_find (cache : order_cache) (n r : nat) : option (list (list nat * nat)) :=
  match cache with
  | [] => None
  | ((n', r'), d) :: t => if (n' =? n) && (r' =? r) then Some d else cache_find t n r
  end.

Fixpoint dict_get (d : list (list nat * nat)) (mi : list nat) : result nat :=
  match d with
  | [] => Err KeyError
  | (k, v) :: t => if leqb k mi then Ok v else dict_get t mi
  end.

(** 527-533 the linear search of [get_index] *)
Fixpoint search_index (fuel : nat) (it : iter) (mi : list nat) (idx : nat) : result nat :=
  match fuel with
  | O => Err OutOfFuel
  | S fuel' =>
    match iter_next it with
    | (Ok mi2, it') => if leqb mi mi2 then Ok idx else search_index fuel' it' mi (idx + 1)
    | (Err StopIteration, _) => Err ValueError
    | (Err e, _) => Err e
    end
  end.

(** 508-533 [get_index]; the imported table is a parameter here and is
    instantiated with the transcribed table in MultiIndexCache.v. *)
Definition get_index_with (cache : order_cache) (mi : list nat) (r : nat) : result nat :=
  let* _ := assert_ (norm mi <=? r) in
  let n := length mi in
  match cache_find cache n r with
  | Some d => dict_get d mi
  | None => search_index (S (S r ^ n)) (iter_new n r) mi 0
  end.

(** ** MultiIndexIteratorMultiCap *)

(** 656-670: state; [_r] is the list of caps. *)
Record citer : Type := mkCiter {
  ci_n : nat; ci_r : list nat; ci_comps : option (list nat); ci_help : list imod }.

(** 660-670 [__init__] *)
Definition citer_new (n : nat) (r : list nat) : result citer :=
  let* _ := assert_ (n =? length r) in
  Ok (mkCiter n r None (map (fun ri => mkIM (0 mod (Z.of_nat ri + 1)) (Z.of_nat ri + 1)) r)).

(** 689-698 [_increase_component] *)
Fixpoint cap_increase (fuel n : nat) (c : list nat) (h : list imod) (i : nat)
  : (list nat * list imod) * option err :=
  match fuel with
  | O => ((c, h), Some OutOfFuel)
  | S fuel' =>
    if n <=? i then ((c, h), Some StopIteration)
    else
      match im_add (nth i h (mkIM 0 1)) (OInt 1) with
      | Err e => ((c, h), Some e)
      | Ok hi =>
        let h' := upd h i hi in
        match im_eq hi (OInt 0) with
        | Err e => ((c, h'), Some e)
        | Ok true => cap_increase fuel' n (upd c i 0) h' (i + 1)
        | Ok false => ((upd c i (nth i c 0 + 1), h'), None)
        end
      end
  end.

(** 675-687 [__next__] and [_increase_components] *)
Definition citer_next (it : citer) : result (list nat) * citer :=
  match ci_comps it with
  | None =>
      (Ok (zero_multiindex (ci_n it)),
       mkCiter (ci_n it) (ci_r it) (Some (repeat 0 (ci_n it))) (ci_help it))
  | Some c =>
      let '((c', h'), e) := cap_increase (S (ci_n it)) (ci_n it) c (ci_help it) 0 in
      let it' := mkCiter (ci_n it) (ci_r it) (Some c') h' in
      (match e with Some x => Err x | None => Ok c' end, it')
  end.

Fixpoint cdrain (fuel : nat) (it : citer) : result (list (list nat)) :=
  match fuel with
  | O => Err OutOfFuel
  | S fuel' =>
    match citer_next it with
    | (Ok mi, it') => let* l := cdrain fuel' it' in Ok (mi :: l)
    | (Err StopIteration, _) => Ok []
    | (Err e, _) => Err e
    end
  end.

(** Number of multi-indices below the caps, used as bound of the loop. *)
Definition cap_count (r : list nat) : nat := fold_right (fun ri k => S ri * k) 1 r.

(** 410-420 [generate_all_multi_cap] *)
Definition generate_all_multi_cap (r : list nat) : result (list (list nat)) :=
  let* it := citer_new (length r) r in cdrain (S (cap_count r)) it.

(** 482-505 [generate_multi_cap] (case where [len(r)] is defined): the loop
    over [j]. *)
Fixpoint generate_multi_cap (r : list nat) (i : nat) : list nat :=
  match r with
  | [] => []
  | rj :: t => (i mod (rj + 1)) :: generate_multi_cap t (i / (rj + 1))
  end.

(** 435-445 [generate_all_increasing] *)
Definition generate_all_increasing (n r : nat) : result (list (list nat)) :=
  let* l := generate_all_multi_cap (repeat r n) in Ok (filter is_increasing l).

(** 448-458 [generate_all_non_decreasing] *)
Definition generate_all_non_decreasing (n r : nat) : result (list (list nat)) :=
  let* l := generate_all_multi_cap (repeat r n) in Ok (filter is_non_decreasing l).
