(** Model of polynomials_on_simplices/geometry/proximity/aabb.py and of the
    interval tests of polynomials_on_simplices/calculus/real_interval.py.

    Floating point numbers: exact elements of an ordered field, the two
    infinities and nan, with the comparisons of IEEE 754 (a comparison with nan
    is false).  A bounding box is the pair of its two arrays. *)
From Verif Require Import Base MultiIndex Fld FldInst.

Inductive xnum (Q : ofld) : Type := NaN | MInf | Fin (a : Q) | PInf.
Arguments NaN {Q}. Arguments MInf {Q}. Arguments Fin {Q} a. Arguments PInf {Q}.

Section Aabb.
  Context {Q : ofld}.
  Local Open Scope fld_scope.
  Notation xn := (xnum Q).

  (** [a < b] and [a <= b] *)
  Definition xltb (a b : xn) : bool :=
    match a, b with
    | NaN, _ | _, NaN => false
    | MInf, MInf => false | MInf, _ => true
    | Fin x, Fin y => kltb x y | Fin _, PInf => true | Fin _, MInf => false
    | PInf, _ => false
    end.
  Definition xleb (a b : xn) : bool :=
    match a, b with
    | NaN, _ | _, NaN => false
    | MInf, _ => true
    | Fin x, Fin y => kleb x y | Fin _, PInf => true | Fin _, MInf => false
    | PInf, PInf => true | PInf, _ => false
    end.
  (** Python's [min(a, b)] and [max(a, b)] keep the first argument unless the
      second one is smaller (larger). *)
  Definition min2 (a b : xn) : xn := if xltb b a then b else a.
  Definition max2 (a b : xn) : xn := if xltb a b then b else a.
  (** numpy's minimum and maximum propagate nan. *)
  Definition npmin (a b : xn) : xn := match a, b with NaN, _ | _, NaN => NaN | _, _ => if xltb b a then b else a end.
  Definition npmax (a b : xn) : xn := match a, b with NaN, _ | _, NaN => NaN | _, _ => if xltb a b then b else a end.
  Definition xopp (a : xn) : xn := match a with NaN => NaN | MInf => PInf | Fin x => Fin (- x) | PInf => MInf end.
  Definition xadd (a b : xn) : xn :=
    match a, b with
    | NaN, _ | _, NaN | MInf, PInf | PInf, MInf => NaN
    | MInf, _ | _, MInf => MInf
    | PInf, _ | _, PInf => PInf
    | Fin x, Fin y => Fin (x + y)
    end.
  Definition xsub (a b : xn) : xn := xadd a (xopp b).
  Definition xscale_inf (x : Q) (i : xn) : xn := if kltb 0 x then i else if kltb x 0 then xopp i else NaN.
  Definition xmul (a b : xn) : xn :=
    match a, b with
    | NaN, _ | _, NaN => NaN
    | Fin x, Fin y => Fin (x * y)
    | Fin x, i | i, Fin x => xscale_inf x i
    | MInf, i => xopp i
    | PInf, i => i
    end.

  (** ** calculus/real_interval.py 19-68 *)
  Definition in_closed_range (s mn mx : xn) : bool := xleb mn s && xleb s mx.
  Definition in_open_range (s mn mx : xn) : bool := xltb mn s && xltb s mx.
  Definition in_left_closed_range (s mn mx : xn) : bool := xleb mn s && xltb s mx.
  Definition in_right_closed_range (s mn mx : xn) : bool := xltb mn s && xleb s mx.
  (** 6-16 *)
  Definition constrain_to_range (s mn mx : xn) : xn := max2 (min2 s mx) mn.

  (** ** geometry/proximity/aabb.py *)
  Definition aabb : Type := (list xn * list xn)%type.
  (** 15-22, 25-32, 35-50 *)
  Definition empty (n : nat) : aabb := (repeat PInf n, repeat MInf n).
  Definition unit_aabb (n : nat) : aabb := (repeat (Fin 0) n, repeat (Fin 1) n).
  Definition full (n : nat) : aabb := (repeat MInf n, repeat PInf n).
  (** numpy.amin(points, axis=0) and amax: of an array with no rows they raise
      ValueError, and rows of different lengths are no array. *)
  Definition fold_rows (f : xn -> xn -> xn) (points : list (list xn)) : result (list xn) :=
    match points with
    | [] => Err ValueError
    | p :: ps =>
      if forallb (fun q => length q =? length p)%nat ps
      then Ok (fold_left (fun acc q => map (fun ab => f (fst ab) (snd ab)) (combine acc q)) ps p)
      else Err ValueError
    end.
  (** 53-62 *)
  Definition create (points : list (list xn)) : result aabb :=
    let* mn := fold_rows npmin points in
    let* mx := fold_rows npmax points in
    Ok (mn, mx).
  (** 113-121 *)
  Definition dimension (b : aabb) : nat := length (fst b).
  (** 81-92; the loop leaves at the first [i] with [min > max] *)
  Fixpoint is_valid_from (b : aabb) (is_ : list nat) : result bool :=
    match is_ with
    | [] => Ok true
    | i :: t =>
      let* lo := get (fst b) i in let* hi := get (snd b) i in
      if xltb hi lo then Ok false else is_valid_from b t
    end.
  Definition is_valid (b : aabb) : result bool := is_valid_from b (seq 0 (dimension b)).
  (** 124-139; [None] for an invalid box *)
  Definition midpoint (b : aabb) : result (option (list xn)) :=
    let* v := is_valid b in
    if negb v then Ok None
    else
      let* mp := mapM (fun i => let* lo := get (fst b) i in let* hi := get (snd b) i in Ok (xmul (Fin (1 / (1 + 1))) (xadd lo hi))) (seq 0 (dimension b)) in
      Ok (Some mp).
  (** 142-157 *)
  Definition half_diagonal (b : aabb) : result (option (list xn)) :=
    let* v := is_valid b in
    if negb v then Ok None
    else
      let* hd := mapM (fun i => let* lo := get (fst b) i in let* hi := get (snd b) i in Ok (xmul (Fin (1 / (1 + 1))) (xsub hi lo))) (seq 0 (dimension b)) in
      Ok (Some hd).
  (** 173-187 *)
  Definition volume (b : aabb) : result (option xn) :=
    let* v := is_valid b in
    if negb v then Ok None
    else
      let* vol := foldM (fun vol i => let* hi := get (snd b) i in let* lo := get (fst b) i in Ok (xmul vol (xsub hi lo))) (Fin 1) (seq 0 (dimension b)) in
      Ok (Some vol).
  (** 65-78 *)
  Definition is_empty (b : aabb) : result bool :=
    let* v := volume b in Ok (match v with None => true | Some _ => false end).
  (** 190-203 *)
  Definition union (b1 b2 : aabb) : result aabb :=
    let* r := mapM (fun i =>
      let* l1 := get (fst b1) i in let* l2 := get (fst b2) i in
      let* u1 := get (snd b1) i in let* u2 := get (snd b2) i in
      Ok (min2 l1 l2, max2 u1 u2)) (seq 0 (dimension b1)) in
    Ok (map fst r, map snd r).
  (** 206-219 *)
  Definition intersection (b1 b2 : aabb) : result aabb :=
    let* r := mapM (fun i =>
      let* l1 := get (fst b1) i in let* l2 := get (fst b2) i in
      let* u1 := get (snd b1) i in let* u2 := get (snd b2) i in
      Ok (max2 l1 l2, min2 u1 u2)) (seq 0 (dimension b1)) in
    Ok (map fst r, map snd r).
  (** 222-242; the recursion is on the dimension [n] (the slices [0:n-1] drop the
      last coordinate).  In dimension 0 Python recurses without end, which is
      modelled as running out of fuel. *)
  Fixpoint corner_rec (n : nat) (b : aabb) (i : nat) : result (list xn) :=
    match n with
    | O => Err OutOfFuel
    | S O => match i with O => Ok (fst b) | S O => Ok (snd b) | _ => Err IndexError end
    | S m =>
      let sub := (firstn m (fst b), firstn m (snd b)) in
      if (2 ^ m <=? i)%nat then
        let* upc := corner_rec m sub (i - 2 ^ m) in
        let* c := get (snd b) m in Ok (upc ++ [c])
      else
        let* lpc := corner_rec m sub i in
        let* c := get (fst b) m in Ok (lpc ++ [c])
    end.
  Definition corner (b : aabb) (i : nat) : result (list xn) := corner_rec (dimension b) b i.
  (** 245-258 *)
  Fixpoint point_inside_from (b : aabb) (p : list xn) (is_ : list nat) : result bool :=
    match is_ with
    | [] => Ok true
    | i :: t =>
      let* x := get p i in let* lo := get (fst b) i in let* hi := get (snd b) i in
      if negb (in_closed_range x lo hi) then Ok false else point_inside_from b p t
    end.
  Definition point_inside (b : aabb) (p : list xn) : result bool := point_inside_from b p (seq 0 (length p)).
End Aabb.
Arguments aabb Q : clear implicits.
