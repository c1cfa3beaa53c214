(** C29: axis aligned bounding boxes. *)
From Coq Require Import Qcanon QArith.
From Verif Require Import Base Fld FldInst Aabb AabbFacts ExNum.

Definition fin (l : list QcF) : list (xnum QcO) := map (fun a => @Fin QcO a) l.
Definition bx (lo hi : list QcF) : aabb QcO := (fin lo, fin hi).
Definition xs (l : list (xnum QcO)) : list (option Q) := map (fun v : xnum QcO => match v with Fin a => Some (this (a : Qc)) | _ => None end) l.
Definition qbox (r : result (aabb QcO)) : option (list (option Q) * list (option Q)) := match r with Ok b => Some (xs (fst b), xs (snd b)) | Err _ => None end.

Theorem C29_create_smallest : forall (Q : ofld) n (ps : list (list (xnum Q))), ps <> [] -> (forall q, In q ps -> pnt n q) ->
  exists b, create ps = Ok b /\ box n b /\ (forall q, In q ps -> point_inside b q = Ok true) /\
    forall b', box n b' -> (forall q, In q ps -> point_inside b' q = Ok true) -> forall p, length p = n -> point_inside b p = Ok true -> point_inside b' p = Ok true.
Proof. intros Q. exact create_ok. Qed.
Print Assumptions C29_create_smallest.
Example C29_create_ex : qbox (create [fin [rat 1 1; rat 5 1]; fin [rat 3 1; rat 2 1]; fin [rat 2 1; rat 2 1]]) = Some ([Some 1; Some 2], [Some 3; Some 5])%Q.
Proof. vm_compute. reflexivity. Qed.

Theorem C29_intersection : forall (Q : ofld) n (b1 b2 : aabb Q), box n b1 -> box n b2 ->
  exists b, intersection b1 b2 = Ok b /\ box n b /\ forall p, length p = n -> (point_inside b p = Ok true <-> point_inside b1 p = Ok true /\ point_inside b2 p = Ok true).
Proof. intros Q. exact intersection_ok. Qed.
Print Assumptions C29_intersection.
Example C29_intersection_ex : qbox (intersection (bx [rat 0 1; rat 0 1] [rat 2 1; rat 2 1]) (bx [rat 1 1; rat (-1) 1] [rat 3 1; rat 1 1])) = Some ([Some 1; Some 0], [Some 2; Some 1])%Q
  /\ point_inside (bx [rat 0 1; rat 0 1] [rat 2 1; rat 2 1]) (fin [rat 1 2; rat 1 2]) = Ok true.
Proof. vm_compute. auto. Qed.

Theorem C29_union : forall (Q : ofld) n (b1 b2 : aabb Q), box n b1 -> box n b2 -> exists b, union b1 b2 = Ok b /\ box n b /\
  (forall p, length p = n -> point_inside b1 p = Ok true \/ point_inside b2 p = Ok true -> point_inside b p = Ok true) /\
  forall b', box n b' -> (exists p, length p = n /\ point_inside b1 p = Ok true) -> (exists p, length p = n /\ point_inside b2 p = Ok true) ->
    (forall p, length p = n -> point_inside b1 p = Ok true \/ point_inside b2 p = Ok true -> point_inside b' p = Ok true) ->
    forall p, length p = n -> point_inside b p = Ok true -> point_inside b' p = Ok true.
Proof. intros Q. exact union_contains. Qed.
Print Assumptions C29_union.
Example C29_union_ex : qbox (union (bx [rat 0 1; rat 0 1] [rat 2 1; rat 2 1]) (bx [rat 1 1; rat (-1) 1] [rat 3 1; rat 1 1])) = Some ([Some 0; Some (-1)], [Some 3; Some 2])%Q.
Proof. vm_compute. reflexivity. Qed.

(** A box without points, here [1,0]x[0,1], still enlarges the union. *)
Theorem C29_union_smallest_refuted : exists b1 b2 b' b p : _, box 2 b1 /\ box 2 b2 /\ box 2 b' /\ @union QcO b1 b2 = Ok b /\
  (forall q, length q = 2%nat -> point_inside b1 q = Ok false) /\ (forall q, point_inside b2 q = Ok true -> point_inside b' q = Ok true) /\
  length p = 2%nat /\ point_inside b p = Ok true /\ point_inside b' p = Ok false.
Proof.
  set (b1 := bx [rat 1 1; rat 0 1] [rat 0 1; rat 1 1]). set (b2 := bx [rat 2 1; rat 0 1] [rat 3 1; rat 1 1]).
  assert (B : forall a b c d, box 2 (bx [a; b] [c; d])) by (intros; repeat split; repeat constructor; discriminate).
  destruct (union b1 b2) as [b|e] eqn:E; [|exfalso; apply (f_equal (fun r => match r with Ok _ => true | Err _ => false end)) in E; vm_compute in E; discriminate].
  exists b1, b2, b2, b, (fin [rat 3 2; rat 1 2]). split; [apply B|]. split; [apply B|]. split; [apply B|]. split; [exact E|]. split.
  - destruct (is_empty_ok 2 b1 (B _ _ _ _)) as (t & ET & H & _). apply H. vm_compute in ET. congruence.
  - split; [auto|]. split; [reflexivity|]. split; [|vm_compute; reflexivity].
    assert (X : (let* b := union b1 b2 in point_inside b (fin [rat 3 2; rat 1 2])) = Ok true) by (vm_compute; reflexivity). rewrite E in X. exact X.
Qed.
Print Assumptions C29_union_smallest_refuted.

Theorem C29_is_empty : forall (Q : ofld) n (b : aabb Q), box n b -> exists t, is_empty b = Ok t /\
  (t = true <-> forall p, length p = n -> point_inside b p = Ok false) /\ (t = false <-> exists p, length p = n /\ point_inside b p = Ok true).
Proof. intros Q. exact is_empty_ok. Qed.
Print Assumptions C29_is_empty.
Example C29_is_empty_ex : is_empty (bx [rat 1 1; rat 0 1] [rat 0 1; rat 1 1]) = Ok true /\ is_empty (bx [rat 1 1; rat 0 1] [rat 1 1; rat 1 1]) = Ok false.
Proof. vm_compute. auto. Qed.

(** Corner number [i] takes the upper bound in the coordinates whose bit is
    set in [i]; each choice of bounds is a corner, once if no side of the box is
    degenerate; other numbers are refused. *)
Theorem C29_corner : forall (Q : ofld) n (b : aabb Q) i, n <> 0%nat -> box n b ->
  ((i < 2 ^ n)%nat -> exists c, corner b i = Ok c /\ length c = n /\ forall j, (j < n)%nat -> nth j c NaN = if Nat.testbit i j then nth j (snd b) NaN else nth j (fst b) NaN) /\
  ((2 ^ n <= i)%nat -> corner b i = Err IndexError).
Proof.
  intros Q n b i Hn B. split; [intros Hi; apply (corner_ok n); assumption|]. intros Hi. unfold corner, dimension. destruct B as (L1 & L2 & _). rewrite L1. apply corner_rec_range; assumption.
Qed.
Print Assumptions C29_corner.
Theorem C29_corners_all : forall (Q : ofld) n (b : aabb Q) (c : list (xnum Q)), n <> 0%nat -> box n b -> length c = n ->
  (forall j, (j < n)%nat -> nth j c NaN = nth j (fst b) NaN \/ nth j c NaN = nth j (snd b) NaN) -> exists i, (i < 2 ^ n)%nat /\ corner b i = Ok c.
Proof. intros Q. exact corners_all. Qed.
Print Assumptions C29_corners_all.
Theorem C29_corners_distinct : forall (Q : ofld) n (b : aabb Q) i i' c, n <> 0%nat -> box n b -> (forall j, (j < n)%nat -> xltb (nth j (fst b) NaN) (nth j (snd b) NaN) = true) ->
  (i < 2 ^ n)%nat -> (i' < 2 ^ n)%nat -> corner b i = Ok c -> corner b i' = Ok c -> i = i'.
Proof. intros Q. exact corners_distinct. Qed.
Print Assumptions C29_corners_distinct.
Example C29_corner_ex : map (fun i => match corner (bx [rat 0 1; rat 0 1] [rat 1 1; rat 2 1]) i with Ok c => xs c | Err _ => [] end) (seq 0 4) = [[Some 0; Some 0]; [Some 1; Some 0]; [Some 0; Some 2]; [Some 1; Some 2]]%Q.
Proof. vm_compute. reflexivity. Qed.

(** Midpoint, half diagonal and volume of a box with finite bounds *)
Theorem C29_midpoint : forall (Q : ofld) n (lo hi : list Q), length lo = n -> length hi = n -> (forall i, (i < n)%nat -> kle (nth i lo 0%K) (nth i hi 0%K)) ->
  exists m h, midpoint (fbox lo hi) = Ok (Some (map Fin m)) /\ half_diagonal (fbox lo hi) = Ok (Some (map Fin h)) /\ length m = n /\ length h = n /\
    point_inside (fbox lo hi) (map Fin m) = Ok true /\ forall i, (i < n)%nat -> (nth i m 0 - nth i h 0)%K = nth i lo 0%K /\ (nth i m 0 + nth i h 0)%K = nth i hi 0%K.
Proof. intros Q. exact midpoint_ok. Qed.
Print Assumptions C29_midpoint.
Theorem C29_volume : forall (Q : ofld) n (lo hi : list Q), length lo = n -> length hi = n -> (forall i, (i < n)%nat -> kle (nth i lo 0%K) (nth i hi 0%K)) ->
  volume (fbox lo hi) = Ok (Some (Fin (fold_right kmul 1%K (map (fun lh => (snd lh - fst lh)%K) (combine lo hi))))).
Proof. intros Q. exact volume_ok. Qed.
Print Assumptions C29_volume.
Example C29_midpoint_ex : match midpoint (bx [rat 0 1; rat 0 1] [rat 1 1; rat 3 1]), volume (bx [rat 0 1; rat 0 1] [rat 1 1; rat 3 1]) with Ok (Some m), Ok (Some v) => Some (xs m, xs [v]) | _, _ => None end = Some ([Some (1#2); Some (3#2)], [Some 3])%Q.
Proof. vm_compute. reflexivity. Qed.
