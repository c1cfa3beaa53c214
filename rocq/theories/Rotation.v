(** Model of polynomials_on_simplices/linalg/rotation.py, of
    [orthonormal_frame] (calculus/angle.py 176-205) and of linalg/rigid_motion.py
    over the real numbers (no rounding).  A function that writes to an argument
    also returns the new content of that argument.  The random numbers are
    arguments. *)
From Coq Require Import Reals.
From Verif Require Import Base RVec Angle.
Local Open Scope R_scope.

Notation mat := (list vec).
Definition ent (m : mat) (i j : nat) : R := nth j (nth i m []) 0.
Definition col (m : mat) (j : nat) : vec := map (fun r => nth j r 0) m.
Definition cols (m : mat) : nat := match m with r :: _ => length r | [] => 0%nat end.
(** np.dot *)
Definition mvec (m : mat) (v : vec) : vec := map (fun r => vdot r v) m.
Definition mmul (m n : mat) : mat := map (fun r => map (fun j => vdot r (col n j)) (seq 0 (cols n))) m.
Definition mmap2 (f : R -> R -> R) (a b : mat) : mat := map (fun p => vmap2 f (fst p) (snd p)) (combine a b).
Definition madd : mat -> mat -> mat := mmap2 Rplus.
Definition mscale (c : R) (m : mat) : mat := map (vscale c) m.
Definition mid3 : mat := [[1; 0; 0]; [0; 1; 0]; [0; 0; 1]].
Definition outer (u v : vec) : mat := map (fun x => vscale x v) u.
Definition set_col (m : mat) (j : nat) (v : vec) : mat := map (fun p => set_nth j (snd p) (fst p)) (combine m v).

(** rotation.py 10-29 *)
Definition hat (w : vec) : mat :=
  let c i := nth i w 0 in
  [[0; - c 2%nat; c 1%nat]; [- - c 2%nat; 0; - c 0%nat]; [- c 1%nat; - - c 0%nat; 0]].

Definition is_unit (k : vec) : bool := rltb (Rabs (vnorm k - 1)) (/ 10 ^ 10).
(** 32-45 *)
Definition rodrigues_formula (v k : vec) (cost sint : R) : result vec :=
  let* _ := assert_ (is_unit k) in
  Ok (vadd (vadd (vscale cost v) (vscale sint (cross3 k v))) (vscale (1 - cost) (vscale (vdot k v) k))).
(** 48-60 *)
Definition rodrigues_formula_matrix (k : vec) (cost sint : R) : result mat :=
  let* _ := assert_ (is_unit k) in
  Ok (madd (madd (mscale cost mid3) (mscale sint (hat k))) (mscale (1 - cost) (outer k k))).
(** 63-78: the matrix and the normalised [axis]; [axis / 0] is nan *)
Definition axis_angle_to_rotation_matrix (axis : vec) (angle : R) : result (mat * vec) :=
  let n := vnorm axis in
  if reqb n 0 then Err AssertionError
  else
    let axis := vdivs axis n in
    let* m := rodrigues_formula_matrix axis (cos angle) (sin angle) in
    Ok (m, axis).

(** np.sign *)
Definition sign (x : R) : R := if rltb 0 x then 1 else if rltb x 0 then -1 else 0.
(** np.argmax of three numbers: the first largest one *)
Definition argmax3 (a b c : R) : nat := if rltb a b then (if rltb b c then 2 else 1)%nat else (if rltb a c then 2 else 0)%nat.
(** 81-123: axis, angle and the matrix after the call *)
Definition rotation_matrix_to_axis_angle (m : mat) : result (vec * R * mat) :=
  let t := ent m 0 0 + ent m 1 1 + ent m 2 2 in
  let axis := [ent m 2 1 - ent m 1 2; ent m 0 2 - ent m 2 0; ent m 1 0 - ent m 0 1] in
  let an := vnorm axis in
  if rltb (Rabs (t - 3)) (/ 10 ^ 14) then
    if rltb 0 an then Ok (vdivs axis an, / 2 * an, m) else Ok ([1; 0; 0], 0, m)
  else if rltb (Rabs (t + 1)) (/ 10 ^ 10) then
    if rltb (Rabs an) (/ 10 ^ 14) then
      let i := argmax3 (ent m 0 0) (ent m 1 1) (ent m 2 2) in
      let axis := set_nth i (ent m i i + 1) (col m i) in
      let axis := vdivs axis (vnorm axis) in
      Ok (axis, PI, set_col m i axis)
    else
      let aa i := sqrt (/ 2 * (ent m i i + 1)) in
      Ok ([sign (nth 0 axis 0) * aa 0%nat; sign (nth 1 axis 0) * aa 1%nat; sign (nth 2 axis 0) * aa 2%nat], PI - / 2 * an, m)
  else Ok (vdivs axis an, acos (constrain_to_range ((t - 1) / 2) (-1) 1), m).

(** 160-174, for a vector; the second component is [axis] after the call *)
Definition rotate (axis : vec) (angle : R) (v : vec) : result (vec * vec) :=
  let* r := axis_angle_to_rotation_matrix axis angle in
  Ok (mvec (fst r) v, snd r).
(** for vectors as the columns of a matrix *)
Definition rotate_columns (axis : vec) (angle : R) (v : mat) : result (mat * vec) :=
  let* r := axis_angle_to_rotation_matrix axis angle in
  Ok (mmul (fst r) v, snd r).
(** 177-200; float arrays *)
Definition compute_rotation (v0 v1 : vec) : result (vec * R) :=
  let axis := cross3 v0 v1 in
  if reqb (vdot axis axis) 0 then
    if rltb 0 (vdot v0 v1) then Ok ([1; 0; 0], 0)
    else
      let* axis := orthogonal_vector v0 in
      Ok (vdivs axis (vnorm axis), PI)
  else
    let* angle := compute_angle v0 v1 in
    Ok (vdivs axis (vnorm axis), angle).
(** 126-138; [u] is the random number *)
Definition random_rotation_matrix_2 (u : R) : mat :=
  let theta := 2 * PI * u in
  [[cos theta; - sin theta]; [sin theta; cos theta]].
(** 141-157; [v] is the random point of the sphere *)
Definition random_rotation_matrix_3 (u : R) (v : vec) : result mat :=
  let m2 := random_rotation_matrix_2 u in
  let m := [[ent m2 0 0; ent m2 0 1; 0]; [ent m2 1 0; ent m2 1 1; 0]; [0; 0; 1]] in
  let* aa := compute_rotation (col m 2) v in
  let* r := rotate_columns (fst aa) (snd aa) m in
  Ok (fst r).

(** angle.py 176-205: the frame and [v] after the call *)
Definition orthonormal_frame (v : vec) (i : nat) : result (mat * vec) :=
  let* _ := assert_ (negb (reqb (vnorm v) 0)) in
  let v := vdivs v (vnorm v) in
  let* angle := compute_angle v (col mid3 i) in
  if rltb angle (/ 10 ^ 10) then Ok (mid3, v)
  else if rltb (Rabs (angle - PI)) (/ 10 ^ 10) then
    let r0 := mscale (-1) mid3 in
    let j := ((i + 2) mod 3)%nat in
    Ok (set_col r0 j (vscale (-1) (col r0 j)), v)
  else
    let axis := cross3 (col mid3 i) v in
    let* r := axis_angle_to_rotation_matrix (vdivs axis (vnorm axis)) angle in
    Ok (fst r, v).

(** ** rigid_motion.py *)
(** 22-35 [translate], for a vector and for the columns of a matrix *)
Definition translate (translation v : vec) : vec := vadd v translation.
Definition translate_columns (translation : vec) (v : mat) : mat := map (fun p => map (fun x => x + snd p) (fst p)) (combine v translation).
(** 9-19 [move] *)
Definition move (rotation : mat) (translation v : vec) : vec := translate translation (mvec rotation v).
Definition move_columns (rotation : mat) (translation : vec) (v : mat) : mat := translate_columns translation (mmul rotation v).
(** 38-57 [random_rigid_motion]; [u] and [v] are the random numbers of the
    rotation, [w] the random point of the unit ball *)
Definition random_rigid_motion (u : R) (v w : vec) (radius : R) (n : nat) : result (mat * vec) :=
  if (n =? 3)%nat then let* m := random_rotation_matrix_3 u v in Ok (m, vscale radius w)
  else if (n =? 2)%nat then Ok (random_rotation_matrix_2 u, vscale radius w)
  else Err ValueError.
