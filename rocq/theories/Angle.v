(** Model of polynomials_on_simplices/calculus/real_interval.py,
    calculus/error_measures.py and calculus/angle.py over the real numbers
    (no rounding).  [orthonormal_frame] is in Rotation.v.  Division by zero of
    real numbers, nan and inf in numpy, is excluded by hypotheses. *)
From Coq Require Import Reals.
From Verif Require Import Base RVec.
Local Open Scope R_scope.

Definition rleb (x y : R) : bool := if Rle_dec x y then true else false.
Definition rltb (x y : R) : bool := if Rlt_dec x y then true else false.
Definition reqb (x y : R) : bool := if Req_EM_T x y then true else false.

(** ** real_interval.py *)
(** 6-16 *)
Definition constrain_to_range (s min_val max_val : R) : R := Rmax (Rmin s max_val) min_val.
(** 19-29 *)
Definition in_closed_range (s min_val max_val : R) : bool := rleb min_val s && rleb s max_val.
(** 32-42 *)
Definition in_open_range (s min_val max_val : R) : bool := rltb min_val s && rltb s max_val.
(** 45-55 *)
Definition in_left_closed_range (s min_val max_val : R) : bool := rleb min_val s && rltb s max_val.
(** 58-68 *)
Definition in_right_closed_range (s min_val max_val : R) : bool := rltb min_val s && rleb s max_val.

(** [x // y] *)
Definition floor_div (x y : R) : result R := if reqb y 0 then Err ZeroDivisionError else Ok (IZR (Int_part (x / y))).
(** [math.fmod]: the remainder of the division rounded towards zero *)
Definition trunc (x : R) : Z := if rleb 0 x then Int_part x else (- Int_part (- x))%Z.
Definition fmod (x y : R) : result R := if reqb y 0 then Err ValueError else Ok (x - IZR (trunc (x / y)) * y).
(** 71-95 *)
Definition equivalent_periodic_element (a t : R) : result R :=
  if in_left_closed_range a 0 t then Ok a
  else
    let* b := if rltb a 0 then let* n := floor_div (- a) t in Ok (a + (n + 1) * t) else Ok a in
    fmod b t.

(** ** error_measures.py 4-71 *)
Definition absolute_error (x0 x : R) : R := Rabs (x0 - x).
Definition relative_error (x0 x zero_tol : R) : R := if rltb zero_tol (Rabs x0) then absolute_error x0 x / Rabs x0 else absolute_error x0 x.
Definition relative_error_symmetric (x1 x2 zero_tol : R) : R :=
  let denom := Rmax (Rabs x1) (Rabs x2) in
  if rltb zero_tol denom then absolute_error x1 x2 / denom else absolute_error x1 x2.

(** ** angle.py *)
(** 10-29 *)
Definition degrees_to_radians (angle : R) : R := angle * PI / 180.
Definition radians_to_degrees (angle : R) : R := angle * 180 / PI.
(** 32-40 *)
Definition to_positive_angle_interval (angle : R) : result R := equivalent_periodic_element angle (2 * PI).
(** 43-56 *)
Definition to_centered_angle_interval (angle : R) : result R :=
  let* angle := to_positive_angle_interval angle in
  Ok (if rleb PI angle then angle - 2 * PI else angle).

(** [np.arctan2(y, x)] *)
Definition arctan2 (y x : R) : R :=
  if rltb 0 x then atan (y / x)
  else if rltb x 0 then (if rleb 0 y then atan (y / x) + PI else atan (y / x) - PI)
  else if rltb 0 y then PI / 2 else if rltb y 0 then - (PI / 2) else 0.
Definition tiny : R := / 10 ^ 12.
(** 59-79 *)
Definition compute_angle (v0 v1 : vec) : result R :=
  let* _ := assert_ (length v0 =? length v1)%nat in
  if (length v0 =? 3)%nat then Ok (arctan2 (vnorm (cross3 v0 v1)) (vdot v0 v1))
  else
    let n0 := vnorm v0 in
    let n1 := vnorm v1 in
    if rltb n0 tiny || rltb n1 tiny then Ok 0
    else
      let x := vnorm (vadd (vdivs v0 n0) (vdivs v1 n1)) in
      let y := vnorm (vsub (vdivs v0 n0) (vdivs v1 n1)) in
      Ok (2 * arctan2 y x).
(** 82-95 *)
Definition is_parallel (v0 v1 : vec) : bool :=
  let n0 := vnorm v0 in
  let n1 := vnorm v1 in
  if rltb n0 tiny || rltb n1 tiny then true
  else
    let cos_angle := vdot v0 v1 / (n0 * n1) in
    rltb (Rabs (cos_angle - 1)) tiny || rltb (Rabs (cos_angle + 1)) tiny.
(** 98-110 *)
Definition distance (a0 a1 : R) : result R :=
  let* _ := assert_ (in_left_closed_range a0 (- PI) PI) in
  let* _ := assert_ (in_left_closed_range a1 (- PI) PI) in
  let delta := Rabs (a0 - a1) in
  Ok (Rmin delta (2 * PI - delta)).
(** 113-133 *)
Fixpoint direction (fuel : nat) (a0 a1 : R) : result Z :=
  match fuel with
  | O => Err OutOfFuel
  | S fuel =>
    let* _ := assert_ (in_left_closed_range a0 (- PI) PI) in
    let* _ := assert_ (in_left_closed_range a1 (- PI) PI) in
    let delta := Rabs (a0 - a1) in
    if rleb delta (2 * PI - delta) then Ok (if rltb a1 a0 then (-1)%Z else 1%Z)
    else
      let* b0 := to_centered_angle_interval (a0 + PI) in
      let* b1 := to_centered_angle_interval (a1 + PI) in
      direction fuel b0 b1
  end.

(** 136-172: the indices and values of the two largest entries *)
Record two_max : Type := mkTwo { i_max_1 : Z; i_max_2 : Z; max_1 : R; max_2 : R }.
Definition two_max_step (v : vec) (s : two_max) (i : nat) : two_max :=
  let av := Rabs (nth i v 0) in
  if rltb (max_1 s) av then mkTwo (Z.of_nat i) (i_max_1 s) av (max_1 s)
  else if rltb (max_2 s) av then mkTwo (i_max_1 s) (Z.of_nat i) (max_1 s) av
  else s.
(** Python indices: [-1] is the last one *)
Definition pyidx (i : Z) (n : nat) : nat := Z.to_nat (if (i <? 0)%Z then i + Z.of_nat n else i)%Z.
Definition set_nth (i : nat) (x : R) (v : vec) : vec := map (fun j => if (j =? i)%nat then x else nth j v 0) (seq 0 (length v)).
Definition orthogonal_vector (v : vec) : result vec :=
  let* _ := assert_ (negb (reqb (vnorm v) 0)) in
  if (length v =? 2)%nat then Ok [- nth 1 v 0; nth 0 v 0]
  else
    let n := length v in
    let s := fold_left (two_max_step v) (seq 0 n) (mkTwo (-1) (-1) (-1) (-1)) in
    let vp := vzero n in
    let vp := set_nth (pyidx (i_max_2 s) n) (nth (pyidx (i_max_1 s) n) v 0) vp in
    Ok (set_nth (pyidx (i_max_1 s) n) (- nth (pyidx (i_max_2 s) n) v 0) vp).

(** 202-244 *)
Record Dial : Type := mkDial { angle_pos : R; num_laps : Z }.
Definition dial_init : Dial := mkDial 0 0.
Definition update_position (d : Dial) (new_angle_pos : R) : result Dial :=
  let* delta := to_centered_angle_interval (new_angle_pos - angle_pos d) in
  let pos := angle_pos d + delta in
  let laps := if rleb PI pos then (num_laps d + 1)%Z else num_laps d in
  let laps := if rltb pos (- PI) then (laps - 1)%Z else laps in
  let* pos := to_centered_angle_interval pos in
  Ok (mkDial pos laps).
Definition get_total_position (d : Dial) : R := angle_pos d + IZR (num_laps d) * 2 * PI.
