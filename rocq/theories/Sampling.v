(** Model of polynomials_on_simplices/probability_theory/uniform_sampling.py over
    the real numbers (no rounding).

    The random numbers are arguments: [d] is the list of the values that the
    successive calls of [np.random.rand] (or [np.random.randn]) return, one
    number for each entry of an array.  A function returns its value and the
    numbers that are left; [OutOfFuel] means that it goes on drawing after the
    end of the list. *)
From Coq Require Import Reals.
From Verif Require Import Base MultiIndex RVec Angle.
Local Open Scope R_scope.

Definition rand (d : list R) : result (R * list R) := match d with [] => Err OutOfFuel | x :: d => Ok (x, d) end.
(** [np.random.rand(n)] and [np.random.randn(n)] *)
Fixpoint rand_array (n : nat) (d : list R) : result (vec * list R) :=
  match n with
  | O => Ok ([], d)
  | S n => let* p := rand d in let* q := rand_array n (snd p) in Ok (fst p :: fst q, snd q)
  end.
(** an array filled with [num_points] samples *)
Fixpoint sampling {A} (sample : list R -> result (A * list R)) (num_points : nat) (d : list R) : result (list A * list R) :=
  match num_points with
  | O => Ok ([], d)
  | S k => let* p := sample d in let* q := sampling sample k (snd p) in Ok (fst p :: fst q, snd q)
  end.

(** ** Intervals *)
(** 6-16 *)
Fixpoint closed_unit_interval_sample (d : list R) : result (R * list R) :=
  match d with
  | [] => Err OutOfFuel
  | x :: d => if rltb (7 / 8) x then closed_unit_interval_sample d else Ok (x / (7 / 8), d)
  end.
(** 19-31 *)
Fixpoint open_unit_interval_sample (d : list R) : result (R * list R) :=
  match d with
  | [] => Err OutOfFuel
  | x :: d => if rleb x (1 / 8) then open_unit_interval_sample d else Ok ((x - 1 / 8) / (7 / 8), d)
  end.
(** 34-40 *)
Definition left_closed_interval_sample (d : list R) : result (R * list R) := rand d.
(** 43-53 *)
Definition right_closed_interval_sample (d : list R) : result (R * list R) := let* p := rand d in Ok (fst p * -1 + 1, snd p).
(** 56-63 *)
Definition unit_interval_sampling (num_points : nat) (d : list R) : result (vec * list R) := rand_array num_points d.
(** 66-76 *)
Definition closed_unit_interval_sampling : nat -> list R -> result (vec * list R) := sampling closed_unit_interval_sample.
(** 79-89 *)
Definition open_unit_interval_sampling : nat -> list R -> result (vec * list R) := sampling open_unit_interval_sample.
(** 92-99 *)
Definition left_closed_unit_interval_sampling (num_points : nat) (d : list R) : result (vec * list R) := unit_interval_sampling num_points d.
(** 102-112 *)
Definition right_closed_unit_interval_sampling : nat -> list R -> result (vec * list R) := sampling right_closed_interval_sample.

(** ** Cubes *)
(** [np.reshape] of an array of [num] * [n] numbers: the rows *)
Fixpoint reshape (num n : nat) (l : vec) : list vec :=
  match num with O => [] | S k => firstn n l :: reshape k n (skipn n l) end.
(** 115-123; the number of rows, given as -1, is the size divided by two *)
Definition unit_square_sampling (num_points : nat) (d : list R) : result (list vec * list R) :=
  let* p := rand_array (2 * num_points) d in Ok (reshape (length (fst p) / 2) 2 (fst p), snd p).
(** 154-163 *)
Definition ncube_sampling (n num_points : nat) (d : list R) : result (list vec * list R) :=
  let* p := rand_array (n * num_points) d in Ok (reshape num_points n (fst p), snd p).

(** ** Rejection sampling *)
(** [np.random.rand(n) * 2 - 1] *)
Definition centered (v : vec) : vec := map (fun x => x * 2 - 1) v.
(** 174-182, and 133-141 for n = 2.  Every rejected sample has used a random
    number (for n = 0 no sample is rejected), so the fuel is sufficient. *)
Fixpoint ball_loop (fuel : nat) (n num_points : nat) (sample_points : list vec) (d : list R) : result (list vec * list R) :=
  match fuel with
  | O => Err OutOfFuel
  | S fuel =>
    if (length sample_points <? num_points)%nat then
      let* p := rand_array n d in
      let sample := centered (fst p) in
      if negb (rltb 1 (vdot sample sample)) then ball_loop fuel n num_points (sample_points ++ [sample]) (snd p)
      else ball_loop fuel n num_points sample_points (snd p)
    else Ok (sample_points, d)
  end.
(** 126-141 *)
Definition unit_disc_sampling (num_points : nat) (d : list R) : result (list vec * list R) := ball_loop (S (num_points + length d)) 2 num_points [] d.
(** 166-182 *)
Definition nsphere_sampling (n num_points : nat) (d : list R) : result (list vec * list R) := ball_loop (S (num_points + length d)) n num_points [] d.
(** 211-214: [sample_points[i]] is drawn again while its sum is too large *)
Fixpoint simplex_loop (fuel n : nat) (sample_point : vec) (d : list R) : result (vec * list R) :=
  match fuel with
  | O => Err OutOfFuel
  | S fuel =>
    if rltb 1 (rsum sample_point) then
      let* p := ncube_sampling n 1 d in simplex_loop fuel n (nth 0 (fst p) []) (snd p)
    else Ok (sample_point, d)
  end.
Definition nsimplex_sample (n : nat) (d : list R) : result (vec * list R) :=
  let* p := ncube_sampling n 1 d in simplex_loop (S (length d)) n (nth 0 (fst p) []) (snd p).
(** 200-215 *)
Definition nsimplex_sampling (n : nat) : nat -> list R -> result (list vec * list R) := sampling (nsimplex_sample n).

(** ** Spheres *)
(** 185-197; the numbers [d] are those of [np.random.randn].  The quotients for a
    zero vector are nan; they are excluded by hypotheses. *)
Definition nsphere_surface_sampling (n num_points : nat) (d : list R) : result (list vec * list R) :=
  let* p := rand_array (num_points * n) d in
  Ok (map (fun v => vdivs v (vnorm v)) (reshape num_points n (fst p)), snd p).
(** 144-151 *)
Definition unit_circle_sampling (num_points : nat) (d : list R) : result (list vec * list R) := nsphere_surface_sampling 2 num_points d.
