(** Properties C75-C79: intervals, angles, orthogonal vectors and the dial. *)
From Coq Require Import Reals Lra Psatz Lia.
From Verif Require Import Base RVec Angle AngleFacts.
Local Open Scope R_scope.

(** ** C75: intervals and periods *)
Theorem C75_periodic : forall a t, 0 < t -> exists b, equivalent_periodic_element a t = Ok b /\ 0 <= b < t /\ (exists n : Z, b = a + IZR n * t) /\
  forall c (n : Z), 0 <= c < t -> c = a + IZR n * t -> c = b.
Proof.
  intros a t Ht. destruct (periodic_ok a t Ht) as (b & n & E & Hb & Eb). exists b. split; [exact E|]. split; [exact Hb|]. split; [exists n; exact Eb|].
  intros c m Hc Ec. apply (periodic_unique 0 t b c (m - n)); try lra. rewrite minus_IZR. lra.
Qed.
Print Assumptions C75_periodic.
Theorem C75_positive_angle : forall a, exists b, to_positive_angle_interval a = Ok b /\ 0 <= b < 2 * PI /\ cos b = cos a /\ sin b = sin a.
Proof.
  intros a. pose proof PI_pos. destruct (periodic_ok a (2 * PI)) as (b & n & E & Hb & Eb); [lra|]. exists b. split; [exact E|]. split; [exact Hb|]. rewrite Eb. split; [apply cos_turn|apply sin_turn].
Qed.
Print Assumptions C75_positive_angle.
Theorem C75_centered_angle : forall a, exists b, to_centered_angle_interval a = Ok b /\ - PI <= b < PI /\ cos b = cos a /\ sin b = sin a.
Proof.
  intros a. destruct (centered_ok a) as (b & n & E & Hb & Eb). exists b. split; [exact E|]. split; [exact Hb|]. rewrite Eb. split; [apply cos_turn|apply sin_turn].
Qed.
Print Assumptions C75_centered_angle.
(** the closest point of a range *)
Theorem C75_constrain : forall s a b, a <= b -> a <= constrain_to_range s a b <= b /\ forall y, a <= y <= b -> Rabs (s - constrain_to_range s a b) <= Rabs (s - y).
Proof.
  intros s a b H. unfold constrain_to_range, Rmax, Rmin. repeat destruct (Rle_dec _ _); (split; [lra|]); intros y Hy; unfold Rabs; repeat destruct (Rcase_abs _); lra.
Qed.
Print Assumptions C75_constrain.
Theorem C75_relative_error : forall x y tol, 0 <= tol -> relative_error_symmetric x y tol = relative_error_symmetric y x tol /\ 0 <= relative_error_symmetric x y tol <= Rmax 2 (2 * tol) /\
  (relative_error_symmetric x y tol = 0 <-> x = y).
Proof.
  intros x y tol Ht. unfold relative_error_symmetric, absolute_error. split; [rewrite Rmax_comm, Rabs_minus_sym; reflexivity|].
  assert (B : Rabs (x - y) <= 2 * Rmax (Rabs x) (Rabs y)) by (unfold Rmax, Rabs; repeat destruct (Rcase_abs _); repeat destruct (Rle_dec _ _); lra).
  pose proof (Rabs_pos (x - y)) as P. assert (Z : Rabs (x - y) = 0 <-> x = y).
  { split; [|intros ->; rewrite Rminus_diag_eq by reflexivity; apply Rabs_R0]. intros E. destruct (Req_dec (x - y) 0) as [H|H]; [lra|]. apply Rabs_no_R0 in H. contradiction. }
  set (d := Rmax (Rabs x) (Rabs y)) in *. destruct (Rlt_or_le tol d) as [L|L].
  - rewrite rltb_t by exact L. assert (0 < / d) by (apply Rinv_0_lt_compat; lra). split; [split|].
    + apply Rmult_le_pos; lra.
    + eapply Rle_trans; [|apply Rmax_l]. apply (Rmult_le_reg_r d); [lra|]. unfold Rdiv. rewrite Rmult_assoc, Rinv_l by lra. lra.
    + rewrite <- Z. split; [|intros ->; unfold Rdiv; ring]. intros E. apply Rmult_integral in E. destruct E; lra.
  - rewrite rltb_f by exact L. split; [split; [exact P|]|exact Z]. eapply Rle_trans; [|apply Rmax_r]. lra.
Qed.
Print Assumptions C75_relative_error.
Theorem C75_degrees : forall x, radians_to_degrees (degrees_to_radians x) = x /\ degrees_to_radians (radians_to_degrees x) = x /\ degrees_to_radians 360 = 2 * PI /\
  cos (degrees_to_radians (x + 360)) = cos (degrees_to_radians x).
Proof.
  intros x. pose proof PI_pos. unfold radians_to_degrees, degrees_to_radians. repeat split; try (field; lra).
  replace ((x + 360) * PI / 180) with (x * PI / 180 + IZR 1 * (2 * PI)) by field. apply cos_turn.
Qed.
Print Assumptions C75_degrees.
Theorem C75_ordinary_relative_error : forall x0 x tol, 0 <= tol -> 0 <= relative_error x0 x tol /\ (relative_error x0 x tol = 0 <-> x0 = x) /\
  (tol < Rabs x0 -> Rabs (x0 - x) = relative_error x0 x tol * Rabs x0) /\ forall c, 0 < c -> tol < Rabs x0 -> tol < Rabs (c * x0) -> relative_error (c * x0) (c * x) tol = relative_error x0 x tol.
Proof.
  intros x0 x tol Ht. unfold relative_error, absolute_error. pose proof (Rabs_pos (x0 - x)) as P. assert (Z : Rabs (x0 - x) = 0 <-> x0 = x).
  { split; [|intros ->; rewrite Rminus_diag_eq by reflexivity; apply Rabs_R0]. intros E. destruct (Req_dec (x0 - x) 0) as [H|H]; [lra|]. apply Rabs_no_R0 in H. contradiction. }
  split; [|split; [|split]].
  - destruct (Rlt_or_le tol (Rabs x0)) as [L|L]; [rewrite rltb_t by exact L|rewrite rltb_f by exact L; exact P]. apply Rmult_le_pos; [exact P|]. apply Rlt_le, Rinv_0_lt_compat. lra.
  - destruct (Rlt_or_le tol (Rabs x0)) as [L|L]; [rewrite rltb_t by exact L|rewrite rltb_f by exact L; exact Z]. assert (0 < / Rabs x0) by (apply Rinv_0_lt_compat; lra). rewrite <- Z. split; [|intros ->; unfold Rdiv; ring]. intros E. apply Rmult_integral in E. destruct E; lra.
  - intros L. rewrite rltb_t by exact L. field. lra.
  - intros c Hc L1 L2. rewrite !rltb_t by assumption. rewrite <- Rmult_minus_distr_l, !Rabs_mult. rewrite (Rabs_right c) by lra. field. lra.
Qed.
Print Assumptions C75_ordinary_relative_error.

(** ** C76: angles between vectors *)
Theorem C76_compute_angle : forall v0 v1, length v0 = length v1 -> (exists x, In x v0 /\ x <> 0) -> (exists x, In x v1 /\ x <> 0) -> (length v0 <> 3%nat -> / 10 ^ 12 <= vnorm v0 /\ / 10 ^ 12 <= vnorm v1) ->
  exists a, compute_angle v0 v1 = Ok a /\ 0 <= a <= PI /\ cos a = vdot v0 v1 / (vnorm v0 * vnorm v1).
Proof.
  intros v0 v1 HL Z0 Z1 H. assert (NZ : forall v, (exists x, In x v /\ x <> 0) -> vdot v v <> 0).
  { intros v (x & Hin & Hx) E. apply vdot_zero_inv in E. rewrite E in Hin. apply repeat_spec in Hin. contradiction. }
  apply compute_angle_ok; [exact HL|]. destruct (Nat.eqb_spec (length v0) 3) as [E|N]; [split; apply NZ; assumption|apply H, N].
Qed.
Print Assumptions C76_compute_angle.
Theorem C76_length_error : forall v0 v1, length v0 <> length v1 -> compute_angle v0 v1 = Err AssertionError.
Proof. intros v0 v1 H. unfold compute_angle. rewrite (proj2 (Nat.eqb_neq _ _) H). reflexivity. Qed.
Print Assumptions C76_length_error.
(** In dimensions other than three short vectors have the angle 0. *)
Theorem C76_short_vectors_refuted : exists v0 v1, length v0 = 2%nat /\ length v1 = 2%nat /\ 0 < vnorm v0 /\ 0 < vnorm v1 /\ vdot v0 v1 = 0 /\ compute_angle v0 v1 = Ok 0.
Proof.
  exists [/ 10 ^ 13; 0], [0; 1]. assert (P : 0 < / 10 ^ 13) by (apply Rinv_0_lt_compat, pow_lt; lra).
  assert (E0 : vnorm [/ 10 ^ 13; 0] = / 10 ^ 13) by (apply vnorm_eq; [lra|cbn -[pow]; ring]). assert (E1 : vnorm [0; 1] = 1) by (apply vnorm_eq; [lra|cbn; ring]).
  split; [reflexivity|]. split; [reflexivity|]. split; [rewrite E0; exact P|]. split; [rewrite E1; lra|]. split; [cbn -[pow]; ring|].
  unfold compute_angle. cbn [length Nat.eqb assert_ bind]. rewrite E0. rewrite rltb_t; [reflexivity|]. unfold tiny. apply Rinv_lt_contravar; [apply Rmult_lt_0_compat; apply pow_lt; lra|]. cbn [pow]. lra.
Qed.
Print Assumptions C76_short_vectors_refuted.
Theorem C76_parallel : forall v c, is_parallel v (vscale c v) = true /\ is_parallel (vscale c v) v = true.
Proof.
  intros v c. unfold is_parallel. pose proof tiny_pos as TP. rewrite vnorm_scale. set (n := vnorm v). rewrite (vdot_sym (vscale c v) v), !vdot_scale_r.
  destruct (Rlt_or_le n tiny) as [L|L]; [rewrite (rltb_t n) by exact L; rewrite orb_true_r; split; reflexivity|]. rewrite (rltb_f n) by exact L. cbn [orb]. rewrite orb_false_r.
  destruct (Rlt_or_le (Rabs c * n) tiny) as [L'|L']; [rewrite (rltb_t (Rabs c * n)) by exact L'; split; reflexivity|]. rewrite (rltb_f (Rabs c * n)) by exact L'.
  assert (Ev : vdot v v = n * n) by (symmetry; apply vnorm_sq). rewrite Ev. assert (Nc : c <> 0) by (intros ->; rewrite Rabs_R0 in L'; lra). assert (0 < Rabs c) by (apply Rabs_pos_lt, Nc).
  destruct (Rle_or_lt 0 c) as [Pc|Pc].
  - rewrite (Rabs_right c) in * by lra. split; (rewrite rltb_t; [reflexivity|]); match goal with |- Rabs ?t < _ => replace t with 0 by (field; lra) end; rewrite Rabs_R0; exact TP.
  - rewrite (Rabs_left c) in * by lra. split; (apply orb_true_iff; right; apply rltb_t); match goal with |- Rabs ?t < _ => replace t with 0 by (field; lra) end; rewrite Rabs_R0; exact TP.
Qed.
Print Assumptions C76_parallel.
(** Vectors that are not short are reported as parallel if and only if the cosine
    of their angle is close to 1 or -1. *)
Theorem C76_parallel_iff : forall v0 v1 a, length v0 = length v1 -> / 10 ^ 12 <= vnorm v0 -> / 10 ^ 12 <= vnorm v1 -> compute_angle v0 v1 = Ok a ->
  (is_parallel v0 v1 = true <-> 1 - / 10 ^ 12 < Rabs (cos a)).
Proof.
  intros v0 v1 a HL H0 H1 E. pose proof tiny_pos as TP. fold tiny in *.
  assert (NZ : forall v, tiny <= vnorm v -> vdot v v <> 0) by (intros v H Z; apply vnorm_zero in Z; lra).
  destruct (compute_angle_ok v0 v1 HL) as (b & Eb & Hb & Cb); [destruct (length v0 =? 3)%nat; split; auto|]. assert (a = b) by congruence. subst b. rewrite Cb.
  unfold is_parallel. rewrite (rltb_f (vnorm v0)), (rltb_f (vnorm v1)) by assumption. cbn [orb]. rewrite orb_true_iff, !rltb_inv.
  pose proof (norm_cs v0 v1 HL) as CS. set (c := vdot v0 v1 / (vnorm v0 * vnorm v1)). assert (P : 0 < vnorm v0 * vnorm v1) by nra.
  assert (B : Rabs c <= 1).
  { unfold c. unfold Rdiv. rewrite Rabs_mult, (Rabs_right (/ _)) by (apply Rle_ge, Rlt_le, Rinv_0_lt_compat, P). apply (Rmult_le_reg_r (vnorm v0 * vnorm v1)); [exact P|]. rewrite Rmult_assoc, Rinv_l by lra. lra. }
  assert (T1 : tiny < 1) by (unfold tiny; rewrite <- Rinv_1; apply Rinv_lt_contravar; cbn [pow]; lra).
  unfold Rabs in *. repeat destruct (Rcase_abs _); split; intros; try lra; (left; lra) || (right; lra).
Qed.
Print Assumptions C76_parallel_iff.

(** ** C77: distance and direction on the circle *)
Theorem C77_distance : forall a0 a1, - PI <= a0 < PI -> - PI <= a1 < PI ->
  exists d, distance a0 a1 = Ok d /\ (exists n : Z, d = Rabs (a0 - a1 + IZR n * (2 * PI))) /\ forall n : Z, d <= Rabs (a0 - a1 + IZR n * (2 * PI)).
Proof. exact distance_ok. Qed.
Print Assumptions C77_distance.
Theorem C77_distance_error : forall a0 a1, ~ (- PI <= a0 < PI) \/ ~ (- PI <= a1 < PI) -> distance a0 a1 = Err AssertionError.
Proof. exact distance_err. Qed.
Print Assumptions C77_distance_error.
(** one recursive call suffices, and walking the distance in the direction leads to a1 *)
Theorem C77_direction : forall a0 a1 fuel, - PI <= a0 < PI -> - PI <= a1 < PI -> (2 <= fuel)%nat ->
  exists s d, direction fuel a0 a1 = Ok s /\ distance a0 a1 = Ok d /\ (s = 1 \/ s = -1)%Z /\ exists n : Z, a1 = a0 + IZR s * d + IZR n * (2 * PI).
Proof. exact direction_ok. Qed.
Print Assumptions C77_direction.

(** ** C78: orthogonal vectors *)
Theorem C78_orthogonal : forall v, (2 <= length v)%nat -> (exists x, In x v /\ x <> 0) ->
  exists w, orthogonal_vector v = Ok w /\ length w = length v /\ vdot v w = 0 /\ 2 / INR (length v) * vnorm v <= vnorm w.
Proof.
  intros v Hn (x & Hin & Hx). apply orthogonal_vector_ok; [exact Hn|]. intros E. apply vdot_zero_inv in E. rewrite E in Hin. apply repeat_spec in Hin. contradiction.
Qed.
Print Assumptions C78_orthogonal.
Theorem C78_zero_error : forall v, (forall x, In x v -> x = 0) -> orthogonal_vector v = Err AssertionError.
Proof.
  intros v H. unfold orthogonal_vector. rewrite reqb_t; [reflexivity|]. apply vnorm_zero. replace v with (vzero (length v)); [apply vdot_zero_l|].
  induction v as [|a v IH]; [reflexivity|]. cbn [length vzero repeat]. f_equal; [symmetry; apply H; left; reflexivity|]. apply IH. intros x Hx. apply H. right. exact Hx.
Qed.
Print Assumptions C78_zero_error.
(** In one dimension the result is not orthogonal. *)
Theorem C78_one_dimension_refuted : exists v w, length v = 1%nat /\ orthogonal_vector v = Ok w /\ vdot v w <> 0.
Proof.
  exists [1], [-1]. split; [reflexivity|]. split; [|cbn; lra]. unfold orthogonal_vector. rewrite reqb_f by (rewrite (vnorm_eq [1] 1); [lra|lra|cbn; ring]). cbn [negb assert_ bind length Nat.eqb seq fold_left].
  unfold two_max_step. cbn [max_1 nth]. rewrite rltb_t by (rewrite Rabs_R1; lra). cbn. do 2 f_equal.
Qed.
Print Assumptions C78_one_dimension_refuted.

(** ** C79: the dial.  [lift y0 xs ys]: [ys] are the positions [xs] up to full
    turns, each less than half a turn away from the one before. *)
Fixpoint lift (y0 : R) (xs ys : list R) : Prop :=
  match xs, ys with
  | [], [] => True
  | x :: xs, y :: ys => (exists n : Z, y = x + IZR n * (2 * PI)) /\ - PI <= y - y0 < PI /\ lift y xs ys
  | _, _ => False
  end.
Lemma dial_lift xs : forall d, - PI <= angle_pos d < PI ->
  exists d' ys, foldM update_position d xs = Ok d' /\ lift (get_total_position d) xs ys /\ get_total_position d' = last ys (get_total_position d) /\ - PI <= angle_pos d' < PI /\
    (xs <> [] -> exists m : Z, angle_pos d' = last xs 0 + IZR m * (2 * PI)).
Proof.
  induction xs as [|x xs IH]; intros d Hd.
  - exists d, []. split; [reflexivity|]. split; [exact I|]. split; [reflexivity|]. split; [exact Hd|]. intros C. contradiction.
  - destruct (dial_step d x Hd) as (d1 & c & n & E & H1 & Hc & Ec & Et & m & Em). destruct (IH d1 H1) as (d' & ys & E' & HL & HT & HP & HM).
    exists d', (get_total_position d1 :: ys). split; [cbn [foldM]; rewrite E; exact E'|]. split.
    + cbn [lift]. split; [exists (m + num_laps d1)%Z; unfold get_total_position; rewrite Em, plus_IZR; ring|]. split; [rewrite Et; lra|exact HL].
    + split; [rewrite HT; destruct ys; [reflexivity|]|]. { change (last (get_total_position d1 :: r :: ys) (get_total_position d)) with (last (r :: ys) (get_total_position d)). clear. revert r. induction ys as [|b ys IH]; intros r; [reflexivity|]. apply (IH b). }
      split; [exact HP|]. intros _. destruct xs as [|x' xs]; [cbn [foldM] in E'; injection E' as <-; exists m; exact Em|]. apply HM. discriminate.
Qed.
Theorem C79_dial : forall xs, exists d ys, foldM update_position dial_init xs = Ok d /\ lift 0 xs ys /\ get_total_position d = last ys 0.
Proof.
  intros xs. pose proof PI_pos. destruct (dial_lift xs dial_init) as (d & ys & E & HL & HT & _); [cbn; lra|]. exists d, ys. split; [exact E|].
  assert (Z : get_total_position dial_init = 0) by (unfold get_total_position; cbn; ring). rewrite Z in *. split; assumption.
Qed.
Print Assumptions C79_dial.
Theorem C79_position : forall xs x, - PI <= x < PI -> exists d, foldM update_position dial_init (xs ++ [x]) = Ok d /\ angle_pos d = x.
Proof.
  intros xs x Hx. pose proof PI_pos. destruct (dial_lift (xs ++ [x]) dial_init) as (d & ys & E & _ & _ & HP & HM); [cbn; lra|]. exists d. split; [exact E|].
  destruct HM as (m & Em); [intros C; destruct xs; discriminate C|]. rewrite last_last in Em. apply (periodic_unique (- PI) (2 * PI) x (angle_pos d) m); lra.
Qed.
Print Assumptions C79_position.

(** ** Examples *)
Example C75_periodic_ex : equivalent_periodic_element (-7) 3 = Ok 2 /\ equivalent_periodic_element (-6) 3 = Ok 0.
Proof.
  split; match goal with |- equivalent_periodic_element ?a _ = Ok ?c => destruct (C75_periodic a 3) as (b & E & _ & _ & U); [lra|]; rewrite E; f_equal; symmetry end; [apply (U _ 3%Z)|apply (U _ 2%Z)]; lra.
Qed.
Example C76_angle_ex : compute_angle [3; 0] [0; 2] = Ok (PI / 2) /\ compute_angle [3; 0; 0] [-2; 0; 0] = Ok PI.
Proof.
  pose proof PI_pos. assert (T1 : tiny <= 1) by (unfold tiny; rewrite <- Rinv_1; apply Rinv_le_contravar; cbn [pow]; lra).
  split; apply compute_angle_eq; try reflexivity; try lra; cbn [length Nat.eqb].
  - rewrite (vnorm_eq [3; 0] 3), (vnorm_eq [0; 2] 2) by (try lra; cbn; ring). lra.
  - rewrite cos_PI2. cbn. unfold Rdiv. ring.
  - cbn. lra.
  - rewrite (vnorm_eq [3; 0; 0] 3), (vnorm_eq [-2; 0; 0] 2) by (try lra; cbn; ring). rewrite cos_PI. cbn. field.
Qed.
Example C77_direction_ex : distance 3 (-3) = Ok (2 * PI - 6) /\ direction 2 3 (-3) = Ok 1%Z.
Proof.
  assert (B : 3 < PI <= 4) by (pose proof PI2_3_2; pose proof PI_4; lra).
  split; [unfold distance; rewrite !(proj2 (lcr_inv _ _ _)) by lra; cbn [assert_ bind]; rewrite Rabs_right, Rmin_right by lra; f_equal; lra|].
  destruct (C77_direction 3 (-3) 2) as (s & d & E & Ed & [->| ->] & n & En); try lra; [lia|exact E|exfalso].
  unfold distance in Ed. rewrite !(proj2 (lcr_inv _ _ _)) in Ed by lra. cbn [assert_ bind] in Ed. rewrite Rabs_right, Rmin_right in Ed by lra. injection Ed as <-.
  assert (X : IZR n * (2 * PI) = 2 * PI - 12) by lra. assert (0 < IZR n + 1) by nra. assert (IZR n < 0) by nra. assert (-1 < n)%Z by (apply lt_IZR; lra). assert (n < 0)%Z by (apply lt_IZR; lra). lia.
Qed.
Example C78_orthogonal_ex : exists w, orthogonal_vector [1; -5; 2] = Ok w /\ vdot [1; -5; 2] w = 0.
Proof. destruct (C78_orthogonal [1; -5; 2]) as (w & E & _ & D & _); [cbn; lia|exists 1; split; [left; reflexivity|lra]|]. exists w. split; assumption. Qed.
Example C79_dial_ex : exists d, foldM update_position dial_init [5 / 2; -5 / 2] = Ok d /\ get_total_position d = 2 * PI - 5 / 2.
Proof.
  assert (B : 3 < PI <= 4) by (pose proof PI2_3_2; pose proof PI_4; lra).
  destruct (C79_dial [5 / 2; -5 / 2]) as (d & ys & E & HL & HT). exists d. split; [exact E|]. rewrite HT. destruct ys as [|y1 [|y2 [|? ?]]]; cbn in HL; try tauto.
  destruct HL as ((n1 & E1) & B1 & (n2 & E2) & B2 & _). cbn [last]. assert (y1 = 5 / 2) by (apply (periodic_unique (- PI) (2 * PI) (5 / 2) y1 n1); lra). subst y1.
  apply (periodic_unique (5 / 2 - PI) (2 * PI) (2 * PI - 5 / 2) y2 (n2 - 1)); try lra. rewrite minus_IZR. lra.
Qed.
