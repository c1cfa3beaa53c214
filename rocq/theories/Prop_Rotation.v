(** Properties of rotations and rigid motions. *)
From Coq Require Import Reals Lra Psatz.
From Verif Require Import Base RVec Angle AngleFacts Rotation RotFacts.
Local Open Scope R_scope.

(** ** C80: rotation matrices.  [rotation3 m]: [m] is a 3 by 3 matrix with
    orthonormal columns and determinant 1. *)
Theorem C80_hat : forall w v, length w = 3%nat -> length v = 3%nat -> mvec (hat w) v = cross3 w v.
Proof. intros w v Hw Hv. destruct (len3 w Hw) as (a & b & c & ->). destruct (len3 v Hv) as (d & e & f & ->). unfold hat. vcalc. veq ltac:(ring). Qed.
Print Assumptions C80_hat.
(** The matrix keeps the axis, and turns each vector orthogonal to the axis by the
    angle in the positive sense.  The axis of the caller is normalised. *)
Theorem C80_axis_angle : forall axis t, length axis = 3%nat -> (exists x, In x axis /\ x <> 0) ->
  exists m k, axis_angle_to_rotation_matrix axis t = Ok (m, k) /\ vnorm k = 1 /\ vscale (vnorm axis) k = axis /\ rotation3 m /\ mvec m axis = axis /\
    forall w, length w = 3%nat -> vdot axis w = 0 -> mvec m w = vadd (vscale (cos t) w) (vscale (sin t) (cross3 k w)).
Proof.
  intros axis t HL HN. assert (NZ : vdot axis axis <> 0).
  { intros C. apply vdot_zero_inv in C. destruct HN as (x & Hx & Nx). rewrite C in Hx. apply repeat_spec in Hx. contradiction. }
  destruct (axis_angle_ok axis t HL NZ) as (x & y & z & E & U & EM). exists (rod x y z (cos t) (sin t)), [x; y; z]. split; [exact EM|].
  pose proof (vnorm_gt0 axis NZ) as P. assert (EA : vscale (vnorm axis) [x; y; z] = axis).
  { rewrite <- E, vdivs_scale. apply vec_ext; [rewrite !vscale_len; reflexivity|]. intros i _. rewrite !nth_vscale. field. lra. }
  split; [apply vnorm_eq; [lra|vcalc; lra]|]. split; [exact EA|]. split; [apply rod_rotation; [exact U|apply cos2_sin2]|]. split; [rewrite <- EA; apply rod_axis, U|].
  intros w Lw Hw. apply rod_fix; [exact Lw|]. rewrite <- EA, vdot_scale_l in Hw. apply Rmult_integral in Hw. destruct Hw; lra.
Qed.
Print Assumptions C80_axis_angle.
Theorem C80_zero_axis : forall t, axis_angle_to_rotation_matrix [0; 0; 0] t = Err AssertionError.
Proof. intros t. unfold axis_angle_to_rotation_matrix. rewrite reqb_t; [reflexivity|]. apply vnorm_eq; [lra|vcalc; ring]. Qed.
Print Assumptions C80_zero_axis.
(** Rotations around one axis are composed by adding the angles. *)
Theorem C80_compose : forall axis s t ms mt mst k ks kst, length axis = 3%nat -> axis_angle_to_rotation_matrix axis s = Ok (ms, ks) -> axis_angle_to_rotation_matrix axis t = Ok (mt, k) ->
  axis_angle_to_rotation_matrix axis (s + t) = Ok (mst, kst) -> mmul ms mt = mst.
Proof.
  intros axis s t ms mt mst k ks kst HL E1 E2 E3. destruct (Req_dec (vdot axis axis) 0) as [Z|NZ].
  - unfold axis_angle_to_rotation_matrix in E1. rewrite reqb_t in E1 by (apply vnorm_zero, Z). discriminate E1.
  - destruct (axis_angle_ok axis s HL NZ) as (x & y & z & F1 & U & G1). destruct (axis_angle_ok axis t HL NZ) as (x' & y' & z' & F2 & _ & G2). destruct (axis_angle_ok axis (s + t) HL NZ) as (x'' & y'' & z'' & F3 & _ & G3).
    rewrite F1 in F2, F3. injection F2 as <- <- <-. injection F3 as <- <- <-.
    assert (X1 : ms = rod x y z (cos s) (sin s)) by congruence. assert (X2 : mt = rod x y z (cos t) (sin t)) by congruence. assert (X3 : mst = rod x y z (cos (s + t)) (sin (s + t))) by congruence.
    rewrite X1, X2, X3, rod_mul by exact U. rewrite cos_plus, sin_plus. reflexivity.
Qed.
Print Assumptions C80_compose.
(** The vector form and the matrix form of Rodrigues' formula agree, also in
    which axes they reject. *)
Theorem C80_rodrigues : forall v k c s, length v = 3%nat -> length k = 3%nat ->
  (exists m w, rodrigues_formula_matrix k c s = Ok m /\ rodrigues_formula v k c s = Ok w /\ mvec m v = w) \/
  (rodrigues_formula_matrix k c s = Err AssertionError /\ rodrigues_formula v k c s = Err AssertionError).
Proof.
  intros v k c s Lv Lk. destruct (len3 k Lk) as (x & y & z & ->). destruct (is_unit [x; y; z]) eqn:U.
  - left. rewrite (rod_eq x y z c s U). unfold rodrigues_formula. rewrite U. eexists _, _. split; [reflexivity|]. split; [reflexivity|]. apply rod_apply, Lv.
  - right. unfold rodrigues_formula_matrix, rodrigues_formula. rewrite U. split; reflexivity.
Qed.
Print Assumptions C80_rodrigues.
(** An axis that is only almost a unit vector is accepted, and does not give a rotation. *)
Theorem C80_unit_tolerance_refuted : exists k c s m, c * c + s * s = 1 /\ rodrigues_formula_matrix k c s = Ok m /\ ~ rotation3 m.
Proof.
  pose (u := / 10 ^ 11). assert (P : 0 < u) by (apply Rinv_0_lt_compat, pow_lt; lra). exists [1 + u; 0; 0], 0, 1. eexists. split; [ring|]. split.
  - apply rod_eq. unfold is_unit. rewrite (vnorm_eq _ (1 + u)) by (lra || (vcalc; ring)). apply rltb_t. replace (1 + u - 1) with u by ring. rewrite Rabs_right by lra.
    unfold u. apply Rinv_lt_contravar; [apply Rmult_lt_0_compat; apply pow_lt; lra|cbn [pow]; lra].
  - intros (_ & H & _). specialize (H 0 0 ltac:(lia) ltac:(lia))%nat. unfold rod, col in H. cbn [map nth Nat.eqb] in H. unfold vdot, vmap2, rsum in H. cbn [combine map fst snd fold_right] in H. nra.
Qed.
Print Assumptions C80_unit_tolerance_refuted.

(** ** C81: the rotation from one vector to another *)
Lemma nonzero_dot v : (exists x, In x v /\ x <> 0) -> vdot v v <> 0.
Proof. intros (x & Hx & Nx) C. apply vdot_zero_inv in C. rewrite C in Hx. apply repeat_spec in Hx. contradiction. Qed.
Theorem C81_compute_rotation : forall v0 v1, length v0 = 3%nat -> length v1 = 3%nat -> (exists x, In x v0 /\ x <> 0) -> (exists x, In x v1 /\ x <> 0) ->
  exists axis t w, compute_rotation v0 v1 = Ok (axis, t) /\ length axis = 3%nat /\ vnorm axis = 1 /\ 0 <= t <= PI /\ rotate axis t v0 = Ok (w, axis) /\ w = vscale (vnorm v0 / vnorm v1) v1 /\
    (vdot v0 v1 <> - (vnorm v0 * vnorm v1) -> forall u, length u = 3%nat -> vdot u v0 = 0 -> vdot u v1 = 0 -> rotate axis t u = Ok (u, axis)).
Proof.
  intros v0 v1 L0 L1 N0 N1. apply nonzero_dot in N0, N1. pose proof PI_pos. unfold compute_rotation. cbv zeta. destruct (Req_dec (vdot (cross3 v0 v1) (cross3 v0 v1)) 0) as [Z|NZ].
  - rewrite reqb_t by exact Z. destruct (parallel_cases v0 v1 L0 L1 N0 N1 Z) as [Pp Pn]. destruct (Rlt_or_le 0 (vdot v0 v1)) as [S|S].
    + rewrite rltb_t by exact S. exists [1; 0; 0], 0, v0. split; [reflexivity|]. split; [reflexivity|]. split; [apply vnorm_eq; [lra|vcalc; ring]|]. split; [lra|].
      assert (I : forall u, length u = 3%nat -> rotate [1; 0; 0] 0 u = Ok (u, [1; 0; 0])).
      { intros u Lu. unfold rotate. rewrite axis_angle_unit by ring. cbn [bind fst snd]. do 2 f_equal. rewrite cos_0, sin_0. destruct (len3 u Lu) as (p & q & r & ->). vcalc. veq ltac:(ring). }
      split; [apply I, L0|]. split; [exact (Pp S)|]. intros _ u Lu _ _. apply I, Lu.
    + rewrite rltb_f by exact S. destruct (orthogonal_vector_ok v0 ltac:(lia) N0) as (a & Ea & La & Ha & Na). rewrite Ea. cbn [bind].
      assert (Na' : vdot a a <> 0).
      { intros C. apply vnorm_zero in C. rewrite C, L0 in Na. apply vnorm_gt0 in N0. cbn [INR] in Na. assert (0 < 2 / (1 + 1 + 1)) by lra. nra. } pose proof (unit_dot a Na') as U. destruct (len3 (vdivs a (vnorm a))) as (x & y & z & E); [rewrite vdivs_len; congruence|]. rewrite E in U |- *.
      assert (U' : x * x + y * y + z * z = 1) by (revert U; vcalc; lra). exists [x; y; z], PI, (vscale (-1) v0). split; [reflexivity|]. split; [reflexivity|]. split; [apply vnorm_eq; lra|]. split; [lra|].
      assert (O : vdot [x; y; z] v0 = 0) by (rewrite <- E, vdivs_scale, vdot_scale_l, (vdot_sym a v0), Ha; ring).
      split; [|split].
      * unfold rotate. rewrite axis_angle_unit by exact U'. cbn [bind fst snd]. do 2 f_equal. rewrite rod_fix by assumption. rewrite cos_PI, sin_PI. destruct (len3 v0 L0) as (p & q & r & ->). vcalc. veq ltac:(ring).
      * apply vnorm_gt0 in N1. rewrite (Pn S) at 1. apply vec_ext; [rewrite !vscale_len; reflexivity|]. intros i _. rewrite !nth_vscale. ring.
      * intros C. exfalso. apply C. pose proof (lagrange_id v0 v1 L0 L1) as L. rewrite Z, <- !vnorm_sq in L. apply vnorm_gt0 in N0, N1.
        assert (X : (vdot v0 v1 - vnorm v0 * vnorm v1) * (vdot v0 v1 + vnorm v0 * vnorm v1) = 0) by lra. apply Rmult_integral in X. destruct X; [nra|lra].
  - rewrite reqb_f by exact NZ. destruct (compute_angle_ok v0 v1 ltac:(congruence)) as (t & Et & Ht & Ct); [rewrite L0; split; assumption|]. rewrite Et. cbn [bind].
    pose proof (unit_dot _ NZ) as U. destruct (len3 (vdivs (cross3 v0 v1) (vnorm (cross3 v0 v1)))) as (x & y & z & E); [reflexivity|]. rewrite E in U |- *.
    assert (U' : x * x + y * y + z * z = 1) by (revert U; vcalc; lra). exists [x; y; z], t. eexists. split; [reflexivity|]. split; [reflexivity|]. split; [apply vnorm_eq; lra|]. split; [exact Ht|]. unfold rotate. rewrite axis_angle_unit by exact U'. cbn [bind fst snd].
    split; [reflexivity|]. split; [apply rod_turn; assumption|]. intros _ u Lu U0 U1. do 2 f_equal. clear Et Ht Ct.
    assert (EU : exists r, u = vscale r [x; y; z]).
    { exists (vdot u (cross3 v0 v1) / vnorm (cross3 v0 v1)). rewrite <- E. pose proof (vnorm_gt0 _ NZ) as Hn. pose proof (vnorm_sq (cross3 v0 v1)) as Sn. clear U U' E x y z.
      assert (X : forall i, (i < 3)%nat -> vdot (cross3 v0 v1) (cross3 v0 v1) * nth i u 0 = vdot u (cross3 v0 v1) * nth i (cross3 v0 v1) 0).
      { intros i Hi. destruct (len3 v0 L0) as (a & b & c & ->), (len3 v1 L1) as (d & e & f & ->), (len3 u Lu) as (p & q & r & ->).
        assert (Y0 : p * a + q * b + r * c = 0) by (revert U0; vcalc; lra). assert (Y1 : p * d + q * e + r * f = 0) by (revert U1; vcalc; lra). clear - Hi Y0 Y1.
        set (A := b * f - c * e). set (B := c * d - a * f). set (C := a * e - b * d).
        assert (Z0 : q * C - r * B = 0) by (unfold B, C; transitivity (a * (p * d + q * e + r * f) - d * (p * a + q * b + r * c)); [ring|rewrite Y0, Y1; ring]).
        assert (Z1 : r * A - p * C = 0) by (unfold A, C; transitivity (b * (p * d + q * e + r * f) - e * (p * a + q * b + r * c)); [ring|rewrite Y0, Y1; ring]).
        assert (Z2 : p * B - q * A = 0) by (unfold A, B; transitivity (c * (p * d + q * e + r * f) - f * (p * a + q * b + r * c)); [ring|rewrite Y0, Y1; ring]).
        change (cross3 [a; b; c] [d; e; f]) with [A; B; C]. clearbody A B C. destruct i as [|[|[|]]]; try lia; vcalc.
        - transitivity ((p * A + q * B + r * C) * A + (p * B - q * A) * B - (r * A - p * C) * C); [ring|rewrite Z1, Z2; ring].
        - transitivity ((p * A + q * B + r * C) * B - (p * B - q * A) * A + (q * C - r * B) * C); [ring|rewrite Z0, Z2; ring].
        - transitivity ((p * A + q * B + r * C) * C + (r * A - p * C) * A - (q * C - r * B) * B); [ring|rewrite Z0, Z1; ring]. }
      apply vec_ext; [rewrite vscale_len, vdivs_len, cross_len; exact Lu|]. intros i Hi. rewrite Lu in Hi. rewrite vdivs_scale, !nth_vscale.
      apply (Rmult_eq_reg_l (vnorm (cross3 v0 v1) * vnorm (cross3 v0 v1))); [|nra]. rewrite Sn at 1. rewrite X by exact Hi. field. lra. }
    destruct EU as (r & ->). apply rod_axis, U'.
Qed.
Print Assumptions C81_compute_rotation.
(** For opposite vectors there are orthogonal vectors that do not stay fixed. *)
Theorem C81_opposite_refuted : exists v0 v1 axis t u w, vnorm v0 = 1 /\ vnorm v1 = 1 /\ compute_rotation v0 v1 = Ok (axis, t) /\ length u = 3%nat /\ vdot u v0 = 0 /\ vdot u v1 = 0 /\ rotate axis t u = Ok (w, axis) /\ w <> u.
Proof.
  exists [0; 0; 1], [0; 0; -1]. destruct (C81_compute_rotation [0; 0; 1] [0; 0; -1] eq_refl eq_refl) as (axis & t & w & E & La & Na & Ht & Er & Ew & _).
  { exists 1. split; [right; right; left; reflexivity|lra]. } { exists (-1). split; [right; right; left; reflexivity|lra]. }
  assert (NE : vnorm [0; 0; 1] = 1) by (apply vnorm_eq; [lra|vcalc; ring]). assert (NE' : vnorm [0; 0; -1] = 1) by (apply vnorm_eq; [lra|vcalc; ring]).
  rewrite NE, NE' in Ew. assert (Da : vdot axis axis = 1) by (rewrite <- vnorm_sq, Na; ring).
  destruct (len3 axis La) as (x & y & z & ->). assert (U : x * x + y * y + z * z = 1) by (revert Da; vcalc; lra).
  unfold rotate in Er. rewrite axis_angle_unit in Er by exact U. cbn [bind fst snd] in Er. apply (f_equal (fun r => match r with Ok (v, _) => v | _ => [] end)) in Er. rewrite Ew in Er.
  exists [x; y; z], t, [- y; x; 0]. eexists. split; [exact NE|]. split; [exact NE'|]. split; [exact E|]. split; [reflexivity|]. split; [vcalc; ring|]. split; [vcalc; ring|].
  split; [unfold rotate; rewrite axis_angle_unit by exact U; reflexivity|]. cbn [fst].
  intros C. set (c := cos t) in *. set (s := sin t) in *. pose proof (cos2_sin2 t) as CS. fold c s in CS. clearbody c s. revert Er C. vcalc. intros Er C. injection Er as E1 E2 E3. injection C as C1 C2 C3.
  assert (Hc : c <= -1) by nra. assert (Hc' : c = -1) by nra. assert (s = 0) by nra. subst c s. nra.
Qed.
Print Assumptions C81_opposite_refuted.

(** ** C82: axis and angle of a rotation matrix *)
Theorem C82_round_trip : forall m, rotation3 m -> / 10 ^ 14 <= Rabs (ent m 0 0 + ent m 1 1 + ent m 2 2 - 3) -> / 10 ^ 10 <= Rabs (ent m 0 0 + ent m 1 1 + ent m 2 2 + 1) ->
  exists axis t, rotation_matrix_to_axis_angle m = Ok (axis, t, m) /\ vnorm axis = 1 /\ 0 <= t <= PI /\ axis_angle_to_rotation_matrix axis t = Ok (m, axis).
Proof.
  intros m H B1 B2. destruct (to_axis_generic m H B1 B2) as (x & y & z & t & E & U & Ht & _ & ER). exists [x; y; z], t. split; [exact E|]. split; [apply vnorm_eq; [lra|vcalc; lra]|]. split; [exact Ht|].
  rewrite axis_angle_unit by exact U. rewrite ER. reflexivity.
Qed.
Print Assumptions C82_round_trip.
Theorem C82_identity : forall m, rotation3 m -> ent m 0 0 + ent m 1 1 + ent m 2 2 = 3 ->
  exists axis, rotation_matrix_to_axis_angle m = Ok (axis, 0, m) /\ vnorm axis = 1 /\ axis_angle_to_rotation_matrix axis 0 = Ok (m, axis).
Proof.
  intros m H T. destruct (to_axis_identity m H T) as [-> E]. exists [1; 0; 0]. split; [exact E|]. split; [apply vnorm_eq; [lra|vcalc; ring]|].
  rewrite axis_angle_unit by ring. rewrite cos_0, sin_0. do 2 f_equal. unfold rod, mid3. repeat (apply f_equal2; [|]); try reflexivity; ring.
Qed.
Print Assumptions C82_identity.
Theorem C82_near_identity : forall m, rotation3 m -> Rabs (ent m 0 0 + ent m 1 1 + ent m 2 2 - 3) < / 10 ^ 14 ->
  exists axis t m', rotation_matrix_to_axis_angle m = Ok (axis, t, m) /\ vnorm axis = 1 /\ 0 <= t <= PI /\ axis_angle_to_rotation_matrix axis t = Ok (m', axis) /\
    forall p q, (p < 3)%nat -> (q < 3)%nat -> Rabs (ent m' p q - ent m p q) <= 2 * / 10 ^ 14.
Proof.
  intros m H B. destruct (Req_dec (trace3 m) 3) as [T|T].
  - destruct (C82_identity m H T) as (axis & E1 & E2 & E3). exists axis, 0, m. pose proof PI_pos. split; [exact E1|]. split; [exact E2|]. split; [lra|]. split; [exact E3|].
    intros p q _ _. rewrite Rminus_eq_0, Rabs_R0. assert (0 < / 10 ^ 14) by (apply Rinv_0_lt_compat, pow_lt; lra). lra.
  - destruct (to_axis_near_identity m H B T) as (x & y & z & t & E & U & Ht & C). exists [x; y; z], t, (rod x y z (cos t) (sin t)). split; [exact E|]. split; [apply vnorm_eq; [lra|vcalc; lra]|]. split; [exact Ht|].
    split; [apply axis_angle_unit, U|exact C].
Qed.
Print Assumptions C82_near_identity.
(** half turns; [m'] is the matrix of the caller afterwards *)
Theorem C82_half_turn : forall m, rotation3 m -> ent m 0 0 + ent m 1 1 + ent m 2 2 = -1 ->
  exists axis m', rotation_matrix_to_axis_angle m = Ok (axis, PI, m') /\ vnorm axis = 1 /\ axis_angle_to_rotation_matrix axis PI = Ok (m, axis).
Proof.
  intros m H T. destruct (to_axis_pi m H T) as (x & y & z & i & E & _ & U & ER). exists [x; y; z], (set_col m i [x; y; z]). split; [exact E|]. split; [apply vnorm_eq; [lra|vcalc; lra]|].
  rewrite axis_angle_unit by exact U. rewrite ER. reflexivity.
Qed.
Print Assumptions C82_half_turn.
(** The rotation matrix of the caller does not survive. *)
Theorem C82_half_turn_overwrites_refuted : exists m axis t m', rotation3 m /\ rotation_matrix_to_axis_angle m = Ok (axis, t, m') /\ m' <> m /\ ~ rotation3 m'.
Proof.
  exists [[-3/5; 0; 4/5]; [0; -1; 0]; [4/5; 0; 3/5]]. assert (H : rotation3 [[-3/5; 0; 4/5]; [0; -1; 0]; [4/5; 0; 3/5]]) by (apply rot_intro; field).
  unfold rotation_matrix_to_axis_angle, ent. cbn [nth]. assert (P14 : 0 < / 10 ^ 14) by (apply Rinv_0_lt_compat, pow_lt; lra). assert (P10 : 0 < / 10 ^ 10) by (apply Rinv_0_lt_compat, pow_lt; lra).
  rewrite rltb_f. 2: { replace (-3 / 5 + -1 + 3 / 5 - 3) with (-4) by field. rewrite Rabs_left by lra. apply Rle_trans with 1; [|lra]. rewrite <- Rinv_1. apply Rinv_le_contravar; [lra|]. apply pow_R1_Rle. lra. }
  rewrite rltb_t by (replace (-3 / 5 + -1 + 3 / 5 + 1) with 0 by field; rewrite Rabs_R0; exact P10).
  rewrite rltb_t. 2: { rewrite (vnorm_eq _ 0); [rewrite Rabs_R0; exact P14|lra|vcalc; field]. }
  assert (EA : argmax3 (-3 / 5) (-1) (3 / 5) = 2%nat) by (unfold argmax3; rewrite rltb_f, rltb_t by lra; reflexivity). rewrite EA. cbn [col map nth]. rewrite (proj2 (proj2 (set_nth3 (4 / 5) 0 (3 / 5) (3 / 5 + 1)))).
  assert (Dn : vdot [4 / 5; 0; 3 / 5 + 1] [4 / 5; 0; 3 / 5 + 1] = 16 / 5) by (vcalc; field). pose proof (vnorm_sq [4 / 5; 0; 3 / 5 + 1]) as Sn. pose proof (vnorm_gt0 [4 / 5; 0; 3 / 5 + 1] ltac:(lra)) as Hn. rewrite Dn in Sn.
  set (n := vnorm [4 / 5; 0; 3 / 5 + 1]) in *. clearbody n. unfold vdivs. cbn [map].
  eexists _, _, _. split; [exact H|]. split; [reflexivity|]. unfold set_col. cbn [combine map fst snd].
  rewrite (proj2 (proj2 (set_nth3 (-3 / 5) 0 (4 / 5) (4 / 5 / n)))), (proj2 (proj2 (set_nth3 0 (-1) 0 (0 / n)))), (proj2 (proj2 (set_nth3 (4 / 5) 0 (3 / 5) ((3 / 5 + 1) / n)))).
  assert (NR : ~ rotation3 [[-3/5; 0; 4/5/n]; [0; -1; 0/n]; [4/5; 0; (3/5+1)/n]]).
  { intros C. apply rot_elim in C. destruct C as ((_ & _ & _ & _ & C & _) & _). assert (X : (-3 / 5 * (4 / 5 / n) + 0 * (0 / n) + 4 / 5 * ((3 / 5 + 1) / n)) * n = 4 / 5) by (field; lra). rewrite C in X. lra. }
  split; [|exact NR]. intros C. apply NR. exact (eq_ind_r rotation3 H C).
Qed.
Print Assumptions C82_half_turn_overwrites_refuted.
Lemma near_pi_branch a b c d e f g h i : / 10 ^ 14 <= Rabs (a + e + i - 3) -> Rabs (a + e + i + 1) < / 10 ^ 10 -> / 10 ^ 14 <= vnorm [h - f; c - g; d - b] ->
  rotation_matrix_to_axis_angle [[a; b; c]; [d; e; f]; [g; h; i]] =
  Ok ([sign (h - f) * sqrt (/ 2 * (a + 1)); sign (c - g) * sqrt (/ 2 * (e + 1)); sign (d - b) * sqrt (/ 2 * (i + 1))], PI - / 2 * vnorm [h - f; c - g; d - b], [[a; b; c]; [d; e; f]; [g; h; i]]).
Proof.
  intros B1 B2 B3. unfold rotation_matrix_to_axis_angle, ent. cbn [nth]. rewrite (rltb_f _ (/ 10 ^ 14)) by exact B1. rewrite (rltb_t _ (/ 10 ^ 10)) by exact B2.
  rewrite (rltb_f (Rabs _)); [reflexivity|]. rewrite Rabs_right; [exact B3|]. apply Rle_ge, vnorm_pos.
Qed.
(** Close to a half turn the axis is inaccurate: the rotation is not reproduced
    up to 1e-6. *)
Theorem C82_near_half_turn_refuted : exists m axis t m' a k, rotation3 m /\ rotation_matrix_to_axis_angle m = Ok (axis, t, m') /\ axis_angle_to_rotation_matrix axis t = Ok (a, k) /\
  / 10 ^ 6 < Rabs (ent a 0 2 - ent m 0 2).
Proof.
  pose (w := 4000). pose (x := 1). pose (z := 1000000000). pose (N := w * w + x * x + z * z). assert (PN : 0 < N) by (unfold N, w, x, z; lra).
  pose (m := [[(w * w + x * x - z * z) / N; - (2 * w * z) / N; 2 * x * z / N]; [2 * w * z / N; (w * w - x * x - z * z) / N; - (2 * w * x) / N]; [2 * x * z / N; 2 * w * x / N; (w * w - x * x + z * z) / N]]).
  assert (H : rotation3 m) by (unfold m; apply rot_intro; unfold N; field; unfold w, x, z; lra).
  assert (P14 : 0 < / 10 ^ 14) by (apply Rinv_0_lt_compat, pow_lt; lra). assert (P10 : 0 < / 10 ^ 10) by (apply Rinv_0_lt_compat, pow_lt; lra).
  assert (Dn : vdot [4 * w * x / N; 0; 4 * w * z / N] [4 * w * x / N; 0; 4 * w * z / N] = 16 * w * w * (x * x + z * z) / (N * N)) by (vcalc; field; lra).
  assert (Sn0 : 16 * w * w * (x * x + z * z) / (N * N) <> 0). { unfold Rdiv. apply Rmult_integral_contrapositive_currified; [unfold w, x, z; lra|apply Rinv_neq_0_compat; nra]. }
  pose proof (vnorm_sq [4 * w * x / N; 0; 4 * w * z / N]) as Sn. pose proof (vnorm_gt0 [4 * w * x / N; 0; 4 * w * z / N] ltac:(lra)) as Hn. rewrite Dn in Sn. set (n := vnorm [4 * w * x / N; 0; 4 * w * z / N]) in *.
  assert (Bn : / 10 ^ 14 <= n <= 1).
  { assert (V : 16 * w * w * (x * x + z * z) / (N * N) = 256000000 * 1000000000000000001 / (1000000000016000001 * 1000000000016000001)) by (unfold N, w, x, z; field). rewrite V in Sn. clear - Sn Hn P14.
    assert (L : / 10 ^ 14 <= / 10 ^ 6) by (apply Rinv_le_contravar; cbn [pow]; lra). assert (L6 : / 10 ^ 6 = / 1000000) by (f_equal; cbn [pow]; ring). split; nra. }
  pose (A := sqrt (/ 2 * ((w * w + x * x - z * z) / N + 1))). pose (C := sqrt (/ 2 * ((w * w - x * x + z * z) / N + 1))).
  assert (VA : / 2 * ((w * w + x * x - z * z) / N + 1) = (w * w + x * x) / N) by (unfold N; field; fold N; lra). assert (VC : / 2 * ((w * w - x * x + z * z) / N + 1) = (w * w + z * z) / N) by (unfold N; field; fold N; lra).
  assert (SA : A * A = (w * w + x * x) / N) by (unfold A; rewrite VA; apply sqrt_sqrt; apply Rmult_le_pos; [unfold w, x; lra|apply Rlt_le, Rinv_0_lt_compat, PN]).
  assert (SC : C * C = (w * w + z * z) / N) by (unfold C; rewrite VC; apply sqrt_sqrt; apply Rmult_le_pos; [unfold w, z; lra|apply Rlt_le, Rinv_0_lt_compat, PN]).
  assert (PA : 0 <= A) by apply sqrt_pos. assert (PC : 0 <= C) by apply sqrt_pos.
  assert (EQ : rotation_matrix_to_axis_angle m = Ok ([A; 0; C], PI - / 2 * n, m)).
  { unfold m. assert (X1 : 2 * w * x / N - - (2 * w * x) / N = 4 * w * x / N) by (field; lra). assert (X2 : 2 * x * z / N - 2 * x * z / N = 0) by ring. assert (X3 : 2 * w * z / N - - (2 * w * z) / N = 4 * w * z / N) by (field; lra).
    assert (XT : (w * w + x * x - z * z) / N + (w * w - x * x - z * z) / N + (w * w - x * x + z * z) / N = 4 * w * w / N - 1) by (unfold N; field; fold N; lra).
    assert (VT : 4 * w * w / N = 64000000 / 1000000000016000001) by (unfold N, w, x, z; field). assert (BT : 0 < 64000000 / 1000000000016000001 < / 10 ^ 10).
    { split; [lra|]. replace (/ 10 ^ 10) with (/ 10000000000) by (f_equal; cbn [pow]; ring). lra. }
    assert (S14 : / 10 ^ 14 <= 1) by (rewrite <- Rinv_1; apply Rinv_le_contravar; [lra|apply pow_R1_Rle; lra]). assert (S10 : / 10 ^ 10 <= 1) by (rewrite <- Rinv_1; apply Rinv_le_contravar; [lra|apply pow_R1_Rle; lra]).
    rewrite VT in XT. rewrite near_pi_branch; rewrite ?X1, ?X2, ?X3, ?XT.
    2: { rewrite Rabs_left by lra. lra. } 2: { replace (64000000 / 1000000000016000001 - 1 + 1) with (64000000 / 1000000000016000001) by ring. rewrite Rabs_right by lra. lra. } 2: { fold n. lra. }
    fold n.
    assert (G : forall q, 0 < q -> sign q = 1) by (intros q Hq; unfold sign; rewrite rltb_t by exact Hq; reflexivity). assert (G0 : sign 0 = 0) by (unfold sign; rewrite !rltb_f by lra; reflexivity).
    rewrite (G (4 * w * x / N)) by (apply Rmult_lt_0_compat; [unfold w, x; lra|apply Rinv_0_lt_compat, PN]). rewrite (G (4 * w * z / N)) by (apply Rmult_lt_0_compat; [unfold w, z; lra|apply Rinv_0_lt_compat, PN]). rewrite G0. fold A C. do 3 f_equal. apply f_equal2; [ring|]. apply f_equal2; [ring|]. apply f_equal2; [ring|reflexivity]. }
  assert (VA' : (w * w + x * x) / N = 16000001 / 1000000000016000001) by (unfold N, w, x, z; field). assert (VC' : (w * w + z * z) / N = 1000000000016000000 / 1000000000016000001) by (unfold N, w, x, z; field).
  rewrite VA' in SA. rewrite VC' in SC. assert (VM : ent m 0 2 = 2000000000 / 1000000000016000001) by (unfold m, ent, N, w, x, z; cbn [nth]; field).
  clearbody A C n. clear VA VC VA' VC' Dn Sn Sn0. destruct (axis_angle_ok [A; 0; C] (PI - / 2 * n) eq_refl) as (p & q & r & E & U & EM); [intros X; revert X; vcalc; lra|].
  exists m, [A; 0; C], (PI - / 2 * n), m. eexists _, _. split; [exact H|]. split; [exact EQ|]. split; [exact EM|]. rewrite VM. clear EQ EM H VM. clearbody m.
  assert (SD : vnorm [A; 0; C] * vnorm [A; 0; C] = A * A + C * C) by (rewrite vnorm_sq; vcalc; ring). assert (PD : 0 < vnorm [A; 0; C]) by (apply vnorm_gt0; intros X; revert X; vcalc; lra). set (D := vnorm [A; 0; C]) in *. clearbody D.
  unfold vdivs in E. cbn [map] in E. injection E as E1 E2 E3. unfold ent, rod. cbn [nth].
  assert (Hq : q = 0) by (rewrite <- E2; field; lra). assert (Hpr : p * r * (A * A + C * C) = A * C) by (rewrite <- E1, <- E3, <- SD; field; lra). rewrite Hq, Rmult_0_r, Rplus_0_r.
  assert (Hc : cos (PI - / 2 * n) <= 0) by (apply cos_le_0; pose proof PI2_3_2; lra). set (k := cos (PI - / 2 * n)) in *. clearbody k.
  assert (LA : 39 / 10000000 <= A) by nra. assert (LC : 9 / 10 <= C) by nra. assert (SS : 0 < A * A + C * C <= 11 / 10) by lra.
  assert (LP : 3 / 1000000 <= p * r) by (clear - Hpr LA LC SS; assert (35 / 10000000 <= A * C) by nra; nra).
  replace (/ 10 ^ 6) with (/ 1000000) by (f_equal; cbn [pow]; ring). assert (3 / 1000000 <= (1 - k) * (p * r)) by nra. rewrite Rabs_right; lra.
Qed.
Print Assumptions C82_near_half_turn_refuted.

(** ** C83: orthonormal frames *)
Definition e3 (i : nat) : vec := map (fun j => if (j =? i)%nat then 1 else 0) [0; 1; 2]%nat.
Lemma mid_col i : (i < 3)%nat -> col mid3 i = e3 i.
Proof. intros H. destruct i as [|[|[|]]]; try lia; reflexivity. Qed.
Lemma e3_dot i v : (i < 3)%nat -> length v = 3%nat -> vdot v (e3 i) = nth i v 0.
Proof. intros H L. destruct (len3 v L) as (x & y & z & ->). destruct i as [|[|[|]]]; try lia; cbv [e3 map Nat.eqb]; vcalc; ring. Qed.
Lemma mvec_e3 m i : rotation3 m -> (i < 3)%nat -> mvec m (e3 i) = col m i.
Proof.
  intros H Hi. destruct (rot_destruct m H) as (a & b & c & d & e & f & g & h & j & ->). destruct i as [|[|[|]]]; try lia; cbv [e3 col map Nat.eqb]; vcalc; veq ltac:(ring).
Qed.
Lemma chord u v a : length u = 3%nat -> length v = 3%nat -> vdot u u = 1 -> vdot v v = 1 -> vdot u v = cos a -> 0 <= a -> vnorm (vsub u v) <= a.
Proof.
  intros Lu Lv Hu Hv C Ha. pose proof (vnorm_sq (vsub u v)) as S. rewrite vdot_sub_l, !vdot_sub_r, Hu, Hv, (vdot_sym v u), C in S by congruence.
  pose proof (cos_lower a Ha). pose proof (vnorm_pos (vsub u v)). nra.
Qed.
Theorem C83_frame : forall v i, length v = 3%nat -> (exists x, In x v /\ x <> 0) -> (i < 3)%nat ->
  exists m u a, orthonormal_frame v i = Ok (m, u) /\ vnorm u = 1 /\ vscale (vnorm v) u = v /\ rotation3 m /\ 0 <= a <= PI /\ vdot u (e3 i) = cos a /\
    vnorm (vsub (col m i) u) <= / 10 ^ 10 /\
    (a = 0 \/ a = PI \/ (/ 10 ^ 10 <= a /\ / 10 ^ 10 <= PI - a) -> col m i = u) /\
    (/ 10 ^ 10 <= a -> / 10 ^ 10 <= PI - a -> mvec m (cross3 (e3 i) v) = cross3 (e3 i) v).
Proof.
  intros v i L N Hi. apply nonzero_dot in N. pose proof (vnorm_gt0 v N) as P. assert (P10 : 0 < / 10 ^ 10) by (apply Rinv_0_lt_compat, pow_lt; lra).
  assert (S10 : / 10 ^ 10 < 1) by (rewrite <- Rinv_1; apply Rinv_lt_contravar; cbn [pow]; lra).
  unfold orthonormal_frame. rewrite reqb_f by lra. cbn [negb assert_ bind]. pose proof (unit_dot v N) as U.
  assert (LU : length (vdivs v (vnorm v)) = 3%nat) by (rewrite vdivs_len; exact L).
  assert (EV : vscale (vnorm v) (vdivs v (vnorm v)) = v) by (rewrite vdivs_scale; apply vec_ext; [rewrite !vscale_len; reflexivity|intros j _; rewrite !nth_vscale; field; lra]).
  set (u := vdivs v (vnorm v)) in *. assert (Nu : vnorm u = 1) by (apply vnorm_eq; lra). rewrite mid_col by exact Hi.
  assert (E1 : vdot (e3 i) (e3 i) = 1) by (rewrite e3_dot by (exact Hi || reflexivity); destruct i as [|[|[|]]]; try lia; reflexivity). assert (Ne : vnorm (e3 i) = 1) by (apply vnorm_eq; lra).
  destruct (compute_angle_ok u (e3 i)) as (a & Ea & Ha & Ca); [exact LU|rewrite LU; split; lra|]. rewrite Ea. cbn [bind]. rewrite Nu, Ne in Ca. assert (Ca' : vdot u (e3 i) = cos a) by (rewrite Ca; field). clear Ca Ea. clearbody u.
  assert (EQ : forall w, length w = 3%nat -> vdot w w = 1 -> vdot w u = 1 -> w = u).
  { intros w Lw W1 W2. apply vec_ext; [congruence|]. intros j Hj. assert (Z : vdot (vsub w u) (vsub w u) = 0) by (rewrite vdot_sub_l, !vdot_sub_r, W1, U, (vdot_sym u w), W2 by congruence; ring).
    apply vdot_zero_inv in Z. apply (f_equal (fun l => nth j l 0)) in Z. rewrite nth_vsub, nth_vzero in Z by congruence. lra. }
  destruct (Rlt_or_le a (/ 10 ^ 10)) as [B1|B1]; [rewrite rltb_t by exact B1|rewrite rltb_f by exact B1].
  - exists mid3, u, a. split; [reflexivity|]. split; [exact Nu|]. split; [exact EV|]. split; [apply rot_intro; ring|]. split; [exact Ha|]. split; [exact Ca'|]. rewrite mid_col by exact Hi.
    assert (Ce : vdot (e3 i) u = cos a) by (rewrite vdot_sym; exact Ca').
    split; [pose proof (chord (e3 i) u a eq_refl LU E1 U Ce (proj1 Ha)); lra|]. split; [|intros; lra].
    intros [Z|[Z|Z]]; [|pose proof PI2_3_2; lra|lra]. apply EQ; [reflexivity|exact E1|]. rewrite Ce, Z. apply cos_0.
  - destruct (Rlt_or_le (Rabs (a - PI)) (/ 10 ^ 10)) as [B2|B2]; [rewrite rltb_t by exact B2|rewrite rltb_f by exact B2].
    + set (m := set_col (mscale (-1) mid3) ((i + 2) mod 3) (vscale (-1) (col (mscale (-1) mid3) ((i + 2) mod 3)))).
      assert (HM : rotation3 m /\ col m i = vscale (-1) (e3 i)).
      { unfold m. destruct i as [|[|[|]]]; try lia; cbn [Nat.add Nat.modulo Nat.divmod fst snd Nat.sub]; unfold set_col, mscale, mid3, col, vscale, e3; cbn [map combine fst snd nth Nat.eqb].
        - rewrite !(proj2 (proj2 (set_nth3 _ _ _ _))). split; [apply rot_intro; ring|cbn [nth]; veq ltac:(ring)].
        - rewrite !(proj1 (set_nth3 _ _ _ _)). split; [apply rot_intro; ring|cbn [nth]; veq ltac:(ring)].
        - rewrite !(proj1 (proj2 (set_nth3 _ _ _ _))). split; [apply rot_intro; ring|cbn [nth]; veq ltac:(ring)]. }
      clearbody m. destruct HM as [HM HC]. exists m, u, a. split; [reflexivity|]. split; [exact Nu|]. split; [exact EV|]. split; [exact HM|]. split; [exact Ha|]. split; [exact Ca'|]. rewrite HC.
      assert (W1 : vdot (vscale (-1) (e3 i)) (vscale (-1) (e3 i)) = 1) by (rewrite vdot_scale_l, vdot_scale_r, E1; ring). assert (W2 : vdot (vscale (-1) (e3 i)) u = cos (PI - a)).
      { rewrite vdot_scale_l, (vdot_sym (e3 i) u), Ca'. rewrite cos_minus, cos_PI, sin_PI. ring. }
      rewrite Rabs_left1 in B2 by lra. split; [pose proof (chord (vscale (-1) (e3 i)) u (PI - a) eq_refl LU W1 U W2 ltac:(lra)); lra|]. split; [|intros; lra].
      intros [Z|[Z|Z]]; [lra| |lra]. apply EQ; [reflexivity|exact W1|]. rewrite W2, Z. rewrite Rminus_eq_0. apply cos_0.
    + rewrite Rabs_left1 in B2 by lra. assert (SP : 0 < sin a) by (apply sin_gt_0; lra).
      assert (NZ : vdot (cross3 (e3 i) u) (cross3 (e3 i) u) <> 0).
      { rewrite lagrange_id by (reflexivity || exact LU). rewrite E1, U, (vdot_sym (e3 i) u), Ca'. pose proof (cos2_sin2 a). nra. }
      pose proof (unit_dot _ NZ) as UC. destruct (len3 (vdivs (cross3 (e3 i) u) (vnorm (cross3 (e3 i) u)))) as (x & y & z & E); [reflexivity|]. rewrite E in UC |- *. assert (U' : x * x + y * y + z * z = 1) by (revert UC; vcalc; lra).
      rewrite axis_angle_unit by exact U'. cbn [bind fst]. assert (HM : rotation3 (rod x y z (cos a) (sin a))) by (apply rod_rotation; [exact U'|apply cos2_sin2]).
      assert (T : mvec (rod x y z (cos a) (sin a)) (e3 i) = u).
      { rewrite (rod_turn (e3 i) u x y z a eq_refl LU ltac:(lra) ltac:(lra) NZ E Ha). - rewrite Ne, Nu. apply vec_ext; [apply vscale_len|]. intros j _. rewrite nth_vscale. field. - rewrite Ne, Nu, (vdot_sym (e3 i) u), Ca'. field. }
      rewrite mvec_e3 in T by assumption. exists (rod x y z (cos a) (sin a)), u, a. split; [reflexivity|]. split; [exact Nu|]. split; [exact EV|]. split; [exact HM|]. split; [exact Ha|]. split; [exact Ca'|]. rewrite T.
      split. { replace (vnorm (vsub u u)) with 0; [lra|]. symmetry. apply vnorm_eq; [lra|]. rewrite vdot_sub_l, !vdot_sub_r by reflexivity. ring. }
      split; [reflexivity|]. intros _ _. assert (EX : cross3 (e3 i) v = vscale (vnorm v * vnorm (cross3 (e3 i) u)) [x; y; z]).
      { rewrite <- E. pose proof (vnorm_gt0 _ NZ) as Hn. set (n := vnorm (cross3 (e3 i) u)) in *. clearbody n. rewrite vdivs_scale. transitivity (vscale (vnorm v) (cross3 (e3 i) u)).
        - rewrite <- EV at 1. unfold cross3. rewrite !nth_vscale. cbn [vscale map]. veq ltac:(ring).
        - apply vec_ext; [rewrite !vscale_len; reflexivity|]. intros j _. rewrite !nth_vscale. field. lra. }
      rewrite EX. apply rod_axis, U'.
Qed.
Print Assumptions C83_frame.
Theorem C83_exact_column_refuted : exists v i m u, length v = 3%nat /\ (i < 3)%nat /\ orthonormal_frame v i = Ok (m, u) /\ vscale (vnorm v) u = v /\ col m i <> u.
Proof.
  pose (y := / 10 ^ 11). assert (P : 0 < y) by (apply Rinv_0_lt_compat, pow_lt; lra). assert (P1 : y * 10 = / 10 ^ 10) by (unfold y; field). assert (S10 : / 10 ^ 10 < / 10) by (apply Rinv_lt_contravar; cbn [pow]; lra).
  exists [1; y; 0], 0%nat. destruct (C83_frame [1; y; 0] 0 eq_refl) as (m & u & a & E & Nu & EV & HM & Ha & Ca & _); [exists 1; split; [left; reflexivity|lra]|lia|].
  exists m, u. split; [reflexivity|]. split; [lia|]. split; [exact E|]. split; [exact EV|].
  assert (Dn : vdot [1; y; 0] [1; y; 0] = 1 + y * y) by (vcalc; ring). pose proof (vnorm_sq [1; y; 0]) as Sn. rewrite Dn in Sn. pose proof (vnorm_gt0 [1; y; 0] ltac:(nra)) as Hn. set (n := vnorm [1; y; 0]) in *.
  assert (EU : u = [1 / n; y / n; 0 / n]).
  { apply vec_ext; [apply (f_equal (@length R)) in EV; rewrite vscale_len in EV; exact EV|]. intros j _. apply (f_equal (fun l => nth j l 0)) in EV. rewrite nth_vscale in EV.
    apply (Rmult_eq_reg_l n); [|lra]. rewrite EV. destruct j as [|[|[|j]]]; cbn [nth]; try (field; lra). destruct j; ring. }
  assert (Sa : a < / 10 ^ 10).
  { rewrite EU in Ca. assert (Ca' : cos a = 1 / n) by (rewrite <- Ca; cbv [e3 map Nat.eqb]; vcalc; ring). apply Rnot_le_lt. intros B.
    assert (C0 : 0 < cos a) by (rewrite Ca'; apply Rmult_lt_0_compat; [lra|apply Rinv_0_lt_compat, Hn]). assert (A2 : a <= PI / 2) by (apply Rnot_lt_le; intros Q; pose proof (cos_lt_0 a Q); pose proof PI_pos; lra).
    assert (Ss : sin a * sin a = y * y / (n * n)) by (pose proof (cos2_sin2 a) as Q; rewrite Ca' in Q; assert (X : sin a * sin a = 1 - 1 / n * (1 / n)) by lra; rewrite X; transitivity ((n * n - 1) / (n * n)); [field; lra|rewrite Sn; f_equal; ring]).
    assert (X : y * y / (n * n) <= y * y) by (rewrite Sn; apply (Rmult_le_reg_r (1 + y * y)); [nra|]; unfold Rdiv; rewrite Rmult_assoc, Rinv_l by nra; nra).
    pose proof (sin_ge_0 a (proj1 Ha) (proj2 Ha)) as S0. assert (S1 : sin a <= y) by nra.
    pose proof (sin_incr_1 (/ 10 ^ 10) a) as M. assert (M' : sin (/ 10 ^ 10) <= sin a) by (apply M; pose proof PI2_3_2; lra). pose proof (sin_lower (/ 10 ^ 10) ltac:(lra)) as Lw. rewrite <- P1 in *. nra. }
  unfold orthonormal_frame in E. fold n in E. rewrite reqb_f in E by lra. cbn [negb assert_ bind] in E. rewrite mid_col in E by lia.
  assert (EU' : vdivs [1; y; 0] n = u) by (rewrite EU; reflexivity). rewrite EU' in E.
  assert (LU : length u = 3%nat) by (rewrite EU; reflexivity). assert (N1 : vdot u u = 1) by (rewrite <- vnorm_sq, Nu; ring). assert (E1 : vdot (e3 0) (e3 0) = 1) by (cbv [e3 map Nat.eqb]; vcalc; ring).
  rewrite (compute_angle_eq u (e3 0) a) in E; [|exact LU|rewrite LU; split; lra|exact Ha|rewrite Nu, (vnorm_eq (e3 0) 1) by lra; rewrite Ca; field]. cbn [bind] in E. rewrite rltb_t in E by exact Sa. injection E as <-.
  rewrite mid_col, EU by lia. intros C. apply (f_equal (fun l => nth 1 l 0)) in C. cbn [nth e3 map Nat.eqb] in C. assert (X : y / n * n = y) by (field; lra). rewrite <- C in X. lra.
Qed.
Print Assumptions C83_exact_column_refuted.

(** ** C84: random rotations and rigid motions *)
Theorem C84_rotation_2 : forall u, exists a b c d, random_rotation_matrix_2 u = [[a; b]; [c; d]] /\ a * a + c * c = 1 /\ b * b + d * d = 1 /\ a * b + c * d = 0 /\ a * d - b * c = 1.
Proof. intros u. unfold random_rotation_matrix_2. eexists _, _, _, _. split; [reflexivity|]. pose proof (cos2_sin2 (2 * PI * u)). repeat split; lra. Qed.
Print Assumptions C84_rotation_2.
Theorem C84_rotation_3 : forall u v, length v = 3%nat -> vnorm v = 1 -> exists m, random_rotation_matrix_3 u v = Ok m /\ rotation3 m /\ col m 2 = v.
Proof.
  intros u v L N. set (th := 2 * PI * u). pose (m0 := [[cos th; - sin th; 0]; [sin th; cos th; 0]; [0; 0; 1]]).
  change (random_rotation_matrix_3 u v) with (let* aa := compute_rotation (col m0 2) v in let* r := rotate_columns (fst aa) (snd aa) m0 in Ok (fst r)).
  assert (C2 : col m0 2 = [0; 0; 1]) by reflexivity. rewrite C2.
  assert (H0 : rotation3 m0) by (unfold m0; pose proof (cos2_sin2 th); apply rot_intro; lra).
  assert (Nv : vdot v v = 1) by (rewrite <- vnorm_sq, N; ring).
  destruct (C81_compute_rotation [0; 0; 1] v eq_refl L) as (axis & t & w & E & La & Na & Ht & Er & Ew & _).
  { exists 1. split; [right; right; left; reflexivity|lra]. } { destruct (len3 v L) as (x & y & z & ->). assert (Q : x * x + y * y + z * z = 1) by (revert Nv; vcalc; lra). destruct (Req_dec x 0) as [->|X]; [destruct (Req_dec y 0) as [->|Y]; [exists z; split; [right; right; left; reflexivity|nra]|exists y; split; [right; left; reflexivity|exact Y]]|exists x; split; [left; reflexivity|exact X]]. }
  rewrite E. cbn [bind fst snd]. destruct (len3 axis La) as (x & y & z & ->). assert (U : x * x + y * y + z * z = 1) by (pose proof (vnorm_sq [x; y; z]) as Q; rewrite Na in Q; revert Q; vcalc; lra).
  unfold rotate_columns. unfold rotate in Er. rewrite axis_angle_unit in * by exact U. cbn [bind fst snd] in *. eexists. split; [reflexivity|].
  split; [apply rot_mul; [apply rod_rotation; [exact U|apply cos2_sin2]|exact H0]|]. rewrite col_mmul by (cbn; lia). rewrite C2.
  apply (f_equal (fun r => match r with Ok (v, _) => v | _ => [] end)) in Er. cbv beta iota in Er. rewrite Er, Ew, N, (vnorm_eq [0; 0; 1] 1) by (lra || (vcalc; ring)).
  apply vec_ext; [apply vscale_len|]. intros j _. rewrite nth_vscale. field.
Qed.
Print Assumptions C84_rotation_3.
(** Rigid motions keep distances, and the orientation of space. *)
Theorem C84_move : forall m tr x y, rotation3 m -> length tr = 3%nat -> length x = 3%nat -> length y = 3%nat -> vnorm (vsub (move m tr x) (move m tr y)) = vnorm (vsub x y).
Proof.
  intros m tr x y H Lt Lx Ly. unfold move, translate. assert (Lm : length m = 3%nat) by (destruct H as ((Q & _) & _); exact Q). assert (ML : forall w, length (mvec m w) = 3%nat) by (intros w; unfold mvec; rewrite map_length; exact Lm).
  rewrite vsub_shift by (rewrite ML; congruence). rewrite <- mvec_sub by congruence. unfold vnorm. f_equal. apply rot_dot; [exact H|rewrite vsub_len; congruence|rewrite vsub_len; congruence].
Qed.
Print Assumptions C84_move.
Theorem C84_orientation : forall m tr p x y, rotation3 m -> length tr = 3%nat -> length p = 3%nat -> length x = 3%nat -> length y = 3%nat ->
  cross3 (vsub (move m tr x) (move m tr p)) (vsub (move m tr y) (move m tr p)) = mvec m (cross3 (vsub x p) (vsub y p)).
Proof.
  intros m tr p x y H Lt Lp Lx Ly. unfold move, translate. assert (Lm : length m = 3%nat) by (destruct H as ((Q & _) & _); exact Q). assert (ML : forall w, length (mvec m w) = 3%nat) by (intros w; unfold mvec; rewrite map_length; exact Lm).
  rewrite !vsub_shift by (rewrite ML; congruence). rewrite <- !mvec_sub by congruence. apply rot_cross; [exact H|rewrite vsub_len; congruence|rewrite vsub_len; congruence].
Qed.
Print Assumptions C84_orientation.
Theorem C84_move_2 : forall u tr x y, length tr = 2%nat -> length x = 2%nat -> length y = 2%nat ->
  vnorm (vsub (move (random_rotation_matrix_2 u) tr x) (move (random_rotation_matrix_2 u) tr y)) = vnorm (vsub x y).
Proof.
  intros u tr x y Lt Lx Ly. unfold move, translate. rewrite vsub_shift by (rewrite Lt; reflexivity). rewrite <- mvec_sub by congruence. unfold vnorm. f_equal.
  destruct (len2 x Lx) as (a & b & ->). destruct (len2 y Ly) as (c & d & ->). pose proof (cos2_sin2 (2 * PI * u)) as H. assert (Hs : sin (2 * PI * u) * sin (2 * PI * u) = 1 - cos (2 * PI * u) * cos (2 * PI * u)) by lra. unfold random_rotation_matrix_2. vcalc. ring [Hs].
Qed.
Print Assumptions C84_move_2.
(** Moving the columns of a matrix moves each column. *)
Theorem C84_columns : forall m tr x j, length tr = length m -> (j < cols x)%nat -> col (move_columns m tr x) j = move m tr (col x j).
Proof.
  intros m tr x j L Hj. unfold move_columns, move, translate. rewrite <- col_mmul by exact Hj.
  assert (HR : forall r, In r (mmul m x) -> (j < length r)%nat). { intros r Hr. unfold mmul in Hr. apply in_map_iff in Hr. destruct Hr as (q & <- & _). rewrite map_length, seq_length. exact Hj. }
  assert (LM : length (mmul m x) = length tr) by (unfold mmul; rewrite map_length; congruence). revert LM HR. generalize (mmul m x) as a. clear L Hj. induction tr as [|t tr IH]; intros [|r a] LM HR; try discriminate LM; [reflexivity|].
  unfold col, translate_columns, vadd, vmap2. cbn [combine map fst snd]. apply f_equal2.
  - rewrite (nth_indep _ 0 (0 + t)) by (rewrite map_length; apply HR; left; reflexivity). rewrite (map_nth (fun x => x + t)). reflexivity.
  - apply IH; [injection LM; auto|intros q Hq; apply HR; right; exact Hq].
Qed.
Print Assumptions C84_columns.
Theorem C84_random_rigid_motion : forall u v w radius, 0 <= radius -> vnorm w <= 1 ->
  (length v = 3%nat -> vnorm v = 1 -> exists m tr, random_rigid_motion u v w radius 3 = Ok (m, tr) /\ rotation3 m /\ length tr = length w /\ vnorm tr <= radius) /\
  (exists tr, random_rigid_motion u v w radius 2 = Ok (random_rotation_matrix_2 u, tr) /\ length tr = length w /\ vnorm tr <= radius) /\
  (forall n, n <> 2%nat -> n <> 3%nat -> random_rigid_motion u v w radius n = Err ValueError).
Proof.
  intros u v w r Hr Hw. assert (B : vnorm (vscale r w) <= r) by (rewrite vnorm_scale, Rabs_right by lra; pose proof (vnorm_pos w); nra). split; [|split].
  - intros L N. destruct (C84_rotation_3 u v L N) as (m & E & H & _). exists m, (vscale r w). unfold random_rigid_motion. cbn [Nat.eqb]. rewrite E. split; [reflexivity|]. split; [exact H|]. split; [apply vscale_len|exact B].
  - exists (vscale r w). split; [reflexivity|]. split; [apply vscale_len|exact B].
  - intros n N2 N3. unfold random_rigid_motion. rewrite (proj2 (Nat.eqb_neq n 3) N3), (proj2 (Nat.eqb_neq n 2) N2). reflexivity.
Qed.
Print Assumptions C84_random_rigid_motion.

(** ** Examples *)
Example C80_ex : axis_angle_to_rotation_matrix [0; 0; 1] (PI / 2) = Ok ([[0; -1; 0]; [1; 0; 0]; [0; 0; 1]], [0; 0; 1]).
Proof. rewrite axis_angle_unit by ring. rewrite cos_PI2, sin_PI2. do 2 f_equal. unfold rod. repeat (apply f_equal2; [|]); try reflexivity; ring. Qed.
Example C81_ex : compute_rotation [1; 0; 0] [0; 1; 0] = Ok ([0; 0; 1], PI / 2).
Proof.
  unfold compute_rotation. assert (E : cross3 [1; 0; 0] [0; 1; 0] = [0; 0; 1]) by (vcalc; veq ltac:(ring)). rewrite E. assert (N : forall v, v = [1; 0; 0] \/ v = [0; 1; 0] \/ v = [0; 0; 1] -> vnorm v = 1) by (intros v [ -> | [ -> | -> ]]; apply vnorm_eq; (lra || (vcalc; ring))).
  rewrite reqb_f by (vcalc; lra). rewrite (compute_angle_eq _ _ (PI / 2)); [|reflexivity|cbn [length Nat.eqb]; split; vcalc; lra|pose proof PI_pos; lra|rewrite cos_PI2, !N by auto; vcalc; field].
  cbn [bind]. rewrite N by auto. do 2 f_equal. vcalc. veq ltac:(field).
Qed.
Example C82_ex : rotation3 [[0; -1; 0]; [1; 0; 0]; [0; 0; 1]] /\ / 10 ^ 14 <= Rabs (0 + 0 + 1 - 3) /\ / 10 ^ 10 <= Rabs (0 + 0 + 1 + 1).
Proof.
  split; [apply rot_intro; ring|]. assert (S14 : / 10 ^ 14 <= 1) by (rewrite <- Rinv_1; apply Rinv_le_contravar; [lra|apply pow_R1_Rle; lra]). assert (S10 : / 10 ^ 10 <= 1) by (rewrite <- Rinv_1; apply Rinv_le_contravar; [lra|apply pow_R1_Rle; lra]).
  split; [rewrite Rabs_left by lra; lra|rewrite Rabs_right by lra; lra].
Qed.
Example C83_ex : vdot (vscale (/ 3) [1; 2; 2]) (e3 1) = 2 / 3 /\ vnorm [1; 2; 2] = 3.
Proof. split; [cbv [e3 map Nat.eqb]; vcalc; field|apply vnorm_eq; [lra|vcalc; ring]]. Qed.
Example C84_ex : move [[0; -1; 0]; [1; 0; 0]; [0; 0; 1]] [10; 20; 30] [1; 2; 3] = [8; 21; 33] /\ rotation3 [[0; -1; 0]; [1; 0; 0]; [0; 0; 1]].
Proof. split; [unfold move, translate; vcalc; veq ltac:(ring)|apply rot_intro; ring]. Qed.
