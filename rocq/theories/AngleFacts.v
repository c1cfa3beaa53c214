(** Facts about Angle.v. *)
From Coq Require Import Reals Lra Psatz Lia.
From Verif Require Import Base RVec Angle.
Local Open Scope R_scope.

Lemma rleb_t x y : x <= y -> rleb x y = true. Proof. intros H. unfold rleb. destruct (Rle_dec x y); [reflexivity|contradiction]. Qed.
Lemma rleb_f x y : y < x -> rleb x y = false. Proof. intros H. unfold rleb. destruct (Rle_dec x y); [lra|reflexivity]. Qed.
Lemma rltb_t x y : x < y -> rltb x y = true. Proof. intros H. unfold rltb. destruct (Rlt_dec x y); [reflexivity|contradiction]. Qed.
Lemma rltb_f x y : y <= x -> rltb x y = false. Proof. intros H. unfold rltb. destruct (Rlt_dec x y); [lra|reflexivity]. Qed.
Lemma rleb_inv x y : rleb x y = true <-> x <= y. Proof. unfold rleb. destruct (Rle_dec x y); split; intros; try assumption; try reflexivity; try discriminate; contradiction. Qed.
Lemma rltb_inv x y : rltb x y = true <-> x < y. Proof. unfold rltb. destruct (Rlt_dec x y); split; intros; try assumption; try reflexivity; try discriminate; contradiction. Qed.
Lemma reqb_f x y : x <> y -> reqb x y = false. Proof. intros H. unfold reqb. destruct (Req_EM_T x y); [contradiction|reflexivity]. Qed.
Lemma reqb_t x y : x = y -> reqb x y = true. Proof. intros H. unfold reqb. destruct (Req_EM_T x y); [reflexivity|contradiction]. Qed.
Lemma reqb_inv x y : reqb x y = true <-> x = y. Proof. unfold reqb. destruct (Req_EM_T x y); split; intros; try assumption; try reflexivity; try discriminate; contradiction. Qed.

Lemma lcr_inv s a b : in_left_closed_range s a b = true <-> a <= s < b.
Proof. unfold in_left_closed_range. rewrite andb_true_iff, rleb_inv, rltb_inv. reflexivity. Qed.

Lemma floor_spec x : IZR (Int_part x) <= x < IZR (Int_part x) + 1.
Proof. destruct (base_Int_part x). lra. Qed.
Lemma fmod_pos b t : 0 < t -> 0 <= b -> exists c n, fmod b t = Ok c /\ 0 <= c < t /\ c = b - IZR n * t.
Proof.
  intros Ht Hb. unfold fmod. rewrite reqb_f by lra. eexists _, _. split; [reflexivity|]. split; [|reflexivity].
  assert (0 <= b / t) by (apply Rmult_le_pos; [exact Hb|apply Rlt_le, Rinv_0_lt_compat, Ht]). unfold trunc. rewrite rleb_t by assumption.
  destruct (floor_spec (b / t)) as [H1 H2]. set (k := IZR (Int_part (b / t))) in *. assert (b = b / t * t) by (field; lra). nra.
Qed.
Lemma periodic_ok a t : 0 < t -> exists b n, equivalent_periodic_element a t = Ok b /\ 0 <= b < t /\ b = a + IZR n * t.
Proof.
  intros Ht. unfold equivalent_periodic_element. destruct (in_left_closed_range a 0 t) eqn:E.
  - apply lcr_inv in E. exists a, 0%Z. split; [reflexivity|]. split; [lra|]. lra.
  - destruct (Rlt_or_le a 0) as [L|L].
    + rewrite rltb_t by exact L. unfold floor_div. rewrite reqb_f by lra. cbn [bind].
      destruct (floor_spec (- a / t)) as [H1 H2]. set (k := Int_part (- a / t)) in *. assert (- a = - a / t * t) by (field; lra).
      destruct (fmod_pos (a + (IZR k + 1) * t) t Ht) as (c & n & E1 & E2 & E3); [nra|]. exists c, (k + 1 - n)%Z. split; [exact E1|]. split; [exact E2|]. rewrite minus_IZR, plus_IZR. lra.
    + rewrite rltb_f by exact L. cbn [bind]. destruct (fmod_pos a t Ht L) as (c & n & E1 & E2 & E3). exists c, (- n)%Z. split; [exact E1|]. split; [exact E2|]. rewrite opp_IZR. lra.
Qed.
Lemma periodic_unique x t a b n : 0 < t -> x <= a < x + t -> x <= b < x + t -> b = a + IZR n * t -> b = a.
Proof.
  intros Ht Ha Hb E. assert (n = 0)%Z; [|subst n; lra]. assert (IZR n < 1) by nra. assert (-1 < IZR n) by nra.
  assert (n < 1)%Z by (apply lt_IZR; assumption). assert (-1 < n)%Z by (apply lt_IZR; assumption). lia.
Qed.
Lemma PI_pos : 0 < PI. Proof. apply PI_RGT_0. Qed.
Lemma centered_ok a : exists b n, to_centered_angle_interval a = Ok b /\ - PI <= b < PI /\ b = a + IZR n * (2 * PI).
Proof.
  pose proof PI_pos. unfold to_centered_angle_interval, to_positive_angle_interval. destruct (periodic_ok a (2 * PI)) as (b & n & E & Hb & Eb); [lra|]. rewrite E. cbn [bind].
  destruct (Rle_or_lt PI b) as [L|L].
  - rewrite rleb_t by exact L. exists (b - 2 * PI), (n - 1)%Z. split; [reflexivity|]. split; [lra|]. rewrite minus_IZR. lra.
  - rewrite rleb_f by exact L. exists b, n. split; [reflexivity|]. split; [lra|exact Eb].
Qed.
Lemma centered_eq a b n : - PI <= b < PI -> b = a + IZR n * (2 * PI) -> to_centered_angle_interval a = Ok b.
Proof.
  intros Hb E. pose proof PI_pos. destruct (centered_ok a) as (c & m & Ec & Hc & Em). rewrite Ec. f_equal. apply (periodic_unique (- PI) (2 * PI) b c (m - n)); try lra. rewrite minus_IZR. lra.
Qed.
(** the value of an angle up to full turns *)
Lemma cos_turn a n : cos (a + IZR n * (2 * PI)) = cos a.
Proof.
  assert (P : forall x k, cos (x + INR k * (2 * PI)) = cos x) by (intros x k; rewrite <- (cos_period x k); f_equal; ring).
  destruct (Z_lt_le_dec n 0) as [L|L].
  - rewrite <- (P (a + IZR n * (2 * PI)) (Z.to_nat (- n))). f_equal. rewrite INR_IZR_INZ, Z2Nat.id by lia. rewrite opp_IZR. ring.
  - rewrite <- (P a (Z.to_nat n)). f_equal. rewrite INR_IZR_INZ, Z2Nat.id by lia. reflexivity.
Qed.
Lemma sin_turn a n : sin (a + IZR n * (2 * PI)) = sin a.
Proof.
  assert (P : forall x k, sin (x + INR k * (2 * PI)) = sin x) by (intros x k; rewrite <- (sin_period x k); f_equal; ring).
  destruct (Z_lt_le_dec n 0) as [L|L].
  - rewrite <- (P (a + IZR n * (2 * PI)) (Z.to_nat (- n))). f_equal. rewrite INR_IZR_INZ, Z2Nat.id by lia. rewrite opp_IZR. ring.
  - rewrite <- (P a (Z.to_nat n)). f_equal. rewrite INR_IZR_INZ, Z2Nat.id by lia. reflexivity.
Qed.

(** ** arctan2 *)
Lemma hyp_pos x y : x <> 0 \/ y <> 0 -> 0 < sqrt (x * x + y * y).
Proof. intros H. apply sqrt_lt_R0. destruct H; nra. Qed.
Lemma sqrt_hyp_div x y : x <> 0 -> sqrt (1 + (y / x) ^ 2) = sqrt (x * x + y * y) / Rabs x.
Proof.
  intros Hx. assert (0 < Rabs x) by (apply Rabs_pos_lt, Hx). replace (1 + (y / x) ^ 2) with ((x * x + y * y) / (Rabs x * Rabs x)).
  - rewrite sqrt_div_alt by nra. rewrite sqrt_square by lra. reflexivity.
  - rewrite <- Rabs_mult, Rabs_right by nra. field. exact Hx.
Qed.
Lemma arctan2_spec y x : 0 <= y -> x <> 0 \/ y <> 0 ->
  cos (arctan2 y x) = x / sqrt (x * x + y * y) /\ sin (arctan2 y x) = y / sqrt (x * x + y * y) /\ 0 <= arctan2 y x <= PI.
Proof.
  intros Hy H. pose proof (hyp_pos x y H) as Hh. pose proof PI_pos as HP. unfold arctan2. destruct (Rlt_or_le 0 x) as [L|L].
  - rewrite rltb_t by exact L. rewrite cos_atan, sin_atan. rewrite <- !Rsqr_pow2 || idtac. assert (x <> 0) by lra.
    replace (1 + Rsqr (y / x)) with (1 + (y / x) ^ 2) by (unfold Rsqr; ring). rewrite sqrt_hyp_div, Rabs_right by lra. split; [field; lra|]. split; [field; lra|].
    assert (0 <= y / x) by (apply Rmult_le_pos; [exact Hy|apply Rlt_le, Rinv_0_lt_compat, L]). pose proof (atan_bound (y / x)). split; [|lra].
    destruct (Req_dec (y / x) 0) as [E|N]; [rewrite E, atan_0; lra|]. pose proof (atan_increasing 0 (y / x)). rewrite atan_0 in H3. lra.
  - rewrite rltb_f by exact L. destruct (Rlt_or_le x 0) as [L'|L'].
    + rewrite rltb_t by exact L'. rewrite rleb_t by exact Hy. rewrite neg_cos, neg_sin, cos_atan, sin_atan.
      replace (1 + Rsqr (y / x)) with (1 + (y / x) ^ 2) by (unfold Rsqr; ring). rewrite sqrt_hyp_div, Rabs_left by lra. split; [field; lra|]. split; [field; lra|].
      assert (y / x <= 0). { assert (/ x < 0) by (apply Rinv_lt_0_compat, L'). unfold Rdiv. nra. } pose proof (atan_bound (y / x)). split; [lra|].
      destruct (Req_dec (y / x) 0) as [E|N]; [rewrite E, atan_0; lra|]. pose proof (atan_increasing (y / x) 0). rewrite atan_0 in H2. lra.
    + assert (x = 0) by lra. subst x. rewrite rltb_f by lra. assert (0 < y) by (destruct H; lra). rewrite rltb_t by assumption.
      replace (0 * 0 + y * y) with (y * y) by ring. rewrite sqrt_square by lra. rewrite cos_PI2, sin_PI2. split; [field; lra|]. split; [field; lra|lra].
Qed.
Lemma arctan2_00 : arctan2 0 0 = 0.
Proof. unfold arctan2. rewrite !rltb_f by lra. reflexivity. Qed.

Lemma cos_inj_0_PI a b : 0 <= a <= PI -> 0 <= b <= PI -> cos a = cos b -> a = b.
Proof.
  intros Ha Hb E. destruct (Rtotal_order a b) as [L|[L|L]]; [|exact L|]; [pose proof (cos_decreasing_1 a b)|pose proof (cos_decreasing_1 b a)]; lra.
Qed.
Lemma arctan2_half y x : 0 <= y -> 0 <= x -> x <> 0 \/ y <> 0 -> 0 <= arctan2 y x <= PI / 2.
Proof.
  intros Hy Hx H. destruct (arctan2_spec y x Hy H) as (C & _ & B). split; [apply B|]. destruct (Rle_or_lt (arctan2 y x) (PI / 2)) as [L|L]; [exact L|exfalso].
  pose proof (cos_lt_0 (arctan2 y x)). pose proof PI_pos. pose proof (hyp_pos x y H).
  assert (0 <= x / sqrt (x * x + y * y)) by (apply Rmult_le_pos; [exact Hx|apply Rlt_le, Rinv_0_lt_compat; assumption]). lra.
Qed.
Lemma tiny_pos : 0 < tiny. Proof. unfold tiny. apply Rinv_0_lt_compat, pow_lt. lra. Qed.

Lemma compute_angle_ok v0 v1 : length v0 = length v1 -> (if (length v0 =? 3)%nat then vdot v0 v0 <> 0 /\ vdot v1 v1 <> 0 else tiny <= vnorm v0 /\ tiny <= vnorm v1) ->
  exists a, compute_angle v0 v1 = Ok a /\ 0 <= a <= PI /\ cos a = vdot v0 v1 / (vnorm v0 * vnorm v1).
Proof.
  intros HL H. unfold compute_angle. rewrite HL, Nat.eqb_refl. cbn [assert_ bind]. rewrite HL in H. destruct (Nat.eqb_spec (length v1) 3) as [E3|N3].
  - destruct H as [H0 H1]. assert (E0 : length v0 = 3%nat) by lia. pose proof (vnorm_gt0 v0 H0) as P0. pose proof (vnorm_gt0 v1 H1) as P1.
    eexists. split; [reflexivity|]. set (y := vnorm (cross3 v0 v1)). set (x := vdot v0 v1).
    assert (HH : x * x + y * y = (vnorm v0 * vnorm v1) * (vnorm v0 * vnorm v1)).
    { unfold y. rewrite vnorm_sq, lagrange_id by assumption. fold x. replace (vnorm v0 * vnorm v1 * (vnorm v0 * vnorm v1)) with ((vnorm v0 * vnorm v0) * (vnorm v1 * vnorm v1)) by ring. rewrite !vnorm_sq. ring. }
    assert (P : 0 < vnorm v0 * vnorm v1) by nra.
    destruct (arctan2_spec y x) as (C & _ & B); [apply vnorm_pos|destruct (Req_dec x 0) as [Ex|Nx]; [right; intros Ey; rewrite Ex, Ey in HH; nra|left; exact Nx]|].
    split; [exact B|]. rewrite C, HH, sqrt_square by lra. reflexivity.
  - destruct H as [H0 H1]. pose proof tiny_pos as TP. rewrite !rltb_f by assumption. cbn [orb]. eexists. split; [reflexivity|].
    set (n0 := vnorm v0) in *. set (n1 := vnorm v1) in *. set (x := vnorm (vadd _ _)). set (y := vnorm (vsub _ _)).
    assert (D0 : vdot v0 v0 = n0 * n0) by (symmetry; apply vnorm_sq). assert (D1 : vdot v1 v1 = n1 * n1) by (symmetry; apply vnorm_sq).
    assert (Ex : x * x = 2 + 2 * (vdot v0 v1 / (n0 * n1))).
    { unfold x. rewrite vnorm_sq, !vdivs_scale. rewrite vdot_add_l, !vdot_add_r, !vdot_scale_l, !vdot_scale_r, (vdot_sym v1 v0), D0, D1 by (rewrite !vscale_len; exact HL). field. lra. }
    assert (Ey : y * y = 2 - 2 * (vdot v0 v1 / (n0 * n1))).
    { unfold y. rewrite vnorm_sq, !vdivs_scale. rewrite vdot_sub_l, !vdot_sub_r, !vdot_scale_l, !vdot_scale_r, (vdot_sym v1 v0), D0, D1 by (rewrite !vscale_len; exact HL). field. lra. }
    assert (Px : 0 <= x) by apply vnorm_pos. assert (Py : 0 <= y) by apply vnorm_pos.
    assert (N : x <> 0 \/ y <> 0) by (destruct (Req_dec x 0) as [E|E]; [right; intros E'; rewrite E in Ex; rewrite E' in Ey; lra|left; exact E]).
    destruct (arctan2_spec y x Py N) as (C & S & _). pose proof (arctan2_half y x Py Px N) as B. split; [lra|].
    rewrite cos_2a, C, S. assert (SS : sqrt (x * x + y * y) = 2) by (replace (x * x + y * y) with (2 * 2) by lra; apply sqrt_square; lra). rewrite SS.
    replace (x / 2 * (x / 2) - y / 2 * (y / 2)) with ((x * x - y * y) / 4) by field. rewrite Ex, Ey. field. lra.
Qed.
Lemma compute_angle_eq v0 v1 a : length v0 = length v1 -> (if (length v0 =? 3)%nat then vdot v0 v0 <> 0 /\ vdot v1 v1 <> 0 else tiny <= vnorm v0 /\ tiny <= vnorm v1) ->
  0 <= a <= PI -> cos a = vdot v0 v1 / (vnorm v0 * vnorm v1) -> compute_angle v0 v1 = Ok a.
Proof. intros HL H Ha Ca. destruct (compute_angle_ok v0 v1 HL H) as (b & E & Hb & Cb). rewrite E. f_equal. apply cos_inj_0_PI; [assumption|assumption|lra]. Qed.

(** ** distance and direction *)
Lemma distance_ok a0 a1 : - PI <= a0 < PI -> - PI <= a1 < PI ->
  exists d, distance a0 a1 = Ok d /\ (exists n, d = Rabs (a0 - a1 + IZR n * (2 * PI))) /\ forall n, d <= Rabs (a0 - a1 + IZR n * (2 * PI)).
Proof.
  intros H0 H1. pose proof PI_pos. unfold distance. rewrite (proj2 (lcr_inv _ _ _) H0), (proj2 (lcr_inv _ _ _) H1). cbn [assert_ bind]. eexists. split; [reflexivity|].
  set (x := a0 - a1). assert (Hx : - (2 * PI) < x < 2 * PI) by (unfold x; lra). split.
  - unfold Rmin. destruct (Rle_dec _ _); [exists 0%Z; f_equal; lra|]. destruct (Rle_or_lt 0 x).
    + exists (-1)%Z. rewrite Rabs_right, Rabs_left by lra. lra.
    + exists 1%Z. rewrite (Rabs_left x), Rabs_right by lra. lra.
  - intros n. destruct (Z_lt_le_dec n 0) as [L|L]; [|destruct (Z.eq_dec n 0) as [->|N0]].
    + assert (IZR n <= -1) by (apply IZR_le; lia). eapply Rle_trans; [apply Rmin_r|]. rewrite (Rabs_left (x + _)) by nra. pose proof (Rle_abs (- x)). rewrite Rabs_Ropp in *. pose proof (Rle_abs x). nra.
    + eapply Rle_trans; [apply Rmin_l|]. right. f_equal. lra.
    + assert (1 <= IZR n) by (apply IZR_le; lia). eapply Rle_trans; [apply Rmin_r|]. rewrite (Rabs_right (x + _)) by nra. pose proof (Rle_abs (- x)). rewrite Rabs_Ropp in *. nra.
Qed.
Lemma distance_err a0 a1 : ~ (- PI <= a0 < PI) \/ ~ (- PI <= a1 < PI) -> distance a0 a1 = Err AssertionError.
Proof.
  intros H. unfold distance. destruct (in_left_closed_range a0 (- PI) PI) eqn:E0; [|reflexivity]. cbn [assert_ bind]. destruct (in_left_closed_range a1 (- PI) PI) eqn:E1; [|reflexivity].
  apply lcr_inv in E0, E1. tauto.
Qed.
Lemma direction_ok a0 a1 fuel : - PI <= a0 < PI -> - PI <= a1 < PI -> (2 <= fuel)%nat ->
  exists s d, direction fuel a0 a1 = Ok s /\ distance a0 a1 = Ok d /\ (s = 1 \/ s = -1)%Z /\ exists n, a1 = a0 + IZR s * d + IZR n * (2 * PI).
Proof.
  intros H0 H1 Hf. pose proof PI_pos. destruct fuel as [|[|fuel]]; [lia|lia|]. cbn [direction]. unfold distance. rewrite (proj2 (lcr_inv _ _ _) H0), (proj2 (lcr_inv _ _ _) H1). cbn [assert_ bind].
  destruct (Rle_or_lt (Rabs (a0 - a1)) (2 * PI - Rabs (a0 - a1))) as [L|L].
  - rewrite rleb_t by exact L. rewrite Rmin_left by exact L. eexists _, _. split; [reflexivity|]. split; [reflexivity|]. destruct (Rlt_or_le a1 a0) as [M|M].
    + rewrite rltb_t by exact M. split; [right; reflexivity|]. exists 0%Z. rewrite Rabs_right by lra. lra.
    + rewrite rltb_f by exact M. split; [left; reflexivity|]. exists 0%Z. rewrite Rabs_left1 by lra. lra.
  - rewrite rleb_f by exact L. rewrite Rmin_right by lra.
    destruct (Rlt_or_le a0 a1) as [M|M].
    + rewrite Rabs_left in * by lra. assert (a0 < 0) by lra. assert (0 < a1) by lra.
      rewrite (centered_eq (a0 + PI) (a0 + PI) 0) by lra. rewrite (centered_eq (a1 + PI) (a1 - PI) (-1)) by lra. cbn [bind].
      rewrite (proj2 (lcr_inv (a0 + PI) _ _)), (proj2 (lcr_inv (a1 - PI) _ _)) by lra. cbn [assert_ bind].
      replace (a0 + PI - (a1 - PI)) with (a0 - a1 + 2 * PI) by ring. rewrite (Rabs_right (a0 - a1 + 2 * PI)) by lra. rewrite rleb_t, rltb_t by lra.
      eexists _, _. split; [reflexivity|]. split; [reflexivity|]. split; [right; reflexivity|]. exists 1%Z. lra.
    + rewrite Rabs_right in * by lra. assert (0 < a0) by lra. assert (a1 < 0) by lra.
      rewrite (centered_eq (a0 + PI) (a0 - PI) (-1)) by lra. rewrite (centered_eq (a1 + PI) (a1 + PI) 0) by lra. cbn [bind].
      rewrite (proj2 (lcr_inv (a0 - PI) _ _)), (proj2 (lcr_inv (a1 + PI) _ _)) by lra. cbn [assert_ bind].
      replace (a0 - PI - (a1 + PI)) with (a0 - a1 - 2 * PI) by ring. rewrite (Rabs_left (a0 - a1 - 2 * PI)) by lra. rewrite rleb_t, rltb_f by lra.
      eexists _, _. split; [reflexivity|]. split; [reflexivity|]. split; [left; reflexivity|]. exists (-1)%Z. lra.
Qed.

(** ** the dial *)
Lemma dial_step d x : - PI <= angle_pos d < PI -> exists d' c n, update_position d x = Ok d' /\ - PI <= angle_pos d' < PI /\
  - PI <= c < PI /\ c = x - angle_pos d + IZR n * (2 * PI) /\ get_total_position d' = get_total_position d + c /\ (exists m, angle_pos d' = x + IZR m * (2 * PI)).
Proof.
  intros Hd. pose proof PI_pos. unfold update_position. destruct (centered_ok (x - angle_pos d)) as (c & n & E & Hc & Ec). rewrite E. cbn [bind].
  destruct (centered_ok (angle_pos d + c)) as (p & m & Ep & Hp & Emp). rewrite Ep. cbn [bind]. eexists _, c, n. split; [reflexivity|]. cbn [angle_pos]. split; [exact Hp|]. split; [exact Hc|]. split; [exact Ec|]. split.
  - unfold get_total_position. cbn [angle_pos num_laps]. destruct (Rle_or_lt PI (angle_pos d + c)) as [L|L].
    + rewrite rleb_t, rltb_f by lra. assert (p = angle_pos d + c - 2 * PI) by (apply (periodic_unique (- PI) (2 * PI) _ p (m + 1)); try lra; rewrite plus_IZR; lra). rewrite plus_IZR. lra.
    + rewrite rleb_f by exact L. destruct (Rlt_or_le (angle_pos d + c) (- PI)) as [L'|L'].
      * rewrite rltb_t by exact L'. assert (p = angle_pos d + c + 2 * PI) by (apply (periodic_unique (- PI) (2 * PI) _ p (m - 1)); try lra; rewrite minus_IZR; lra). rewrite minus_IZR. lra.
      * rewrite rltb_f by exact L'. assert (p = angle_pos d + c) by (apply (periodic_unique (- PI) (2 * PI) _ p m); lra). lra.
  - exists (m + n)%Z. rewrite plus_IZR. lra.
Qed.

(** ** orthogonal vectors *)
Lemma set_nth_0 x a w : set_nth 0 x (a :: w) = x :: w.
Proof.
  unfold set_nth. cbn [length seq map Nat.eqb nth]. f_equal. rewrite <- seq_shift, map_map. cbn [Nat.eqb nth].
  apply vec_ext; [rewrite map_length, seq_length; reflexivity|]. intros i Hi. rewrite map_length, seq_length in Hi.
  rewrite (nth_indep _ 0 ((fun j => nth j w 0) 0%nat)) by (rewrite map_length, seq_length; exact Hi). rewrite (map_nth (fun j => nth j w 0)), seq_nth by exact Hi. reflexivity.
Qed.
Lemma set_nth_S i x a w : set_nth (S i) x (a :: w) = a :: set_nth i x w.
Proof. unfold set_nth. cbn [length seq map Nat.eqb nth]. f_equal. rewrite <- seq_shift, map_map. reflexivity. Qed.
Lemma set_nth_len i x w : length (set_nth i x w) = length w. Proof. unfold set_nth. rewrite map_length, seq_length. reflexivity. Qed.
Lemma nth_set_nth i x w j : (i < length w)%nat -> nth j (set_nth i x w) 0 = if (j =? i)%nat then x else nth j w 0.
Proof.
  revert i j. induction w as [|a w IH]; intros i j Hi; [cbn in Hi; lia|]. destruct i as [|i]; [rewrite set_nth_0|rewrite set_nth_S]; destruct j as [|j]; cbn [nth Nat.eqb]; try reflexivity.
  apply IH. cbn in Hi. lia.
Qed.
Lemma vdot_set u w i x : length u = length w -> (i < length w)%nat -> vdot u (set_nth i x w) = vdot u w + nth i u 0 * (x - nth i w 0).
Proof.
  revert w i. induction u as [|b u IH]; intros [|a w] i HL Hi; try discriminate HL; [cbn in Hi; lia|]. destruct i as [|i]; [rewrite set_nth_0|rewrite set_nth_S]; rewrite !vdot_cons; cbn [nth]; [ring|].
  rewrite IH by (cbn in *; lia). ring.
Qed.
Lemma nth_vzero n i : nth i (vzero n) 0 = 0. Proof. unfold vzero. revert i. induction n as [|n IH]; intros [|i]; cbn; auto. Qed.
Lemma vzero_len n : length (vzero n) = n. Proof. apply repeat_length. Qed.

Definition two_inv (v : vec) (k : nat) (s : two_max) : Prop :=
  exists i1, (i1 < k)%nat /\ i_max_1 s = Z.of_nat i1 /\ max_1 s = Rabs (nth i1 v 0) /\ (forall j, (j < k)%nat -> Rabs (nth j v 0) <= max_1 s) /\
  ((k = 1%nat /\ i_max_2 s = (-1)%Z /\ max_2 s = -1) \/
   exists i2, (i2 < k)%nat /\ i2 <> i1 /\ i_max_2 s = Z.of_nat i2 /\ max_2 s = Rabs (nth i2 v 0) /\ forall j, (j < k)%nat -> j <> i1 -> Rabs (nth j v 0) <= max_2 s).
Lemma two_step v k s : two_inv v k s -> two_inv v (S k) (two_max_step v s k).
Proof.
  intros (i1 & H1 & H2 & H3 & H4 & H5). unfold two_max_step. pose proof (Rabs_pos (nth k v 0)) as P. destruct (Rlt_or_le (max_1 s) (Rabs (nth k v 0))) as [L|L].
  - rewrite rltb_t by exact L. exists k. cbn [i_max_1 i_max_2 max_1 max_2]. split; [lia|]. split; [reflexivity|]. split; [reflexivity|]. split.
    + intros j Hj. destruct (Nat.eq_dec j k) as [->|N]; [lra|]. eapply Rle_trans; [apply H4; lia|lra].
    + right. exists i1. split; [lia|]. split; [lia|]. split; [exact H2|]. split; [exact H3|]. intros j Hj Nj. apply H4. lia.
  - rewrite rltb_f by exact L. destruct (Rlt_or_le (max_2 s) (Rabs (nth k v 0))) as [M|M].
    + rewrite rltb_t by exact M. exists i1. cbn [i_max_1 i_max_2 max_1 max_2]. split; [lia|]. split; [exact H2|]. split; [exact H3|]. split.
      * intros j Hj. destruct (Nat.eq_dec j k) as [->|N]; [exact L|]. apply H4. lia.
      * right. exists k. split; [lia|]. split; [lia|]. split; [reflexivity|]. split; [reflexivity|]. intros j Hj Nj. destruct (Nat.eq_dec j k) as [->|N]; [lra|].
        destruct H5 as [(K1 & K2 & K3)|(i2 & K1 & K2 & K3 & K4 & K5)]; [lia|]. eapply Rle_trans; [apply K5; lia|lra].
    + rewrite rltb_f by exact M. exists i1. split; [lia|]. split; [exact H2|]. split; [exact H3|]. split.
      * intros j Hj. destruct (Nat.eq_dec j k) as [->|N]; [exact L|]. apply H4. lia.
      * destruct H5 as [(K1 & K2 & K3)|(i2 & K1 & K2 & K3 & K4 & K5)]; [rewrite K3 in M; lra|]. right. exists i2. split; [lia|]. split; [exact K2|]. split; [exact K3|]. split; [exact K4|].
        intros j Hj Nj. destruct (Nat.eq_dec j k) as [->|N]; [exact M|]. apply K5; lia.
Qed.
Lemma two_fold v n : (1 <= n)%nat -> two_inv v n (fold_left (two_max_step v) (seq 0 n) (mkTwo (-1) (-1) (-1) (-1))).
Proof.
  intros Hn. induction n as [|n IH]; [lia|]. rewrite seq_S, fold_left_app. cbn [fold_left Nat.add]. destruct n as [|n].
  - cbn [seq fold_left]. unfold two_max_step. cbn [max_1 max_2 i_max_1]. rewrite rltb_t by (pose proof (Rabs_pos (nth 0 v 0)); lra). exists 0%nat. cbn [i_max_1 i_max_2 max_1 max_2].
    split; [lia|]. split; [reflexivity|]. split; [reflexivity|]. split; [intros j Hj; assert (j = 0)%nat by lia; subst j; lra|]. left. split; [reflexivity|]. split; reflexivity.
  - apply two_step. apply IH. lia.
Qed.
Lemma dot_bound_all v M : 0 <= M -> (forall j, (j < length v)%nat -> nth j v 0 * nth j v 0 <= M) -> vdot v v <= INR (length v) * M.
Proof.
  intros HM. induction v as [|a v IH]; intros H; [cbn; lra|]. rewrite vdot_cons. change (length (a :: v)) with (S (length v)). rewrite S_INR. pose proof (H 0%nat ltac:(cbn; lia)) as H0. cbn [nth] in H0.
  specialize (IH (fun j Hj => H (S j) ltac:(cbn; lia))). lra.
Qed.
Lemma dot_bound v M : 0 <= M -> forall i, (i < length v)%nat -> (forall j, (j < length v)%nat -> j <> i -> nth j v 0 * nth j v 0 <= M) -> vdot v v <= nth i v 0 * nth i v 0 + (INR (length v) - 1) * M.
Proof.
  intros HM. induction v as [|a v IH]; intros i Hi H; [cbn in Hi; lia|]. rewrite vdot_cons. change (length (a :: v)) with (S (length v)). rewrite S_INR. destruct i as [|i]; cbn [nth].
  - pose proof (dot_bound_all v M HM (fun j Hj => H (S j) ltac:(cbn; lia) ltac:(lia))). lra.
  - pose proof (H 0%nat ltac:(cbn; lia) ltac:(lia)) as H0. cbn [nth] in H0. specialize (IH i ltac:(cbn in Hi; lia) (fun j Hj Nj => H (S j) ltac:(cbn; lia) ltac:(lia))). lra.
Qed.
Lemma sq_abs x : Rabs x * Rabs x = x * x. Proof. rewrite <- Rabs_mult. apply Rabs_right. nra. Qed.

Lemma orthogonal_vector_ok v : (2 <= length v)%nat -> vdot v v <> 0 ->
  exists w, orthogonal_vector v = Ok w /\ length w = length v /\ vdot v w = 0 /\ 2 / INR (length v) * vnorm v <= vnorm w.
Proof.
  intros Hn Hv. unfold orthogonal_vector. rewrite reqb_f by (intros E; apply Hv, vnorm_zero, E). cbn [negb assert_ bind].
  assert (FIN : forall w n i1 i2, n = length v -> length w = n -> (i1 < n)%nat -> (i2 < n)%nat -> i1 <> i2 -> vdot w w = nth i1 v 0 * nth i1 v 0 + nth i2 v 0 * nth i2 v 0 ->
    (forall j, (j < n)%nat -> j <> i1 -> Rabs (nth j v 0) <= Rabs (nth i2 v 0)) -> 2 / INR n * vnorm v <= vnorm w).
  { intros w n i1 i2 En Lw H1 H2 N W M. assert (Hn2 : 2 <= INR n) by (rewrite En; change 2 with (INR 2); apply le_INR, Hn).
    assert (B : vdot v v <= nth i1 v 0 * nth i1 v 0 + (INR n - 1) * (nth i2 v 0 * nth i2 v 0)).
    { rewrite En. apply dot_bound; [nra|lia|]. intros j Hj Nj. specialize (M j ltac:(lia) Nj). rewrite <- (sq_abs (nth j v 0)), <- (sq_abs (nth i2 v 0)). pose proof (Rabs_pos (nth j v 0)). nra. }
    apply Rsqr_incr_0; [|apply Rmult_le_pos; [apply Rmult_le_pos; [lra|apply Rlt_le, Rinv_0_lt_compat; lra]|apply vnorm_pos]|apply vnorm_pos]. unfold Rsqr. rewrite vnorm_sq, W.
    replace (2 / INR n * vnorm v * (2 / INR n * vnorm v)) with (4 * (vnorm v * vnorm v) / (INR n * INR n)) by (field; lra). rewrite vnorm_sq.
    apply (Rmult_le_reg_r (INR n * INR n)); [nra|]. unfold Rdiv. rewrite Rmult_assoc, Rinv_l, Rmult_1_r by nra.
    set (a := nth i1 v 0 * nth i1 v 0) in *. set (b := nth i2 v 0 * nth i2 v 0) in *. assert (0 <= a) by (unfold a; nra). assert (0 <= b) by (unfold b; nra).
    assert (0 <= a * ((INR n - 2) * (INR n + 2))) by (apply Rmult_le_pos; [assumption|nra]). assert (0 <= b * ((INR n - 2) * (INR n - 2))) by (apply Rmult_le_pos; [assumption|nra]). lra. }
  destruct (Nat.eqb_spec (length v) 2) as [E2|N2].
  - destruct (len2 v E2) as (x & y & ->). cbn [nth]. eexists. split; [reflexivity|]. split; [reflexivity|]. split; [cbn; ring|].
    destruct (Rle_or_lt (Rabs x) (Rabs y)) as [L|L].
    + apply (FIN _ 2%nat 1%nat 0%nat); try reflexivity; try lia; [cbn; ring|]. intros j Hj Nj. assert (j = 0)%nat by lia. subst j. cbn [nth]. lra.
    + apply (FIN _ 2%nat 0%nat 1%nat); try reflexivity; try lia; [cbn; ring|]. intros j Hj Nj. assert (j = 1)%nat by lia. subst j. cbn [nth]. lra.
  - destruct (two_fold v (length v) ltac:(lia)) as (i1 & H1 & H2 & H3 & H4 & H5). set (s := fold_left _ _ _) in *. destruct H5 as [(K1 & _)|(i2 & K1 & K2 & K3 & K4 & K5)]; [lia|].
    assert (P : forall i, pyidx (Z.of_nat i) (length v) = i) by (intros i; unfold pyidx; destruct (Z.ltb_spec (Z.of_nat i) 0); lia).
    rewrite H2, K3, !P. eexists. split; [reflexivity|]. set (w := set_nth i1 _ _).
    assert (Lw : length w = length v) by (unfold w; rewrite !set_nth_len, vzero_len; reflexivity). split; [exact Lw|]. split.
    + unfold w. rewrite !vdot_set by (rewrite ?set_nth_len, ?vzero_len; auto). rewrite nth_set_nth by (rewrite vzero_len; exact K1). replace (i1 =? i2)%nat with false by (symmetry; apply Nat.eqb_neq; lia).
      rewrite !nth_vzero, (vdot_sym v), vdot_zero_l. ring.
    + apply (FIN w (length v) i1 i2); auto.
      * unfold w at 2. rewrite !vdot_set by (rewrite ?set_nth_len, ?vzero_len; auto). rewrite (vdot_sym w (vzero _)), vdot_zero_l. unfold w. rewrite !nth_set_nth by (rewrite ?set_nth_len, ?vzero_len; auto).
        rewrite !Nat.eqb_refl. replace (i1 =? i2)%nat with false by (symmetry; apply Nat.eqb_neq; lia). replace (i2 =? i1)%nat with false by (symmetry; apply Nat.eqb_neq; lia). rewrite !nth_vzero. ring.
      * intros j Hj Nj. rewrite <- K4. apply K5; assumption.
Qed.
