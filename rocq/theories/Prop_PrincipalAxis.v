(** Property C110: the principal component axis of a point cloud. *)
From Coq Require Import Reals Lra Psatz Lia.
From Coquelicot Require Import Coquelicot.
From Verif Require Import Base MultiIndexFacts RVec Angle AngleFacts RotFacts TriFacts MeshNormalsFacts PointCloud PointCloudFacts Prop_PointCloud.
Local Open Scope R_scope.

(** What [np.linalg.eigh] promises for a symmetric matrix [a] with [m] rows: the
    eigenvalues in ascending order and, as columns, orthonormal eigenvectors. *)
Definition is_eigh (m : nat) (a : list vec) (wv : list R * list vec) : Prop :=
  let (w, v) := wv in
  length w = m /\ orthonormal_columns m v /\
  (forall j, (j < m)%nat -> mv a (column v j) = vscale (nth j w 0) (column v j)) /\
  forall i j, (i <= j < m)%nat -> nth i w 0 <= nth j w 0.
(** the matrix of the products of the deviations from [c] *)
Definition deviation_products (m : nat) (points : list vec) (c : vec) : list vec :=
  map (fun j => map (fun k => rsum (map (fun x : vec => (nth j x 0 - nth j c 0) * (nth k x 0 - nth k c 0)) points)) (seq 0 m)) (seq 0 m).
(** how far the points are spread out in direction [u]; the distance of the points to the points [q x] *)
Definition spread (points : list vec) (c u : vec) : R := rsum (map (fun x : vec => vdot (vsub x c) u * vdot (vsub x c) u) points).
Definition distances (points : list vec) (q : vec -> vec) : R := rsum (map (fun x : vec => vdot (vsub x (q x)) (vsub x (q x))) points).

Lemma scatter_entry m (X : list vec) (u : vec) j : cloud m X -> length u = m -> (j < m)%nat -> nth j (mv (scatter m X) u) 0 = rsum (map (fun x : vec => nth j x 0 * vdot x u) X).
Proof.
  intros HX Hu Hj. unfold mv, scatter. rewrite map_map, nth_map_seq by exact Hj. rewrite (vdot_seq m) by (try assumption; rewrite map_length, seq_length; reflexivity).
  rewrite (MeshNormalsFacts.rsum_ext _ (fun k => rsum (map (fun x : vec => nth j x 0 * nth k x 0 * nth k u 0) X))).
  - rewrite (rsum_swap (fun k (x : vec) => nth j x 0 * nth k x 0 * nth k u 0)). apply rsum_ext. intros x Hx. rewrite (vdot_seq m) by (try assumption; apply HX, Hx). rewrite <- rsum_map_scale. apply rsum_ext. intros k _. ring.
  - intros k Hk. apply in_seq in Hk. rewrite nth_map_seq by lia. rewrite Rmult_comm, <- rsum_map_scale. apply rsum_ext. intros x _. ring.
Qed.
Lemma scatter_form m (X : list vec) (u u' : vec) : cloud m X -> length u = m -> length u' = m -> vdot u (mv (scatter m X) u') = rsum (map (fun x : vec => vdot x u * vdot x u') X).
Proof.
  intros HX Hu Hu'. rewrite (vdot_seq m); [|exact Hu|rewrite mv_len; unfold scatter; rewrite map_length, seq_length; reflexivity].
  rewrite (rsum_ext _ (fun j => rsum (map (fun x : vec => nth j u 0 * (nth j x 0 * vdot x u')) X))).
  - rewrite (rsum_swap (fun j (x : vec) => nth j u 0 * (nth j x 0 * vdot x u'))). apply rsum_ext. intros x Hx. rewrite (vdot_seq m x u) by (try assumption; apply HX, Hx). rewrite Rmult_comm, <- rsum_map_scale. apply rsum_ext. intros k _. ring.
  - intros j Hj. apply in_seq in Hj. rewrite scatter_entry by (try assumption; lia). rewrite <- rsum_map_scale. reflexivity.
Qed.
Lemma column_form m X w v u j : cloud m X -> is_eigh m (scatter m X) (w, v) -> length u = m -> (j < m)%nat -> rsum (map (fun x : vec => vdot x u * vdot x (column v j)) X) = nth j w 0 * vdot (column v j) u.
Proof.
  intros HX (Lw & HV & HE & _) Hu Hj. rewrite <- (scatter_form m) by (try assumption; rewrite column_len; apply HV). rewrite HE by exact Hj. rewrite vdot_scale_r, (vdot_sym u). reflexivity.
Qed.
(** in the basis of the eigenvectors the quadratic form is diagonal *)
Lemma diagonal m X w v u : m <> 0%nat -> cloud m X -> is_eigh m (scatter m X) (w, v) -> length u = m -> exists c, length c = m /\ vdot u u = vdot c c /\ (forall k, (k < m)%nat -> vdot (column v k) u = nth k c 0) /\
  rsum (map (fun x : vec => vdot x u * vdot x u) X) = rsum (map (fun k => nth k w 0 * (nth k c 0 * nth k c 0)) (seq 0 m)).
Proof.
  intros Hm HX HE Hu. pose proof HE as (Lw & HV & _ & _). pose proof HV as (LV & HR & _). destruct (spans m v u Hm HV Hu) as (c & Lc & Ec). exists c. split; [exact Lc|].
  assert (CO : forall k, (k < m)%nat -> vdot (column v k) u = nth k c 0) by (intros k Hk; rewrite <- Ec; apply (coordinate m); assumption).
  assert (M : mtv m v u = c).
  { apply vec_ext; [rewrite mtv_len; congruence|]. rewrite mtv_len. intros k Hk. unfold mtv. rewrite nth_map_seq by exact Hk. apply CO, Hk. }
  split; [rewrite <- Ec at 1; rewrite (adj m v c Lc u HR (eq_trans Hu (eq_sym LV))), M; reflexivity|]. split; [exact CO|].
  rewrite (rsum_ext _ (fun x : vec => rsum (map (fun k => nth k c 0 * (vdot x u * vdot x (column v k))) (seq 0 m)))).
  - rewrite (rsum_swap (fun (x : vec) k => nth k c 0 * (vdot x u * vdot x (column v k)))). apply rsum_ext. intros k Hk. apply in_seq in Hk. rewrite rsum_map_scale, (column_form m X w v u k) by (try assumption; lia). rewrite CO by lia. ring.
  - intros x Hx. assert (Z : vdot x u = vdot c (mtv m v x)) by (rewrite <- Ec, vdot_sym; apply adj; try assumption; rewrite LV; apply HX, Hx). rewrite Z at 2. rewrite (vdot_seq m c (mtv m v x)) by (try assumption; apply mtv_len). rewrite <- rsum_map_scale. apply rsum_ext. intros k Hk. apply in_seq in Hk. unfold mtv. rewrite nth_map_seq by lia. rewrite (vdot_sym x (column v k)). ring.
Qed.
Lemma centered_ok m points c : mean m points = Some c -> centered m points = map (fun x : vec => vsub x c) points.
Proof. intros E. unfold centered. rewrite E. reflexivity. Qed.
Lemma scatter_ok m points c : cloud m points -> length c = m -> mean m points = Some c -> scatter m (centered m points) = deviation_products m points c.
Proof.
  intros HC Lc E. rewrite (centered_ok _ _ _ E). unfold scatter, deviation_products. apply map_ext_in. intros j Hj. apply map_ext_in. intros k Hk. rewrite map_map. apply rsum_ext. intros x Hx. rewrite !nth_vsub by (rewrite (HC x Hx); congruence). reflexivity.
Qed.
Lemma mean_spec m points c : cloud m points -> mean m points = Some c -> length c = m.
Proof. intros HC E. assert (HN : points <> []) by (intros ->; discriminate). destruct (mean_ok m points HC HN) as (c' & E' & Lc & _). congruence. Qed.

(** The axis is a unit vector in which the points are most spread out. *)
Theorem C110_axis : forall eigh m points c, m <> 0%nat -> cloud m points -> mean m points = Some c -> is_eigh m (deviation_products m points c) (eigh (deviation_products m points c)) ->
  exists w, principal_component_axis eigh m points = Ok w /\ length w = m /\ vdot w w = 1 /\ forall u, length u = m -> vdot u u = 1 -> spread points c u <= spread points c w.
Proof.
  intros eigh m points c Hm HC E HE. pose proof (mean_spec _ _ _ HC E) as Lc. unfold principal_component_axis. rewrite (scatter_ok m points c HC Lc E).
  destruct (eigh (deviation_products m points c)) as [w v]. cbn [snd]. rewrite (proj2 (Nat.eqb_neq m 0) Hm). rewrite <- (scatter_ok m points c HC Lc E), (centered_ok _ _ _ E) in HE.
  assert (HX : cloud m (map (fun x : vec => vsub x c) points)).
  { intros y Hy. apply in_map_iff in Hy as (x & <- & Hx). rewrite vsub_len; [apply HC, Hx|]. rewrite (HC x Hx). congruence. }
  pose proof HE as (Lw & HV & _ & HS). pose proof HV as (LV & HR & HO). exists (column v (m - 1)). split; [reflexivity|]. split; [rewrite column_len; exact LV|].
  assert (U : vdot (column v (m - 1)) (column v (m - 1)) = 1) by (rewrite HO, Nat.eqb_refl by lia; reflexivity). split; [exact U|].
  assert (SP : forall u, spread points c u = rsum (map (fun y : vec => vdot y u * vdot y u) (map (fun x : vec => vsub x c) points))) by (intros u; unfold spread; rewrite map_map; reflexivity).
  intros u Hu Hu1. rewrite !SP. rewrite (column_form m _ w v _ (m - 1) HX HE) by (try lia; rewrite column_len; exact LV). rewrite U.
  destruct (diagonal m _ w v u Hm HX HE Hu) as (k & Lk & N & _ & ->).
  apply Rle_trans with (rsum (map (fun i => nth (m - 1) w 0 * (nth i k 0 * nth i k 0)) (seq 0 m))).
  - apply rsum_le. intros i Hi. apply in_seq in Hi. apply Rmult_le_compat_r; [nra|]. apply HS. lia.
  - rewrite rsum_map_scale, <- (vdot_seq m) by assumption. rewrite <- N, Hu1. lra.
Qed.
Print Assumptions C110_axis.
Lemma residual (d u : vec) t : length d = length u -> vdot u u = 1 -> vdot (vsub d (vscale t u)) (vsub d (vscale t u)) = vdot d d - vdot d u * vdot d u + (t - vdot d u) * (t - vdot d u).
Proof. intros L U. vdots. rewrite U, (vdot_sym u d). ring. Qed.
(** The line through the mean in that direction fits the points best: no line, and no choice of one point on it for every point of the cloud, has a smaller sum of squared distances. *)
Theorem C110_line : forall eigh m points c, m <> 0%nat -> cloud m points -> mean m points = Some c -> is_eigh m (deviation_products m points c) (eigh (deviation_products m points c)) ->
  exists w, principal_component_axis eigh m points = Ok w /\ forall p u (t : vec -> R), length p = m -> length u = m -> vdot u u = 1 ->
    distances points (fun x => vadd c (vscale (vdot (vsub x c) w) w)) <= distances points (fun x => vadd p (vscale (t x) u)).
Proof.
  intros eigh m points c Hm HC E HE. destruct (C110_axis eigh m points c Hm HC E HE) as (w & Ew & Lw & U & MX). exists w. split; [exact Ew|]. intros p u t Lp Lu Uu. pose proof (mean_spec _ _ _ HC E) as Lc. specialize (MX u Lu Uu).
  assert (D : distances points (fun x => vadd c (vscale (vdot (vsub x c) w) w)) = rsum (map (fun x : vec => vdot (vsub x c) (vsub x c)) points) - spread points c w).
  { unfold distances, spread. rewrite <- (Rplus_0_r (rsum _)), (rsum_ext _ (fun x : vec => vdot (vsub x c) (vsub x c) + -1 * (vdot (vsub x c) w * vdot (vsub x c) w))); [rewrite rsum_map_add, rsum_map_scale; ring|].
    intros x Hx. pose proof (HC x Hx) as Lx. replace (vsub x (vadd c (vscale (vdot (vsub x c) w) w))) with (vsub (vsub x c) (vscale (vdot (vsub x c) w) w)) by vring. rewrite residual by (try exact U; vlen). ring. }
  rewrite D. apply Rle_trans with (rsum (map (fun x : vec => vdot (vsub x c) (vsub x c)) points) - spread points c u); [lra|].
  assert (La : length (vsub c p) = m) by vlen. pose proof (mean_dot m points c (vsub c p) HC E La) as Z1. pose proof (mean_dot m points c u HC E Lu) as Z2.
  assert (CS : vdot (vsub c p) u * vdot (vsub c p) u <= vdot (vsub c p) (vsub c p)) by (pose proof (cauchy_schwarz (vsub c p) u ltac:(congruence)) as CS; rewrite Uu in CS; lra).
  apply Rle_trans with (rsum (map (fun x : vec => (vdot (vsub x c) (vsub x c) + -1 * (vdot (vsub x c) u * vdot (vsub x c) u)) + (2 * vdot (vsub x c) (vsub c p) + -2 * vdot (vsub c p) u * vdot (vsub x c) u)) points)).
  - rewrite !rsum_map_add, !rsum_map_scale, Z1, Z2. unfold spread. lra.
  - unfold distances. apply rsum_le. intros x Hx. pose proof (HC x Hx) as Lx.
    replace (vsub x (vadd p (vscale (t x) u))) with (vsub (vadd (vsub x c) (vsub c p)) (vscale (t x) u)) by vring. rewrite residual by (try exact Uu; vlen).
    rewrite !vdot_add_l, !vdot_add_r by vlen. rewrite (vdot_sym (vsub c p) (vsub x c)). set (A := t x - _). pose proof (Rle_0_sqr A) as SQ. unfold Rsqr in SQ. lra.
Qed.
Print Assumptions C110_line.
(** For points on a line, not all equal, it is the direction of the line. *)
Theorem C110_collinear : forall eigh m points c p u (t : vec -> R), m <> 0%nat -> cloud m points -> mean m points = Some c -> is_eigh m (deviation_products m points c) (eigh (deviation_products m points c)) ->
  length p = m -> length u = m -> vdot u u = 1 -> (forall x, In x points -> x = vadd p (vscale (t x) u)) -> (exists x y, In x points /\ In y points /\ x <> y) ->
  principal_component_axis eigh m points = Ok u \/ principal_component_axis eigh m points = Ok (vscale (-1) u).
Proof.
  intros eigh m points c p u t Hm HC E HE Lp Lu Uu HL (x & y & Hx & Hy & Hxy). destruct (C110_line eigh m points c Hm HC E HE) as (w & Ew & HM). destruct (C110_axis eigh m points c Hm HC E HE) as (w' & Ew' & Lw & U & _). rewrite Ew in Ew'. injection Ew' as <-.
  specialize (HM p u t Lp Lu Uu). pose proof (mean_spec _ _ _ HC E) as Lc. assert (D0 : distances points (fun x => vadd p (vscale (t x) u)) = 0).
  { unfold distances. rewrite (rsum_ext _ (fun _ : vec => 0)); [rewrite rsum_const; ring|]. intros z Hz. rewrite <- (HL z Hz). replace (vsub z z) with (vzero m); [apply vdot_zero_l|]. pose proof (HC z Hz) as Lz. apply vec_ext; [rewrite vzero_len; vlen|]. intros k _. rewrite nth_vzero, nth_vsub by reflexivity. ring. }
  rewrite D0 in HM.
  assert (ON : forall z, In z points -> z = vadd c (vscale (vdot (vsub z c) w) w)).
  { assert (G : forall l : list vec, (forall z, In z l -> length z = m) -> rsum (map (fun x : vec => vdot (vsub x (vadd c (vscale (vdot (vsub x c) w) w))) (vsub x (vadd c (vscale (vdot (vsub x c) w) w)))) l) <= 0 -> forall z, In z l -> z = vadd c (vscale (vdot (vsub z c) w) w)).
    { induction l as [|a l IH]; intros HLn HS z []; cbn [map] in HS; rewrite rsum_cons in HS;
        (assert (P : 0 <= rsum (map (fun x : vec => vdot (vsub x (vadd c (vscale (vdot (vsub x c) w) w))) (vsub x (vadd c (vscale (vdot (vsub x c) w) w)))) l)) by (rewrite <- (Rmult_0_r (INR (length l))), <- (rsum_const 0 l); apply rsum_le; intros; apply vdot_pos));
        pose proof (vdot_pos (vsub a (vadd c (vscale (vdot (vsub a c) w) w)))) as P2.
      - subst z. assert (Z : vdot (vsub a (vadd c (vscale (vdot (vsub a c) w) w))) (vsub a (vadd c (vscale (vdot (vsub a c) w) w))) = 0) by lra.
        pose proof (HLn a (or_introl eq_refl)) as La. apply vdot_zero_inv in Z. apply vec_ext; [vlen|]. intros k _. pose proof (f_equal (fun v => nth k v 0) Z) as J. cbn beta in J. rewrite nth_vsub, nth_vzero in J by vlen. lra.
      - apply IH; [intros; apply HLn; now right|lra|assumption]. }
    intros z Hz. apply (G points); [exact HC|exact HM|exact Hz]. }
  pose proof (HC x Hx) as Lx. pose proof (HC y Hy) as Ly. set (a := vdot (vsub x c) w - vdot (vsub y c) w). set (b := t x - t y).
  assert (EQ : forall k, a * nth k w 0 = b * nth k u 0).
  { intros k. assert (J1 : nth k x 0 - nth k y 0 = a * nth k w 0).
    { rewrite (ON x Hx), (ON y Hy) at 1. rewrite !nth_vadd, !nth_vscale by vlen. unfold a. ring. }
    assert (J2 : nth k x 0 - nth k y 0 = b * nth k u 0).
    { rewrite (HL x Hx), (HL y Hy) at 1. rewrite !nth_vadd, !nth_vscale by vlen. unfold b. ring. }
    lra. }
  assert (EV : vscale a w = vscale b u) by (apply vec_ext; [vlen|]; intros k _; rewrite !nth_vscale; apply EQ).
  assert (SQ : a * a = b * b).
  { pose proof (f_equal (fun v => vdot v v) EV) as J. cbn beta in J. rewrite !vdot_scale_l, !vdot_scale_r, U, Uu in J. lra. }
  assert (NZ : b <> 0).
  { intros Z. apply Hxy. rewrite (HL x Hx), (HL y Hy). unfold b in Z. replace (t y) with (t x) by lra. reflexivity. }
  rewrite Ew. destruct (Req_dec a b) as [D|D]; [left|right]; f_equal; (apply vec_ext; [vlen|]); intros k _; rewrite ?nth_vscale; pose proof (EQ k) as J.
  - rewrite D in J. apply Rmult_eq_reg_l in J; assumption.
  - replace a with (- b) in J by nra. apply Rmult_eq_reg_l with b; [lra|exact NZ].
Qed.
Print Assumptions C110_collinear.
(** The sum that the documentation says the axis maximises is zero for every vector: it singles out no direction. *)
Theorem C110_docstring_refuted : exists m points c, cloud m points /\ mean m points = Some c /\ (exists u v, length u = m /\ length v = m /\ vdot u u = 1 /\ vdot v v = 1 /\ spread points c u < spread points c v) /\
  forall w, length w = m -> rsum (map (fun x : vec => vdot (vsub x c) w) points) = 0.
Proof.
  exists 2%nat, [[0; 0]; [2; 0]], [1; 0].
  assert (HC : cloud 2 [[0; 0]; [2; 0]]) by (intros x [ <- |[ <- |[]]]; reflexivity).
  assert (E : mean 2 [[0; 0]; [2; 0]] = Some [1; 0]) by (cbn; f_equal; f_equal; [lra|f_equal; lra]).
  split; [exact HC|]. split; [exact E|]. split.
  - exists [0; 1], [1; 0]. unfold spread. vcalc. repeat split; lra.
  - intros w Lw. apply (mean_dot 2); assumption.
Qed.
Print Assumptions C110_docstring_refuted.
Theorem C110_documented_sum : forall m points c w, cloud m points -> mean m points = Some c -> length w = m -> rsum (map (fun x : vec => vdot (vsub x c) w) points) = 0.
Proof. exact mean_dot. Qed.
Print Assumptions C110_documented_sum.
Theorem C110_no_coordinates : forall eigh points, principal_component_axis eigh 0 points = Err IndexError.
Proof. reflexivity. Qed.
Print Assumptions C110_no_coordinates.

(** four points around (1, 2): the spread is largest in the direction (3, 4) / 5 *)
Definition ex_points : list vec := [[1 + 3; 2 + 4]; [1 - 3; 2 - 4]; [1 - 4/5; 2 + 3/5]; [1 + 4/5; 2 - 3/5]].
Definition ex_eigh (_ : list vec) : list R * list vec := ([2; 50], [[-4/5; 3/5]; [3/5; 4/5]]).
Example C110_ex : cloud 2 ex_points /\ mean 2 ex_points = Some [1; 2] /\ is_eigh 2 (deviation_products 2 ex_points [1; 2]) (ex_eigh (deviation_products 2 ex_points [1; 2])) /\ principal_component_axis ex_eigh 2 ex_points = Ok [3/5; 4/5].
Proof.
  split; [intros x H; repeat destruct H as [ <- |H]; try reflexivity; destruct H|]. split; [cbn; f_equal; f_equal; [lra|f_equal; lra]|]. split; [|reflexivity].
  unfold ex_eigh, is_eigh. split; [reflexivity|]. split; [split; [reflexivity|]; split; [intros r [ <- |[ <- |[]]]; reflexivity|]|split].
  - intros [|[|i]] [|[|j]] Hi Hj; try lia; cbn [Nat.eqb column map nth]; vcalc; lra.
  - intros [|[|j]] Hj; try lia; unfold deviation_products, ex_points, mv; cbn [column map seq nth]; vcalc; repeat (apply f_equal2; [lra|]); reflexivity.
  - intros [|[|i]] [|[|j]] Hij; try lia; cbn [nth]; lra.
Qed.
