(** Real vectors as lists: the numpy operations used by calculus/angle.py,
    linalg/rotation.py and geometry/primitives/triangle.py, and their algebra.
    Arrays of different lengths are excluded by hypotheses. *)
From Coq Require Import Reals Lra Psatz List Lia.
Import ListNotations.
Local Open Scope R_scope.

Definition vec := list R.
Definition vmap2 (f : R -> R -> R) (u v : vec) : vec := map (fun p => f (fst p) (snd p)) (combine u v).
Definition vadd : vec -> vec -> vec := vmap2 Rplus.
Definition vsub : vec -> vec -> vec := vmap2 Rminus.
Definition vscale (c : R) (v : vec) : vec := map (fun x => c * x) v.
Definition vdivs (v : vec) (c : R) : vec := map (fun x => x / c) v.
Definition rsum (l : vec) : R := fold_right Rplus 0 l.
(** np.dot *)
Definition vdot (u v : vec) : R := rsum (vmap2 Rmult u v).
(** np.linalg.norm *)
Definition vnorm (u : vec) : R := sqrt (vdot u u).
(** np.cross in three dimensions *)
Definition cross3 (u v : vec) : vec :=
  let c i w := nth i w 0 in
  [c 1%nat u * c 2%nat v - c 2%nat u * c 1%nat v; c 2%nat u * c 0%nat v - c 0%nat u * c 2%nat v; c 0%nat u * c 1%nat v - c 1%nat u * c 0%nat v].
Definition vzero (n : nat) : vec := repeat 0 n.

Lemma vmap2_len f u v : length u = length v -> length (vmap2 f u v) = length u.
Proof. intros H. unfold vmap2. rewrite map_length, combine_length. lia. Qed.
Lemma vadd_len u v : length u = length v -> length (vadd u v) = length u. Proof. apply vmap2_len. Qed.
Lemma vsub_len u v : length u = length v -> length (vsub u v) = length u. Proof. apply vmap2_len. Qed.
Lemma vscale_len c v : length (vscale c v) = length v. Proof. apply map_length. Qed.
Lemma vdivs_len v c : length (vdivs v c) = length v. Proof. apply map_length. Qed.
Lemma vdivs_scale v c : vdivs v c = vscale (/ c) v.
Proof. unfold vdivs, vscale. apply map_ext. intros x. unfold Rdiv. ring. Qed.

Lemma vdot_nil_l v : vdot [] v = 0. Proof. reflexivity. Qed.
Lemma vdot_cons a u b v : vdot (a :: u) (b :: v) = a * b + vdot u v. Proof. reflexivity. Qed.
Lemma vdot_sym u v : vdot u v = vdot v u.
Proof. revert v. induction u as [|a u IH]; intros [|b v]; try reflexivity. rewrite !vdot_cons, IH. ring. Qed.
Lemma vdot_add_l u v w : length u = length v -> vdot (vadd u v) w = vdot u w + vdot v w.
Proof.
  revert v w. induction u as [|a u IH]; intros [|b v] w H; try discriminate H; [cbn; ring|]. destruct w as [|c w]; [cbn; ring|].
  change (vadd (a :: u) (b :: v)) with ((a + b) :: vadd u v). rewrite !vdot_cons, IH by (injection H; auto). ring.
Qed.
Lemma vdot_sub_l u v w : length u = length v -> vdot (vsub u v) w = vdot u w - vdot v w.
Proof.
  revert v w. induction u as [|a u IH]; intros [|b v] w H; try discriminate H; [cbn; ring|]. destruct w as [|c w]; [cbn; ring|].
  change (vsub (a :: u) (b :: v)) with ((a - b) :: vsub u v). rewrite !vdot_cons, IH by (injection H; auto). ring.
Qed.
Lemma vdot_scale_l c u w : vdot (vscale c u) w = c * vdot u w.
Proof. revert w. induction u as [|a u IH]; intros [|b w]; try (cbn; ring). change (vscale c (a :: u)) with ((c * a) :: vscale c u). rewrite !vdot_cons, IH. ring. Qed.
Lemma vdot_add_r w u v : length u = length v -> vdot w (vadd u v) = vdot w u + vdot w v.
Proof. intros H. rewrite !(vdot_sym w). apply vdot_add_l, H. Qed.
Lemma vdot_sub_r w u v : length u = length v -> vdot w (vsub u v) = vdot w u - vdot w v.
Proof. intros H. rewrite !(vdot_sym w). apply vdot_sub_l, H. Qed.
Lemma vdot_scale_r c u w : vdot w (vscale c u) = c * vdot w u.
Proof. rewrite !(vdot_sym w). apply vdot_scale_l. Qed.
Lemma vdot_pos u : 0 <= vdot u u.
Proof. induction u as [|a u IH]; [cbn; lra|]. rewrite vdot_cons. nra. Qed.
Lemma vdot_zero_inv u : vdot u u = 0 -> u = vzero (length u).
Proof.
  induction u as [|a u IH]; [reflexivity|]. rewrite vdot_cons. intros H. pose proof (vdot_pos u). assert (a = 0) by nra. subst a. cbn [vzero repeat length]. f_equal. apply IH. lra.
Qed.
Lemma vdot_zero_l n v : vdot (vzero n) v = 0.
Proof. revert v. induction n as [|n IH]; intros [|b v]; try reflexivity. change (vzero (S n)) with (0 :: vzero n). rewrite vdot_cons, IH. ring. Qed.
Lemma cauchy_schwarz u v : length u = length v -> vdot u v * vdot u v <= vdot u u * vdot v v.
Proof.
  intros H. pose proof (vdot_pos (vsub (vscale (vdot v v) u) (vscale (vdot u v) v))) as P.
  rewrite !vdot_sub_l, !vdot_sub_r, !vdot_scale_l, !vdot_scale_r in P by (rewrite ?vscale_len; auto). rewrite (vdot_sym v u) in P.
  pose proof (vdot_pos v) as Pv. pose proof (vdot_pos u) as Pu.
  destruct (Req_dec (vdot v v) 0) as [E|N].
  - apply vdot_zero_inv in E. rewrite E. rewrite (vdot_sym u), !vdot_zero_l. lra.
  - set (A := vdot u u) in *. set (B := vdot v v) in *. set (C := vdot u v) in *. assert (0 < B) by lra. nra.
Qed.

Lemma vnorm_pos u : 0 <= vnorm u. Proof. apply sqrt_pos. Qed.
Lemma vnorm_sq u : vnorm u * vnorm u = vdot u u. Proof. apply sqrt_sqrt, vdot_pos. Qed.
Lemma vnorm_zero u : vnorm u = 0 <-> vdot u u = 0.
Proof. split; intros H; [rewrite <- vnorm_sq, H; ring|unfold vnorm; rewrite H; apply sqrt_0]. Qed.
Lemma vnorm_gt0 u : vdot u u <> 0 -> 0 < vnorm u.
Proof. intros H. pose proof (vnorm_pos u). destruct (Req_dec (vnorm u) 0) as [E|N]; [|lra]. apply vnorm_zero in E. contradiction. Qed.
Lemma vnorm_eq u a : 0 <= a -> vdot u u = a * a -> vnorm u = a.
Proof. intros Ha H. unfold vnorm. rewrite H. apply sqrt_square, Ha. Qed.
Lemma vnorm_scale c u : vnorm (vscale c u) = Rabs c * vnorm u.
Proof.
  apply vnorm_eq; [apply Rmult_le_pos; [apply Rabs_pos|apply vnorm_pos]|]. rewrite vdot_scale_l, vdot_scale_r.
  replace (Rabs c * vnorm u * (Rabs c * vnorm u)) with ((Rabs c * Rabs c) * (vnorm u * vnorm u)) by ring. rewrite vnorm_sq, <- Rabs_mult, Rabs_right by nra. ring.
Qed.
Lemma norm_cs u v : length u = length v -> Rabs (vdot u v) <= vnorm u * vnorm v.
Proof.
  intros H. apply Rsqr_incr_0; [|apply Rabs_pos|apply Rmult_le_pos; apply vnorm_pos]. unfold Rsqr. rewrite <- Rabs_mult, Rabs_right by nra.
  replace (vnorm u * vnorm v * (vnorm u * vnorm v)) with ((vnorm u * vnorm u) * (vnorm v * vnorm v)) by ring. rewrite !vnorm_sq. apply cauchy_schwarz, H.
Qed.
Lemma norm_triangle u v : length u = length v -> vnorm (vadd u v) <= vnorm u + vnorm v.
Proof.
  intros H. pose proof (vnorm_pos u). pose proof (vnorm_pos v). pose proof (vnorm_pos (vadd u v)). apply Rsqr_incr_0; [|assumption|lra]. unfold Rsqr. rewrite vnorm_sq.
  rewrite vdot_add_l, !vdot_add_r by exact H. rewrite (vdot_sym v u). rewrite <- (vnorm_sq u), <- (vnorm_sq v). pose proof (norm_cs u v H). pose proof (Rle_abs (vdot u v)). nra.
Qed.

(** vectors with the same components *)
Lemma vec_ext (u v : vec) : length u = length v -> (forall i, (i < length u)%nat -> nth i u 0 = nth i v 0) -> u = v.
Proof. intros H E. apply (nth_ext _ _ 0 0 H), E. Qed.
Lemma nth_vmap2 f u v i : f 0 0 = 0 -> length u = length v -> nth i (vmap2 f u v) 0 = f (nth i u 0) (nth i v 0).
Proof.
  intros Z. revert v i. induction u as [|a u IH]; intros [|b v] i H; try discriminate H; [destruct i; symmetry; exact Z|]. destruct i as [|i]; [reflexivity|]. exact (IH v i (eq_add_S _ _ H)).
Qed.
Lemma nth_vadd u v i : length u = length v -> nth i (vadd u v) 0 = nth i u 0 + nth i v 0. Proof. apply nth_vmap2. ring. Qed.
Lemma nth_vsub u v i : length u = length v -> nth i (vsub u v) 0 = nth i u 0 - nth i v 0. Proof. apply nth_vmap2. ring. Qed.
Lemma nth_vscale c u i : nth i (vscale c u) 0 = c * nth i u 0.
Proof. revert i. induction u as [|a u IH]; intros [|i]; cbn; try ring. apply IH. Qed.
Lemma len3 (v : vec) : length v = 3%nat -> exists x y z, v = [x; y; z].
Proof. destruct v as [|x [|y [|z [|? ?]]]]; try discriminate. intros _. exists x, y, z. reflexivity. Qed.
Lemma len2 (v : vec) : length v = 2%nat -> exists x y, v = [x; y].
Proof. destruct v as [|x [|y [|? ?]]]; try discriminate. intros _. exists x, y. reflexivity. Qed.

(** the cross product *)
Lemma cross_dot_l u v : length u = 3%nat -> length v = 3%nat -> vdot u (cross3 u v) = 0.
Proof. intros Hu Hv. destruct (len3 u Hu) as (a & b & c & ->), (len3 v Hv) as (d & e & f & ->). cbn. ring. Qed.
Lemma cross_dot_r u v : length u = 3%nat -> length v = 3%nat -> vdot v (cross3 u v) = 0.
Proof. intros Hu Hv. destruct (len3 u Hu) as (a & b & c & ->), (len3 v Hv) as (d & e & f & ->). cbn. ring. Qed.
Lemma lagrange_id u v : length u = 3%nat -> length v = 3%nat -> vdot (cross3 u v) (cross3 u v) = vdot u u * vdot v v - vdot u v * vdot u v.
Proof. intros Hu Hv. destruct (len3 u Hu) as (a & b & c & ->), (len3 v Hv) as (d & e & f & ->). cbn. ring. Qed.
