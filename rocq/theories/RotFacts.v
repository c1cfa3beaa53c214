(** Facts about the model of rotations. *)
From Coq Require Import Reals Lra Psatz.
From Verif Require Import Base RVec Angle AngleFacts Rotation.
Local Open Scope R_scope.

Definition det3 (m : mat) : R :=
  ent m 0 0 * (ent m 1 1 * ent m 2 2 - ent m 1 2 * ent m 2 1) - ent m 0 1 * (ent m 1 0 * ent m 2 2 - ent m 1 2 * ent m 2 0)
  + ent m 0 2 * (ent m 1 0 * ent m 2 1 - ent m 1 1 * ent m 2 0).
(** the rotations of space: orthonormal columns and determinant 1 *)
Definition rotation3 (m : mat) : Prop :=
  (length m = 3%nat /\ forall r, In r m -> length r = 3%nat) /\
  (forall i j, (i < 3)%nat -> (j < 3)%nat -> vdot (col m i) (col m j) = if (i =? j)%nat then 1 else 0) /\ det3 m = 1.

Lemma shape3 (m : mat) : length m = 3%nat -> (forall r, In r m -> length r = 3%nat) -> exists a b c d e f g h i, m = [[a; b; c]; [d; e; f]; [g; h; i]].
Proof.
  intros L H. destruct m as [|r0 [|r1 [|r2 [|]]]]; try discriminate L.
  destruct (len3 r0) as (a & b & c & ->); [apply H; left; reflexivity|]. destruct (len3 r1) as (d & e & f & ->); [apply H; right; left; reflexivity|].
  destruct (len3 r2) as (g & h & i & ->); [apply H; right; right; left; reflexivity|]. exists a, b, c, d, e, f, g, h, i. reflexivity.
Qed.

Section Rot.
  Context (a b c d e f g h i : R).
  Let m : mat := [[a; b; c]; [d; e; f]; [g; h; i]].
  Lemma rot_intro : a * a + d * d + g * g = 1 -> b * b + e * e + h * h = 1 -> c * c + f * f + i * i = 1 -> a * b + d * e + g * h = 0 -> a * c + d * f + g * i = 0 -> b * c + e * f + h * i = 0 ->
    a * (e * i - f * h) - b * (d * i - f * g) + c * (d * h - e * g) = 1 -> rotation3 m.
  Proof.
    intros H1 H2 H3 H4 H5 H6 D. split; [split; [reflexivity|intros r [<-|[<-|[<-|[]]]]; reflexivity]|]. split; [|exact D].
    intros [|[|[|?]]] [|[|[|?]]] Hi Hj; try lia; cbn; lra.
  Qed.
  Lemma rot_elim : rotation3 m -> (a * a + d * d + g * g = 1 /\ b * b + e * e + h * h = 1 /\ c * c + f * f + i * i = 1 /\ a * b + d * e + g * h = 0 /\ a * c + d * f + g * i = 0 /\ b * c + e * f + h * i = 0) /\
    a * (e * i - f * h) - b * (d * i - f * g) + c * (d * h - e * g) = 1.
  Proof.
    intros (_ & H & D). split; [|exact D].
    pose proof (H 0 0 ltac:(lia) ltac:(lia))%nat as H1. pose proof (H 1 1 ltac:(lia) ltac:(lia))%nat as H2. pose proof (H 2 2 ltac:(lia) ltac:(lia))%nat as H3.
    pose proof (H 0 1 ltac:(lia) ltac:(lia))%nat as H4. pose proof (H 0 2 ltac:(lia) ltac:(lia))%nat as H5. pose proof (H 1 2 ltac:(lia) ltac:(lia))%nat as H6.
    cbn in H1, H2, H3, H4, H5, H6. repeat split; lra.
  Qed.
  Context (H1 : a * a + d * d + g * g = 1) (H2 : b * b + e * e + h * h = 1) (H3 : c * c + f * f + i * i = 1) (H4 : a * b + d * e + g * h = 0) (H5 : a * c + d * f + g * i = 0) (H6 : b * c + e * f + h * i = 0).
  Let D := a * (e * i - f * h) - b * (d * i - f * g) + c * (d * h - e * g).
  Context (HD : D = 1).
  (** a rotation is its own cofactor matrix *)
  Lemma cof00 : a = e * i - f * h. Proof. enough (D * a = e * i - f * h) by (rewrite HD in *; lra). transitivity ((e * i - f * h) * (a * a + d * d + g * g) + (f * g - d * i) * (a * b + d * e + g * h) + (d * h - e * g) * (a * c + d * f + g * i)); [unfold D; ring|rewrite H1, H4, H5; ring]. Qed.
  Lemma cof10 : d = c * h - b * i. Proof. enough (D * d = c * h - b * i) by (rewrite HD in *; lra). transitivity ((c * h - b * i) * (a * a + d * d + g * g) + (a * i - c * g) * (a * b + d * e + g * h) + (b * g - a * h) * (a * c + d * f + g * i)); [unfold D; ring|rewrite H1, H4, H5; ring]. Qed.
  Lemma cof20 : g = b * f - c * e. Proof. enough (D * g = b * f - c * e) by (rewrite HD in *; lra). transitivity ((b * f - c * e) * (a * a + d * d + g * g) + (c * d - a * f) * (a * b + d * e + g * h) + (a * e - b * d) * (a * c + d * f + g * i)); [unfold D; ring|rewrite H1, H4, H5; ring]. Qed.
  Lemma cof01 : b = f * g - d * i. Proof. enough (D * b = f * g - d * i) by (rewrite HD in *; lra). transitivity ((e * i - f * h) * (a * b + d * e + g * h) + (f * g - d * i) * (b * b + e * e + h * h) + (d * h - e * g) * (b * c + e * f + h * i)); [unfold D; ring|rewrite H2, H4, H6; ring]. Qed.
  Lemma cof11 : e = a * i - c * g. Proof. enough (D * e = a * i - c * g) by (rewrite HD in *; lra). transitivity ((c * h - b * i) * (a * b + d * e + g * h) + (a * i - c * g) * (b * b + e * e + h * h) + (b * g - a * h) * (b * c + e * f + h * i)); [unfold D; ring|rewrite H2, H4, H6; ring]. Qed.
  Lemma cof21 : h = c * d - a * f. Proof. enough (D * h = c * d - a * f) by (rewrite HD in *; lra). transitivity ((b * f - c * e) * (a * b + d * e + g * h) + (c * d - a * f) * (b * b + e * e + h * h) + (a * e - b * d) * (b * c + e * f + h * i)); [unfold D; ring|rewrite H2, H4, H6; ring]. Qed.
  Lemma cof02 : c = d * h - e * g. Proof. enough (D * c = d * h - e * g) by (rewrite HD in *; lra). transitivity ((e * i - f * h) * (a * c + d * f + g * i) + (f * g - d * i) * (b * c + e * f + h * i) + (d * h - e * g) * (c * c + f * f + i * i)); [unfold D; ring|rewrite H3, H5, H6; ring]. Qed.
  Lemma cof12 : f = b * g - a * h. Proof. enough (D * f = b * g - a * h) by (rewrite HD in *; lra). transitivity ((c * h - b * i) * (a * c + d * f + g * i) + (a * i - c * g) * (b * c + e * f + h * i) + (b * g - a * h) * (c * c + f * f + i * i)); [unfold D; ring|rewrite H3, H5, H6; ring]. Qed.
  Lemma cof22 : i = a * e - b * d. Proof. enough (D * i = a * e - b * d) by (rewrite HD in *; lra). transitivity ((b * f - c * e) * (a * c + d * f + g * i) + (c * d - a * f) * (b * c + e * f + h * i) + (a * e - b * d) * (c * c + f * f + i * i)); [unfold D; ring|rewrite H3, H5, H6; ring]. Qed.
  (** the rows are orthonormal *)
  Lemma row00 : a * a + b * b + c * c = 1. Proof. rewrite <- HD. unfold D. rewrite cof00 at 2. rewrite cof01 at 2. rewrite cof02 at 2. ring. Qed.
  Lemma row11 : d * d + e * e + f * f = 1. Proof. rewrite <- HD. rewrite cof10 at 2. rewrite cof11 at 2. rewrite cof12 at 2. unfold D. ring. Qed.
  Lemma row22 : g * g + h * h + i * i = 1. Proof. rewrite <- HD. rewrite cof20 at 2. rewrite cof21 at 2. rewrite cof22 at 2. unfold D. ring. Qed.
  Lemma row01 : a * d + b * e + c * f = 0. Proof. transitivity ((e * i - f * h) * d + (f * g - d * i) * e + (d * h - e * g) * f); [rewrite <- cof00, <- cof01, <- cof02; reflexivity|ring]. Qed.
  Lemma row02 : a * g + b * h + c * i = 0. Proof. transitivity ((e * i - f * h) * g + (f * g - d * i) * h + (d * h - e * g) * i); [rewrite <- cof00, <- cof01, <- cof02; reflexivity|ring]. Qed.
  Lemma row12 : d * g + e * h + f * i = 0. Proof. transitivity ((c * h - b * i) * g + (a * i - c * g) * h + (b * g - a * h) * i); [rewrite <- cof10, <- cof11, <- cof12; reflexivity|ring]. Qed.
  (** (1 + t) (R + R^T - (t - 1) I) = w w^T for the skew part w *)
  Let t := a + e + i.
  Lemma ax00 : (h - f) * (h - f) = (1 + t) * (2 * a - (t - 1)).
  Proof. pose proof cof00. pose proof row00. unfold t. nra. Qed.
  Lemma ax11 : (c - g) * (c - g) = (1 + t) * (2 * e - (t - 1)).
  Proof. pose proof cof11. pose proof row11. unfold t. nra. Qed.
  Lemma ax22 : (d - b) * (d - b) = (1 + t) * (2 * i - (t - 1)).
  Proof. pose proof cof22. pose proof row22. unfold t. nra. Qed.
  Lemma ax01 : (h - f) * (c - g) = (1 + t) * (b + d).
  Proof. pose proof cof10. pose proof cof01. pose proof row01. unfold t. nra. Qed.
  Lemma ax02 : (h - f) * (d - b) = (1 + t) * (c + g).
  Proof. pose proof cof20. pose proof cof02. pose proof row02. unfold t. nra. Qed.
  Lemma ax12 : (c - g) * (d - b) = (1 + t) * (f + h).
  Proof. pose proof cof12. pose proof cof21. pose proof row12. unfold t. nra. Qed.
  Lemma ax_norm : (h - f) * (h - f) + (c - g) * (c - g) + (d - b) * (d - b) = (1 + t) * (3 - t).
  Proof. rewrite ax00, ax11, ax22. unfold t. ring. Qed.
End Rot.

(** ** Rodrigues' formula *)
Definition rod (x y z c s : R) : mat :=
  [[c + (1 - c) * (x * x); (1 - c) * (x * y) - s * z; (1 - c) * (x * z) + s * y];
   [(1 - c) * (y * x) + s * z; c + (1 - c) * (y * y); (1 - c) * (y * z) - s * x];
   [(1 - c) * (z * x) - s * y; (1 - c) * (z * y) + s * x; c + (1 - c) * (z * z)]].
Lemma unit_ok k : vdot k k = 1 -> is_unit k = true.
Proof. intros H. unfold is_unit. rewrite (vnorm_eq k 1) by lra. rewrite rltb_t; [reflexivity|]. rewrite Rminus_eq_0, Rabs_R0. apply Rinv_0_lt_compat, pow_lt. lra. Qed.
Lemma rod_eq x y z c s : is_unit [x; y; z] = true -> rodrigues_formula_matrix [x; y; z] c s = Ok (rod x y z c s).
Proof.
  intros H. unfold rodrigues_formula_matrix. rewrite H. cbn [assert_ bind]. f_equal. unfold rod, madd, mmap2, mscale, hat, outer, vscale, vmap2, mid3. cbn [map combine fst snd nth].
  repeat (f_equal; try ring).
Qed.
Lemma rod_apply x y z c s v : length v = 3%nat ->
  mvec (rod x y z c s) v = vadd (vadd (vscale c v) (vscale s (cross3 [x; y; z] v))) (vscale (1 - c) (vscale (vdot [x; y; z] v) [x; y; z])).
Proof. intros H. destruct (len3 v H) as (p & q & r & ->). cbn. repeat (f_equal; try ring). Qed.
Lemma rod_rotation x y z c s : x * x + y * y + z * z = 1 -> c * c + s * s = 1 -> rotation3 (rod x y z c s).
Proof.
  intros Hk Hc. assert (Hz : z * z = 1 - x * x - y * y) by lra. assert (Hs : s * s = 1 - c * c) by lra. unfold rod. apply rot_intro; ring [Hz Hs].
Qed.
Lemma cos2_sin2 a : cos a * cos a + sin a * sin a = 1.
Proof. pose proof (sin2_cos2 a) as H. unfold Rsqr in H. lra. Qed.
Lemma unit_dot v : vdot v v <> 0 -> vdot (vdivs v (vnorm v)) (vdivs v (vnorm v)) = 1.
Proof. intros H. rewrite vdivs_scale, vdot_scale_l, vdot_scale_r, <- vnorm_sq. apply vnorm_gt0 in H. field. lra. Qed.
Lemma axis_angle_ok axis t : length axis = 3%nat -> vdot axis axis <> 0 -> exists x y z, vdivs axis (vnorm axis) = [x; y; z] /\ x * x + y * y + z * z = 1 /\
  axis_angle_to_rotation_matrix axis t = Ok (rod x y z (cos t) (sin t), [x; y; z]).
Proof.
  intros HL H. pose proof (unit_dot axis H) as U. destruct (len3 (vdivs axis (vnorm axis))) as (x & y & z & E); [rewrite vdivs_len; exact HL|]. rewrite E in U.
  exists x, y, z. split; [exact E|]. split; [cbn in U; lra|]. unfold axis_angle_to_rotation_matrix. rewrite reqb_f by (intros C; apply H, vnorm_zero, C). rewrite E. cbv zeta.
  rewrite rod_eq by (apply unit_ok, U). reflexivity.
Qed.
(** an axis of norm 1 is left as it is *)
Lemma axis_angle_unit x y z t : x * x + y * y + z * z = 1 -> axis_angle_to_rotation_matrix [x; y; z] t = Ok (rod x y z (cos t) (sin t), [x; y; z]).
Proof.
  intros H. assert (D : vdot [x; y; z] [x; y; z] = 1) by (cbn; lra). destruct (axis_angle_ok [x; y; z] t eq_refl ltac:(lra)) as (x' & y' & z' & E & _ & ->).
  rewrite (vnorm_eq _ 1) in E by lra. unfold vdivs in E. cbn [map] in E. injection E as E1 E2 E3.
  replace x' with x by (rewrite <- E1; field). replace y' with y by (rewrite <- E2; field). replace z' with z by (rewrite <- E3; field). reflexivity.
Qed.
Lemma rod_mul x y z c s c' s' : x * x + y * y + z * z = 1 -> mmul (rod x y z c s) (rod x y z c' s') = rod x y z (c * c' - s * s') (s * c' + c * s').
Proof.
  intros H. assert (Hz : z * z = 1 - x * x - y * y) by lra. unfold mmul, rod, col. cbn [map cols length seq nth]. unfold vdot, vmap2. cbn [combine map rsum fold_right fst snd].
  repeat (f_equal; try ring [Hz]).
Qed.

(** ** rotations of one vector to another *)
Ltac vcalc := cbv [rod mvec cross3 vsub vadd vscale vdivs vdot vmap2 rsum map combine fst snd nth fold_right].
Ltac veq tac := repeat (apply f_equal2; [tac|]); reflexivity.
Lemma cross_cross_l u v : length u = 3%nat -> length v = 3%nat -> cross3 (cross3 u v) u = vsub (vscale (vdot u u) v) (vscale (vdot u v) u).
Proof. intros Hu Hv. destruct (len3 u Hu) as (a & b & c & ->). destruct (len3 v Hv) as (d & e & f & ->). vcalc. veq ltac:(ring). Qed.
Lemma cross_cross_r u v : length u = 3%nat -> length v = 3%nat -> cross3 (cross3 u v) v = vsub (vscale (vdot u v) v) (vscale (vdot v v) u).
Proof. intros Hu Hv. destruct (len3 u Hu) as (a & b & c & ->). destruct (len3 v Hv) as (d & e & f & ->). vcalc. veq ltac:(ring). Qed.
Lemma cross_len u v : length (cross3 u v) = 3%nat. Proof. reflexivity. Qed.
Lemma cross_scale c u v : cross3 (vscale c u) v = vscale c (cross3 u v).
Proof. unfold cross3. rewrite !nth_vscale. cbn [vscale map]. veq ltac:(ring). Qed.
Lemma vdot_neg_inv v : vdot v v <> 0 -> length v = 3%nat -> exists x y z, v = [x; y; z] /\ x * x + y * y + z * z <> 0.
Proof. intros H L. destruct (len3 v L) as (x & y & z & ->). exists x, y, z. split; [reflexivity|]. intros C. apply H. cbn. lra. Qed.

(** turning u by its angle to v around u x v *)
Lemma rod_turn u v x y z t : length u = 3%nat -> length v = 3%nat -> vdot u u <> 0 -> vdot v v <> 0 -> vdot (cross3 u v) (cross3 u v) <> 0 ->
  vdivs (cross3 u v) (vnorm (cross3 u v)) = [x; y; z] -> 0 <= t <= PI -> cos t = vdot u v / (vnorm u * vnorm v) ->
  mvec (rod x y z (cos t) (sin t)) u = vscale (vnorm u / vnorm v) v.
Proof.
  intros Lu Lv Hu Hv Hc E Ht C. apply vnorm_gt0 in Hu, Hv. pose proof (vnorm_gt0 _ Hc) as Hn.
  assert (S : sin t = vnorm (cross3 u v) / (vnorm u * vnorm v)).
  { assert (P : 0 <= sin t) by (apply sin_ge_0; lra). assert (Q : 0 <= vnorm (cross3 u v) / (vnorm u * vnorm v)) by (apply Rmult_le_pos; [lra|apply Rlt_le, Rinv_0_lt_compat; nra]).
    apply Rsqr_inj; [exact P|exact Q|]. pose proof (cos2_sin2 t) as X. rewrite C in X. unfold Rsqr.
    assert (Y : sin t * sin t = 1 - (vdot u v / (vnorm u * vnorm v)) * (vdot u v / (vnorm u * vnorm v))) by lra. rewrite Y.
    pose proof (lagrange_id u v Lu Lv) as L. rewrite <- !vnorm_sq in L.
    transitivity ((vnorm (cross3 u v) * vnorm (cross3 u v)) / ((vnorm u * vnorm v) * (vnorm u * vnorm v))); [rewrite L|]; field; lra. }
  rewrite rod_apply by exact Lu. rewrite <- E. rewrite vdivs_scale, cross_scale, vdot_scale_l, (vdot_sym (cross3 u v) u), cross_dot_l by assumption. rewrite cross_cross_l by assumption.
  rewrite S, C. rewrite <- (vnorm_sq u). destruct (len3 u Lu) as (a & b & c & Eu). destruct (len3 v Lv) as (d & e & f & Ev).
  set (n0 := vnorm u) in *. set (n1 := vnorm v) in *. set (nc := vnorm (cross3 u v)) in *. set (p := vdot u v) in *. clearbody n0 n1 nc p. subst u v. vcalc. veq ltac:(field; lra).
Qed.
Lemma rod_fix x y z c s w : length w = 3%nat -> vdot [x; y; z] w = 0 -> mvec (rod x y z c s) w = vadd (vscale c w) (vscale s (cross3 [x; y; z] w)).
Proof. intros L H. rewrite rod_apply by exact L. rewrite H. destruct (len3 w L) as (p & q & r & ->). vcalc. veq ltac:(ring). Qed.
Lemma rod_axis x y z c s r : x * x + y * y + z * z = 1 -> mvec (rod x y z c s) (vscale r [x; y; z]) = vscale r [x; y; z].
Proof. intros H. assert (Hz : z * z = 1 - x * x - y * y) by lra. vcalc. veq ltac:(ring [Hz]). Qed.
(** parallel vectors *)
Lemma parallel_cases u v : length u = 3%nat -> length v = 3%nat -> vdot u u <> 0 -> vdot v v <> 0 -> vdot (cross3 u v) (cross3 u v) = 0 ->
  (0 < vdot u v -> u = vscale (vnorm u / vnorm v) v) /\ (vdot u v <= 0 -> u = vscale (- (vnorm u / vnorm v)) v).
Proof.
  intros Lu Lv Hu Hv Hc. pose proof (lagrange_id u v Lu Lv) as L. rewrite Hc, <- !vnorm_sq in L. apply vnorm_gt0 in Hu, Hv.
  pose proof (vdot_zero_inv _ Hc) as Z. pose proof (cross_cross_r u v Lu Lv) as E. rewrite Z in E.
  assert (E' : forall i, (i < 3)%nat -> vdot u v * nth i v 0 - vnorm v * vnorm v * nth i u 0 = 0).
  { intros i Hi. apply (f_equal (fun l => nth i l 0)) in E. rewrite nth_vsub in E by (rewrite !vscale_len; congruence). rewrite !nth_vscale, <- (vnorm_sq v) in E. rewrite <- E. destruct i as [|[|[|]]]; try lia; cbn; ring. }
  assert (P : vdot u v = vnorm u * vnorm v \/ vdot u v = - (vnorm u * vnorm v)).
  { assert (X : (vdot u v - vnorm u * vnorm v) * (vdot u v + vnorm u * vnorm v) = 0) by lra. apply Rmult_integral in X. destruct X; [left|right]; lra. }
  split; intros Hs; (apply vec_ext; [rewrite vscale_len; congruence|]); intros i Hi; rewrite Lu in Hi; specialize (E' i Hi); rewrite nth_vscale.
  - destruct P as [P|P]; [|nra]. rewrite P in E'. apply (Rmult_eq_reg_l (vnorm v * vnorm v)); [|nra]. transitivity (vnorm u * vnorm v * nth i v 0); [lra|]. field. lra.
  - destruct P as [P|P]; [nra|]. rewrite P in E'. apply (Rmult_eq_reg_l (vnorm v * vnorm v)); [|nra]. transitivity (- (vnorm u * vnorm v) * nth i v 0); [lra|]. field. lra.
Qed.

(** ** the axis and the angle of a rotation *)
Definition trace3 (m : mat) : R := ent m 0 0 + ent m 1 1 + ent m 2 2.
Lemma acos_sin c : -1 <= c <= 1 -> sin (acos c) = sqrt (1 - c * c).
Proof. intros H. rewrite sin_acos by exact H. f_equal. Qed.
Lemma rot_destruct m : rotation3 m -> exists a b c d e f g h i, m = [[a; b; c]; [d; e; f]; [g; h; i]].
Proof. intros ((L & H) & _). exact (shape3 m L H). Qed.
Lemma trace_range m : rotation3 m -> -1 <= trace3 m <= 3.
Proof.
  intros H. destruct (rot_destruct m H) as (a & b & c & d & e & f & g & h & i & ->). apply rot_elim in H. destruct H as ((H1 & H2 & H3 & H4 & H5 & H6) & D).
  pose proof (ax_norm a b c d e f g h i H1 H2 H3 H4 H5 H6 D) as N. unfold trace3, ent. cbn [nth].
  assert (0 <= (1 + (a + e + i)) * (3 - (a + e + i))) by (rewrite <- N; pose proof (Rle_0_sqr (h - f)); pose proof (Rle_0_sqr (c - g)); pose proof (Rle_0_sqr (d - b)); unfold Rsqr in *; lra).
  clear - H. set (t := a + e + i) in *. clearbody t. split; nra.
Qed.
(** the axis and the sine from the skew part, the cosine from the trace *)
Lemma axis_repr a b c d e f g h i : rotation3 [[a; b; c]; [d; e; f]; [g; h; i]] -> a + e + i <> 3 -> a + e + i <> -1 ->
  let n := vnorm [h - f; c - g; d - b] in
  0 < n /\ n * n = (1 + (a + e + i)) * (3 - (a + e + i)) /\ (h - f) / n * ((h - f) / n) + (c - g) / n * ((c - g) / n) + (d - b) / n * ((d - b) / n) = 1 /\
  rod ((h - f) / n) ((c - g) / n) ((d - b) / n) ((a + e + i - 1) / 2) (n / 2) = [[a; b; c]; [d; e; f]; [g; h; i]].
Proof.
  intros H T3 T1 n0. pose proof (trace_range _ H) as TR. apply rot_elim in H. destruct H as ((H1 & H2 & H3 & H4 & H5 & H6) & D). unfold trace3, ent in TR. cbn [nth] in TR. set (t := a + e + i) in *.
  pose proof (ax_norm a b c d e f g h i H1 H2 H3 H4 H5 H6 D) as N. fold t in N. pose proof (ax00 a b c d e f g h i H1 H2 H3 H4 H5 H6 D) as A00. pose proof (ax11 a b c d e f g h i H1 H2 H3 H4 H5 H6 D) as A11. pose proof (ax22 a b c d e f g h i H1 H2 H3 H4 H5 H6 D) as A22.
  pose proof (ax01 a b c d e f g h i H1 H2 H3 H4 H5 H6 D) as A01. pose proof (ax02 a b c d e f g h i H1 H2 H3 H4 H5 H6 D) as A02. pose proof (ax12 a b c d e f g h i H1 H2 H3 H4 H5 H6 D) as A12. fold t in A00, A11, A22, A01, A02, A12.
  assert (Dn : vdot [h - f; c - g; d - b] [h - f; c - g; d - b] = (1 + t) * (3 - t)) by (rewrite <- N; vcalc; ring).
  assert (Pn : 0 < (1 + t) * (3 - t)) by (apply Rmult_lt_0_compat; lra).
  pose proof (vnorm_gt0 [h - f; c - g; d - b] ltac:(lra)) as Hn. pose proof (vnorm_sq [h - f; c - g; d - b]) as Sn. rewrite Dn in Sn. fold n0 in Hn, Sn. set (n := n0) in *. clearbody n.
  assert (Q : forall X Y, X / n * (Y / n) = X * Y / ((1 + t) * (3 - t))) by (intros X Y; rewrite <- Sn; field; lra).
  split; [exact Hn|]. split; [exact Sn|].
  split; [rewrite !Q; transitivity (((h - f) * (h - f) + (c - g) * (c - g) + (d - b) * (d - b)) / ((1 + t) * (3 - t))); [field; lra|rewrite N; field; lra]|].
  assert (W : forall X, n / 2 * (X / n) = X / 2) by (intros X; field; lra).
  unfold rod. rewrite !W, !Q. rewrite (Rmult_comm (c - g) (h - f)), (Rmult_comm (d - b) (h - f)), (Rmult_comm (d - b) (c - g)). rewrite A00, A11, A22, A01, A02, A12.
  repeat (apply f_equal2; [|]); try reflexivity; field; lra.
Qed.
Lemma to_axis_generic m : rotation3 m -> / 10 ^ 14 <= Rabs (trace3 m - 3) -> / 10 ^ 10 <= Rabs (trace3 m + 1) ->
  exists x y z t, rotation_matrix_to_axis_angle m = Ok ([x; y; z], t, m) /\ x * x + y * y + z * z = 1 /\ 0 <= t <= PI /\ cos t = (trace3 m - 1) / 2 /\ rod x y z (cos t) (sin t) = m.
Proof.
  intros H B1 B2. pose proof (trace_range m H) as TR. destruct (rot_destruct m H) as (a & b & c & d & e & f & g & h & i & ->).
  assert (P14 : 0 < / 10 ^ 14) by (apply Rinv_0_lt_compat, pow_lt; lra). assert (P10 : 0 < / 10 ^ 10) by (apply Rinv_0_lt_compat, pow_lt; lra).
  assert (Et : trace3 [[a; b; c]; [d; e; f]; [g; h; i]] = a + e + i) by reflexivity.
  destruct (axis_repr a b c d e f g h i H) as (Hn & Sn & U & ER).
  { intros C. rewrite Et, C in B1. replace (3 - 3) with 0 in B1 by ring. rewrite Rabs_R0 in B1. lra. } { intros C. rewrite Et, C in B2. replace (-1 + 1) with 0 in B2 by ring. rewrite Rabs_R0 in B2. lra. }
  unfold rotation_matrix_to_axis_angle. fold (trace3 [[a; b; c]; [d; e; f]; [g; h; i]]). rewrite (rltb_f _ (/ 10 ^ 14)), (rltb_f _ (/ 10 ^ 10)) by assumption.
  unfold ent. cbn [nth]. rewrite Et in *. set (t := a + e + i) in *. set (n := vnorm [h - f; c - g; d - b]) in *. clearbody n.
  assert (EC : constrain_to_range ((t - 1) / 2) (-1) 1 = (t - 1) / 2).
  { unfold constrain_to_range. repeat (first [rewrite rltb_f by lra|rewrite rleb_f by lra]); try reflexivity; unfold Rmin, Rmax; repeat destruct (Rle_dec _ _); lra. }
  rewrite EC. unfold vdivs. cbn [map]. exists ((h - f) / n), ((c - g) / n), ((d - b) / n), (acos ((t - 1) / 2)).
  split; [reflexivity|]. split; [exact U|]. split; [apply acos_bound|]. rewrite cos_acos by lra. split; [reflexivity|].
  rewrite acos_sin by lra. replace (sqrt (1 - (t - 1) / 2 * ((t - 1) / 2))) with (n / 2); [exact ER|].
  symmetry. transitivity (sqrt (n / 2 * (n / 2))); [f_equal; transitivity (n * n / 4); [rewrite Sn; field|field]|apply sqrt_square; lra].
Qed.
Lemma sum_sq_zero x y z : x * x + y * y + z * z = 0 -> x = 0 /\ y = 0 /\ z = 0.
Proof. intros H. repeat split; nra. Qed.
Lemma to_axis_identity m : rotation3 m -> trace3 m = 3 -> m = mid3 /\ rotation_matrix_to_axis_angle m = Ok ([1; 0; 0], 0, m).
Proof.
  intros H T. destruct (rot_destruct m H) as (a & b & c & d & e & f & g & h & i & ->). apply rot_elim in H. destruct H as ((H1 & H2 & H3 & H4 & H5 & H6) & D). unfold trace3, ent in T. cbn [nth] in T.
  assert (a <= 1) by nra. assert (e <= 1) by nra. assert (i <= 1) by nra. assert (a = 1) by lra. assert (e = 1) by lra. assert (i = 1) by lra. subst a e i.
  destruct (sum_sq_zero d g 0 ltac:(lra)) as (-> & -> & _). destruct (sum_sq_zero b h 0 ltac:(lra)) as (-> & -> & _). destruct (sum_sq_zero c f 0 ltac:(lra)) as (-> & -> & _).
  split; [reflexivity|]. unfold rotation_matrix_to_axis_angle, ent. cbn [nth]. rewrite rltb_t. 2: { replace (1 + 1 + 1 - 3) with 0 by ring. rewrite Rabs_R0. apply Rinv_0_lt_compat, pow_lt. lra. }
  rewrite rltb_f; [reflexivity|]. rewrite (vnorm_eq _ 0); [lra|lra|vcalc; ring].
Qed.
Lemma argmax3_ok a b c : (argmax3 a b c < 3)%nat /\ a <= nth (argmax3 a b c) [a; b; c] 0 /\ b <= nth (argmax3 a b c) [a; b; c] 0 /\ c <= nth (argmax3 a b c) [a; b; c] 0.
Proof.
  unfold argmax3, rltb. destruct (Rlt_dec a b), (Rlt_dec b c), (Rlt_dec a c); cbn [nth]; repeat split; lia || lra.
Qed.
Lemma set_nth3 (x y z w : R) : set_nth 0 w [x; y; z] = [w; y; z] /\ set_nth 1 w [x; y; z] = [x; w; z] /\ set_nth 2 w [x; y; z] = [x; y; w].
Proof. repeat split. Qed.
(** half turns: the result is right, but a column of the matrix is overwritten *)
Lemma to_axis_pi m : rotation3 m -> trace3 m = -1 -> exists x y z i, rotation_matrix_to_axis_angle m = Ok ([x; y; z], PI, set_col m i [x; y; z]) /\ (i < 3)%nat /\
  x * x + y * y + z * z = 1 /\ rod x y z (cos PI) (sin PI) = m.
Proof.
  intros H T. destruct (rot_destruct m H) as (a & b & c & d & e & f & g & h & i & ->). apply rot_elim in H. destruct H as ((H1 & H2 & H3 & H4 & H5 & H6) & D).
  pose proof (ax_norm a b c d e f g h i H1 H2 H3 H4 H5 H6 D) as N. unfold trace3, ent in T. cbn [nth] in T. replace ((1 + (a + e + i)) * (3 - (a + e + i))) with 0 in N by (rewrite T; ring).
  destruct (sum_sq_zero _ _ _ N) as (S1 & S2 & S3). assert (h = f) by lra. assert (g = c) by lra. assert (d = b) by lra. clear S1 S2 S3 N. subst h g d.
  pose proof (cof00 a b c b e f c f i H1 H4 H5 D) as C00. pose proof (cof11 a b c b e f c f i H2 H4 H6 D) as C11. pose proof (cof22 a b c b e f c f i H3 H5 H6 D) as C22.
  pose proof (cof01 a b c b e f c f i H2 H4 H6 D) as C01. pose proof (cof02 a b c b e f c f i H3 H5 H6 D) as C02. pose proof (cof12 a b c b e f c f i H3 H5 H6 D) as C12.
  unfold rotation_matrix_to_axis_angle, ent. cbn [nth]. rewrite T. assert (P14 : 0 < / 10 ^ 14) by (apply Rinv_0_lt_compat, pow_lt; lra). assert (P10 : 0 < / 10 ^ 10) by (apply Rinv_0_lt_compat, pow_lt; lra).
  rewrite rltb_f. 2: { replace (-1 - 3) with (-4) by ring. rewrite Rabs_left by lra. replace (- (-4)) with 4 by ring. apply Rle_trans with 1; [|lra]. rewrite <- Rinv_1. apply Rinv_le_contravar; [lra|]. apply pow_R1_Rle. lra. }
  rewrite rltb_t by (replace (-1 + 1) with 0 by ring; rewrite Rabs_R0; exact P10).
  rewrite rltb_t. 2: { rewrite (vnorm_eq _ 0); [rewrite Rabs_R0; exact P14|lra|vcalc; ring]. }
  rewrite cos_PI, sin_PI. destruct (argmax3_ok a e i) as (L & M1 & M2 & M3). destruct (argmax3 a e i) as [|[|[|]]]; try lia; cbn [nth col map] in *.
  - rewrite (proj1 (set_nth3 a b c (a + 1))). assert (P : 0 < a + 1) by lra. assert (Dn : vdot [a + 1; b; c] [a + 1; b; c] = 2 * (a + 1)) by (vcalc; lra).
    pose proof (vnorm_gt0 [a + 1; b; c] ltac:(lra)) as Hn. pose proof (vnorm_sq [a + 1; b; c]) as Sn. rewrite Dn in Sn. set (n := vnorm [a + 1; b; c]) in *. clearbody n.
    assert (Q : forall X Y, X / n * (Y / n) = X * Y / (2 * (a + 1))) by (intros X Y; rewrite <- Sn; field; lra).
    exists ((a + 1) / n), (b / n), (c / n), 0%nat. split; [reflexivity|]. split; [lia|]. split; [rewrite !Q; transitivity (((a + 1) * (a + 1) + b * b + c * c) / (2 * (a + 1))); [field; lra|]; replace ((a + 1) * (a + 1) + b * b + c * c) with (2 * (a + 1)) by lra; field; lra|].
    assert (B2 : b * b = (a + 1) * (e + 1)) by lra. assert (B3 : c * c = (a + 1) * (i + 1)) by lra. assert (B4 : b * c = (a + 1) * f) by lra.
    unfold rod. rewrite !Q, !(Rmult_comm c b), B2, B3, B4. repeat (apply f_equal2; [|]); try reflexivity; field; lra.
  - rewrite (proj1 (proj2 (set_nth3 b e f (e + 1)))). assert (P : 0 < e + 1) by lra. assert (Dn : vdot [b; e + 1; f] [b; e + 1; f] = 2 * (e + 1)) by (vcalc; lra).
    pose proof (vnorm_gt0 [b; e + 1; f] ltac:(lra)) as Hn. pose proof (vnorm_sq [b; e + 1; f]) as Sn. rewrite Dn in Sn. set (n := vnorm [b; e + 1; f]) in *. clearbody n.
    assert (Q : forall X Y, X / n * (Y / n) = X * Y / (2 * (e + 1))) by (intros X Y; rewrite <- Sn; field; lra).
    exists (b / n), ((e + 1) / n), (f / n), 1%nat. split; [reflexivity|]. split; [lia|]. split; [rewrite !Q; transitivity ((b * b + (e + 1) * (e + 1) + f * f) / (2 * (e + 1))); [field; lra|]; replace (b * b + (e + 1) * (e + 1) + f * f) with (2 * (e + 1)) by lra; field; lra|].
    assert (B2 : b * b = (a + 1) * (e + 1)) by lra. assert (B3 : f * f = (e + 1) * (i + 1)) by lra. assert (B4 : b * f = (e + 1) * c) by lra.
    unfold rod. rewrite !Q, !(Rmult_comm f b), B2, B3, B4. repeat (apply f_equal2; [|]); try reflexivity; field; lra.
  - rewrite (proj2 (proj2 (set_nth3 c f i (i + 1)))). assert (P : 0 < i + 1) by lra. assert (Dn : vdot [c; f; i + 1] [c; f; i + 1] = 2 * (i + 1)) by (vcalc; lra).
    pose proof (vnorm_gt0 [c; f; i + 1] ltac:(lra)) as Hn. pose proof (vnorm_sq [c; f; i + 1]) as Sn. rewrite Dn in Sn. set (n := vnorm [c; f; i + 1]) in *. clearbody n.
    assert (Q : forall X Y, X / n * (Y / n) = X * Y / (2 * (i + 1))) by (intros X Y; rewrite <- Sn; field; lra).
    exists (c / n), (f / n), ((i + 1) / n), 2%nat. split; [reflexivity|]. split; [lia|]. split; [rewrite !Q; transitivity ((c * c + f * f + (i + 1) * (i + 1)) / (2 * (i + 1))); [field; lra|]; replace (c * c + f * f + (i + 1) * (i + 1)) with (2 * (i + 1)) by lra; field; lra|].
    assert (B2 : c * c = (a + 1) * (i + 1)) by lra. assert (B3 : f * f = (e + 1) * (i + 1)) by lra. assert (B4 : c * f = (i + 1) * b) by lra.
    unfold rod. rewrite !Q, !(Rmult_comm f c), B2, B3, B4. repeat (apply f_equal2; [|]); try reflexivity; field; lra.
Qed.

(** ** close to the identity *)
Lemma cos_lower x : 0 <= x -> 1 - x * x / 2 <= cos x.
Proof.
  intros H. replace (cos x) with (1 - 2 * (sin (x / 2) * sin (x / 2))) by (replace x with (2 * (x / 2)) at 3 by field; rewrite cos_2a; pose proof (cos2_sin2 (x / 2)); lra).
  assert (A : Rabs (sin (x / 2)) <= x / 2).
  { destruct (Req_dec x 0) as [->|N]; [replace (0 / 2) with 0 by field; rewrite sin_0, Rabs_R0; lra|]. destruct (Rlt_or_le (x / 2) 1) as [L|L].
    - pose proof (sin_lt_x (x / 2) ltac:(lra)) as S. rewrite Rabs_right; [lra|]. apply Rle_ge, sin_ge_0; [lra|]. pose proof PI2_3_2. lra.
    - pose proof (SIN_bound (x / 2)). apply Rabs_le. lra. }
  pose proof (sq_abs (sin (x / 2))) as S. pose proof (Rabs_pos (sin (x / 2))). nra.
Qed.
Lemma sin_lower x : 0 < x <= 1 -> x - sin x <= x * (x * x / 2).
Proof.
  intros H. destruct (MVT_cor2 sin cos 0 x ltac:(lra)) as (y & E & Hy); [intros; apply derivable_pt_lim_sin|]. rewrite sin_0 in E.
  pose proof (cos_lower y ltac:(lra)) as C. assert (y * y <= x * x) by nra. nra.
Qed.
Lemma rod_close x y z c s c' s' p q : x * x + y * y + z * z = 1 -> (p < 3)%nat -> (q < 3)%nat -> Rabs (ent (rod x y z c' s') p q - ent (rod x y z c s) p q) <= Rabs (c' - c) + Rabs (s' - s).
Proof.
  intros H Hp Hq. assert (B : forall r k, -1 <= r <= 1 -> -1 <= k <= 1 -> Rabs ((c' - c) * r + (s' - s) * k) <= Rabs (c' - c) + Rabs (s' - s)).
  { intros r k Hr Hk. eapply Rle_trans; [apply Rabs_triang|]. rewrite !Rabs_mult. assert (Rabs r <= 1) by (apply Rabs_le; lra). assert (Rabs k <= 1) by (apply Rabs_le; lra).
    pose proof (Rabs_pos (c' - c)). pose proof (Rabs_pos (s' - s)). pose proof (Rabs_pos r). pose proof (Rabs_pos k). nra. }
  assert (X : -1 <= x <= 1) by nra. assert (Y : -1 <= y <= 1) by nra. assert (Z : -1 <= z <= 1) by nra.
  assert (XY : -1 <= - (x * y) <= 1) by nra. assert (XZ : -1 <= - (x * z) <= 1) by nra. assert (YZ : -1 <= - (y * z) <= 1) by nra.
  destruct p as [|[|[|]]]; try lia; destruct q as [|[|[|]]]; try lia; unfold ent, rod; cbn [nth].
  - eapply Rle_trans; [|apply (B (1 - x * x) 0); nra]. right. f_equal. ring.
  - eapply Rle_trans; [|apply (B (- (x * y)) (- z)); lra]. right. f_equal. ring.
  - eapply Rle_trans; [|apply (B (- (x * z)) y); lra]. right. f_equal. ring.
  - eapply Rle_trans; [|apply (B (- (x * y)) z); lra]. right. f_equal. ring.
  - eapply Rle_trans; [|apply (B (1 - y * y) 0); nra]. right. f_equal. ring.
  - eapply Rle_trans; [|apply (B (- (y * z)) (- x)); lra]. right. f_equal. ring.
  - eapply Rle_trans; [|apply (B (- (x * z)) (- y)); lra]. right. f_equal. ring.
  - eapply Rle_trans; [|apply (B (- (y * z)) x); lra]. right. f_equal. ring.
  - eapply Rle_trans; [|apply (B (1 - z * z) 0); nra]. right. f_equal. ring.
Qed.
Lemma to_axis_near_identity m : rotation3 m -> Rabs (trace3 m - 3) < / 10 ^ 14 -> trace3 m <> 3 ->
  exists x y z t, rotation_matrix_to_axis_angle m = Ok ([x; y; z], t, m) /\ x * x + y * y + z * z = 1 /\ 0 <= t <= PI /\
    forall p q, (p < 3)%nat -> (q < 3)%nat -> Rabs (ent (rod x y z (cos t) (sin t)) p q - ent m p q) <= 2 * / 10 ^ 14.
Proof.
  intros H B N3. pose proof (trace_range m H) as TR. destruct (rot_destruct m H) as (a & b & c & d & e & f & g & h & i & ->).
  assert (P14 : 0 < / 10 ^ 14) by (apply Rinv_0_lt_compat, pow_lt; lra). assert (L14 : / 10 ^ 14 < / 100) by (apply Rinv_lt_contravar; cbn [pow]; lra).
  assert (Et : trace3 [[a; b; c]; [d; e; f]; [g; h; i]] = a + e + i) by reflexivity. rewrite Rabs_left1 in B by lra.
  destruct (axis_repr a b c d e f g h i H) as (Hn & Sn & U & ER); [rewrite <- Et; exact N3|rewrite <- Et; lra|].
  assert (EQ : rotation_matrix_to_axis_angle [[a; b; c]; [d; e; f]; [g; h; i]] = Ok (vdivs [h - f; c - g; d - b] (vnorm [h - f; c - g; d - b]), / 2 * vnorm [h - f; c - g; d - b], [[a; b; c]; [d; e; f]; [g; h; i]])).
  { unfold rotation_matrix_to_axis_angle. fold (trace3 [[a; b; c]; [d; e; f]; [g; h; i]]). rewrite rltb_t by (rewrite Rabs_left1; lra).
    unfold ent. cbn [nth]. rewrite rltb_t by exact Hn. reflexivity. }
  rewrite EQ. clear EQ. rewrite Et in *. set (t := a + e + i) in *. set (n := vnorm [h - f; c - g; d - b]) in *. clearbody n.
  unfold vdivs. cbn [map]. replace (/ 2 * n) with (n / 2) by field. exists ((h - f) / n), ((c - g) / n), ((d - b) / n), (n / 2). split; [reflexivity|]. split; [exact U|].
  set (s := n / 2) in *. assert (Ss : s * s = (1 + t) * (3 - t) / 4) by (unfold s; rewrite <- Sn; field). assert (Ps : 0 < s) by (unfold s; lra).
  assert (S2 : s * s <= 3 - t) by nra. assert (S1 : s <= 1) by nra. split; [pose proof PI2_3_2; lra|].
  intros p q Hp Hq. rewrite <- ER. eapply Rle_trans; [apply rod_close; [exact U|exact Hp|exact Hq]|].
  assert (C1 : Rabs (cos s - (t - 1) / 2) <= / 10 ^ 14 / 2).
  { pose proof (cos_lower s ltac:(lra)). pose proof (COS_bound s). apply Rabs_le. split; lra. }
  assert (C2 : Rabs (sin s - s) <= / 10 ^ 14 / 2).
  { pose proof (sin_lower s ltac:(lra)). pose proof (sin_lt_x s Ps). apply Rabs_le. split; [|lra]. assert (s * (s * s / 2) <= s * s / 2) by nra. lra. }
  lra.
Qed.

(** ** products *)
Lemma rot_mul m n : rotation3 m -> rotation3 n -> rotation3 (mmul m n).
Proof.
  intros Hm Hn. destruct (rot_destruct m Hm) as (a & b & c & d & e & f & g & h & i & ->). destruct (rot_destruct n Hn) as (a' & b' & c' & d' & e' & f' & g' & h' & i' & ->).
  apply rot_elim in Hm, Hn. destruct Hm as ((H1 & H2 & H3 & H4 & H5 & H6) & D). destruct Hn as ((G1 & G2 & G3 & G4 & G5 & G6) & D').
  unfold mmul, col. cbn [map cols length seq nth]. unfold vdot, vmap2, rsum. cbn [combine map fst snd fold_right].
  assert (K : forall p q r p' q' r', (a * p + b * q + c * r) * (a * p' + b * q' + c * r') + (d * p + e * q + f * r) * (d * p' + e * q' + f * r') + (g * p + h * q + i * r) * (g * p' + h * q' + i * r') = p * p' + q * q' + r * r').
  { intros p q r p' q' r'. transitivity ((a * a + d * d + g * g) * (p * p') + (b * b + e * e + h * h) * (q * q') + (c * c + f * f + i * i) * (r * r') + (a * b + d * e + g * h) * (p * q' + q * p') + (a * c + d * f + g * i) * (p * r' + r * p') + (b * c + e * f + h * i) * (q * r' + r * q')); [ring|].
    rewrite H1, H2, H3, H4, H5, H6. ring. }
  assert (Z : forall x y z, x + (y + (z + 0)) = x + y + z) by (intros; ring). rewrite !Z.
  apply rot_intro; rewrite ?K; try assumption.
  transitivity ((a * (e * i - f * h) - b * (d * i - f * g) + c * (d * h - e * g)) * (a' * (e' * i' - f' * h') - b' * (d' * i' - f' * g') + c' * (d' * h' - e' * g'))); [ring|rewrite D, D'; ring].
Qed.
Lemma rot_dot m u v : rotation3 m -> length u = 3%nat -> length v = 3%nat -> vdot (mvec m u) (mvec m v) = vdot u v.
Proof.
  intros Hm Lu Lv. destruct (rot_destruct m Hm) as (a & b & c & d & e & f & g & h & i & ->). apply rot_elim in Hm. destruct Hm as ((H1 & H2 & H3 & H4 & H5 & H6) & D).
  destruct (len3 u Lu) as (p & q & r & ->). destruct (len3 v Lv) as (p' & q' & r' & ->). vcalc.
  transitivity ((a * a + d * d + g * g) * (p * p') + (b * b + e * e + h * h) * (q * q') + (c * c + f * f + i * i) * (r * r') + (a * b + d * e + g * h) * (p * q' + q * p') + (a * c + d * f + g * i) * (p * r' + r * p') + (b * c + e * f + h * i) * (q * r' + r * q')); [ring|].
  rewrite H1, H2, H3, H4, H5, H6. ring.
Qed.
Lemma rot_cross m u v : rotation3 m -> length u = 3%nat -> length v = 3%nat -> cross3 (mvec m u) (mvec m v) = mvec m (cross3 u v).
Proof.
  intros Hm Lu Lv. destruct (rot_destruct m Hm) as (a & b & c & d & e & f & g & h & i & ->). apply rot_elim in Hm. destruct Hm as ((H1 & H2 & H3 & H4 & H5 & H6) & D).
  pose proof (cof00 a b c d e f g h i H1 H4 H5 D) as C00. pose proof (cof10 a b c d e f g h i H1 H4 H5 D) as C10. pose proof (cof20 a b c d e f g h i H1 H4 H5 D) as C20.
  pose proof (cof01 a b c d e f g h i H2 H4 H6 D) as C01. pose proof (cof11 a b c d e f g h i H2 H4 H6 D) as C11. pose proof (cof21 a b c d e f g h i H2 H4 H6 D) as C21.
  pose proof (cof02 a b c d e f g h i H3 H5 H6 D) as C02. pose proof (cof12 a b c d e f g h i H3 H5 H6 D) as C12. pose proof (cof22 a b c d e f g h i H3 H5 H6 D) as C22.
  destruct (len3 u Lu) as (p & q & r & ->). destruct (len3 v Lv) as (p' & q' & r' & ->). vcalc. symmetry.
  apply f_equal2; [|apply f_equal2; [|apply f_equal2; [|reflexivity]]].
  - rewrite C00, C01, C02 at 1. ring.
  - rewrite C10, C11, C12 at 1. ring.
  - rewrite C20, C21, C22 at 1. ring.
Qed.
Lemma col_mmul (m n : mat) j : (j < cols n)%nat -> col (mmul m n) j = mvec m (col n j).
Proof.
  intros H. unfold col at 1, mmul, mvec. rewrite map_map. apply map_ext. intros r. rewrite (nth_indep _ 0 (vdot r (col n 0))) by (rewrite map_length, seq_length; exact H).
  rewrite (map_nth (fun j => vdot r (col n j))), seq_nth by exact H. reflexivity.
Qed.
Lemma mvec_sub m u v : length u = length v -> mvec m (vsub u v) = vsub (mvec m u) (mvec m v).
Proof. intros H. induction m as [|r m IH]; [reflexivity|]. cbn [mvec map]. fold (mvec m (vsub u v)). rewrite vdot_sub_r by exact H. rewrite IH. reflexivity. Qed.
Lemma vsub_shift u v w : length u = length w -> length v = length w -> vsub (vadd u w) (vadd v w) = vsub u v.
Proof.
  intros Hu Hv. apply vec_ext; [rewrite !vsub_len, !vadd_len by (rewrite ?vadd_len; congruence); reflexivity|]. intros i _.
  rewrite !nth_vsub, !nth_vadd by (rewrite ?vadd_len; congruence). ring.
Qed.
