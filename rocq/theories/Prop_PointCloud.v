(** Properties C109 and C110: embedding, mean, median and principal axis of point clouds. *)
From Coq Require Import Reals Lra Psatz Lia Permutation Sorted.
From Coquelicot Require Import Coquelicot.
From Verif Require Import Base MultiIndexFacts RVec Angle AngleFacts RotFacts TriFacts MeshNormalsFacts PointCloud PointCloudFacts.
From Verif Require Permutations PermFacts LocalToGlobalFacts.
Local Open Scope R_scope.

(** [points] is an array with [m] columns *)
Definition cloud (m : nat) (points : list vec) : Prop := forall x, In x points -> length x = m.

(** ** C109: embedding *)
Theorem C109_embed : forall p n, (length p < n)%nat -> exists q, embed_point_in_rn p n = Ok q /\ length q = n /\ (forall i, nth i q 0 = nth i p 0) /\ firstn (length p) q = p.
Proof.
  intros p n H. unfold embed_point_in_rn. replace (length p <? n)%nat with true by (symmetry; apply Nat.ltb_lt, H). cbn [assert_ bind]. eexists. split; [reflexivity|]. split; [rewrite app_length, repeat_length; lia|]. split.
  - intros i. destruct (Nat.lt_ge_cases i (length p)) as [Hi|Hi]; [apply app_nth1, Hi|]. rewrite app_nth2 by exact Hi. rewrite nth_repeat. symmetry. apply nth_overflow, Hi.
  - rewrite firstn_app, Nat.sub_diag, firstn_all. apply app_nil_r.
Qed.
Print Assumptions C109_embed.
Theorem C109_embed_isometry : forall p q n, length p = length q -> (length p < n)%nat -> exists p' q', embed_point_in_rn p n = Ok p' /\ embed_point_in_rn q n = Ok q' /\ vdot p' q' = vdot p q /\ vnorm (vsub p' q') = vnorm (vsub p q).
Proof.
  intros p q n E H. destruct (C109_embed p n H) as (p' & Ep & Lp & Np & _). destruct (C109_embed q n ltac:(lia)) as (q' & Eq & Lq & Nq & _). exists p', q'. split; [exact Ep|]. split; [exact Eq|].
  assert (D : forall u v u' v' : vec, length u = length v -> (length u <= n)%nat -> length u' = n -> length v' = n -> (forall i, nth i u' 0 = nth i u 0) -> (forall i, nth i v' 0 = nth i v 0) -> vdot u' v' = vdot u v).
  { intros u v u' v' E1 E2 L1 L2 H1 H2. rewrite (vdot_seq n u' v' L1 L2), (vdot_seq (length u) u v eq_refl (eq_sym E1)). replace n with (length u + (n - length u))%nat by lia. rewrite seq_app, map_app, rsum_app.
    rewrite (rsum_ext _ (fun _ => 0) (seq (0 + length u) (n - length u))). 2:{ intros i Hi. apply in_seq in Hi. rewrite H1, nth_overflow by lia. ring. }
    rewrite rsum_const, Rmult_0_r, Rplus_0_r. apply rsum_ext. intros i _. rewrite H1, H2. reflexivity. }
  split; [apply D; auto; lia|]. unfold vnorm. f_equal. assert (L0 : length (vsub p q) = length p) by (apply vsub_len; congruence). assert (L0' : length (vsub p' q') = n) by (rewrite vsub_len by congruence; exact Lp). apply D; try lia; try reflexivity; intros i; rewrite !nth_vsub by congruence; rewrite Np, Nq; reflexivity.
Qed.
Print Assumptions C109_embed_isometry.
Theorem C109_embed_cloud : forall m points n, cloud m points -> ((m < n)%nat -> exists rows, embed_point_cloud_in_rn m points n = Ok rows /\ Forall2 (fun p q => embed_point_in_rn p n = Ok q) points rows) /\
  ((n <= m)%nat -> embed_point_cloud_in_rn m points n = Err AssertionError /\ forall p, In p points -> embed_point_in_rn p n = Err AssertionError).
Proof.
  intros m points n HC. split; intros H.
  - unfold embed_point_cloud_in_rn. replace (m <? n)%nat with true by (symmetry; apply Nat.ltb_lt, H). cbn [assert_ bind]. eexists. split; [reflexivity|]. induction points as [|p l IH]; cbn [map]; constructor.
    + unfold embed_point_in_rn. rewrite (HC p ltac:(now left)). replace (m <? n)%nat with true by (symmetry; apply Nat.ltb_lt, H). reflexivity.
    + apply IH. intros x Hx. apply HC. now right.
  - split; [unfold embed_point_cloud_in_rn; replace (m <? n)%nat with false by (symmetry; apply Nat.ltb_ge, H); reflexivity|]. intros p Hp. unfold embed_point_in_rn. rewrite (HC p Hp). replace (m <? n)%nat with false by (symmetry; apply Nat.ltb_ge, H). reflexivity.
Qed.
Print Assumptions C109_embed_cloud.
Example C109_embed_ex : embed_point_in_rn [1; 1] 3 = Ok [1; 1; 0] /\ embed_point_cloud_in_rn 2 [[0; 0]; [1; 1]] 3 = Ok [[0; 0; 0]; [1; 1; 0]]. Proof. split; reflexivity. Qed.

(** ** C109: the mean *)
(** sum of squared distances to [z] *)
Definition squares (points : list vec) (z : vec) : R := rsum (map (fun x : vec => vdot (vsub x z) (vsub x z)) points).
Lemma mean_ok m points : cloud m points -> points <> [] -> exists c, mean m points = Some c /\ length c = m /\ forall j, (j < m)%nat -> rsum (map (fun x : vec => nth j x 0) points) = INR (length points) * nth j c 0.
Proof.
  intros HC HN. unfold mean. destruct points as [|p0 l] eqn:E; [contradiction|]. rewrite <- E in *. eexists. split; [reflexivity|]. split; [rewrite map_length, seq_length; reflexivity|]. intros j Hj. rewrite nth_map_seq by exact Hj. unfold column.
  assert (INR (length points) <> 0) by (rewrite E; apply not_0_INR; discriminate). field. assumption.
Qed.
Lemma mean_dot m points c w : cloud m points -> mean m points = Some c -> length w = m -> rsum (map (fun x : vec => vdot (vsub x c) w) points) = 0.
Proof.
  intros HC E Lw. assert (HN : points <> []) by (intros ->; discriminate). destruct (mean_ok m points HC HN) as (c' & E' & Lc & N). rewrite E in E'. injection E' as <-.
  rewrite (rsum_ext _ (fun x : vec => rsum (map (fun j => (nth j x 0 - nth j c 0) * nth j w 0) (seq 0 m)))).
  2:{ intros x Hx. pose proof (HC x Hx) as Lx. rewrite (vdot_seq m) by (try assumption; rewrite vsub_len; congruence). apply rsum_ext. intros j _. rewrite nth_vsub by (rewrite (HC x Hx); congruence). reflexivity. }
  rewrite rsum_swap. rewrite (rsum_ext _ (fun _ => 0)); [rewrite rsum_const; ring|]. intros j Hj. apply in_seq in Hj.
  rewrite (rsum_ext _ (fun x : vec => nth j w 0 * nth j x 0 + - (nth j c 0 * nth j w 0))) by (intros; cbv beta; ring). rewrite rsum_map_add, rsum_map_scale, rsum_const, N by lia. cbv beta. change (nth j w 0 * (INR (length points) * nth j c 0) + INR (length points) * - (nth j c 0 * nth j w 0) = 0). ring.
Qed.
Lemma squares_shift m points c z : cloud m points -> mean m points = Some c -> length z = m -> squares points z = squares points c + INR (length points) * vdot (vsub c z) (vsub c z).
Proof.
  intros HC E Lz. assert (HN : points <> []) by (intros ->; discriminate). destruct (mean_ok m points HC HN) as (c' & E' & Lc & _). rewrite E in E'. injection E' as <-.
  assert (Ld : length (vsub c z) = m) by (rewrite vsub_len; congruence). pose proof (mean_dot m points c (vsub c z) HC E Ld) as Z. unfold squares.
  rewrite (rsum_ext (fun x : vec => vdot (vsub x z) (vsub x z)) (fun x : vec => vdot (vsub x c) (vsub x c) + (2 * vdot (vsub x c) (vsub c z) + vdot (vsub c z) (vsub c z)))).
  - rewrite rsum_map_add, rsum_map_add, rsum_map_scale, rsum_const, Z. ring.
  - intros x Hx. pose proof (HC x Hx) as Lx. assert (V : vsub x z = vadd (vsub x c) (vsub c z)) by vring. rewrite V. assert (Lxc : length (vsub x c) = m) by (rewrite vsub_len; congruence). rewrite vdot_add_l, !vdot_add_r by congruence. rewrite (vdot_sym (vsub c z) (vsub x c)). ring.
Qed.
(** the deviations sum to zero; the mean is the only minimum of the sum of the squared distances *)
Theorem C109_mean : forall m points, cloud m points -> points <> [] -> exists c, mean m points = Some c /\ length c = m /\
  (forall j, (j < m)%nat -> rsum (map (fun x : vec => nth j x 0 - nth j c 0) points) = 0) /\
  forall z, length z = m -> squares points c <= squares points z /\ (squares points z <= squares points c -> z = c).
Proof.
  intros m points HC HN. destruct (mean_ok m points HC HN) as (c & E & Lc & N). exists c. split; [exact E|]. split; [exact Lc|]. split.
  - intros j Hj. rewrite (rsum_ext _ (fun x : vec => nth j x 0 + - nth j c 0)) by (intros; ring). rewrite rsum_map_add, rsum_const, N by exact Hj. ring.
  - intros z Lz. pose proof (squares_shift m points c z HC E Lz) as S. pose proof (vdot_pos (vsub c z)) as P. assert (P0 : 0 < INR (length points)) by (apply lt_0_INR; destruct points; [contradiction|cbn; lia]). split; [nra|]. intros H.
    assert (Z : vdot (vsub c z) (vsub c z) = 0) by nra. apply vdot_zero_inv in Z. apply vec_ext; [congruence|]. intros i _. pose proof (f_equal (fun w => nth i w 0) Z) as J. cbn beta in J. rewrite nth_vsub, nth_vzero in J by congruence. lra.
Qed.
Print Assumptions C109_mean.
(** the mean of the images under an affine map is the image of the mean *)
Theorem C109_mean_affine : forall m k (A : list vec) (b : vec) points, cloud m points -> points <> [] -> length A = k -> (forall r, In r A -> length r = m) -> length b = k ->
  exists c, mean m points = Some c /\ mean k (map (fun x : vec => vadd (map (fun r => vdot r x) A) b) points) = Some (vadd (map (fun r => vdot r c) A) b).
Proof.
  intros m k A b points HC HN LA HA Lb. destruct (mean_ok m points HC HN) as (c & E & Lc & N). exists c. split; [exact E|].
  set (f := fun x => vadd (map (fun r => vdot r x) A) b). assert (Lf : forall x, length (f x) = k) by (intros x; unfold f; rewrite vadd_len; rewrite map_length; [exact LA|congruence]).
  destruct (mean_ok k (map f points)) as (c' & E' & Lc' & N').
  { intros y Hy. apply in_map_iff in Hy as (x & <- & _). apply Lf. }
  { destruct points; [contradiction|discriminate]. }
  rewrite E'. f_equal. apply vec_ext; [rewrite Lc'; symmetry; apply (Lf c)|]. rewrite Lc'. intros j Hj. specialize (N' j Hj). rewrite map_map, map_length in N'.
  assert (P0 : 0 < INR (length points)) by (apply lt_0_INR; destruct points; [contradiction|cbn; lia]).
  assert (Hf : forall x, nth j (f x) 0 = vdot (nth j A []) x + nth j b 0).
  { intros x. unfold f. rewrite nth_vadd by (rewrite map_length; congruence). f_equal. rewrite (nth_indep _ 0 (vdot [] x)) by (rewrite map_length; lia). apply (map_nth (fun r => vdot r x)). }
  assert (La : length (nth j A []) = m) by (apply HA, nth_In; lia).
  change (nth j c' 0 = nth j (f c) 0). rewrite (Hf c). apply (Rmult_eq_reg_l (INR (length points))); [|lra]. rewrite <- N'. rewrite (rsum_ext _ (fun x : vec => vdot (nth j A []) x + nth j b 0)) by (intros; apply Hf). rewrite rsum_map_add, rsum_const, Rmult_plus_distr_l. f_equal.
  rewrite (rsum_ext _ (fun x : vec => rsum (map (fun i => nth i (nth j A []) 0 * nth i x 0) (seq 0 m)))) by (intros x Hx; apply vdot_seq; [exact La|apply HC, Hx]).
  rewrite rsum_swap, (vdot_seq m _ c La Lc), <- rsum_map_scale. apply rsum_ext. intros i Hi. apply in_seq in Hi. rewrite rsum_map_scale, N by lia. ring.
Qed.
Print Assumptions C109_mean_affine.
Example C109_mean_ex : mean 2 [[1; 2]; [3; 4]] = Some [2; 3] /\ cloud 2 [[1; 2]; [3; 4]].
Proof. split; [cbn; do 2 f_equal; [field|f_equal; field]|]. intros x H; repeat (destruct H as [ <- |H]; [reflexivity|]); destruct H. Qed.

(** ** C109: the median *)
Definition below (z : R) (l : list R) : nat := length (filter (fun x => if Rlt_dec x z then true else false) l).
Definition above (z : R) (l : list R) : nat := length (filter (fun x => if Rlt_dec z x then true else false) l).
Definition deviations (l : list R) (z : R) : R := rsum (map (fun x => Rabs (x - z)) l).
Lemma filter_len_perm {A} (f : A -> bool) l l' : Permutation l l' -> length (filter f l) = length (filter f l').
Proof. induction 1; cbn; repeat match goal with |- context[f ?x] => destruct (f x) end; cbn; congruence. Qed.
Lemma filter_none {A} (f : A -> bool) l : (forall x, In x l -> f x = false) -> filter f l = [].
Proof. induction l as [|a l IH]; intros H; [reflexivity|]. cbn [filter]. rewrite (H a ltac:(now left)). apply IH. intros; apply H; now right. Qed.
Lemma filter_len {A} (f : A -> bool) l : (length (filter f l) <= length l)%nat.
Proof. induction l as [|a l IH]; cbn; [lia|]. destruct (f a); cbn; lia. Qed.
Lemma above_sorted s k z : (k <= length s)%nat -> (forall i, (i < k)%nat -> nth i s 0 <= z) -> (above z s + k <= length s)%nat.
Proof.
  intros Hk H. unfold above. rewrite <- (firstn_skipn k s) at 1. rewrite filter_app, (filter_none _ (firstn k s)).
  - cbn [app]. pose proof (filter_len (fun x => if Rlt_dec z x then true else false) (skipn k s)) as F. rewrite skipn_length in F. lia.
  - intros x Hx. apply (In_nth _ _ 0) in Hx as (i & Hi & <-). rewrite firstn_length in Hi. rewrite <- (firstn_skipn k s) in H. specialize (H i ltac:(lia)). rewrite app_nth1 in H by (rewrite firstn_length; lia). destruct (Rlt_dec z (nth i (firstn k s) 0)); [lra|reflexivity].
Qed.
Lemma below_sorted s k z : (k <= length s)%nat -> (forall i, (k <= i < length s)%nat -> z <= nth i s 0) -> (below z s <= k)%nat.
Proof.
  intros Hk H. unfold below. rewrite <- (firstn_skipn k s). rewrite filter_app, (filter_none _ (skipn k s)).
  - rewrite app_nil_r. pose proof (filter_len (fun x => if Rlt_dec x z then true else false) (firstn k s)) as F. rewrite firstn_length in F. lia.
  - intros x Hx. apply (In_nth _ _ 0) in Hx as (i & Hi & <-). rewrite skipn_length in Hi. specialize (H (k + i)%nat ltac:(lia)). rewrite <- (firstn_skipn k s) in H at 1. rewrite app_nth2 in H by (rewrite firstn_length; lia). rewrite firstn_length, Nat.min_l in H by lia. replace (k + i - k)%nat with i in H by lia. destruct (Rlt_dec (nth i (skipn k s) 0) z); [lra|reflexivity].
Qed.
Lemma sort_ok l : let s := Permutations.sort rleb l in Permutation l s /\ forall i j, (i <= j < length s)%nat -> nth i s 0 <= nth j s 0.
Proof.
  cbv zeta. split; [apply PermFacts.sort_perm|]. intros i j Hij. destruct (Nat.eq_dec i j) as [ -> |D]; [lra|]. apply rleb_inv. apply (StronglySorted_nth (fun a b => rleb a b = true)); [|lia|lia]. apply PermFacts.sort_sorted.
  - intros x y. destruct (Rle_lt_dec x y) as [H|H]; [left|right]; apply rleb_inv; lra.
  - intros x y z H1 H2. apply rleb_inv in H1, H2. apply rleb_inv. lra.
Qed.
Lemma middle_ok l : l <> [] -> exists lo hi, In lo l /\ In hi l /\ lo <= hi /\ middle l = (lo + hi) / 2 /\
  (forall z, lo <= z <= hi -> (2 * above z l <= length l /\ 2 * below z l <= length l)%nat) /\ (2 * above hi l < length l)%nat /\ (2 * below lo l < length l)%nat.
Proof.
  intros HN. destruct (sort_ok l) as [HP HS]. set (s := Permutations.sort rleb l) in *. pose proof (Permutation_length HP) as HL. assert (L0 : (0 < length l)%nat) by (destruct l; [contradiction|cbn; lia]).
  assert (AB : forall z, above z l = above z s /\ below z l = below z s) by (intros z; split; apply filter_len_perm, HP).
  set (h := (length l / 2)%nat). pose proof (Nat.div_mod (length l) 2 ltac:(lia)) as DM. pose proof (Nat.mod_upper_bound (length l) 2 ltac:(lia)) as MB. fold h in DM.
  assert (IN : forall i, (i < length l)%nat -> In (nth i s 0) l) by (intros i Hi; apply (Permutation_in _ (Permutation_sym HP)), nth_In; lia).
  unfold middle. fold s. fold h. destruct (Nat.eqb_spec (length l mod 2) 0) as [E|E].
  - exists (nth (h - 1) s 0), (nth h s 0). split; [apply IN; lia|]. split; [apply IN; lia|]. split; [apply HS; lia|]. split; [reflexivity|]. split; [|split].
    + intros z [Z1 Z2]. destruct (AB z) as [-> ->]. split.
      * pose proof (above_sorted s h z ltac:(lia)) as A. specialize (A ltac:(intros i Hi; apply Rle_trans with (nth (h - 1) s 0); [apply HS; lia|exact Z1])). lia.
      * pose proof (below_sorted s h z ltac:(lia)) as A. specialize (A ltac:(intros i Hi; apply Rle_trans with (nth h s 0); [exact Z2|apply HS; lia])). lia.
    + destruct (AB (nth h s 0)) as [-> _]. pose proof (above_sorted s (h + 1) (nth h s 0) ltac:(lia) ltac:(intros i Hi; apply HS; lia)). lia.
    + destruct (AB (nth (h - 1) s 0)) as [_ ->]. pose proof (below_sorted s (h - 1) (nth (h - 1) s 0) ltac:(lia) ltac:(intros i Hi; apply HS; lia)). lia.
  - exists (nth h s 0), (nth h s 0). split; [apply IN; lia|]. split; [apply IN; lia|]. split; [lra|]. split; [field|].
    assert (A : (above (nth h s 0%R) s + (h + 1) <= length s)%nat) by (apply above_sorted; [lia|intros i Hi; apply HS; lia]). assert (B : (below (nth h s 0%R) s <= h)%nat) by (apply below_sorted; [lia|intros i Hi; apply HS; lia]).
    split; [|split].
    + intros z Z. replace z with (nth h s 0) by lra. destruct (AB (nth h s 0)) as [-> ->]. lia.
    + destruct (AB (nth h s 0)) as [-> _]. lia.
    + destruct (AB (nth h s 0)) as [_ ->]. lia.
Qed.
(** moving to the right or to the left by [d] changes the sum of the deviations at least by *)
Lemma dev_right l z y : z <= y -> (y - z) * (INR (length l) - 2 * INR (above z l)) <= deviations l y - deviations l z.
Proof.
  intros H. unfold deviations, above. induction l as [|x l IH]; [cbn [map length filter INR]; rewrite rsum_nil; lra|]. cbn [map filter]. rewrite !rsum_cons. cbn [length]. destruct (Rlt_dec z x) as [D|D].
  - cbn [length]. rewrite !S_INR. assert (- (y - z) <= Rabs (x - y) - Rabs (x - z)) by (unfold Rabs; destruct (Rcase_abs (x - y)), (Rcase_abs (x - z)); lra). lra.
  - rewrite !S_INR. assert (y - z <= Rabs (x - y) - Rabs (x - z)) by (unfold Rabs; destruct (Rcase_abs (x - y)), (Rcase_abs (x - z)); lra). lra.
Qed.
Lemma dev_left l z y : y <= z -> (z - y) * (INR (length l) - 2 * INR (below z l)) <= deviations l y - deviations l z.
Proof.
  intros H. unfold deviations, below. induction l as [|x l IH]; [cbn [map length filter INR]; rewrite rsum_nil; lra|]. cbn [map filter]. rewrite !rsum_cons. cbn [length]. destruct (Rlt_dec x z) as [D|D].
  - cbn [length]. rewrite !S_INR. assert (- (z - y) <= Rabs (x - y) - Rabs (x - z)) by (unfold Rabs; destruct (Rcase_abs (x - y)), (Rcase_abs (x - z)); lra). lra.
  - rewrite !S_INR. assert (z - y <= Rabs (x - y) - Rabs (x - z)) by (unfold Rabs; destruct (Rcase_abs (x - y)), (Rcase_abs (x - z)); lra). lra.
Qed.
Lemma nat_half a n : (2 * a <= n)%nat -> 0 <= INR n - 2 * INR a.
Proof. intros H. apply le_INR in H. rewrite mult_INR in H. cbn [INR] in H. lra. Qed.
Lemma nat_half_lt a n : (2 * a < n)%nat -> 0 < INR n - 2 * INR a.
Proof. intros H. apply lt_INR in H. rewrite mult_INR in H. cbn [INR] in H. lra. Qed.
Lemma middle_minimum l : l <> [] -> exists lo hi, In lo l /\ In hi l /\ middle l = (lo + hi) / 2 /\ lo <= hi /\ forall z, (forall y, deviations l z <= deviations l y) <-> lo <= z <= hi.
Proof.
  intros HN. destruct (middle_ok l HN) as (lo & hi & I1 & I2 & HH & E & HZ & HA & HB). exists lo, hi. split; [exact I1|]. split; [exact I2|]. split; [exact E|]. split; [exact HH|].
  assert (M : forall z, lo <= z <= hi -> forall y, deviations l z <= deviations l y).
  { intros z Z y. destruct (HZ z Z) as [A B]. apply nat_half in A, B. destruct (Rle_dec z y) as [D|D]; [pose proof (dev_right l z y D)|pose proof (dev_left l z y ltac:(lra))]; nra. }
  intros z. split; [|apply M]. intros H. apply nat_half_lt in HA, HB. split.
  - destruct (Rle_dec lo z) as [D|D]; [exact D|]. pose proof (dev_left l lo z ltac:(lra)). pose proof (H lo). nra.
  - destruct (Rle_dec z hi) as [D|D]; [exact D|]. pose proof (dev_right l hi z ltac:(lra)). pose proof (H hi). nra.
Qed.
(** coordinate by coordinate the median is the midpoint of the interval of all minima of the sum of the distances *)
Theorem C109_median : forall m points, cloud m points -> points <> [] -> exists c, median m points = Some c /\ length c = m /\ forall j, (j < m)%nat -> let l := map (fun x : vec => nth j x 0) points in
  exists lo hi, In lo l /\ In hi l /\ nth j c 0 = (lo + hi) / 2 /\ forall z, (forall y, deviations l z <= deviations l y) <-> lo <= z <= hi.
Proof.
  intros m points HC HN. unfold median. destruct points as [|p0 l0] eqn:E; [contradiction|]. rewrite <- E in *. eexists. split; [reflexivity|]. split; [rewrite map_length, seq_length; reflexivity|]. intros j Hj. cbv zeta. rewrite nth_map_seq by exact Hj. unfold column.
  destruct (middle_minimum (map (fun x : vec => nth j x 0) points)) as (lo & hi & I1 & I2 & EM & _ & HZ); [rewrite E; discriminate|]. exists lo, hi. auto.
Qed.
Print Assumptions C109_median.
Lemma majority_above j a b c (points : list vec) : c < a -> (length (filter (fun x : vec => rleb a (nth j x 0%R) && rleb (nth j x 0%R) b) points) <= above c (map (fun x : vec => nth j x 0%R) points))%nat.
Proof.
  intros D. unfold above. induction points as [|x t IH]; [cbn; lia|]. cbn [map filter]. destruct (rleb a (nth j x 0) && rleb (nth j x 0) b) eqn:E.
  - apply andb_prop in E as [E _]. apply rleb_inv in E. destruct (Rlt_dec c (nth j x 0)); [cbn [length]; lia|lra].
  - destruct (Rlt_dec c (nth j x 0)); cbn [length]; lia.
Qed.
Lemma majority_below j a b c (points : list vec) : b < c -> (length (filter (fun x : vec => rleb a (nth j x 0%R) && rleb (nth j x 0%R) b) points) <= below c (map (fun x : vec => nth j x 0%R) points))%nat.
Proof.
  intros D. unfold below. induction points as [|x t IH]; [cbn; lia|]. cbn [map filter]. destruct (rleb a (nth j x 0) && rleb (nth j x 0) b) eqn:E.
  - apply andb_prop in E as [_ E]. apply rleb_inv in E. destruct (Rlt_dec (nth j x 0) c); [cbn [length]; lia|lra].
  - destruct (Rlt_dec (nth j x 0) c); cbn [length]; lia.
Qed.
(** if more than half of the coordinates lie in an interval, then so does the median *)
Theorem C109_median_majority : forall m points j a b, cloud m points -> (j < m)%nat -> (length points < 2 * length (filter (fun x : vec => rleb a (nth j x 0%R) && rleb (nth j x 0%R) b) points))%nat ->
  exists c, median m points = Some c /\ a <= nth j c 0 <= b.
Proof.
  intros m points j a b HC Hj H. destruct points as [|p0 l0] eqn:E; [cbn in H; lia|]. rewrite <- E in *. set (l := map (fun x : vec => nth j x 0) points). assert (Ln : l <> []) by (unfold l; rewrite E; discriminate).
  eexists. split; [unfold median; rewrite E at 1; reflexivity|]. rewrite nth_map_seq by exact Hj. fold l. change (a <= middle l <= b).
  destruct (middle_ok l Ln) as (lo & hi & _ & _ & HH & EM & HZ & _ & _). destruct (HZ (middle l) ltac:(lra)) as [A B]. assert (LL : length l = length points) by apply map_length.
  set (cnt := length (filter (fun x : vec => rleb a (nth j x 0) && rleb (nth j x 0) b) points)) in *.
  split.
  - destruct (Rle_dec a (middle l)) as [D|D]; [exact D|]. pose proof (majority_above j a b (middle l) points ltac:(lra)) as X. fold l cnt in X. lia.
  - destruct (Rle_dec (middle l) b) as [D|D]; [exact D|]. pose proof (majority_below j a b (middle l) points ltac:(lra)) as X. fold l cnt in X. lia.
Qed.
Print Assumptions C109_median_majority.
Lemma middle_perm l l' : Permutation l l' -> middle l = middle l'.
Proof.
  intros H. unfold middle. rewrite (Permutation_length H). replace (Permutations.sort rleb l') with (Permutations.sort rleb l); [reflexivity|].
  assert (SS : forall l, StronglySorted (fun a b => rleb a b = true) (Permutations.sort rleb l)).
  { intros k. apply PermFacts.sort_sorted.
    - intros x y. destruct (Rle_lt_dec x y) as [D|D]; [left|right]; apply rleb_inv; lra.
    - intros x y z H1 H2. apply rleb_inv in H1, H2. apply rleb_inv. lra. }
  apply (LocalToGlobalFacts.sort_unique_gen (fun a b => rleb a b = true)); [intros x y H1 H2; apply rleb_inv in H1, H2; lra|apply SS|apply SS|]. rewrite <- !PermFacts.sort_perm. exact H.
Qed.
(** the order of the points does not matter; without points the results are nan *)
Theorem C109_order : forall m points points', Permutation points points' -> mean m points = mean m points' /\ median m points = median m points'.
Proof.
  intros m points points' H. destruct points as [|p l]; [apply Permutation_nil in H as ->; auto|]. destruct points' as [|p' l']; [apply Permutation_sym, Permutation_nil in H; discriminate|]. split.
  - unfold mean. f_equal. apply map_ext. intros j. rewrite (Permutation_length H). f_equal. apply rsum_perm. unfold column. apply Permutation_map, H.
  - unfold median. f_equal. apply map_ext. intros j. apply middle_perm. unfold column. apply Permutation_map, H.
Qed.
Print Assumptions C109_order.
Theorem C109_empty : forall m, mean m [] = None /\ median m [] = None /\ mean1 [] = None /\ median1 [] = None.
Proof. repeat split. Qed.
Print Assumptions C109_empty.
(** one-dimensional arrays *)
Theorem C109_numbers : forall l, l <> [] -> exists c d, mean1 l = Some c /\ mean 1 (map (fun x => [x]) l) = Some [c] /\ median1 l = Some d /\ median 1 (map (fun x => [x]) l) = Some [d].
Proof.
  intros l H. exists (rsum l / INR (length l)), (middle l).
  assert (C : column (map (fun x => [x]) l) 0 = l) by (unfold column; rewrite map_map; apply map_id).
  assert (M : mean 1 (map (fun x => [x]) l) = Some [rsum (column (map (fun x => [x]) l) 0) / INR (length (map (fun x => [x]) l))]) by (destruct l; [contradiction|reflexivity]).
  assert (D : median 1 (map (fun x => [x]) l) = Some [middle (column (map (fun x => [x]) l) 0)]) by (destruct l; [contradiction|reflexivity]).
  rewrite M, D, C, map_length. repeat split; destruct l; try contradiction; reflexivity.
Qed.
Print Assumptions C109_numbers.
Ltac decide_rleb := repeat match goal with |- context[rleb ?a ?b] => first [replace (rleb a b) with true by (symmetry; apply rleb_inv; lra) | replace (rleb a b) with false by (symmetry; apply rleb_f; lra)]; cbn [Permutations.insert] end.
Example C109_median_ex : median 2 [[1; 4]; [3; 2]] = Some [2; 3] /\ median1 [5; 1; 3.25] = Some 3.25.
Proof.
  split; unfold median, median1, middle; cbn [column map seq length Nat.modulo Nat.div Nat.divmod fst snd Nat.sub Nat.eqb nth]; cbn [Permutations.sort Permutations.insert]; decide_rleb; cbn [nth].
  - f_equal. f_equal; [lra|]. f_equal. lra.
  - reflexivity.
Qed.
