(** Facts about triangles for the properties of triangle.py. *)
From Coq Require Import Reals Lra Psatz Lia.
From Verif Require Import Base MultiIndex RVec Angle AngleFacts Rotation RotFacts Triangle.
Local Open Scope R_scope.

(** lengths and vector identities *)
Create HintDb vl.
Ltac vlen := cbn [length vx nth]; repeat first [reflexivity|assumption|rewrite vscale_len|rewrite vdivs_len|rewrite vadd_len by vlen|rewrite vsub_len by vlen|progress autorewrite with vl|congruence].
Ltac vnths := rewrite ?vdivs_scale; repeat first [rewrite nth_vscale|rewrite nth_vadd by vlen|rewrite nth_vsub by vlen].
Ltac vring := apply vec_ext; [vlen|intros ?k _; vnths; ring].
Ltac vfield tac := apply vec_ext; [vlen|intros ?k _; vnths; field; tac].
Ltac vdots := rewrite ?vdivs_scale; repeat first [rewrite vdot_scale_l|rewrite vdot_scale_r|rewrite vdot_add_l by vlen|rewrite vdot_add_r by vlen|rewrite vdot_sub_l by vlen|rewrite vdot_sub_r by vlen].
Ltac vcons := repeat match goal with |- _ :: _ = _ :: _ => apply f_equal2 end.

Section Tri.
  Variables (n : nat) (p q r : vec).
  Hypotheses (Hp : length p = n) (Hq : length q = n) (Hr : length r = n).
  Notation vs := [p; q; r].
  Definition e0 := vsub r q.
  Definition e1 := vsub p r.
  Definition e2 := vsub q p.
  Lemma edges_eq : edges vs = [e0; e1; e2]. Proof. reflexivity. Qed.
  Lemma e0_len : length e0 = n. Proof. unfold e0. vlen. Qed.
  Lemma e1_len : length e1 = n. Proof. unfold e1. vlen. Qed.
  Lemma e2_len : length e2 = n. Proof. unfold e2. vlen. Qed.
  Hint Resolve e0_len e1_len e2_len : core.
  Hint Rewrite e0_len e1_len e2_len : vl.
  Lemma e2_eq : e2 = vscale (-1) (vadd e0 e1). Proof. unfold e0, e1, e2. vring. Qed.

  Definition gA := vdot e0 e0.
  Definition gB := vdot e0 e1.
  Definition gC := vdot e1 e1.
  (** four times the squared area *)
  Definition gD := gA * gC - gB * gB.
  Lemma gD_pos : 0 <= gD.
  Proof. pose proof (cauchy_schwarz e0 e1 (eq_trans e0_len (eq_sym e1_len))). unfold gD, gA, gB, gC. lra. Qed.
  Lemma dot10 : vdot e1 e0 = gB. Proof. apply vdot_sym. Qed.

  Lemma area_ok : n = 2%nat \/ n = 3%nat -> area vs = Ok (/ 2 * sqrt gD).
  Proof.
    intros Hn. unfold area. rewrite edges_eq. cbn [vx nth]. unfold np_cross. rewrite e0_len, e1_len. destruct Hn as [E | E]; rewrite E; cbn [Nat.eqb andb bind]; f_equal; f_equal; cbn [cross_norm].
    - destruct (len2 e0 ltac:(rewrite <- E; auto)) as (a & b & E0), (len2 e1 ltac:(rewrite <- E; auto)) as (c & d & E1). unfold gD, gA, gB, gC. rewrite E0, E1. cbn [nth].
      rewrite <- sqrt_Rsqr_abs. f_equal. unfold Rsqr. vcalc. ring.
    - unfold vnorm. rewrite lagrange_id by (rewrite <- E; auto). reflexivity.
  Qed.

  (** the point with given barycentric coordinates *)
  Definition bpt (a b c : R) : vec := vadd (vadd (vscale a p) (vscale b q)) (vscale c r).
  Lemma b2c_eq a b c : barycentric_to_cartesian [a; b; c] vs = bpt a b c. Proof. reflexivity. Qed.
  Lemma bpt_len a b c : length (bpt a b c) = n. Proof. unfold bpt. vlen. Qed.
  Lemma bpt_sub a b c a' b' c' : a + b + c = a' + b' + c' -> vsub (bpt a b c) (bpt a' b' c') = vadd (vscale (b' - b) e0) (vscale (a - a') e1).
  Proof. intros E. unfold bpt, e0, e1. replace c with (a' + b' + c' - a - b) by lra. vring. Qed.

  Section Proper.
  Hypothesis HD : 0 < gD.
  Lemma gA_gt : 0 < gA.
  Proof. pose proof (vdot_pos e0). pose proof HD. unfold gD in *. fold gA in *. destruct (Req_dec gA 0) as [E|N]; [|lra]. rewrite E in *. nra. Qed.
  Lemma gC_gt : 0 < gC.
  Proof. pose proof (vdot_pos e1). pose proof HD. unfold gD in *. fold gC in *. destruct (Req_dec gC 0) as [E|N]; [|lra]. rewrite E in *. nra. Qed.
  Lemma e2_sq : vdot e2 e2 = gA + 2 * gB + gC.
  Proof. rewrite e2_eq. vdots; rewrite ?dot10. fold gA gB gC. ring. Qed.
  Lemma dot02 : vdot e0 e2 = - gA - gB. Proof. rewrite e2_eq. vdots. fold gA gB. ring. Qed.
  Lemma dot12 : vdot e1 e2 = - gB - gC. Proof. rewrite e2_eq. vdots. rewrite dot10. fold gC. ring. Qed.
  Lemma e2_gt : 0 < gA + 2 * gB + gC.
  Proof. pose proof gA_gt. pose proof gC_gt. pose proof HD. unfold gD in *. rewrite <- e2_sq. pose proof (vdot_pos e2). destruct (Req_dec (vdot e2 e2) 0) as [E|N]; [|lra]. rewrite e2_sq in E. assert (X : gB = - (gA + gC) / 2) by lra. rewrite X in *. pose proof (Rle_0_sqr (gA - gC)) as P. unfold Rsqr in P. lra. Qed.
  (** twice the area *)
  Definition tS := sqrt gD.
  Lemma tS_gt : 0 < tS. Proof. apply sqrt_lt_R0, HD. Qed.
  Lemma tS_sq : tS * tS = gD. Proof. apply sqrt_sqrt. lra. Qed.
  Definition len0 := vnorm e0.
  Lemma len0_gt : 0 < len0. Proof. apply vnorm_gt0. fold gA. pose proof gA_gt. lra. Qed.
  Lemma len0_sq : len0 * len0 = gA. Proof. apply vnorm_sq. Qed.

  (** the component of the plane: [dualv v] is orthogonal to [v] *)
  Definition dualv (v : vec) : vec := vscale (/ tS) (vsub (vscale (vdot v e1) e0) (vscale (vdot v e0) e1)).
  Hypothesis Hn : n = 2%nat \/ n = 3%nat.
  Lemma dual_edges_ok : dual_edges vs = Ok [dualv e0; dualv e1; dualv e2].
  Proof.
    pose proof tS_gt as T. pose proof tS_sq as TS. unfold dual_edges, dim. cbn [vx nth]. rewrite Hp. destruct Hn as [E | E]; rewrite E; cbn [Nat.eqb orb assert_ bind].
    - rewrite edges_eq. cbn [map seq vx nth Nat.modulo Nat.divmod Nat.add fst snd Nat.sub]. f_equal.
      destruct (len2 e0 ltac:(rewrite <- E; auto)) as (a & b & E0), (len2 e1 ltac:(rewrite <- E; auto)) as (c & d & E1).
      pose (t := a * d - b * c). assert (Tt : tS * tS = t * t) by (rewrite TS; unfold gD, gA, gB, gC; rewrite E0, E1; vcalc; unfold t; ring).
      assert (Hr' : forall x y, dualv [x; y] = vscale (- t / tS) [- y; x]).
      { intros x y. unfold dualv. rewrite E0, E1. vcalc. unfold t. apply f_equal2; [field; lra|apply f_equal2; [field; lra|reflexivity]]. }
      assert (E2 : e2 = [- a - c; - b - d]) by (rewrite e2_eq, E0, E1; vcalc; apply f_equal2; [ring|apply f_equal2; [ring|reflexivity]]).
      assert (St : t = tS \/ t = - tS) by (assert (K : (t - tS) * (t + tS) = 0) by lra; apply Rmult_integral in K; lra).
      rewrite E0, E1, E2, !Hr'. cbn [nth].
      assert (B : forall x y x' y', vdot [- y; x] [x'; y'] = x * y' - y * x') by (intros; vcalc; ring).
      rewrite !B. replace (c * (- b - d) - d * (- a - c)) with t by (unfold t; ring). replace ((- a - c) * b - (- b - d) * a) with t by (unfold t; ring). fold t.
      destruct St as [S|S]; rewrite S.
      + rewrite rltb_t by exact T. replace (- tS / tS) with (-1) by (field; lra). reflexivity.
      + rewrite rltb_f by lra. replace (- - tS / tS) with 1 by (field; lra). vcalc. repeat (apply f_equal2; [repeat (apply f_equal2; [ring|]); reflexivity|]). reflexivity.
    - unfold normal. rewrite edges_eq. cbn [vx nth]. unfold np_cross. rewrite e0_len, e1_len, E. cbn [Nat.eqb andb bind cross_div cross_norm].
      assert (NS : vnorm (cross3 e0 e1) = tS) by (unfold vnorm, tS; rewrite lagrange_id by (rewrite <- E; auto); reflexivity). rewrite NS.
      cbn [map seq]. f_equal. assert (K : forall v, length v = 3%nat -> cross3 v (vdivs (cross3 e0 e1) tS) = dualv v).
      { intros v Hv. destruct (len3 v Hv) as (x & y & z & ->). unfold dualv. destruct (len3 e0 ltac:(rewrite <- E; auto)) as (a & b & c & ->), (len3 e1 ltac:(rewrite <- E; auto)) as (d & e & f & ->). vcalc.
        repeat (apply f_equal2; [field; lra|]). reflexivity. }
      cbn [vx nth]. rewrite !K by (rewrite <- E; auto). reflexivity.
  Qed.

  Definition b1v : vec := vscale (/ (tS * len0)) (vsub (vscale gA e1) (vscale gB e0)).
  Lemma basis_ok : basis vs = Ok [vdivs e0 len0; b1v].
  Proof.
    pose proof tS_gt as T. pose proof tS_sq as TS. pose proof len0_gt as L. pose proof len0_sq as LS. unfold basis, dim. cbn [vx nth]. rewrite Hp. destruct Hn as [E | E]; rewrite E; cbn [Nat.eqb orb assert_ bind].
    - rewrite edges_eq. cbn [vx nth]. fold len0. f_equal. f_equal. f_equal. assert (X : vsub e1 (vscale (vdot e1 (vdivs e0 len0)) (vdivs e0 len0)) = vscale (/ gA) (vsub (vscale gA e1) (vscale gB e0))).
      { vdots. rewrite dot10. pose proof gA_gt. rewrite <- LS. vfield lra. }
      rewrite X. set (w := vsub _ _). assert (W : vdot w w = gA * gD).
      { unfold w. vdots. rewrite dot10. fold gA gB gC. unfold gD. ring. }
      assert (N : vnorm (vscale (/ gA) w) = tS / len0).
      { apply vnorm_eq; [apply Rlt_le, Rdiv_lt_0_compat; lra|]. vdots. rewrite W. rewrite <- TS, <- LS. field. lra. }
      rewrite N. unfold b1v. fold w. rewrite vdivs_scale. rewrite <- LS. vfield lra.
    - unfold normal. rewrite edges_eq. cbn [vx nth]. unfold np_cross. rewrite e0_len, e1_len, E. cbn [Nat.eqb andb bind cross_div cross_norm]. fold len0.
      assert (NS : vnorm (cross3 e0 e1) = tS) by (unfold vnorm, tS; rewrite lagrange_id by (rewrite <- E; auto); reflexivity). rewrite NS.
      f_equal. f_equal. f_equal. unfold b1v, gA, gB. destruct (len3 e0 ltac:(rewrite <- E; auto)) as (a & b & c & ->), (len3 e1 ltac:(rewrite <- E; auto)) as (d & e & f & ->). vcalc.
      repeat (apply f_equal2; [field; lra|]). reflexivity.
  Qed.
  (** vectors of the plane plus an orthogonal part *)
  Lemma coords_ok v a b o : v = vadd (vadd (vscale a e0) (vscale b e1)) o -> length o = n -> vdot o e0 = 0 -> vdot o e1 = 0 ->
    in_triangleplane_coords vs v = Ok [(a * gA + b * gB) / len0; b * tS / len0].
  Proof.
    intros -> Ho O0 O1. unfold in_triangleplane_coords. rewrite basis_ok. cbn [bind map seq vx nth]. pose proof tS_gt as T. pose proof tS_sq as TS. pose proof len0_gt as L. f_equal. vcons; [| |reflexivity].
    - vdots. rewrite dot10, O0. fold gA gB. field. lra.
    - unfold b1v. vdots. rewrite dot10, O0, O1. fold gA gB gC. unfold gD in TS. replace (b * tS / len0) with (b * (tS * tS) / (tS * len0)) by (field; lra). rewrite TS. field. lra.
  Qed.

  (** ** Barycentric coordinates *)
  Lemma vzero_add v : length v = n -> vadd v (vzero n) = v.
  Proof. clear Hn. intros H. apply vec_ext; [rewrite vadd_len; rewrite ?vzero_len; auto|]. intros i _. rewrite nth_vadd by (rewrite vzero_len; exact H). rewrite nth_vzero. ring. Qed.
  Lemma coords_plane v a b : v = vadd (vscale a e0) (vscale b e1) -> in_triangleplane_coords vs v = Ok [(a * gA + b * gB) / len0; b * tS / len0].
  Proof.
    intros ->. apply (coords_ok _ a b (vzero n)); [|apply vzero_len|apply vdot_zero_l|apply vdot_zero_l]. symmetry. apply vzero_add. vlen.
  Qed.
  Lemma edges_2_ok : edges_2 vs = Ok [[gA / len0; 0]; [gB / len0; tS / len0]; [- (gA + gB) / len0; - tS / len0]].
  Proof.
    unfold edges_2. rewrite edges_eq, basis_ok. cbn [bind map seq vx nth]. pose proof tS_gt as T. pose proof tS_sq as TS. pose proof len0_gt as L. f_equal. unfold b1v.
    vcons; try reflexivity; rewrite ?e2_eq; vdots; rewrite ?dot10; fold gA gB gC; try (field; lra).
    - replace (tS / len0) with ((tS * tS) / (tS * len0)) by (field; lra). rewrite TS. unfold gD. field. lra.
    - replace (- tS / len0) with (- (tS * tS) / (tS * len0)) by (field; lra). rewrite TS. unfold gD. field. lra.
  Qed.
  Lemma medians_2_ok : exists m1, medians_2 vs = Ok [[(- / 2 * gA - gB) / len0; - tS / len0]; m1; [(- / 2 * gA + / 2 * gB) / len0; / 2 * tS / len0]].
  Proof.
    unfold medians_2, medians. cbn [map seq vx nth Nat.modulo Nat.divmod Nat.add fst snd Nat.sub mapM].
    rewrite (coords_plane (vsub (vscale (/ 2) (vadd q r)) p) (- / 2) (-1)) by (unfold e0, e1; apply vec_ext; [vlen|intros i _; vnths; field]). cbn [bind].
    rewrite (coords_plane (vsub (vscale (/ 2) (vadd r p)) q) 1 (/ 2)) by (unfold e0, e1; apply vec_ext; [vlen|intros i _; vnths; field]). cbn [bind].
    rewrite (coords_plane (vsub (vscale (/ 2) (vadd p q)) r) (- / 2) (/ 2)) by (unfold e0, e1; apply vec_ext; [vlen|intros i _; vnths; field]). cbn [bind].
    pose proof len0_gt. eexists. f_equal. vcons; try reflexivity; field; lra.
  Qed.
  Lemma c2b_ok a b o : length o = n -> vdot o e0 = 0 -> vdot o e1 = 0 -> cartesian_to_barycentric (vadd (bpt a b (1 - a - b)) o) vs = Ok [a; b; 1 - a - b].
  Proof.
    intros Ho O0 O1. unfold cartesian_to_barycentric. rewrite edges_2_ok. cbn [bind]. destruct medians_2_ok as (m1 & ->). cbn [bind vx nth]. pose proof tS_gt as T. pose proof len0_gt as L. pose proof gA_gt. pose proof e2_gt.
    rewrite (coords_ok _ (- b) (a - 1) o) by (auto; unfold bpt, e0, e1; vring). cbn [bind].
    rewrite (coords_ok _ (1 - b) a o) by (auto; unfold bpt, e0, e1; vring). cbn [bind].
    pose proof len0_sq as LS. pose proof tS_sq as TS. unfold gD in TS.
    assert (E1 : forall z w c d x y, vdot [z; w] (mvec [[0; -1]; [1; 0]] [c; d]) <> 0 -> z * z + w * w <> 0 -> vdot (vector_oblique_projection_2 [x; y] [z; w] [c; d]) [z; w] / vdot [z; w] [z; w] = (y * c - x * d) / (w * c - z * d)).
    { intros z w c d x y. unfold vector_oblique_projection_2, outer, vdivs. vcalc. cbv [map]. intros K1 K2. field. repeat split; intros K; [apply K1|apply K2]; lra. }
    assert (N0 : gA / len0 * (gA / len0) + 0 * 0 <> 0) by (rewrite <- LS; replace (_ + _) with (len0 * len0) by (field; lra); nra).
    assert (N2 : - (gA + gB) / len0 * (- (gA + gB) / len0) + - tS / len0 * (- tS / len0) <> 0).
    { replace (_ + _) with (((gA + gB) * (gA + gB) + tS * tS) / (len0 * len0)) by (field; lra). rewrite TS. replace (_ + _) with (gA * (gA + 2 * gB + gC)) by ring. rewrite LS. replace (gA * _ / gA) with (gA + 2 * gB + gC) by (field; lra). lra. }
    rewrite (E1 (- (gA + gB) / len0) (- tS / len0)); [|vcalc; replace (_ + _) with (tS * gA / (len0 * len0)) by (field; lra); rewrite LS; replace (tS * gA / gA) with tS by (field; lra); lra|exact N2].
    rewrite (E1 (gA / len0) 0); [|vcalc; replace (_ + _) with (tS * gA / (len0 * len0)) by (field; lra); rewrite LS; replace (tS * gA / gA) with tS by (field; lra); lra|exact N0].
    unfold solve2, ent. cbn [nth]. rewrite reqb_f by lra. cbn [bind nth]. f_equal.
    match goal with |- [?x; ?y; _] = _ => assert (X : x = a); [|assert (Y : y = b); [|rewrite X, Y; reflexivity]] end; clear E1.
    - field. split; [lra|]. split; [|]; nra.
    - field. split; [lra|]. split; [|]; nra.
  Qed.
  Lemma decomp x : length x = n -> exists a b o, x = vadd (bpt a b (1 - a - b)) o /\ length o = n /\ vdot o e0 = 0 /\ vdot o e1 = 0.
  Proof. clear Hn.
    intros Hx. set (y0 := vdot (vsub x r) e0). set (y1 := vdot (vsub x r) e1). exists ((gA * y1 - gB * y0) / gD), ((gB * y1 - gC * y0) / gD).
    set (a := (gA * y1 - gB * y0) / gD). set (b := (gB * y1 - gC * y0) / gD). exists (vsub x (bpt a b (1 - a - b))).
    assert (K : vsub x (bpt a b (1 - a - b)) = vsub (vsub x r) (vadd (vscale (- b) e0) (vscale a e1))) by (unfold bpt, e0, e1; vring).
    split; [unfold bpt; vring|]. split; [unfold bpt; vlen|]. rewrite K. pose proof HD as Dp.
    split; rewrite vdot_sub_l by vlen; fold y0 y1; vdots; rewrite ?dot10; fold gA gB gC; unfold a, b; unfold gD in *; field; lra.
  Qed.
  Lemma plane2 o : n = 2%nat -> length o = n -> vdot o e0 = 0 -> vdot o e1 = 0 -> o = vzero n.
  Proof. clear Hn.
    intros E Ho. pose proof HD as Dp. revert Dp. unfold gD, gA, gB, gC. destruct (len2 e0 ltac:(rewrite <- E; auto)) as (a & b & ->), (len2 e1 ltac:(rewrite <- E; auto)) as (c & d & ->), (len2 o ltac:(rewrite <- E; auto)) as (x & y & ->). vcalc. intros Dp O0 O1. rewrite E.
    assert (T : a * d - b * c <> 0) by (intros T; assert (0 < (a * d - b * c) * (a * d - b * c)) by lra; rewrite T in *; lra).
    assert (X : (a * d - b * c) * x = 0) by (replace (_ * x) with (d * (x * a + (y * b + 0)) - b * (x * c + (y * d + 0))) by ring; rewrite O0, O1; ring).
    assert (Y : (a * d - b * c) * y = 0) by (replace (_ * y) with (a * (x * c + (y * d + 0)) - c * (x * a + (y * b + 0))) by ring; rewrite O0, O1; ring).
    apply Rmult_integral in X, Y. destruct X as [X|X], Y as [Y|Y]; try contradiction. subst. reflexivity.
  Qed.

  (** ** Distances to the sides *)
  Lemma bpt_inj a b a' b' : bpt a b (1 - a - b) = bpt a' b' (1 - a' - b') -> a = a' /\ b = b'.
  Proof. clear Hn.
    intros E. assert (Z : vdot (vsub (bpt a b (1 - a - b)) (bpt a' b' (1 - a' - b'))) (vsub (bpt a b (1 - a - b)) (bpt a' b' (1 - a' - b'))) = 0).
    { rewrite E. replace (vsub _ _) with (vscale 0 p) by (unfold bpt; vring). vdots. ring. }
    rewrite bpt_sub in Z by ring. revert Z. vdots. rewrite dot10. fold gA gB gC. pose proof gA_gt. pose proof HD as Dp. unfold gD in Dp. intros Z.
    set (s := b' - b) in *. set (t := a - a') in *. assert (Q1 : (s * gA + t * gB) * (s * gA + t * gB) + t * t * gD = 0) by (unfold gD; match type of Z with ?l = 0 => replace (_ + _) with (gA * l) by ring; rewrite Z; ring end).
    pose proof HD. assert (T0 : t = 0).
    { pose proof (Rle_0_sqr (s * gA + t * gB)) as P. pose proof (Rle_0_sqr t) as P2. unfold Rsqr in P, P2. assert (P3 : 0 <= t * t * gD) by (apply Rmult_le_pos; lra). assert (P4 : t * t * gD = 0) by lra.
      apply Rmult_integral in P4. destruct P4 as [P4|P4]; [|lra]. apply Rmult_integral in P4. tauto. }
    rewrite T0 in Q1. assert (S0 : (s * gA) * (s * gA) = 0) by (rewrite <- Q1; ring). apply Rmult_integral in S0. assert (S1 : s * gA = 0) by tauto. apply Rmult_integral in S1. assert (S2 : s = 0) by (destruct S1; lra). unfold s, t in *. lra.
  Qed.
  Lemma dist_sq a b s : vdot (vsub (bpt a b (1 - a - b)) (bpt 0 s (1 - s))) (vsub (bpt a b (1 - a - b)) (bpt 0 s (1 - s))) =
    ((s - b) * gA + a * gB) * ((s - b) * gA + a * gB) / gA + (a * tS / len0) * (a * tS / len0).
  Proof. clear Hn.
    pose proof gA_gt. pose proof len0_gt. rewrite bpt_sub by ring. vdots. rewrite dot10. fold gA gB gC.
    replace (a * tS / len0 * (a * tS / len0)) with (a * a * (tS * tS) / (len0 * len0)) by (field; lra). rewrite tS_sq, len0_sq. unfold gD. field. lra.
  Qed.
  Lemma dist_ge a b s : Rabs (a * tS / len0) <= vnorm (vsub (bpt a b (1 - a - b)) (bpt 0 s (1 - s))).
  Proof. clear Hn.
    apply Rsqr_incr_0; [|apply Rabs_pos|apply vnorm_pos]. rewrite <- Rsqr_abs. unfold Rsqr. rewrite vnorm_sq, dist_sq.
    assert (0 <= ((s - b) * gA + a * gB) * ((s - b) * gA + a * gB) / gA) by (apply Rmult_le_pos; [apply Rle_0_sqr|apply Rlt_le, Rinv_0_lt_compat, gA_gt]). lra.
  Qed.
  Lemma dist_att a b : vnorm (vsub (bpt a b (1 - a - b)) (bpt 0 (b - a * gB / gA) (1 - (b - a * gB / gA)))) = Rabs (a * tS / len0).
  Proof. clear Hn.
    apply vnorm_eq; [apply Rabs_pos|]. rewrite dist_sq, <- Rabs_mult, (Rabs_right (_ * _)) by (apply Rle_ge, Rle_0_sqr). pose proof gA_gt. pose proof len0_gt. field. lra.
  Qed.
  End Proper.
  Definition len1 := vnorm e1.
  Definition len2_ := vnorm e2.
  Lemma edge_lengths_eq : edge_lengths vs = [len0; len1; len2_]. Proof. reflexivity. Qed.
End Tri.

(** the triangle with its vertices renamed *)
Section Cyc.
  Variables (n : nat) (p q r : vec).
  Hypotheses (Hp : length p = n) (Hq : length q = n) (Hr : length r = n).
  Lemma gD_cyc : gD q r p = gD p q r.
  Proof.
    unfold gD at 1. unfold gA, gB, gC. change (e0 r p) with (e1 p r). change (e1 q p) with (e2 p q). rewrite (dot12 n p q r Hp Hq Hr), (e2_sq n p q r Hp Hq Hr). fold (gC p r). unfold gD. ring.
  Qed.
  Lemma bpt_cyc a b c : bpt q r p b c a = bpt p q r a b c. Proof. unfold bpt. vring. Qed.
End Cyc.

(** ** Angles *)
Lemma sin_of a c s : 0 <= a <= PI -> cos a = c -> 0 <= s -> s * s = 1 - c * c -> sin a = s.
Proof.
  intros Ha Hc Hs E. assert (P : 0 <= sin a) by (apply sin_ge_0; lra). pose proof (sin2_cos2 a) as Q. unfold Rsqr in Q. rewrite Hc in Q. apply Rsqr_inj; [exact P|exact Hs|]. unfold Rsqr. lra.
Qed.
Lemma angle_sum A B C x z e t a b c : 0 < x -> 0 < z -> 0 < e -> 0 <= t -> x * x = A -> z * z = C -> e * e = A + 2 * B + C -> t * t = A * C - B * B ->
  0 <= a <= PI -> 0 <= b <= PI -> 0 <= c <= PI -> cos a = (B + C) / (z * e) -> cos b = (A + B) / (x * e) -> cos c = - B / (x * z) -> a + b + c = PI.
Proof.
  intros Hx Hz He Ht Ex Ez Ee Et Ha Hb Hc Ca Cb Cc. assert (Nx : x * z <> 0) by (apply Rmult_integral_contrapositive; split; lra).
  assert (Sa : sin a = t / (z * e)).
  { apply (sin_of a _ _ Ha Ca); [apply Rmult_le_pos; [lra|apply Rlt_le, Rinv_0_lt_compat, Rmult_lt_0_compat; lra]|]. replace (t / (z * e) * (t / (z * e))) with (t * t / (z * z * (e * e))) by (field; lra). replace ((B + C) / (z * e) * ((B + C) / (z * e))) with ((B + C) * (B + C) / (z * z * (e * e))) by (field; lra).
    rewrite Et, Ee, Ez. field. split; [rewrite <- Ee; nra|rewrite <- Ez; nra]. }
  assert (Sb : sin b = t / (x * e)).
  { apply (sin_of b _ _ Hb Cb); [apply Rmult_le_pos; [lra|apply Rlt_le, Rinv_0_lt_compat, Rmult_lt_0_compat; lra]|]. replace (t / (x * e) * (t / (x * e))) with (t * t / (x * x * (e * e))) by (field; lra). replace ((A + B) / (x * e) * ((A + B) / (x * e))) with ((A + B) * (A + B) / (x * x * (e * e))) by (field; lra).
    rewrite Et, Ee, Ex. field. split; [rewrite <- Ee; nra|rewrite <- Ex; nra]. }
  assert (K1 : cos (a + b) = - cos c).
  { rewrite cos_plus, Ca, Cb, Sa, Sb, Cc. replace ((B + C) / (z * e) * ((A + B) / (x * e)) - t / (z * e) * (t / (x * e))) with (((B + C) * (A + B) - t * t) / (x * z * (e * e))) by (field; lra). rewrite Et. replace ((B + C) * (A + B) - (A * C - B * B)) with (B * (e * e)) by (rewrite Ee; ring). field. lra. }
  assert (K2 : sin (a + b) = t / (x * z)).
  { rewrite sin_plus, Ca, Cb, Sa, Sb. replace (t / (z * e) * ((A + B) / (x * e)) + (B + C) / (z * e) * (t / (x * e))) with (t * (A + 2 * B + C) / (x * z * (e * e))) by (field; lra). rewrite <- Ee. field. lra. }
  assert (K3 : 0 <= sin (a + b)) by (rewrite K2; apply Rmult_le_pos; [lra|apply Rlt_le, Rinv_0_lt_compat, Rmult_lt_0_compat; lra]).
  assert (L : a + b <= PI).
  { destruct (Rle_or_lt (a + b) PI) as [L|L]; [exact L|]. destruct (Rlt_or_le (a + b) (2 * PI)) as [L2|L2]; [pose proof (sin_lt_0 (a + b) L L2); lra|].
    assert (a = PI) by lra. assert (b = PI) by lra. subst a b. rewrite cos_PI in Ca, Cb. assert (X : B + C = - (z * e)) by (replace (B + C) with ((B + C) / (z * e) * (z * e)) by (field; lra); rewrite <- Ca; ring).
    assert (Y : A + B = - (x * e)) by (replace (A + B) with ((A + B) / (x * e) * (x * e)) by (field; lra); rewrite <- Cb; ring). nra. }
  assert (a + b = PI - c); [|lra]. apply cos_inj_0_PI; [lra|lra|]. rewrite K1. rewrite cos_minus, cos_PI, sin_PI. ring.
Qed.
Lemma degen_equiv a b c eps : 0 <= a <= PI -> 0 <= b -> 0 <= c -> a + b + c = PI -> 0 <= eps <= PI / 2 -> cos eps ^ 2 < cos a * cos a -> a < eps \/ b < eps.
Proof.
  intros Ha Hb Hc S He H. pose proof PI_pos. assert (Pe : 0 <= cos eps) by (apply cos_ge_0; lra). destruct (Rle_or_lt 0 (cos a)) as [P|P].
  - left. destruct (Rlt_or_le a eps) as [L|L]; [exact L|]. exfalso. pose proof (cos_decr_1 eps a ltac:(lra) ltac:(lra) ltac:(lra) ltac:(lra) L). nra.
  - right. destruct (Rlt_or_le b eps) as [L|L]; [exact L|]. exfalso. assert (Q : eps <= PI - a) by lra. pose proof (cos_decr_1 eps (PI - a) ltac:(lra) ltac:(lra) ltac:(lra) ltac:(lra) Q) as K. rewrite cos_minus, cos_PI, sin_PI in K. nra.
Qed.
Lemma degen_conv a eps : 0 <= a -> a < eps -> eps <= PI / 2 -> cos eps ^ 2 < cos a * cos a.
Proof.
  intros Ha L He. pose proof PI_pos. assert (Pe : 0 <= cos eps) by (apply cos_ge_0; lra). pose proof (cos_decreasing_1 a eps ltac:(lra) ltac:(lra) ltac:(lra) ltac:(lra) L). nra.
Qed.

Section Centres.
  Variables (n : nat) (p q r : vec).
  Hypotheses (Hp : length p = n) (Hq : length q = n) (Hr : length r = n).
  Notation vs := [p; q; r].
  Notation e0 := (e0 q r). Notation e1 := (e1 p r). Notation e2 := (e2 p q).
  Notation A := (gA q r). Notation B := (gB p q r). Notation C := (gC p r). Notation D := (gD p q r). Notation S := (tS p q r).
  Notation l0 := (len0 q r). Notation l1 := (len1 p r). Notation l2 := (len2_ p q).
  Lemma L0 : length e0 = n. Proof. eapply e0_len; eassumption. Qed.
  Lemma L1 : length e1 = n. Proof. eapply e1_len; eassumption. Qed.
  Lemma L2 : length e2 = n. Proof. eapply e2_len; eassumption. Qed.
  Hint Resolve L0 L1 L2 : core.
  Hint Rewrite L0 L1 L2 : vl.
  (** the condition of [compute_angle] *)
  Definition measurable := n = 3%nat /\ p <> q /\ q <> r /\ p <> r \/ tiny <= l0 /\ tiny <= l1 /\ tiny <= l2.
  Lemma diff_dot u v : length u = length v -> u <> v -> vdot (vsub u v) (vsub u v) <> 0.
  Proof.
    intros H N Z. apply vdot_zero_inv in Z. apply N. apply vec_ext; [exact H|]. intros i _. pose proof (f_equal (fun w => nth i w 0) Z) as K. cbn beta in K. rewrite nth_vsub, nth_vzero in K by exact H. lra.
  Qed.
  Lemma meas_pos : measurable -> 0 < l0 /\ 0 < l1 /\ 0 < l2.
  Proof.
    intros [(_ & N1 & N2 & N3)|H]; [|pose proof tiny_pos; lra]. repeat split; apply vnorm_gt0; apply diff_dot; congruence.
  Qed.
  Lemma neg_norm u : vnorm (vscale (-1) u) = vnorm u.
  Proof. rewrite vnorm_scale. replace (Rabs (-1)) with 1 by (rewrite Rabs_left; lra). ring. Qed.
  Lemma angle_gen u v d : measurable -> length u = n -> length v = n -> (u = e0 \/ u = e1 \/ u = e2) -> (v = e0 \/ v = e1 \/ v = e2) -> vdot u v = - d ->
    exists a, compute_angle (vscale (-1) u) v = Ok a /\ 0 <= a <= PI /\ cos a = d / (vnorm u * vnorm v).
  Proof.
    intros M Hu Hv Eu Ev Ed. pose proof (meas_pos M) as (P0 & P1 & P2). destruct (compute_angle_ok (vscale (-1) u) v) as (a & E & I & K); [vlen| |].
    - rewrite vscale_len, Hu. destruct (n =? 3)%nat eqn:E3.
      + assert (X : forall w, (w = e0 \/ w = e1 \/ w = e2) -> vdot w w <> 0).
        { intros w Hw Z. apply vnorm_zero in Z. destruct Hw as [-> | [-> | ->]]; unfold len0, len1, len2_ in *; lra. }
        split; [|exact (X v Ev)]. vdots. pose proof (X u Eu). lra.
      + apply Nat.eqb_neq in E3. destruct M as [(M & _)|(M0 & M1 & M2)]; [contradiction|]. rewrite neg_norm. assert (X : forall w, (w = e0 \/ w = e1 \/ w = e2) -> tiny <= vnorm w) by (intros w [-> | [-> | ->]]; assumption). auto.
    - exists a. split; [exact E|]. split; [exact I|]. rewrite K, neg_norm. vdots. rewrite Ed. f_equal. ring.
  Qed.
  Lemma angle0_ok : measurable -> exists a, angle vs 0 = Ok a /\ 0 <= a <= PI /\ cos a = (B + C) / (l1 * l2).
  Proof. intros M. apply (angle_gen e1 e2 (B + C)); auto. rewrite (dot12 n p q r) by assumption. ring. Qed.
  Lemma angle1_ok : measurable -> exists a, angle vs 1 = Ok a /\ 0 <= a <= PI /\ cos a = (A + B) / (l0 * l2).
  Proof. intros M. rewrite (Rmult_comm l0). apply (angle_gen e2 e0 (A + B)); auto. rewrite vdot_sym, (dot02 n p q r) by assumption. ring. Qed.
  Lemma angle2_ok : measurable -> exists a, angle vs 2 = Ok a /\ 0 <= a <= PI /\ cos a = - B / (l0 * l1).
  Proof. intros M. apply (angle_gen e0 e1 (- B)); auto. unfold gB. ring. Qed.
  Lemma l0_sq : l0 * l0 = A. Proof. apply vnorm_sq. Qed.
  Lemma l1_sq : l1 * l1 = C. Proof. apply vnorm_sq. Qed.
  Lemma l2_sq : l2 * l2 = A + 2 * B + C. Proof. unfold len2_. rewrite vnorm_sq. apply (e2_sq n); assumption. Qed.
  Lemma S_sq : S * S = D. Proof. apply sqrt_sqrt, (gD_pos n); assumption. Qed.

  Lemma t2b_ok x y z : l0 * x + l1 * y + l2 * z <> 0 -> trilinear_to_barycentric [x; y; z] vs =
    [l0 * x / (l0 * x + l1 * y + l2 * z); l1 * y / (l0 * x + l1 * y + l2 * z); l2 * z / (l0 * x + l1 * y + l2 * z)].
  Proof.
    intros N. unfold trilinear_to_barycentric. rewrite edges_eq. cbn [map seq vx nth rsum fold_right vscale]. fold l0 l1 l2.
    replace (x * l0 + (y * l1 + (z * l2 + 0))) with (l0 * x + l1 * y + l2 * z) by ring. vcons; try reflexivity; field; exact N.
  Qed.
  Definition b2c a b c := bpt p q r a b c.

  Hypothesis HD : 0 < D.
  Lemma len_pos : 0 < l0 /\ 0 < l1 /\ 0 < l2.
  Proof.
    assert (0 < A) by (eapply gA_gt; eassumption). assert (0 < C) by (eapply gC_gt; eassumption). assert (0 < A + 2 * B + C) by (eapply e2_gt; eassumption). repeat split; apply vnorm_gt0; [fold A; lra|fold C; lra|]. rewrite (e2_sq n p q r) by assumption. lra.
  Qed.
  (** circumcentre *)
  Lemma circumcenter_ok : measurable -> circumcenter vs = Ok (bpt p q r (A * (B + C) / (2 * D)) (C * (A + B) / (2 * D)) (- B * (A + 2 * B + C) / (2 * D))).
  Proof.
    intros M. destruct (angle0_ok M) as (a0 & E0 & _ & K0), (angle1_ok M) as (a1 & E1 & _ & K1), (angle2_ok M) as (a2 & E2 & _ & K2). destruct len_pos as (P0 & P1 & P2). pose proof HD as Dp.
    unfold circumcenter. cbn [seq mapM]. rewrite E0. cbn [bind]. rewrite E1. cbn [bind]. rewrite E2. cbn [bind]. rewrite K0, K1, K2. f_equal.
    assert (X : l0 * ((B + C) / (l1 * l2)) + l1 * ((A + B) / (l0 * l2)) + l2 * (- B / (l0 * l1)) = 2 * D / (l0 * l1 * l2)).
    { replace (_ + _ + _) with ((l0 * l0 * (B + C) + l1 * l1 * (A + B) + l2 * l2 * - B) / (l0 * l1 * l2)) by (field; lra). rewrite l0_sq, l1_sq, l2_sq. unfold gD. f_equal. ring. }
    rewrite t2b_ok; rewrite X; [|apply Rmult_integral_contrapositive; split; [lra|apply Rinv_neq_0_compat; repeat (apply Rmult_integral_contrapositive; split); lra]].
    rewrite b2c_eq. rewrite <- l2_sq, <- l0_sq, <- l1_sq. f_equal; field; lra.
  Qed.
  Lemma heron : (l0 + l1 + l2) * (l1 + l2 - l0) * (l2 + l0 - l1) * (l0 + l1 - l2) = 4 * D.
  Proof.
    replace ((l0 + l1 + l2) * (l1 + l2 - l0) * (l2 + l0 - l1) * (l0 + l1 - l2)) with (2 * (l0 * l0) * (l1 * l1) + 2 * (l1 * l1) * (l2 * l2) + 2 * (l2 * l2) * (l0 * l0) - (l0 * l0) * (l0 * l0) - (l1 * l1) * (l1 * l1) - (l2 * l2) * (l2 * l2)) by ring.
    rewrite l0_sq, l1_sq, l2_sq. unfold gD. ring.
  Qed.
  Lemma S_pos : 0 < S. Proof. apply tS_gt, HD. Qed.
  Lemma circumradius_ok : circumradius vs = l0 * l1 * l2 / (2 * S).
  Proof.
    unfold circumradius. rewrite edge_lengths_eq. cbn [nth]. rewrite heron. f_equal. f_equal. apply Rsqr_inj; [apply sqrt_pos|pose proof S_pos; lra|]. unfold Rsqr. rewrite sqrt_sqrt by lra. replace (2 * S * (2 * S)) with (4 * (S * S)) by ring. rewrite S_sq. ring.
  Qed.
  (** orthocentre *)
  Lemma acute a : 0 <= a <= PI -> cos a = 0 <-> a = PI / 2.
  Proof.
    intros H. split; [|intros ->; apply cos_PI2]. intros K. pose proof PI_pos. apply cos_inj_0_PI; [exact H|lra|]. rewrite K, cos_PI2. reflexivity.
  Qed.
  Lemma orthocenter_ok : measurable -> orthocenter vs = Ok (bpt p q r (- B * (A + B) / D) (- B * (B + C) / D) ((A + B) * (B + C) / D)).
  Proof.
    intros M. destruct (angle0_ok M) as (a0 & E0 & I0 & K0), (angle1_ok M) as (a1 & E1 & I1 & K1), (angle2_ok M) as (a2 & E2 & I2 & K2). destruct len_pos as (P0 & P1 & P2). pose proof HD as Dp.
    assert (Z : forall x y z w, cos x = y / (z * w) -> 0 < z -> 0 < w -> (cos x = 0 <-> y = 0)).
    { intros x y z w -> Hz Hw. split; [|intros ->; unfold Rdiv; ring]. intros Q. apply Rmult_integral in Q. destruct Q as [Q|Q]; [exact Q|]. exfalso. revert Q. apply Rinv_neq_0_compat, Rmult_integral_contrapositive. split; lra. }
    pose proof (Z _ _ _ _ K0 P1 P2) as Z0. pose proof (Z _ _ _ _ K1 P0 P2) as Z1. pose proof (Z _ _ _ _ K2 P0 P1) as Z2. rewrite (acute _ I0) in Z0. rewrite (acute _ I1) in Z1. rewrite (acute _ I2) in Z2.
    assert (V0 : set_nth 0 1 (vzero 3) = [1; 0; 0]) by reflexivity. assert (V1 : set_nth 1 1 (vzero 3) = [0; 1; 0]) by reflexivity. assert (V2 : set_nth 2 1 (vzero 3) = [0; 0; 1]) by reflexivity.
    unfold orthocenter. cbn [seq orthocenter_loop]. rewrite E0. cbn [bind]. destruct (reqb a0 (PI / 2)) eqn:R0; cbn [negb].
    { cbn [bind]. rewrite V0. apply reqb_inv in R0. apply Z0 in R0. rewrite t2b_ok by lra. rewrite b2c_eq. f_equal. unfold gD in *. assert (X : C = - B) by lra. rewrite X in *. f_equal; field; lra. }
    rewrite E1. cbn [bind]. destruct (reqb a1 (PI / 2)) eqn:R1; cbn [negb].
    { cbn [bind]. rewrite V1. apply reqb_inv in R1. apply Z1 in R1. rewrite t2b_ok by lra. rewrite b2c_eq. f_equal. unfold gD in *. assert (X : A = - B) by lra. rewrite X in *. f_equal; field; lra. }
    rewrite E2. cbn [bind]. destruct (reqb a2 (PI / 2)) eqn:R2; cbn [negb].
    { cbn [bind]. rewrite V2. apply reqb_inv in R2. apply Z2 in R2. rewrite t2b_ok by lra. rewrite b2c_eq. f_equal. unfold gD in *. assert (X : B = 0) by lra. rewrite X in *. assert (NA : A <> 0) by (intros Q; rewrite Q in *; lra). assert (NC : C <> 0) by (intros Q; rewrite Q in *; lra). f_equal; field; repeat split; lra. }
    cbn [bind]. assert (N0 : B + C <> 0) by (intros Q; apply Z0 in Q; apply reqb_t in Q; congruence). assert (N1 : A + B <> 0) by (intros Q; apply Z1 in Q; apply reqb_t in Q; congruence). assert (N2 : B <> 0) by (intros Q; assert (Q2 : - B = 0) by lra; apply Z2 in Q2; apply reqb_t in Q2; congruence).
    change (set_nth 2 (1 / cos a2) (set_nth 1 (1 / cos a1) (set_nth 0 (1 / cos a0) (vzero 3)))) with [1 / cos a0; 1 / cos a1; 1 / cos a2]. rewrite K0, K1, K2. f_equal.
    assert (X : l0 * (1 / ((B + C) / (l1 * l2))) + l1 * (1 / ((A + B) / (l0 * l2))) + l2 * (1 / (- B / (l0 * l1))) = l0 * l1 * l2 * D / ((B + C) * (A + B) * - B)).
    { unfold gD. field. repeat split; lra. }
    rewrite t2b_ok; rewrite X; [|unfold Rdiv; repeat (apply Rmult_integral_contrapositive; split); try lra; apply Rinv_neq_0_compat; repeat (apply Rmult_integral_contrapositive; split); lra].
    rewrite b2c_eq. f_equal; field; repeat split; lra.
  Qed.
  (** incentre *)
  Lemma incenter_ok : incenter vs = bpt p q r (l0 / (l0 + l1 + l2)) (l1 / (l0 + l1 + l2)) (l2 / (l0 + l1 + l2)).
  Proof. destruct len_pos as (P0 & P1 & P2). unfold incenter. rewrite t2b_ok by lra. rewrite b2c_eq. f_equal; field; lra. Qed.
  Lemma inradius_ok : n = 2%nat \/ n = 3%nat -> inradius vs = Ok (S / (l0 + l1 + l2)).
  Proof.
    intros Hn. destruct len_pos as (P0 & P1 & P2). unfold inradius. rewrite (area_ok n p q r Hp Hq Hr Hn). cbn [bind]. unfold perimeter. rewrite edge_lengths_eq. cbn [rsum fold_right]. fold S. f_equal. field. lra.
  Qed.
End Centres.
