(** Properties C85-C92: geometry/primitives/triangle.py and
    linalg/vector_space_projection.py. *)
From Coq Require Import Reals Lra Psatz Lia.
From Verif Require Import Base MultiIndex RVec Angle AngleFacts Rotation RotFacts Triangle TriFacts.
Local Open Scope R_scope.

(** the vertices are points of the same space, not on a line *)
Definition proper (p q r : vec) : Prop := length q = length p /\ length r = length p /\
  forall s t, vadd (vscale s (vsub q p)) (vscale t (vsub r p)) = vzero (length p) -> s = 0 /\ t = 0.
(** the points of the line through the vertices other than [i] *)
Definition side (vs : tri) (i : nat) (s : R) : vec := vadd (vscale (1 - s) (vx vs ((i + 1) mod 3))) (vscale s (vx vs ((i + 2) mod 3))).
(** [d] is the distance from [x] to that line *)
Definition line_distance (x : vec) (vs : tri) (i : nat) (d : R) : Prop :=
  (forall s, d <= vnorm (vsub x (side vs i s))) /\ exists s, vnorm (vsub x (side vs i s)) = d.
Definition combination (a b c : R) (p q r : vec) : vec := vadd (vadd (vscale a p) (vscale b q)) (vscale c r).

Lemma proper_gram p q r : proper p q r -> 0 < gD p q r.
Proof.
  intros (Hq & Hr & N). destruct (gD_pos (length p) p q r eq_refl Hq Hr) as [L|Z]; [exact L|exfalso].
  assert (K : vsub (vscale (gA q r) (e1 p r)) (vscale (gB p q r) (e0 q r)) = vzero (length p)).
  { assert (Hl : length (vsub (vscale (gA q r) (e1 p r)) (vscale (gB p q r) (e0 q r))) = length p) by (unfold e0, e1; vlen). rewrite <- Hl. apply vdot_zero_inv.
    assert (L0 : length (e0 q r) = length p) by (unfold e0; vlen). assert (L1 : length (e1 p r) = length p) by (unfold e1; vlen).
    rewrite vdot_sub_l, !vdot_sub_r by vlen. rewrite !vdot_scale_l, !vdot_scale_r. rewrite (vdot_sym (e1 p r) (e0 q r)). fold (gA q r) (gB p q r) (gC p r). unfold gD in Z. replace (_ - _) with (gA q r * (gA q r * gC p r - gB p q r * gB p q r)) by ring. rewrite <- Z. ring. }
  destruct (N (gB p q r) (- gA q r - gB p q r)) as [X Y].
  { rewrite <- K. unfold e0, e1. vring. }
  assert (A0 : gA q r = 0) by lra. apply vdot_zero_inv in A0. destruct (N 1 (-1)) as [X1 _]; [|lra].
  assert (L0 : length (e0 q r) = length p) by (unfold e0; vlen). rewrite L0 in A0. transitivity (vscale (-1) (e0 q r)); [unfold e0; vring|]. rewrite A0. apply vec_ext; [rewrite vscale_len; reflexivity|]. intros i _. rewrite nth_vscale, nth_vzero. ring.
Qed.
Lemma proper_cyc p q r : proper p q r -> proper q r p.
Proof.
  intros (Hq & Hr & N). split; [congruence|]. split; [congruence|]. rewrite Hq. intros s t E. destruct (N (- s - t) s) as [X Y]; [|lra]. rewrite <- E. vring.
Qed.

(** ** C85: edges, perimeter and diameter *)
Theorem C85_edges : forall (p q r : vec) i, length q = length p -> length r = length p -> (i < 3)%nat ->
  vadd (vx [p; q; r] ((i + 1) mod 3)) (vx (edges [p; q; r]) i) = vx [p; q; r] ((i + 2) mod 3) /\
  nth i (edge_lengths [p; q; r]) 0 = vnorm (vsub (vx [p; q; r] ((i + 1) mod 3)) (vx [p; q; r] ((i + 2) mod 3))) /\
  vadd (vadd (vx (edges [p; q; r]) 0) (vx (edges [p; q; r]) 1)) (vx (edges [p; q; r]) 2) = vzero (length p).
Proof.
  intros p q r i Hq Hr Hi.
  assert (SN : forall u v, length u = length v -> vnorm (vsub u v) = vnorm (vsub v u)).
  { intros u v H. replace (vsub u v) with (vscale (-1) (vsub v u)) by vring. apply neg_norm. }
  assert (Z : vadd (vadd (vsub r q) (vsub p r)) (vsub q p) = vzero (length p)) by (apply vec_ext; [rewrite vzero_len; vlen|intros k _; vnths; rewrite nth_vzero; ring]).
  destruct i as [|[|[|i]]]; [| | |lia]; (split; [|split; [|exact Z]]); cbn [edges edge_lengths map seq vx nth Nat.modulo Nat.divmod Nat.add fst snd Nat.sub]; first [vring|apply SN; congruence].
Qed.
Print Assumptions C85_edges.

Lemma convex3 a b c x y z m : 0 <= a -> 0 <= b -> 0 <= c -> a + b + c = 1 -> x <= m -> y <= m -> z <= m -> a * x + b * y + c * z <= m.
Proof. intros. nra. Qed.
Lemma comb_dist (p q r x : vec) a b c m : length q = length p -> length r = length p -> length x = length p -> 0 <= a -> 0 <= b -> 0 <= c -> a + b + c = 1 ->
  vnorm (vsub p x) <= m -> vnorm (vsub q x) <= m -> vnorm (vsub r x) <= m -> vnorm (vsub (combination a b c p q r) x) <= m.
Proof.
  intros Hq Hr Hx Ha Hb Hc S P Q R. replace (vsub (combination a b c p q r) x) with (vadd (vadd (vscale a (vsub p x)) (vscale b (vsub q x))) (vscale c (vsub r x))).
  - eapply Rle_trans; [apply norm_triangle; vlen|]. eapply Rle_trans; [apply Rplus_le_compat_r, norm_triangle; vlen|]. rewrite !vnorm_scale, !Rabs_right by lra. apply convex3; assumption.
  - unfold combination. replace c with (1 - a - b) by lra. vring.
Qed.
Theorem C85_diameter : forall (p q r : vec), length q = length p -> length r = length p ->
  (forall a b c a' b' c', 0 <= a -> 0 <= b -> 0 <= c -> a + b + c = 1 -> 0 <= a' -> 0 <= b' -> 0 <= c' -> a' + b' + c' = 1 ->
    vnorm (vsub (combination a b c p q r) (combination a' b' c' p q r)) <= diameter [p; q; r]) /\
  (exists x y, In x [p; q; r] /\ In y [p; q; r] /\ vnorm (vsub x y) = diameter [p; q; r]) /\
  2 * diameter [p; q; r] <= perimeter [p; q; r] <= 3 * diameter [p; q; r].
Proof.
  intros p q r Hq Hr. assert (SN : forall u v, length u = length v -> vnorm (vsub u v) = vnorm (vsub v u)).
  { intros u v H. replace (vsub u v) with (vscale (-1) (vsub v u)) by vring. apply neg_norm. }
  assert (SZ : forall u, vnorm (vsub u u) = 0).
  { intros u. replace (vsub u u) with (vscale 0 u) by vring. rewrite vnorm_scale, Rabs_R0. ring. }
  assert (Dm : diameter [p; q; r] = Rmax (vnorm (vsub r q)) (Rmax (vnorm (vsub p r)) (vnorm (vsub q p)))) by reflexivity.
  assert (Pm : perimeter [p; q; r] = vnorm (vsub r q) + (vnorm (vsub p r) + (vnorm (vsub q p) + 0))) by reflexivity. rewrite Dm, Pm.
  set (m := Rmax _ _). assert (M0 : vnorm (vsub r q) <= m) by apply Rmax_l. assert (M1 : vnorm (vsub p r) <= m) by (eapply Rle_trans; [apply Rmax_l|apply Rmax_r]). assert (M2 : vnorm (vsub q p) <= m) by (eapply Rle_trans; [apply Rmax_r|apply Rmax_r]).
  assert (K : m = vnorm (vsub r q) \/ m = vnorm (vsub p r) \/ m = vnorm (vsub q p)) by (unfold m, Rmax; repeat match goal with |- context [Rle_dec ?x ?y] => destruct (Rle_dec x y) end; tauto).
  assert (Z : 0 <= m) by (pose proof (vnorm_pos (vsub r q)); lra). split; [|split].
  - intros a b c a' b' c' Ha Hb Hc Hs Ha' Hb' Hc' Hs'. assert (V : forall x, In x [p; q; r] -> vnorm (vsub x (combination a' b' c' p q r)) <= m).
    { intros x Hx. assert (Lx : length x = length p) by (cbn in Hx; intuition congruence). rewrite SN by (unfold combination; vlen).
      cbn in Hx. destruct Hx as [<- | [<- | [<- | []]]]; apply comb_dist; auto; rewrite ?SZ; try exact Z; first [assumption|rewrite SN by congruence; assumption]. }
    apply comb_dist; auto; [unfold combination; vlen|apply V; cbn; auto|apply V; cbn; auto|apply V; cbn; auto].
  - destruct K as [-> | [-> | ->]]; [exists r, q|exists p, r|exists q, p]; cbn; tauto.
  - assert (T0 : vnorm (vsub r q) <= vnorm (vsub p r) + vnorm (vsub q p)) by (rewrite (SN p r), (SN q p) by congruence; replace (vsub r q) with (vadd (vsub r p) (vsub p q)) by vring; apply norm_triangle; vlen).
    assert (T1 : vnorm (vsub p r) <= vnorm (vsub r q) + vnorm (vsub q p)) by (rewrite (SN r q), (SN q p), Rplus_comm by congruence; replace (vsub p r) with (vadd (vsub p q) (vsub q r)) by vring; apply norm_triangle; vlen).
    assert (T2 : vnorm (vsub q p) <= vnorm (vsub r q) + vnorm (vsub p r)) by (rewrite (SN r q), (SN p r) by congruence; replace (vsub q p) with (vadd (vsub q r) (vsub r p)) by vring; apply norm_triangle; vlen).
    destruct K as [K | [K | K]]; lra.
Qed.
Print Assumptions C85_diameter.

(** ** C86: area, altitudes and dual edges *)
Lemma side0 (p q r : vec) s : length q = length p -> length r = length p -> side [p; q; r] 0 s = bpt p q r 0 (1 - s) (1 - (1 - s)).
Proof. intros Hq Hr. unfold side, bpt. cbn [vx nth Nat.modulo Nat.divmod Nat.add fst snd Nat.sub]. vring. Qed.
Lemma line0 p q r a b : proper p q r -> line_distance (combination a b (1 - a - b) p q r) [p; q; r] 0 (Rabs (a * tS p q r / len0 q r)).
Proof.
  intros Hp. pose proof (proper_gram _ _ _ Hp) as D. destruct Hp as (Hq & Hr & _). change (combination a b (1 - a - b) p q r) with (bpt p q r a b (1 - a - b)). split.
  - intros s. rewrite side0 by assumption. eapply dist_ge; eauto.
  - exists (1 - (b - a * gB p q r / gA q r)). rewrite side0 by assumption. replace (1 - (1 - (b - a * gB p q r / gA q r))) with (b - a * gB p q r / gA q r) by ring. eapply dist_att; eauto.
Qed.
Lemma tS_cyc (p q r : vec) : length q = length p -> length r = length p -> tS q r p = tS p q r.
Proof. intros Hq Hr. unfold tS. rewrite (gD_cyc (length p)) by auto. reflexivity. Qed.
Lemma comb_cyc a b c (p q r : vec) : length q = length p -> length r = length p -> combination b c a q r p = combination a b c p q r.
Proof. intros Hq Hr. unfold combination. vring. Qed.
(** the distances to the three sides *)
Lemma lines p q r a b c i : proper p q r -> a + b + c = 1 -> (i < 3)%nat ->
  line_distance (combination a b c p q r) [p; q; r] i (Rabs (nth i [a; b; c] 0 * tS p q r / nth i (edge_lengths [p; q; r]) 0)).
Proof.
  intros Hp Hs Hi. pose proof (proper_cyc _ _ _ Hp) as Hp1. pose proof (proper_cyc _ _ _ Hp1) as Hp2. pose proof Hp as (Hq & Hr & _).
  destruct i as [|[|[|i]]]; [| | |lia]; cbn [nth].
  - replace c with (1 - a - b) by lra. apply line0, Hp.
  - pose proof (line0 q r p b c Hp1) as K. rewrite (tS_cyc p q r) in K by congruence. replace (1 - b - c) with a in K by lra. rewrite (comb_cyc a b c p q r) in K by congruence. exact K.
  - pose proof (line0 r p q c a Hp2) as K. rewrite (tS_cyc q r p), (tS_cyc p q r) in K by congruence. replace (1 - c - a) with b in K by lra. rewrite (comb_cyc b c a q r p), (comb_cyc a b c p q r) in K by congruence. exact K.
Qed.
Lemma vertex_comb (p q r : vec) i : length q = length p -> length r = length p -> (i < 3)%nat -> vx [p; q; r] i = combination (nth i [1; 0; 0] 0) (nth i [0; 1; 0] 0) (nth i [0; 0; 1] 0) p q r.
Proof. intros Hq Hr Hi. unfold combination. destruct i as [|[|[|i]]]; [| | |lia]; cbn [vx nth]; vring. Qed.

Theorem C86_area : forall (p q r : vec), length p = 2%nat \/ length p = 3%nat -> length q = length p -> length r = length p ->
  exists S, area [p; q; r] = Ok S /\ 0 <= S /\ 4 * (S * S) = vdot (vsub q p) (vsub q p) * vdot (vsub r p) (vsub r p) - vdot (vsub q p) (vsub r p) * vdot (vsub q p) (vsub r p) /\
    area [q; r; p] = Ok S /\ area [q; p; r] = Ok S /\ (0 < S <-> proper p q r).
Proof.
  intros p q r Hn Hq Hr. exists (/ 2 * sqrt (gD p q r)). split; [apply (area_ok (length p)); auto|]. pose proof (gD_pos (length p) p q r eq_refl Hq Hr) as P. pose proof (sqrt_pos (gD p q r)) as P2.
  assert (G : gD p q r = vdot (vsub q p) (vsub q p) * vdot (vsub r p) (vsub r p) - vdot (vsub q p) (vsub r p) * vdot (vsub q p) (vsub r p)).
  { rewrite <- (gD_cyc (length p)) by auto. unfold gD, gA, gB, gC, e0, e1. replace (vsub r p) with (vscale (-1) (vsub p r)) by vring. vdots. rewrite (vdot_sym p q), (vdot_sym r q), (vdot_sym r p). ring. }
  assert (G2 : gD q p r = gD p q r).
  { rewrite G. unfold gD, gA, gB, gC, e0, e1. replace (vsub q p) with (vsub (vsub q r) (vsub p r)) by vring. replace (vsub r p) with (vscale (-1) (vsub p r)) by vring. vdots. rewrite (vdot_sym p q), (vdot_sym r q), (vdot_sym r p). ring. }
  split; [lra|]. split; [|split; [|split]].
  - rewrite <- G. replace (4 * (/ 2 * sqrt (gD p q r) * (/ 2 * sqrt (gD p q r)))) with (sqrt (gD p q r) * sqrt (gD p q r)) by field. apply sqrt_sqrt, P.
  - rewrite (area_ok (length p)) by (congruence || assumption). rewrite (gD_cyc (length p)) by auto. reflexivity.
  - rewrite (area_ok (length p)) by (congruence || assumption). rewrite G2. reflexivity.
  - split.
    + intros L. split; [exact Hq|]. split; [exact Hr|]. intros s t E. assert (0 < gD p q r) by (destruct P as [P|P]; [exact P|rewrite <- P, sqrt_0 in L; lra]).
      destruct (bpt_inj (length p) p q r eq_refl Hq Hr ltac:(assumption) 1 0 (1 - s - t) s) as [X Y]; [|lra].
      transitivity p; [unfold bpt; vring|]. transitivity (vadd p (vadd (vscale s (vsub q p)) (vscale t (vsub r p)))); [rewrite E; symmetry; apply vzero_add; reflexivity|unfold bpt; vring].
    + intros Hp. pose proof (proper_gram _ _ _ Hp) as L. apply sqrt_lt_R0 in L. lra.
Qed.
Print Assumptions C86_area.
Theorem C86_area_plane : forall p0 p1 q0 q1 r0 r1, area [[p0; p1]; [q0; q1]; [r0; r1]] = Ok (Rabs ((q0 - p0) * (r1 - p1) - (q1 - p1) * (r0 - p0)) / 2).
Proof.
  intros. unfold area, np_cross. cbn -[Rabs Rmult]. f_equal. unfold Rdiv. rewrite Rmult_comm. f_equal. f_equal. ring.
Qed.
Print Assumptions C86_area_plane.

Theorem C86_altitudes : forall p q r, proper p q r -> length p = 2%nat \/ length p = 3%nat ->
  exists hs S, altitudes [p; q; r] = Ok hs /\ length hs = 3%nat /\ area [p; q; r] = Ok S /\ forall i, (i < 3)%nat ->
    0 < nth i hs 0 /\ line_distance (vx [p; q; r] i) [p; q; r] i (nth i hs 0) /\
    S = nth i hs 0 * vnorm (vsub (vx [p; q; r] ((i + 1) mod 3)) (vx [p; q; r] ((i + 2) mod 3))) / 2.
Proof.
  intros p q r Hp Hn. pose proof Hp as (Hq & Hr & _). pose proof (proper_gram _ _ _ Hp) as D. unfold altitudes. rewrite (area_ok (length p) p q r) by auto. fold (tS p q r). cbn [bind].
  eexists. exists (/ 2 * tS p q r). split; [reflexivity|]. split; [reflexivity|]. split; [reflexivity|]. intros i Hi.
  destruct (len_pos (length p) p q r eq_refl Hq Hr D) as (P0 & P1 & P2). pose proof (tS_gt p q r D) as T.
  assert (E : nth i (map (altitude_of [p; q; r] (/ 2 * tS p q r)) (seq 0 3)) 0 = tS p q r / nth i (edge_lengths [p; q; r]) 0).
  { destruct (C85_edges p q r i Hq Hr Hi) as (_ & E & _). rewrite E. destruct i as [|[|[|i]]]; [| | |lia]; cbn [map seq nth]; unfold altitude_of; f_equal; field. }
  rewrite E. destruct (C85_edges p q r i Hq Hr Hi) as (_ & E1 & _). rewrite <- E1. assert (Pi : 0 < nth i (edge_lengths [p; q; r]) 0) by (rewrite edge_lengths_eq; destruct i as [|[|[|i]]]; [| | |lia]; assumption).
  split; [apply Rdiv_lt_0_compat; assumption|]. split; [|field; lra].
  rewrite (vertex_comb p q r i Hq Hr Hi). assert (S1 : nth i [1; 0; 0] 0 + nth i [0; 1; 0] 0 + nth i [0; 0; 1] 0 = 1) by (destruct i as [|[|[|i]]]; [| | |lia]; cbn; ring).
  pose proof (lines p q r _ _ _ i Hp S1 Hi) as K. replace (nth i [nth i [1; 0; 0] 0; nth i [0; 1; 0] 0; nth i [0; 0; 1] 0] 0) with 1 in K by (destruct i as [|[|[|i]]]; [| | |lia]; reflexivity).
  rewrite Rmult_1_l, Rabs_right in K by (apply Rle_ge, Rlt_le, Rdiv_lt_0_compat; assumption). exact K.
Qed.
Print Assumptions C86_altitudes.

Lemma foot0 p q r : proper p q r -> let f := vx (altitude_feet [p; q; r]) 0 in let h := vsub f p in
  (exists s, f = side [p; q; r] 0 s) /\ vdot h (e0 q r) = 0 /\ h = vscale (tS p q r / gA q r) (dualv p q r (e0 q r)).
Proof.
  intros Hp. pose proof Hp as (Hq & Hr & _). pose proof (proper_gram _ _ _ Hp) as D. pose proof (gA_gt p q r D) as A.
  pose proof (tS_gt p q r D) as T. cbn [altitude_feet map seq vx nth Nat.modulo Nat.divmod Nat.add fst snd Nat.sub]. fold (e0 q r) (e2 p q). rewrite (dot02 (length p) p q r) by auto. fold (gA q r).
  set (s := - (- gA q r - gB p q r) / gA q r). assert (Es : s = 1 + gB p q r / gA q r) by (unfold s; field; lra).
  assert (H : vsub (vadd (vscale (1 - s) q) (vscale s r)) p = vadd (vscale (gB p q r / gA q r) (e0 q r)) (vscale (-1) (e1 p r))) by (rewrite Es; unfold e0, e1; vring).
  assert (L0 : length (e0 q r) = length p) by (unfold e0; vlen). assert (L1 : length (e1 p r) = length p) by (unfold e1; vlen).
  split; [exists s; reflexivity|]. rewrite H. split.
  - rewrite vdot_add_l by vlen. rewrite !vdot_scale_l, (vdot_sym (e1 p r)). fold (gA q r) (gB p q r). field. lra.
  - unfold dualv. fold (gA q r) (gB p q r). vfield lra.
Qed.
Lemma dualv_cyc (p q r v : vec) : length q = length p -> length r = length p -> length v = length p -> dualv q r p v = dualv p q r v.
Proof.
  intros Hq Hr Hv. unfold dualv. rewrite (tS_cyc p q r Hq Hr). change (e0 r p) with (e1 p r). change (e1 q p) with (e2 p q). rewrite (e2_eq (length p) p q r) by auto.
  assert (L0 : length (e0 q r) = length p) by (unfold e0; vlen). assert (L1 : length (e1 p r) = length p) by (unfold e1; vlen). f_equal. rewrite vdot_scale_r, vdot_add_r by vlen. vring.
Qed.
Lemma feet p q r i : proper p q r -> (i < 3)%nat -> let f := vx (altitude_feet [p; q; r]) i in let h := vsub f (vx [p; q; r] i) in
  (exists s, f = side [p; q; r] i s) /\ vdot h (vx (edges [p; q; r]) i) = 0 /\
  h = vscale (tS p q r / vdot (vx (edges [p; q; r]) i) (vx (edges [p; q; r]) i)) (dualv p q r (vx (edges [p; q; r]) i)).
Proof.
  intros Hp Hi. pose proof (proper_cyc _ _ _ Hp) as Hp1. pose proof (proper_cyc _ _ _ Hp1) as Hp2. pose proof Hp as (Hq & Hr & _).
  destruct i as [|[|[|i]]]; [exact (foot0 p q r Hp)|pose proof (foot0 q r p Hp1) as K|pose proof (foot0 r p q Hp2) as K|lia].
  - rewrite (tS_cyc p q r), (dualv_cyc p q r) in K by (try congruence; unfold e0; vlen). exact K.
  - rewrite (tS_cyc q r p), (tS_cyc p q r), (dualv_cyc q r p), (dualv_cyc p q r) in K by (try congruence; unfold e0; vlen). exact K.
Qed.
Theorem C86_altitude_feet : forall p q r i, proper p q r -> (i < 3)%nat -> let v := vx [p; q; r] i in let f := vx (altitude_feet [p; q; r]) i in
  (exists s, f = side [p; q; r] i s) /\ (forall s s', vdot (vsub f v) (vsub (side [p; q; r] i s) (side [p; q; r] i s')) = 0) /\
  forall s, vnorm (vsub f v) <= vnorm (vsub (side [p; q; r] i s) v).
Proof.
  intros p q r i Hp Hi. cbv zeta. pose proof Hp as (Hq & Hr & _). destruct (feet p q r i Hp Hi) as ((s0 & E) & O & _). set (f := vx (altitude_feet [p; q; r]) i) in *. set (v := vx [p; q; r] i) in *.
  assert (X : forall s s', vsub (side [p; q; r] i s) (side [p; q; r] i s') = vscale (s - s') (vx (edges [p; q; r]) i)).
  { intros s s'. unfold side. destruct i as [|[|[|i]]]; [| | |lia]; cbn [edges map seq vx nth Nat.modulo Nat.divmod Nat.add fst snd Nat.sub]; vring. }
  assert (O2 : forall s s', vdot (vsub f v) (vsub (side [p; q; r] i s) (side [p; q; r] i s')) = 0) by (intros s s'; rewrite X, vdot_scale_r, O; ring).
  split; [exists s0; exact E|]. split; [exact O2|]. intros s.
  assert (Lv : length v = length p) by (unfold v; destruct i as [|[|[|i]]]; [| | |lia]; cbn; congruence).
  assert (Ls : forall s, length (side [p; q; r] i s) = length p) by (intros s1; unfold side; destruct i as [|[|[|i]]]; [| | |lia]; cbn [vx nth Nat.modulo Nat.divmod Nat.add fst snd Nat.sub]; vlen).
  assert (Lf : length f = length p) by (rewrite E; apply Ls).
  replace (vsub (side [p; q; r] i s) v) with (vadd (vsub f v) (vsub (side [p; q; r] i s) f)) by (pose proof (Ls s); vring).
  apply Rsqr_incr_0; [|apply vnorm_pos|apply vnorm_pos]. unfold Rsqr. rewrite !vnorm_sq. pose proof (Ls s). rewrite vdot_add_l, !vdot_add_r by vlen. rewrite (vdot_sym (vsub (side [p; q; r] i s) f) (vsub f v)).
  pose proof (O2 s s0) as O3. pose proof (vdot_pos (vsub (side [p; q; r] i s) (side [p; q; r] i s0))). rewrite <- E in *. lra.
Qed.
Print Assumptions C86_altitude_feet.

Ltac une := unfold e0, e1, e2.
Lemma cross_shift p q r : length p = 3%nat -> length q = 3%nat -> length r = 3%nat -> cross3 (vsub q p) (vsub r p) = cross3 (e0 q r) (e1 p r).
Proof.
  intros Hp Hq Hr. unfold e0, e1. destruct (len3 p Hp) as (a & b & c & ->), (len3 q Hq) as (d & e & f & ->), (len3 r Hr) as (g & h & i & ->). vcalc. veq ltac:(ring).
Qed.

Lemma dual_alg (x y v : vec) t : length x = length v -> length y = length v -> 0 < t -> t * t = vdot x x * vdot y y - vdot x y * vdot x y ->
  let w := vscale (/ t) (vsub (vscale (vdot v y) x) (vscale (vdot v x) y)) in
  vdot w v = 0 /\ ((exists a b, v = vadd (vscale a x) (vscale b y)) -> vdot w w = vdot v v).
Proof.
  intros Lx Ly T TS w. unfold w. split.
  - vdots. rewrite (vdot_sym x v), (vdot_sym y v). ring.
  - intros (a & b & Ev). assert (V0 : vdot v x = a * vdot x x + b * vdot x y) by (rewrite Ev; vdots; rewrite (vdot_sym y x); reflexivity).
    assert (V1 : vdot v y = a * vdot x y + b * vdot y y) by (rewrite Ev; vdots; reflexivity).
    assert (V2 : vdot v v = a * vdot v x + b * vdot v y) by (rewrite Ev at 2; rewrite vdot_add_r, !vdot_scale_r by vlen; reflexivity).
    rewrite V2, V0, V1. vdots. rewrite (vdot_sym y x). set (A := vdot x x) in *. set (B := vdot x y) in *. set (C := vdot y y) in *.
    match goal with |- / t * (/ t * ?x) = ?y => assert (E : x = t * t * y) by (rewrite TS; ring); rewrite E end. field. lra.
Qed.
Lemma dual_sq p q r v : length q = length p -> length r = length p -> 0 < gD p q r -> length v = length p ->
  vdot (dualv p q r v) v = 0 /\ ((exists a b, v = vadd (vscale a (e0 q r)) (vscale b (e1 p r))) -> vdot (dualv p q r v) (dualv p q r v) = vdot v v).
Proof.
  intros Hq Hr D Hv. assert (L0 : length (e0 q r) = length v) by (une; vlen). assert (L1 : length (e1 p r) = length v) by (une; vlen).
  exact (dual_alg (e0 q r) (e1 p r) v (tS p q r) L0 L1 (tS_gt p q r D) (tS_sq p q r D)).
Qed.
Lemma edge_span (p q r : vec) i : length q = length p -> length r = length p -> (i < 3)%nat -> exists a b, vx (edges [p; q; r]) i = vadd (vscale a (e0 q r)) (vscale b (e1 p r)).
Proof.
  intros Hq Hr Hi. destruct i as [|[|[|i]]]; [exists 1, 0|exists 0, 1|exists (-1), (-1)|lia]; une; cbn [edges map seq vx nth Nat.modulo Nat.divmod Nat.add fst snd Nat.sub]; vring.
Qed.
Lemma edge_len (p q r : vec) i : length q = length p -> length r = length p -> (i < 3)%nat -> length (vx (edges [p; q; r]) i) = length p.
Proof. intros Hq Hr Hi. destruct i as [|[|[|i]]]; [| | |lia]; cbn [edges map seq vx nth Nat.modulo Nat.divmod Nat.add fst snd Nat.sub]; vlen. Qed.
Lemma edge_pos p q r i : proper p q r -> (i < 3)%nat -> 0 < vdot (vx (edges [p; q; r]) i) (vx (edges [p; q; r]) i).
Proof.
  intros Hp Hi. pose proof (proper_gram _ _ _ Hp) as D. destruct Hp as (Hq & Hr & _). destruct (len_pos (length p) p q r eq_refl Hq Hr D) as (P0 & P1 & P2).
  rewrite <- vnorm_sq. destruct i as [|[|[|i]]]; [| | |lia]; apply Rmult_lt_0_compat; assumption.
Qed.
(** The dual edges are orthogonal to the edges, of the same length, and point out
    of the triangle: the vertex and the opposite side lie on different sides. *)
Theorem C86_dual_edges : forall p q r, proper p q r -> length p = 2%nat \/ length p = 3%nat ->
  exists t hv, dual_edges [p; q; r] = Ok t /\ altitude_vectors [p; q; r] = Ok hv /\ length t = 3%nat /\ length hv = 3%nat /\ forall i, (i < 3)%nat ->
    vdot (vx t i) (vx (edges [p; q; r]) i) = 0 /\ vnorm (vx t i) = vnorm (vx (edges [p; q; r]) i) /\ (forall s, 0 < vdot (vx t i) (vsub (side [p; q; r] i s) (vx [p; q; r] i))) /\
    vx hv i = vsub (vx (altitude_feet [p; q; r]) i) (vx [p; q; r] i) /\ exists c, 0 < c /\ vx t i = vscale c (vx hv i).
Proof.
  intros p q r Hp Hn. pose proof Hp as (Hq & Hr & _). pose proof (proper_gram _ _ _ Hp) as D. pose proof (tS_gt p q r D) as T.
  unfold altitude_vectors. rewrite (area_ok (length p) p q r) by auto. fold (tS p q r). rewrite (dual_edges_ok (length p) p q r) by auto. cbn [bind].
  eexists. eexists. split; [reflexivity|]. split; [reflexivity|]. split; [reflexivity|]. split; [reflexivity|]. intros i Hi. set (e := vx (edges [p; q; r]) i).
  assert (Ei : vx [dualv p q r (e0 q r); dualv p q r (e1 p r); dualv p q r (e2 p q)] i = dualv p q r e) by (unfold e; destruct i as [|[|[|i]]]; [| | |lia]; reflexivity). rewrite Ei.
  assert (Le : length e = length p) by (apply edge_len; assumption). pose proof (edge_pos p q r i Hp Hi) as Pe. fold e in Pe.
  destruct (dual_sq p q r e Hq Hr D Le) as (O & NS). specialize (NS (edge_span p q r i Hq Hr Hi)). destruct (feet p q r i Hp Hi) as ((s0 & Es) & Of & Eh). fold e in Of, Eh.
  assert (Nd : vnorm (dualv p q r e) = vnorm e) by (unfold vnorm; rewrite NS; reflexivity).
  assert (Pn : 0 < vnorm e) by (apply vnorm_gt0; lra). pose proof (vnorm_sq e) as Sq.
  set (f := vx (altitude_feet [p; q; r]) i) in *. set (v := vx [p; q; r] i) in *.
  match goal with |- context [vx (map ?g (seq 0 3)) i] => assert (Eh2 : vx (map g (seq 0 3)) i = vsub f v) end.
  { rewrite Eh, <- Sq. transitivity (vdivs (vscale (altitude_of [p; q; r] (/ 2 * tS p q r) i) (dualv p q r e)) (vnorm (dualv p q r e))); [rewrite <- Ei; destruct i as [|[|[|i]]]; [| | |lia]; reflexivity|].
    destruct (C85_edges p q r i Hq Hr Hi) as (_ & E1 & _). unfold altitude_of. rewrite <- E1. assert (E2 : nth i (edge_lengths [p; q; r]) 0 = vnorm e) by (unfold e; destruct i as [|[|[|i]]]; [| | |lia]; reflexivity). rewrite E2, Nd.
    generalize (dualv p q r e). intros w. vfield lra. }
  rewrite Eh2. split; [exact O|]. split; [exact Nd|]. split; [|split; [reflexivity|]].
  - intros s. assert (X : vsub (side [p; q; r] i s) v = vadd (vsub f v) (vscale (s - s0) e)).
    { rewrite Es. unfold v, side, e. destruct i as [|[|[|i]]]; [| | |lia]; cbn [edges map seq vx nth Nat.modulo Nat.divmod Nat.add fst snd Nat.sub]; vring. }
    rewrite X, Eh. assert (Ld : length (dualv p q r e) = length p) by (unfold dualv; une; vlen). rewrite vdot_add_r by vlen. rewrite !vdot_scale_r, NS, O. replace (_ + _) with (tS p q r) by (field; lra). exact T.
  - exists (vdot e e / tS p q r). split; [apply Rdiv_lt_0_compat; assumption|]. rewrite Eh. generalize (dualv p q r e). intros w. vfield lra.
Qed.
Print Assumptions C86_dual_edges.

(** ** C87: the normal and the coordinates of the plane *)
Theorem C87_normal : forall p q r, proper p q r -> length p = 3%nat -> exists n w, normal [p; q; r] = Ok (CV n) /\ area_weighted_normal [p; q; r] = Ok (CV w) /\ length n = 3%nat /\ vnorm n = 1 /\
  (forall i, (i < 3)%nat -> vdot n (vx (edges [p; q; r]) i) = 0) /\ 0 < vdot n (cross3 (vsub q p) (vsub r p)) /\ exists S, area [p; q; r] = Ok S /\ w = vscale (2 * S) n.
Proof.
  intros p q r Hp H3. pose proof Hp as (Hq & Hr & _). pose proof (proper_gram _ _ _ Hp) as D. pose proof (tS_gt p q r D) as T. pose proof (tS_sq p q r D) as TS.
  assert (L0 : length (e0 q r) = 3%nat) by (une; vlen). assert (L1 : length (e1 p r) = 3%nat) by (une; vlen).
  unfold normal, area_weighted_normal. rewrite edges_eq. cbn [vx nth]. unfold np_cross. rewrite L0, L1. cbn [Nat.eqb andb bind cross_div cross_norm].
  assert (NS : vnorm (cross3 (e0 q r) (e1 p r)) = tS p q r) by (unfold vnorm, tS; rewrite lagrange_id by assumption; reflexivity). rewrite NS.
  exists (vdivs (cross3 (e0 q r) (e1 p r)) (tS p q r)), (cross3 (e0 q r) (e1 p r)). split; [reflexivity|]. split; [reflexivity|]. split; [reflexivity|]. rewrite !vdivs_scale. assert (X : vdot (cross3 (e0 q r) (e1 p r)) (cross3 (e0 q r) (e1 p r)) = tS p q r * tS p q r) by (rewrite TS, lagrange_id by assumption; reflexivity). split; [|split; [|split]].
  - apply vnorm_eq; [lra|]. rewrite vdot_scale_l, vdot_scale_r, X. field. lra.
  - intros i Hi. change (vdot (vscale (/ tS p q r) (cross3 (e0 q r) (e1 p r))) (vx (edges [p; q; r]) i) = 0). destruct (edge_span p q r i Hq Hr Hi) as (a & b & ->). rewrite vdot_scale_l, vdot_add_r, !vdot_scale_r by vlen. rewrite (vdot_sym _ (e0 q r)), (vdot_sym _ (e1 p r)), cross_dot_l, cross_dot_r by assumption. ring.
  - pose proof (cross_shift p q r H3 ltac:(congruence) ltac:(congruence)) as Y.
    refine (eq_ind_r (fun w => 0 < vdot _ w) _ Y). rewrite vdot_scale_l, X. replace (/ tS p q r * (tS p q r * tS p q r)) with (tS p q r) by (field; lra). exact T.
  - exists (/ 2 * tS p q r). split; [apply (area_ok (length p)); auto|]. generalize (cross3 (e0 q r) (e1 p r)). intros w. vfield lra.
Qed.
Print Assumptions C87_normal.
(** In the plane [normal] is the orientation of the vertices. *)
Theorem C87_normal_plane : forall p0 p1 q0 q1 r0 r1, proper [p0; p1] [q0; q1] [r0; r1] ->
  normal [[p0; p1]; [q0; q1]; [r0; r1]] = Ok (CS (if rltb 0 ((q0 - p0) * (r1 - p1) - (q1 - p1) * (r0 - p0)) then 1 else -1)).
Proof.
  intros p0 p1 q0 q1 r0 r1 Hp. pose proof (proper_gram _ _ _ Hp) as D. unfold normal, np_cross. cbn -[Rabs Rmult rltb]. f_equal. f_equal. set (t := (q0 - p0) * (r1 - p1) - (q1 - p1) * (r0 - p0)).
  match goal with |- ?x / _ = _ => replace x with t by (unfold t; ring) end.
  assert (N : t <> 0). { intros Z. unfold gD, gA, gB, gC, e0, e1 in D. revert D. vcalc. intros D. match type of D with 0 < ?x => assert (E : x = t * t) by (unfold t; ring); rewrite E, Z in D end. lra. }
  destruct (Rlt_or_le 0 t) as [L|L]; [rewrite rltb_t, Rabs_right by lra|rewrite rltb_f, Rabs_left1 by lra]; field; lra.
Qed.
Print Assumptions C87_normal_plane.

(** the orthonormal basis of the plane, and the coordinates in it *)
Theorem C87_basis : forall p q r, proper p q r -> length p = 2%nat \/ length p = 3%nat -> exists b0 b1, basis [p; q; r] = Ok [b0; b1] /\ length b0 = length p /\ length b1 = length p /\
  vdot b0 b0 = 1 /\ vdot b1 b1 = 1 /\ vdot b0 b1 = 0 /\ vsub r q = vscale (vnorm (vsub r q)) b0 /\ (forall n, normal [p; q; r] = Ok (CV n) -> cross3 b0 b1 = n) /\
  forall v, in_triangleplane_coords [p; q; r] v = Ok [vdot v b0; vdot v b1] /\ ((exists s t, v = vadd (vscale s (vsub q p)) (vscale t (vsub r p))) -> v = vadd (vscale (vdot v b0) b0) (vscale (vdot v b1) b1)).
Proof.
  intros p q r Hp Hn. pose proof Hp as (Hq & Hr & _). pose proof (proper_gram _ _ _ Hp) as D. pose proof (tS_gt p q r D) as T. pose proof (tS_sq p q r D) as TS. destruct (len_pos (length p) p q r eq_refl Hq Hr D) as (P0 & _ & _). pose proof (l0_sq q r) as LS.
  exists (vdivs (e0 q r) (len0 q r)), (b1v p q r). assert (L0 : length (e0 q r) = length p) by (une; vlen). assert (L1 : length (e1 p r) = length p) by (une; vlen).
  pose proof (gA_gt p q r D) as PA.
  assert (X0 : vdot (vdivs (e0 q r) (len0 q r)) (vdivs (e0 q r) (len0 q r)) = 1) by (rewrite vdivs_scale, vdot_scale_l, vdot_scale_r; fold (gA q r); rewrite <- LS; field; lra).
  assert (BA : forall x y l u, length x = length y -> 0 < l -> 0 < u -> l * l = vdot x x -> u * u = vdot x x * vdot y y - vdot x y * vdot x y -> let w := vscale (/ (u * l)) (vsub (vscale (vdot x x) y) (vscale (vdot x y) x)) in
    vdot w w = 1 /\ vdot (vdivs x l) w = 0 /\ forall a b, let v := vadd (vscale a x) (vscale b y) in v = vadd (vscale (vdot v (vdivs x l)) (vdivs x l)) (vscale (vdot v w) w)).
  { clear. intros x y l u Hl Pl Pu El Eu w. assert (W0 : vdot x w = 0) by (unfold w; vdots; ring). assert (W1 : vdot y w = u / l).
    { unfold w. vdots. rewrite (vdot_sym y x). replace (u / l) with (/ (u * l) * (u * u)) by (field; lra). rewrite Eu. reflexivity. }
    assert (Lw : length w = length y) by (unfold w; vlen). split; [|split].
    - unfold w at 1. vdots. rewrite W0, W1, <- El. field. lra.
    - rewrite vdivs_scale, vdot_scale_l, W0. ring.
    - intros a b v. assert (V0 : vdot v (vdivs x l) = a * l + b * vdot x y / l) by (unfold v; vdots; rewrite (vdot_sym y x), <- El; field; lra). assert (V1 : vdot v w = b * u / l) by (unfold v; rewrite vdot_add_l, !vdot_scale_l, W0, W1 by vlen; field; lra).
      rewrite V0, V1. unfold v, w. rewrite <- El. vfield lra. }
  destruct (BA (e0 q r) (e1 p r) (len0 q r) (tS p q r) ltac:(congruence) P0 T LS TS) as (X1 & X2 & X3). change (vscale (/ (tS p q r * len0 q r)) (vsub (vscale (vdot (e0 q r) (e0 q r)) (e1 p r)) (vscale (vdot (e0 q r) (e1 p r)) (e0 q r)))) with (b1v p q r) in X1, X2, X3. clear BA.
  split; [apply (basis_ok (length p)); auto|]. split; [vlen|]. split; [unfold b1v; vlen|]. split; [exact X0|]. split; [exact X1|]. split; [exact X2|]. split; [|split].
  - fold (e0 q r) (len0 q r). generalize dependent (e0 q r). intros. vfield lra.
  - intros n En. destruct Hn as [H2|H3].
    { exfalso. unfold normal in En. rewrite edges_eq in En. cbn [vx nth] in En. unfold np_cross in En. rewrite L0, L1, H2 in En. discriminate En. }
    unfold normal in En. rewrite edges_eq in En. cbn [vx nth] in En. unfold np_cross in En. rewrite L0, L1, H3 in En. cbn [Nat.eqb andb bind cross_div cross_norm] in En.
    assert (NS : vnorm (cross3 (e0 q r) (e1 p r)) = tS p q r) by (unfold vnorm, tS; rewrite lagrange_id by congruence; reflexivity). rewrite NS in En. injection En as <-.
    unfold b1v. rewrite <- LS. destruct (len3 (e0 q r) ltac:(congruence)) as (a & b & c & Ea), (len3 (e1 p r) ltac:(congruence)) as (d & e & f & Eb). assert (EA : len0 q r * len0 q r = a * a + (b * b + (c * c + 0))) by (rewrite LS; unfold gA; rewrite Ea; reflexivity). rewrite Ea, Eb. set (l := len0 q r) in *.
    vcalc. repeat (apply f_equal2; [field; lra|]). reflexivity.
  - intros v. split; [unfold in_triangleplane_coords; rewrite (basis_ok (length p)) by auto; reflexivity|]. intros (s & t & ->).
    replace (vadd (vscale s (vsub q p)) (vscale t (vsub r p))) with (vadd (vscale (- s) (e0 q r)) (vscale (- s - t) (e1 p r))) by (une; vring).
    apply X3.
Qed.
Print Assumptions C87_basis.

Theorem C87_plane_coordinates : forall p q r, proper p q r -> length p = 2%nat \/ length p = 3%nat -> exists b0 b1 t e2 m2 t2, basis [p; q; r] = Ok [b0; b1] /\ dual_edges [p; q; r] = Ok t /\
  edges_2 [p; q; r] = Ok e2 /\ medians_2 [p; q; r] = Ok m2 /\ dual_edges_2 [p; q; r] = Ok t2 /\ length e2 = 3%nat /\ length m2 = 3%nat /\ length t2 = 3%nat /\ forall i, (i < 3)%nat -> let from2 w := vadd (vscale (nth 0 w 0) b0) (vscale (nth 1 w 0) b1) in
  from2 (vx e2 i) = vx (edges [p; q; r]) i /\ from2 (vx m2 i) = vx (medians [p; q; r]) i /\ from2 (vx t2 i) = vx t i.
Proof.
  intros p q r Hp Hn. pose proof Hp as (Hq & Hr & _). destruct (C87_basis p q r Hp Hn) as (b0 & b1 & Eb & _ & _ & _ & _ & _ & _ & _ & H). destruct (C86_dual_edges p q r Hp Hn) as (t & hv & Et & _ & _ & _ & Hd).
  assert (Co : forall v, in_triangleplane_coords [p; q; r] v = Ok [vdot v b0; vdot v b1]) by (intros v; apply H).
  exists b0, b1, t, (map (fun i => [vdot (vx (edges [p; q; r]) i) b0; vdot (vx (edges [p; q; r]) i) b1]) (seq 0 3)), (map (fun i => [vdot (vx (medians [p; q; r]) i) b0; vdot (vx (medians [p; q; r]) i) b1]) (seq 0 3)), (map (fun i => [vdot (vx t i) b0; vdot (vx t i) b1]) (seq 0 3)).
  split; [exact Eb|]. split; [exact Et|]. split; [unfold edges_2; rewrite Eb; reflexivity|]. split; [unfold medians_2; cbn [mapM seq]; rewrite !Co; reflexivity|]. split; [unfold dual_edges_2; rewrite Et; cbn [bind mapM seq]; rewrite !Co; reflexivity|].
  repeat (split; [reflexivity|]). intros i Hi. cbv zeta.
  assert (M : forall (f : nat -> vec), vx (map f (seq 0 3)) i = f i) by (intros f; destruct i as [|[|[|i]]]; [| | |lia]; reflexivity). rewrite !M. cbn [nth].
  split; [|split]; symmetry; apply H.
  - destruct i as [|[|[|i]]]; [exists (-1), 1|exists 0, (-1)|exists 1, 0|lia]; cbn [edges map seq vx nth Nat.modulo Nat.divmod Nat.add fst snd Nat.sub]; vring.
  - destruct i as [|[|[|i]]]; [exists (/ 2), (/ 2)|exists (-1), (/ 2)|exists (/ 2), (-1)|lia]; cbn [medians map seq vx nth Nat.modulo Nat.divmod Nat.add fst snd Nat.sub]; apply vec_ext; try vlen; intros k _; vnths; field.
  - destruct (Hd i Hi) as (_ & _ & _ & Ev & c & _ & Ec). rewrite Ec, Ev. destruct (C86_altitude_feet p q r i Hp Hi) as ((s & Es) & _). rewrite Es. unfold side.
    destruct i as [|[|[|i]]]; [exists (c * (1 - s)), (c * s)|exists (- c), (c * (1 - s))|exists (c * s), (- c)|lia]; cbn [vx nth Nat.modulo Nat.divmod Nat.add fst snd Nat.sub]; apply vec_ext; try vlen; intros k _; vnths; ring.
Qed.
Print Assumptions C87_plane_coordinates.

(** ** C88: barycentric coordinates *)
Lemma comb_bpt a b c p q r : combination a b c p q r = bpt p q r a b c. Proof. reflexivity. Qed.
Lemma c2b_comb p q r a b c : proper p q r -> length p = 2%nat \/ length p = 3%nat -> a + b + c = 1 -> cartesian_to_barycentric (combination a b c p q r) [p; q; r] = Ok [a; b; c].
Proof.
  intros Hp Hn S. pose proof (proper_gram _ _ _ Hp) as D. pose proof Hp as (Hq & Hr & _). pose proof (c2b_ok (length p) p q r eq_refl Hq Hr D Hn a b (vzero (length p)) (vzero_len _) (vdot_zero_l _ _) (vdot_zero_l _ _)) as K.
  rewrite vzero_add in K by (apply bpt_len; auto). replace (1 - a - b) with c in K by lra. exact K.
Qed.
Theorem C88_round_trip : forall p q r a b c, proper p q r -> length p = 2%nat \/ length p = 3%nat -> a + b + c = 1 ->
  cartesian_to_barycentric (barycentric_to_cartesian [a; b; c] [p; q; r]) [p; q; r] = Ok [a; b; c] /\
  forall a' b' c', a' + b' + c' = 1 -> barycentric_to_cartesian [a'; b'; c'] [p; q; r] = barycentric_to_cartesian [a; b; c] [p; q; r] -> a' = a /\ b' = b /\ c' = c.
Proof.
  intros p q r a b c Hp Hn S. split; [apply c2b_comb; assumption|]. intros a' b' c' S' E.
  pose proof (c2b_comb p q r a b c Hp Hn S) as K. pose proof (c2b_comb p q r a' b' c' Hp Hn S') as K'. change (combination a' b' c' p q r) with (barycentric_to_cartesian [a'; b'; c'] [p; q; r]) in K'. rewrite E in K'.
  change (barycentric_to_cartesian [a; b; c] [p; q; r]) with (combination a b c p q r) in K'. rewrite K in K'. injection K'. auto.
Qed.
Print Assumptions C88_round_trip.
(** The coordinates are those of the point of the plane next to the argument; in two
    dimensions that is the argument. *)
Theorem C88_nearest : forall p q r x, proper p q r -> length p = 2%nat \/ length p = 3%nat -> length x = length p ->
  exists a b c, cartesian_to_barycentric x [p; q; r] = Ok [a; b; c] /\ a + b + c = 1 /\ (length p = 2%nat -> barycentric_to_cartesian [a; b; c] [p; q; r] = x) /\
    forall a' b' c', a' + b' + c' = 1 -> vnorm (vsub x (barycentric_to_cartesian [a; b; c] [p; q; r])) <= vnorm (vsub x (barycentric_to_cartesian [a'; b'; c'] [p; q; r])).
Proof.
  intros p q r x Hp Hn Hx. pose proof (proper_gram _ _ _ Hp) as D. pose proof Hp as (Hq & Hr & _).
  destruct (decomp (length p) p q r eq_refl Hq Hr D x Hx) as (a & b & o & E & Lo & O0 & O1). exists a, b, (1 - a - b). pose proof (bpt_len (length p) p q r eq_refl Hq Hr a b (1 - a - b)) as Lb. split; [|split; [ring|split]].
  - rewrite E. apply (c2b_ok (length p)); auto.
  - intros H2. rewrite E. rewrite (plane2 (length p) p q r eq_refl Hq Hr D o H2 Lo O0 O1). symmetry. apply vzero_add. exact Lb.
  - intros a' b' c' S'. rewrite !b2c_eq. pose proof (bpt_len (length p) p q r eq_refl Hq Hr a' b' c') as Lb'.
    assert (X : vsub x (bpt p q r a b (1 - a - b)) = o) by (rewrite E; generalize dependent (bpt p q r a b (1 - a - b)); intros; vring).
    assert (Y : vsub x (bpt p q r a' b' c') = vadd o (vsub (bpt p q r a b (1 - a - b)) (bpt p q r a' b' c'))).
    { rewrite E. generalize dependent (bpt p q r a b (1 - a - b)). generalize dependent (bpt p q r a' b' c'). intros. vring. }
    rewrite X, Y. rewrite (bpt_sub (length p)) by (auto; lra). set (s := b' - b). set (t := a - a'). assert (L0 : length (e0 q r) = length p) by (une; vlen). assert (L1 : length (e1 p r) = length p) by (une; vlen).
    set (w := vadd (vscale s (e0 q r)) (vscale t (e1 p r))). assert (Lw : length w = length p) by (unfold w; vlen). assert (Ow : vdot o w = 0) by (unfold w; rewrite vdot_add_r, !vdot_scale_r, O0, O1 by vlen; ring). clearbody w.
    apply Rsqr_incr_0; [|apply vnorm_pos|apply vnorm_pos]. unfold Rsqr. rewrite !vnorm_sq, vdot_add_l, !vdot_add_r, (vdot_sym w o), Ow by vlen. pose proof (vdot_pos w). lra.
Qed.
Print Assumptions C88_nearest.
Theorem C88_inside : forall p q r a b c, proper p q r -> length p = 2%nat \/ length p = 3%nat -> a + b + c = 1 ->
  exists closed open_, inside_triangle (combination a b c p q r) [p; q; r] true = Ok closed /\ inside_triangle (combination a b c p q r) [p; q; r] false = Ok open_ /\
    (closed = true <-> 0 <= a /\ 0 <= b /\ 0 <= c) /\ (open_ = true <-> 0 < a /\ 0 < b /\ 0 < c).
Proof.
  intros p q r a b c Hp Hn S. unfold inside_triangle. rewrite c2b_comb by assumption. cbn [bind]. eexists. eexists. split; [reflexivity|]. split; [reflexivity|].
  cbn [forallb]. unfold in_closed_range, in_open_range. rewrite !andb_true_r, !andb_true_iff, !rleb_inv, !rltb_inv. lra.
Qed.
Print Assumptions C88_inside.
(** In two dimensions: the points of the triangle. *)
Theorem C88_inside_plane : forall p q r x, proper p q r -> length p = 2%nat -> length x = 2%nat ->
  (inside_triangle x [p; q; r] true = Ok true <-> exists a b c, 0 <= a /\ 0 <= b /\ 0 <= c /\ a + b + c = 1 /\ x = combination a b c p q r) /\
  (inside_triangle x [p; q; r] false = Ok true <-> exists a b c, 0 < a /\ 0 < b /\ 0 < c /\ a + b + c = 1 /\ x = combination a b c p q r).
Proof.
  intros p q r x Hp H2 Hx. destruct (C88_nearest p q r x Hp (or_introl H2) (eq_trans Hx (eq_sym H2))) as (a & b & c & E & S & X & _). specialize (X H2). change (barycentric_to_cartesian [a; b; c] [p; q; r]) with (combination a b c p q r) in X.
  assert (G : forall bd a b c, a + b + c = 1 -> inside_triangle (combination a b c p q r) [p; q; r] bd = Ok true <-> if bd : bool then 0 <= a /\ 0 <= b /\ 0 <= c else 0 < a /\ 0 < b /\ 0 < c).
  { intros bd a1 b1 c1 S1. destruct (C88_inside p q r a1 b1 c1 Hp (or_introl H2) S1) as (u & v & E1 & E2 & K1 & K2). destruct bd; [rewrite E1, <- K1|rewrite E2, <- K2]; (split; [intros Q; injection Q; auto|intros ->; reflexivity]). }
  split; split.
  - intros I. rewrite <- X in I. apply (G true a b c S) in I. exists a, b, c. destruct I as (I1 & I2 & I3). repeat split; auto.
  - intros (a' & b' & c' & P0 & P1 & P2 & S' & ->). apply (G true a' b' c' S'). auto.
  - intros I. rewrite <- X in I. apply (G false a b c S) in I. exists a, b, c. destruct I as (I1 & I2 & I3). repeat split; auto.
  - intros (a' & b' & c' & P0 & P1 & P2 & S' & ->). apply (G false a' b' c' S'). auto.
Qed.
Print Assumptions C88_inside_plane.
(** In three dimensions points above the triangle count as inside. *)
Theorem C88_off_plane_refuted : exists p q r x, proper p q r /\ length p = 3%nat /\ inside_triangle x [p; q; r] true = Ok true /\ inside_triangle x [p; q; r] false = Ok true /\
  forall a b c, combination a b c p q r <> x.
Proof.
  exists [0; 0; 0], [1; 0; 0], [0; 1; 0], [/ 3; / 3; 7]. assert (P : proper [0; 0; 0] [1; 0; 0] [0; 1; 0]).
  { split; [reflexivity|]. split; [reflexivity|]. intros s t. vcalc. intros E. injection E. lra. }
  pose proof (proper_gram _ _ _ P) as D.
  assert (K : cartesian_to_barycentric [/ 3; / 3; 7] ([[0; 0; 0]; [1; 0; 0]; [0; 1; 0]] : list vec) = Ok [/ 3; / 3; 1 - / 3 - / 3]).
  { rewrite <- (c2b_ok 3 [0; 0; 0] [1; 0; 0] [0; 1; 0] eq_refl eq_refl eq_refl D (or_intror eq_refl) (/ 3) (/ 3) [0; 0; 7] eq_refl).
    - f_equal. unfold bpt. vcalc. veq ltac:(lra).
    - une. vcalc. ring.
    - une. vcalc. ring. }
  split; [exact P|]. split; [reflexivity|]. unfold inside_triangle. match goal with |- context [cartesian_to_barycentric ?x ?v] => assert (K2 : cartesian_to_barycentric x v = Ok [/ 3; / 3; 1 - / 3 - / 3]) by exact K end. rewrite K2. cbn [bind forallb]. unfold in_closed_range, in_open_range. rewrite !rleb_t, !rltb_t by lra. split; [reflexivity|]. split; [reflexivity|].
  intros a b c. unfold combination. vcalc. intros E. injection E. lra.
Qed.
Print Assumptions C88_off_plane_refuted.

(** ** C89: trilinear coordinates *)
Theorem C89_trilinear : forall p q r x y z, proper p q r -> length p = 2%nat \/ length p = 3%nat ->
  nth 0 (edge_lengths [p; q; r]) 0 * x + nth 1 (edge_lengths [p; q; r]) 0 * y + nth 2 (edge_lengths [p; q; r]) 0 * z <> 0 ->
  exists a b c d, trilinear_to_barycentric [x; y; z] [p; q; r] = [a; b; c] /\ a + b + c = 1 /\ trilinear_to_side_distances [x; y; z] [p; q; r] = Ok d /\ (exists k, k <> 0 /\ d = vscale k [x; y; z]) /\
    barycentric_to_trilinear [a; b; c] [p; q; r] = Ok d /\
    forall i, (i < 3)%nat -> line_distance (combination a b c p q r) [p; q; r] i (Rabs (nth i d 0)) /\ (0 <= nth i d 0 <-> 0 <= nth i [a; b; c] 0).
Proof.
  intros p q r x y z Hp Hn N. pose proof (proper_gram _ _ _ Hp) as D. pose proof Hp as (Hq & Hr & _). rewrite edge_lengths_eq in *. cbn [nth] in N. pose proof (tS_gt p q r D) as T. destruct (len_pos (length p) p q r eq_refl Hq Hr D) as (P0 & P1 & P2).
  rewrite (t2b_ok p q r) by exact N. set (m := len0 q r * x + len1 p r * y + len2_ p q * z) in *.
  assert (SD : forall x y z, trilinear_to_side_distances [x; y; z] [p; q; r] = Ok (vscale (tS p q r / (len0 q r * x + len1 p r * y + len2_ p q * z)) [x; y; z])).
  { intros x1 y1 z1. unfold trilinear_to_side_distances. rewrite (area_ok (length p)) by auto. fold (tS p q r). rewrite edge_lengths_eq. cbn [bind seq fold_left nth]. f_equal. f_equal. f_equal; [field|ring]. }
  exists (len0 q r * x / m), (len1 p r * y / m), (len2_ p q * z / m), (vscale (tS p q r / m) [x; y; z]).
  assert (S1 : len0 q r * x / m + len1 p r * y / m + len2_ p q * z / m = 1) by (unfold m in *; field; exact N).
  split; [reflexivity|]. split; [exact S1|]. split; [apply SD|]. split; [exists (tS p q r / m); split; [unfold Rdiv; apply Rmult_integral_contrapositive; split; [lra|apply Rinv_neq_0_compat, N]|reflexivity]|]. split.
  - unfold barycentric_to_trilinear, normalize_trilinear_coordinates. rewrite edges_eq. cbn [map seq vx nth]. fold (len0 q r) (len1 p r) (len2_ p q). rewrite SD. f_equal.
    match goal with |- vscale (_ / ?k) _ = _ => replace k with 1 by (rewrite <- S1; field; lra) end. vcalc. veq ltac:(field; lra).
  - intros i Hi. pose proof (lines p q r _ _ _ i Hp S1 Hi) as K. rewrite edge_lengths_eq in K.
    assert (E : nth i (vscale (tS p q r / m) [x; y; z]) 0 = nth i [len0 q r * x / m; len1 p r * y / m; len2_ p q * z / m] 0 * tS p q r / nth i [len0 q r; len1 p r; len2_ p q] 0) by (destruct i as [|[|[|i]]]; [| | |lia]; cbn [nth vscale map]; field; lra).
    rewrite E. split; [exact K|]. assert (Pi : 0 < nth i [len0 q r; len1 p r; len2_ p q] 0) by (destruct i as [|[|[|i]]]; [| | |lia]; assumption).
    set (u := nth i [len0 q r * x / m; len1 p r * y / m; len2_ p q * z / m] 0). set (l := nth i [len0 q r; len1 p r; len2_ p q] 0) in *. assert (Q : 0 < tS p q r / l) by (apply Rdiv_lt_0_compat; assumption).
    replace (u * tS p q r / l) with (u * (tS p q r / l)) by (field; lra). split; intros G; [|apply Rmult_le_pos; lra]. destruct (Rle_or_lt 0 u) as [L|L]; [exact L|]. nra.
Qed.
Print Assumptions C89_trilinear.
Theorem C89_round_trip : forall p q r a b c k, proper p q r -> length p = 2%nat \/ length p = 3%nat -> a + b + c = 1 -> k <> 0 ->
  exists d, barycentric_to_trilinear [a; b; c] [p; q; r] = Ok d /\ trilinear_to_barycentric (vscale k d) [p; q; r] = [a; b; c] /\ normalize_trilinear_coordinates (vscale k d) [p; q; r] = Ok d.
Proof.
  intros p q r a b c k Hp Hn S Hk. pose proof (proper_gram _ _ _ Hp) as D. pose proof Hp as (Hq & Hr & _). pose proof (tS_gt p q r D) as T. destruct (len_pos (length p) p q r eq_refl Hq Hr D) as (P0 & P1 & P2).
  assert (SD : forall x y z, trilinear_to_side_distances [x; y; z] [p; q; r] = Ok (vscale (tS p q r / (len0 q r * x + len1 p r * y + len2_ p q * z)) [x; y; z])).
  { intros x1 y1 z1. unfold trilinear_to_side_distances. rewrite (area_ok (length p)) by auto. fold (tS p q r). rewrite edge_lengths_eq. cbn [bind seq fold_left nth]. f_equal. f_equal. f_equal; [field|ring]. }
  exists [a * tS p q r / len0 q r; b * tS p q r / len1 p r; c * tS p q r / len2_ p q]. assert (c = 1 - a - b) by lra. subst c. split; [|split].
  - unfold barycentric_to_trilinear, normalize_trilinear_coordinates. rewrite edges_eq. cbn [map seq vx nth]. fold (len0 q r) (len1 p r) (len2_ p q). rewrite SD. f_equal.
    match goal with |- vscale (_ / ?k) _ = _ => replace k with 1 by (field; lra) end. vcalc. veq ltac:(field; lra).
  - cbn [vscale map]. assert (M : len0 q r * (k * (a * tS p q r / len0 q r)) + len1 p r * (k * (b * tS p q r / len1 p r)) + len2_ p q * (k * ((1 - a - b) * tS p q r / len2_ p q)) = k * tS p q r) by (field; lra).
    rewrite t2b_ok; rewrite M; [veq ltac:(field; lra)|apply Rmult_integral_contrapositive; split; lra].
  - cbn [vscale map]. unfold normalize_trilinear_coordinates. rewrite SD. f_equal. assert (M : len0 q r * (k * (a * tS p q r / len0 q r)) + len1 p r * (k * (b * tS p q r / len1 p r)) + len2_ p q * (k * ((1 - a - b) * tS p q r / len2_ p q)) = k * tS p q r) by (field; lra).
    rewrite M. vcalc. veq ltac:(field; lra).
Qed.
Print Assumptions C89_round_trip.

(** ** C90: centres *)
Theorem C90_centroid : forall (p q r : vec) i, length q = length p -> length r = length p -> (i < 3)%nat ->
  centroid [p; q; r] = combination (/ 3) (/ 3) (/ 3) p q r /\
  vadd (vx [p; q; r] i) (vx (medians [p; q; r]) i) = side [p; q; r] i (/ 2) /\ vadd (vx [p; q; r] i) (vscale (2 / 3) (vx (medians [p; q; r]) i)) = centroid [p; q; r].
Proof.
  intros p q r i Hq Hr Hi. unfold centroid, combination, side. destruct i as [|[|[|i]]]; [| | |lia]; cbn [medians map seq vx nth Nat.modulo Nat.divmod Nat.add fst snd Nat.sub]; repeat split; apply vec_ext; try vlen; intros k _; vnths; field.
Qed.
Print Assumptions C90_centroid.
(** the angles can be computed: distinct vertices in three dimensions, otherwise no
    edge shorter than [10^-12] *)
Definition measurable_triangle (p q r : vec) : Prop :=
  length p = 3%nat /\ p <> q /\ q <> r /\ p <> r \/ (forall l, In l (edge_lengths [p; q; r]) -> / 10 ^ 12 <= l).
Lemma meas_of p q r : measurable_triangle p q r -> measurable (length p) p q r.
Proof.
  intros [(H & N)|H]; [left; auto|right]. rewrite edge_lengths_eq in H. unfold tiny. repeat split; apply H; cbn; auto.
Qed.
Lemma proper_distinct p q r : proper p q r -> p <> q /\ q <> r /\ p <> r.
Proof.
  intros Hp. pose proof (proper_gram _ _ _ Hp) as D. pose proof Hp as (Hq & Hr & _). destruct (len_pos (length p) p q r eq_refl Hq Hr D) as (P0 & P1 & P2).
  assert (Z : forall v, vnorm (vsub v v) = 0) by (intros v; replace (vsub v v) with (vscale 0 v) by vring; rewrite vnorm_scale, Rabs_R0; ring).
  unfold len0, len1, len2_, e0, e1, e2 in *. repeat split; intros E; rewrite E, Z in *; lra.
Qed.
Lemma meas3 p q r : proper p q r -> length p = 3%nat -> measurable_triangle p q r.
Proof. intros Hp H3. left. split; [exact H3|]. apply proper_distinct, Hp. Qed.
Theorem C90_circumcenter : forall p q r, proper p q r -> measurable_triangle p q r -> exists c a b d, circumcenter [p; q; r] = Ok c /\ c = combination a b d p q r /\ a + b + d = 1 /\
  forall i, (i < 3)%nat -> vnorm (vsub c (vx [p; q; r] i)) = circumradius [p; q; r].
Proof.
  intros p q r Hp M. apply meas_of in M. pose proof (proper_gram _ _ _ Hp) as D. pose proof Hp as (Hq & Hr & _). pose proof (tS_gt p q r D) as T. destruct (len_pos (length p) p q r eq_refl Hq Hr D) as (P0 & P1 & P2).
  rewrite (circumcenter_ok (length p)) by auto. rewrite (circumradius_ok (length p)) by auto.
  set (A := gA q r) in *. set (B := gB p q r) in *. set (C := gC p r) in *. set (Dd := gD p q r) in *. set (S := tS p q r) in *.
  exists (bpt p q r (A * (B + C) / (2 * Dd)) (C * (A + B) / (2 * Dd)) (- B * (A + 2 * B + C) / (2 * Dd))), (A * (B + C) / (2 * Dd)), (C * (A + B) / (2 * Dd)), (- B * (A + 2 * B + C) / (2 * Dd)).
  assert (ED : Dd = A * C - B * B) by reflexivity. assert (S1 : A * (B + C) / (2 * Dd) + C * (A + B) / (2 * Dd) + - B * (A + 2 * B + C) / (2 * Dd) = 1) by (rewrite ED in *; field; lra).
  split; [reflexivity|]. split; [reflexivity|]. split; [exact S1|]. intros i Hi. rewrite (vertex_comb p q r i Hq Hr Hi), comb_bpt.
  apply vnorm_eq; [apply Rlt_le, Rdiv_lt_0_compat; [repeat apply Rmult_lt_0_compat; assumption|lra]|].
  replace (len0 q r * len1 p r * len2_ p q / (2 * S) * (len0 q r * len1 p r * len2_ p q / (2 * S))) with ((len0 q r * len0 q r) * (len1 p r * len1 p r) * (len2_ p q * len2_ p q) / (4 * (S * S))) by (field; lra).
  rewrite (l0_sq q r), (l1_sq p r), (l2_sq (length p) p q r) by auto. fold A B C. replace (S * S) with Dd by (symmetry; apply (tS_sq p q r D)).
  assert (Qd : forall s t, vdot (vadd (vscale s (e0 q r)) (vscale t (e1 p r))) (vadd (vscale s (e0 q r)) (vscale t (e1 p r))) = s * s * A + 2 * s * t * B + t * t * C).
  { intros s t. assert (L0 : length (e0 q r) = length p) by (une; vlen). assert (L1 : length (e1 p r) = length p) by (une; vlen). rewrite vdot_add_l, !vdot_add_r, !vdot_scale_l, !vdot_scale_r by vlen. rewrite (vdot_sym (e1 p r) (e0 q r)). fold (gA q r) (gB p q r) (gC p r). fold A B C. ring. }
  rewrite (bpt_sub (length p)) by first [assumption|reflexivity|rewrite S1; destruct i as [|[|[|i]]]; [| | |lia]; cbn [nth]; ring]. rewrite Qd. rewrite ED in *. destruct i as [|[|[|i]]]; [| | |lia]; cbn [nth]; field; lra.
Qed.
Print Assumptions C90_circumcenter.
Theorem C90_orthocenter : forall p q r, proper p q r -> measurable_triangle p q r -> exists h a b c, orthocenter [p; q; r] = Ok h /\ h = combination a b c p q r /\ a + b + c = 1 /\
  forall i, (i < 3)%nat -> vdot (vsub h (vx [p; q; r] i)) (vsub (vx [p; q; r] ((i + 1) mod 3)) (vx [p; q; r] ((i + 2) mod 3))) = 0.
Proof.
  intros p q r Hp M. apply meas_of in M. pose proof (proper_gram _ _ _ Hp) as D. pose proof Hp as (Hq & Hr & _).
  rewrite (orthocenter_ok (length p)) by auto. set (A := gA q r) in *. set (B := gB p q r) in *. set (C := gC p r) in *. set (Dd := gD p q r) in *.
  exists (bpt p q r (- B * (A + B) / Dd) (- B * (B + C) / Dd) ((A + B) * (B + C) / Dd)), (- B * (A + B) / Dd), (- B * (B + C) / Dd), ((A + B) * (B + C) / Dd).
  assert (ED : Dd = A * C - B * B) by reflexivity. assert (S1 : - B * (A + B) / Dd + - B * (B + C) / Dd + (A + B) * (B + C) / Dd = 1) by (rewrite ED in *; field; lra).
  split; [reflexivity|]. split; [reflexivity|]. split; [exact S1|]. intros i Hi. assert (L0 : length (e0 q r) = length p) by (une; vlen). assert (L1 : length (e1 p r) = length p) by (une; vlen).
  assert (Ei : vsub (vx [p; q; r] ((i + 1) mod 3)) (vx [p; q; r] ((i + 2) mod 3)) = vadd (vscale (nth i [-1; 0; 1] 0) (e0 q r)) (vscale (nth i [0; -1; 1] 0) (e1 p r))).
  { destruct i as [|[|[|i]]]; [| | |lia]; une; cbn [vx nth Nat.modulo Nat.divmod Nat.add fst snd Nat.sub]; vring. }
  rewrite Ei, (vertex_comb p q r i Hq Hr Hi), comb_bpt. rewrite (bpt_sub (length p)) by first [assumption|reflexivity|rewrite S1; destruct i as [|[|[|i]]]; [| | |lia]; cbn [nth]; ring].
  assert (Qd : forall s t s' t', vdot (vadd (vscale s (e0 q r)) (vscale t (e1 p r))) (vadd (vscale s' (e0 q r)) (vscale t' (e1 p r))) = s * s' * A + (s * t' + t * s') * B + t * t' * C).
  { intros s t s' t'. rewrite vdot_add_l, !vdot_add_r, !vdot_scale_l, !vdot_scale_r by vlen. rewrite (vdot_sym (e1 p r) (e0 q r)). fold (gA q r) (gB p q r) (gC p r). fold A B C. ring. }
  rewrite Qd. rewrite ED in *. destruct i as [|[|[|i]]]; [| | |lia]; cbn [nth]; field; lra.
Qed.
Print Assumptions C90_orthocenter.
Theorem C90_incenter : forall p q r, proper p q r -> length p = 2%nat \/ length p = 3%nat -> exists a b c rad, incenter [p; q; r] = combination a b c p q r /\ a + b + c = 1 /\ 0 < a /\ 0 < b /\ 0 < c /\
  inradius [p; q; r] = Ok rad /\ 0 < rad /\ forall i, (i < 3)%nat -> line_distance (incenter [p; q; r]) [p; q; r] i rad.
Proof.
  intros p q r Hp Hn. pose proof (proper_gram _ _ _ Hp) as D. pose proof Hp as (Hq & Hr & _). pose proof (tS_gt p q r D) as T. destruct (len_pos (length p) p q r eq_refl Hq Hr D) as (P0 & P1 & P2).
  rewrite (incenter_ok (length p) p q r) by auto. rewrite (inradius_ok (length p) p q r) by auto. set (l0 := len0 q r) in *. set (l1 := len1 p r) in *. set (l2 := len2_ p q) in *. set (S := tS p q r) in *.
  exists (l0 / (l0 + l1 + l2)), (l1 / (l0 + l1 + l2)), (l2 / (l0 + l1 + l2)), (S / (l0 + l1 + l2)). split; [reflexivity|]. assert (S1 : l0 / (l0 + l1 + l2) + l1 / (l0 + l1 + l2) + l2 / (l0 + l1 + l2) = 1) by (field; lra). split; [exact S1|].
  repeat (split; [first [reflexivity|apply Rdiv_lt_0_compat; lra]|]). intros i Hi. pose proof (lines p q r _ _ _ i Hp S1 Hi) as K. rewrite comb_bpt in K. rewrite edge_lengths_eq in K. fold l0 l1 l2 S in K.
  replace (nth i [l0 / (l0 + l1 + l2); l1 / (l0 + l1 + l2); l2 / (l0 + l1 + l2)] 0 * S / nth i [l0; l1; l2] 0) with (S / (l0 + l1 + l2)) in K by (destruct i as [|[|[|i]]]; [| | |lia]; cbn [nth]; field; lra).
  rewrite Rabs_right in K by (apply Rle_ge, Rlt_le, Rdiv_lt_0_compat; lra). exact K.
Qed.
Print Assumptions C90_incenter.
(** Edges shorter than [10^-12] in the plane: the angles are taken to be zero, and the
    circumcentre is not equidistant from the vertices. *)
Theorem C90_small_refuted : exists p q r c, proper p q r /\ length p = 2%nat /\ circumcenter [p; q; r] = Ok c /\ vnorm (vsub c p) <> vnorm (vsub c q).
Proof.
  set (d := / 10 ^ 13). assert (Pd : 0 < d) by (apply Rinv_0_lt_compat, pow_lt; lra). assert (Sd : d < tiny / 4) by (unfold d, tiny; lra).
  set (p := [0; 0] : vec). set (q := [d; 0] : vec). set (r := [0; d] : vec).
  assert (P : proper p q r). { split; [reflexivity|]. split; [reflexivity|]. intros s t. unfold p, q, r. vcalc. intros E. injection E. intros E1 E2. split; nra. }
  pose proof (proper_gram _ _ _ P) as D. destruct (len_pos 2 p q r eq_refl eq_refl eq_refl D) as (P0 & P1 & P2).
  assert (S1 : len1 p r = d) by (apply vnorm_eq; [lra|unfold e1, p, r; vcalc; ring]). assert (S2 : len2_ p q = d) by (apply vnorm_eq; [lra|unfold e2, p, q; vcalc; ring]).
  assert (S0 : len0 q r * len0 q r = 2 * (d * d)) by (rewrite l0_sq; unfold gA, e0, q, r; vcalc; ring).
  pose proof tiny_pos. assert (L0 : len0 q r < tiny) by nra.
  assert (Small : forall u v, length u = 2%nat -> length v = 2%nat -> vnorm u < tiny -> vnorm v < tiny -> compute_angle (vscale (-1) u) v = Ok 0).
  { intros u v Hu Hv Nu Nv. unfold compute_angle. rewrite vscale_len, Hu, Hv. cbn [Nat.eqb assert_ bind]. rewrite neg_norm, !rltb_t by assumption. reflexivity. }
  assert (C : circumcenter [p; q; r] = Ok (incenter [p; q; r])).
  { unfold circumcenter. cbn [seq mapM]. unfold angle. rewrite edges_eq. cbn [vx nth Nat.modulo Nat.divmod Nat.add fst snd Nat.sub].
    assert (N0 : vnorm (e0 q r) < tiny) by exact L0. assert (N1 : vnorm (e1 p r) < tiny) by (fold (len1 p r); rewrite S1; lra). assert (N2 : vnorm (e2 p q) < tiny) by (fold (len2_ p q); rewrite S2; lra).
    rewrite !Small by (reflexivity || assumption). cbn [bind]. rewrite cos_0. reflexivity. }
  exists p, q, r, (incenter [p; q; r]). split; [exact P|]. split; [reflexivity|]. split; [exact C|].
  rewrite (incenter_ok 2 p q r eq_refl eq_refl eq_refl D). set (m := len0 q r + len1 p r + len2_ p q) in *. intros E.
  assert (E2 : vnorm (vsub (bpt p q r (len0 q r / m) (len1 p r / m) (len2_ p q / m)) p) * vnorm (vsub (bpt p q r (len0 q r / m) (len1 p r / m) (len2_ p q / m)) p) = vnorm (vsub (bpt p q r (len0 q r / m) (len1 p r / m) (len2_ p q / m)) q) * vnorm (vsub (bpt p q r (len0 q r / m) (len1 p r / m) (len2_ p q / m)) q)) by (rewrite E; reflexivity).
  rewrite !vnorm_sq in E2. rewrite S1, S2 in E2. revert E2. generalize (len0 q r / m). intros k. unfold bpt, p, q, r. vcalc. intros E2.
  assert (X : d / m * (2 * d * d) = / 2 * (2 * d * d)) by (generalize dependent (d / m); intros; lra). assert (Hm : m = len0 q r + 2 * d) by (unfold m; rewrite S1, S2; ring). assert (Pm : 0 < m) by lra.
  assert (Y : m = 2 * d). { assert (Y0 : d / m = / 2) by (apply (Rmult_eq_reg_r (2 * d * d)); [exact X|]; assert (0 < d * d) by nra; lra). apply (f_equal (fun x => x * (2 * m))) in Y0. revert Y0. replace (d / m * (2 * m)) with (2 * d) by (field; lra). lra. }
  lra.
Qed.
Print Assumptions C90_small_refuted.

(** ** C91: angles *)
Theorem C91_angles : forall p q r : vec, length q = length p -> length r = length p -> measurable_triangle p q r -> exists a b c, angle [p; q; r] 0 = Ok a /\ angle [p; q; r] 1 = Ok b /\ angle [p; q; r] 2 = Ok c /\
  0 <= a <= PI /\ 0 <= b <= PI /\ 0 <= c <= PI /\ a + b + c = PI /\
  let l i := nth (i mod 3) (edge_lengths [p; q; r]) 0 in forall i, (i < 3)%nat -> l i * l i = l (i + 1)%nat * l (i + 1)%nat + l (i + 2)%nat * l (i + 2)%nat - 2 * l (i + 1)%nat * l (i + 2)%nat * cos (nth i [a; b; c] 0).
Proof.
  intros p q r Hq Hr M. apply meas_of in M. destruct (meas_pos (length p) p q r eq_refl Hq Hr M) as (P0 & P1 & P2).
  destruct (angle0_ok (length p) p q r eq_refl Hq Hr M) as (a & Ea & Ia & Ka), (angle1_ok (length p) p q r eq_refl Hq Hr M) as (b & Eb & Ib & Kb), (angle2_ok (length p) p q r eq_refl Hq Hr M) as (c & Ec & Ic & Kc).
  exists a, b, c. pose proof (l0_sq q r) as Q0. pose proof (l1_sq p r) as Q1. pose proof (l2_sq (length p) p q r eq_refl Hq Hr) as Q2. pose proof (S_sq (length p) p q r eq_refl Hq Hr) as QS.
  repeat (split; [assumption|]). split.
  - eapply (angle_sum (gA q r) (gB p q r) (gC p r) (len0 q r) (len1 p r) (len2_ p q) (tS p q r)); try assumption. apply sqrt_pos.
  - cbv zeta. rewrite edge_lengths_eq. intros i Hi. destruct i as [|[|[|i]]]; [| | |lia]; cbn [nth Nat.modulo Nat.divmod Nat.add fst snd Nat.sub]; rewrite ?Ka, ?Kb, ?Kc; rewrite Q0, Q1, Q2.
    + replace (2 * len1 p r * len2_ p q * ((gB p q r + gC p r) / (len1 p r * len2_ p q))) with (2 * (gB p q r + gC p r)) by (field; lra). ring.
    + replace (2 * len2_ p q * len0 q r * ((gA q r + gB p q r) / (len0 q r * len2_ p q))) with (2 * (gA q r + gB p q r)) by (field; lra). ring.
    + replace (2 * len0 q r * len1 p r * (- gB p q r / (len0 q r * len1 p r))) with (2 * - gB p q r) by (field; lra). ring.
Qed.
Print Assumptions C91_angles.
Theorem C91_is_degenerate : forall (p q r : vec) eps, length q = length p -> length r = length p -> measurable_triangle p q r -> 0 <= eps <= PI / 2 ->
  (is_degenerate [p; q; r] eps = true <-> exists i a, (i < 3)%nat /\ angle [p; q; r] i = Ok a /\ a < eps).
Proof.
  intros p q r eps Hq Hr Mt He. destruct (C91_angles p q r Hq Hr Mt) as (a' & b' & c' & Ea' & Eb' & Ec' & Ia' & Ib' & Ic' & Sum & _). pose proof (meas_of _ _ _ Mt) as M. destruct (meas_pos (length p) p q r eq_refl Hq Hr M) as (P0 & P1 & P2).
  destruct (angle0_ok (length p) p q r eq_refl Hq Hr M) as (a & Ea & Ia & Ka), (angle1_ok (length p) p q r eq_refl Hq Hr M) as (b & Eb & Ib & Kb), (angle2_ok (length p) p q r eq_refl Hq Hr M) as (c & Ec & Ic & Kc).
  rewrite Ea in Ea'. rewrite Eb in Eb'. rewrite Ec in Ec'. injection Ea' as <-. injection Eb' as <-. injection Ec' as <-.
  pose proof (l0_sq q r) as Q0. pose proof (l1_sq p r) as Q1. pose proof (l2_sq (length p) p q r eq_refl Hq Hr) as Q2.
  unfold is_degenerate. rewrite edges_eq. cbn [existsb seq vx nth Nat.modulo Nat.divmod Nat.add fst snd Nat.sub]. rewrite (vdot_sym (e2 p q) (e0 q r)), (dot12 (length p) p q r), (dot02 (length p) p q r), (e2_sq (length p) p q r) by auto. fold (gA q r) (gB p q r) (gC p r).
  set (A := gA q r) in *. set (B := gB p q r) in *. set (C := gC p r) in *. set (l0 := len0 q r) in *. set (l1 := len1 p r) in *. set (l2 := len2_ p q) in *.
  assert (Np : forall x y X Y, 0 < x -> 0 < y -> x * x = X -> y * y = Y -> reqb (X * Y) 0 = false) by (intros x y X Y Hx Hy <- <-; apply reqb_f; assert (0 < x * x * (y * y)) by (repeat apply Rmult_lt_0_compat; assumption); lra).
  rewrite (Np l1 l2), (Np l2 l0), (Np l0 l1) by assumption. cbn [negb andb]. rewrite orb_false_r, !orb_true_iff, !rltb_inv.
  assert (K0 : (- B - C) ^ 2 / (C * (A + 2 * B + C)) = cos a * cos a) by (rewrite Ka, <- Q2, <- Q1; field; lra).
  assert (K1 : (- A - B) ^ 2 / ((A + 2 * B + C) * A) = cos b * cos b) by (rewrite Kb, <- Q2, <- Q0; field; lra).
  assert (K2 : B ^ 2 / (A * C) = cos c * cos c) by (rewrite Kc, <- Q0, <- Q1; field; lra).
  rewrite K0, K1, K2. split.
  - intros [H | [H | H]].
    + destruct (degen_equiv a b c eps Ia ltac:(lra) ltac:(lra) Sum He H) as [L|L]; [exists 0%nat, a|exists 1%nat, b]; auto.
    + destruct (degen_equiv b c a eps Ib ltac:(lra) ltac:(lra) ltac:(lra) He H) as [L|L]; [exists 1%nat, b|exists 2%nat, c]; auto.
    + destruct (degen_equiv c a b eps Ic ltac:(lra) ltac:(lra) ltac:(lra) He H) as [L|L]; [exists 2%nat, c|exists 0%nat, a]; auto.
  - intros (i & x & Hi & Ex & L). destruct i as [|[|[|i]]]; [| | |lia].
    + rewrite Ea in Ex. injection Ex as <-. left. apply degen_conv; lra.
    + rewrite Eb in Ex. injection Ex as <-. right. left. apply degen_conv; lra.
    + rewrite Ec in Ex. injection Ex as <-. right. right. apply degen_conv; lra.
Qed.
Print Assumptions C91_is_degenerate.
(** A triangle whose vertices coincide is not reported, and a large tolerance reports
    less than a small one. *)
Theorem C91_point_refuted : forall (p : vec) eps, is_degenerate [p; p; p] eps = false.
Proof.
  intros p eps. assert (Z : vdot (vsub p p) (vsub p p) = 0) by (replace (vsub p p) with (vscale 0 p) by vring; vdots; ring).
  unfold is_degenerate. rewrite edges_eq. cbn [existsb seq vx nth Nat.modulo Nat.divmod Nat.add fst snd Nat.sub]. unfold e0, e1, e2. rewrite !Z, Rmult_0_l, reqb_t by reflexivity. reflexivity.
Qed.
Print Assumptions C91_point_refuted.
Theorem C91_large_tolerance_refuted : exists p q r eps, proper p q r /\ is_degenerate [p; q; r] eps = false /\ forall i, (i < 3)%nat -> exists a, angle [p; q; r] i = Ok a /\ a < eps.
Proof.
  set (p := [0; 0; 0] : vec). set (q := [1; 0; 0] : vec). set (r := [0; 1; 0] : vec). exists p, q, r, PI.
  assert (P : proper p q r). { split; [reflexivity|]. split; [reflexivity|]. intros s t. unfold p, q, r. vcalc. intros E. injection E. lra. }
  pose proof (proper_gram _ _ _ P) as D. pose proof (meas_of _ _ _ (meas3 p q r P eq_refl)) as M. destruct (len_pos 3 p q r eq_refl eq_refl eq_refl D) as (P0 & P1 & P2). pose proof PI_pos.
  assert (ED : gA q r = 2 /\ gB p q r = -1 /\ gC p r = 1) by (unfold gA, gB, gC, e0, e1, p, q, r; vcalc; repeat split; ring). destruct ED as (GA & GB & GC).
  split; [exact P|]. split.
  - unfold is_degenerate. rewrite cos_PI. replace ((-1) ^ 2) with 1 by ring. rewrite edges_eq. cbn [existsb seq vx nth Nat.modulo Nat.divmod Nat.add fst snd Nat.sub]. rewrite (vdot_sym (e2 p q) (e0 q r)), (dot12 3 p q r), (dot02 3 p q r), (e2_sq 3 p q r) by reflexivity. fold (gA q r) (gB p q r) (gC p r). rewrite GA, GB, GC. rewrite !rltb_f by lra. rewrite !andb_false_r. reflexivity.
  - destruct (C91_angles p q r eq_refl eq_refl (meas3 p q r P eq_refl)) as (a & b & c & Ea & Eb & Ec & Ia & Ib & Ic & Sum & L). cbv zeta in L. rewrite edge_lengths_eq in L.
    pose proof (l0_sq q r) as Q0. pose proof (l1_sq p r) as Q1. pose proof (l2_sq 3 p q r eq_refl eq_refl eq_refl) as Q2. rewrite GA, GB, GC in *.
    pose proof (L 0%nat ltac:(lia)) as L0. pose proof (L 1%nat ltac:(lia)) as L1. pose proof (L 2%nat ltac:(lia)) as L2. cbn [nth Nat.modulo Nat.divmod Nat.add fst snd Nat.sub] in L0, L1, L2.
    assert (X : 0 < 2 * len1 p r * len2_ p q /\ 0 < 2 * len2_ p q * len0 q r /\ 0 < 2 * len0 q r * len1 p r) by (repeat split; repeat apply Rmult_lt_0_compat; lra). destruct X as (X0 & X1 & X2).
    intros i Hi. destruct i as [|[|[|i]]]; [exists a|exists b|exists c|lia]; (split; [assumption|]); match goal with |- ?x < PI => destruct (Req_dec x PI) as [E|E]; [exfalso; rewrite E, cos_PI in *; lra|lra] end.
Qed.
Print Assumptions C91_large_tolerance_refuted.

(** ** C92: oblique projection in the plane *)
Ltac vc2 tac := cbv [vzero repeat outer]; vcalc; veq tac.
Theorem C92_oblique : forall a b c : vec, length a = 2%nat -> length b = 2%nat -> length c = 2%nat -> (forall s t, vadd (vscale s b) (vscale t c) = vzero 2 -> s = 0 /\ t = 0) ->
  let x := vector_oblique_projection_2 a b c in (exists s, x = vscale s b) /\ (exists t, vsub a x = vscale t c) /\ forall s t, vsub a (vscale s b) = vscale t c -> vscale s b = x.
Proof.
  intros a b c Ha Hb Hc N. destruct (len2 a Ha) as (a0 & a1 & ->), (len2 b Hb) as (b0 & b1 & ->), (len2 c Hc) as (c0 & c1 & ->).
  assert (D : b0 * c1 - b1 * c0 <> 0).
  { intros Z. destruct (N c1 (- b1)) as [X Y]; [vc2 ltac:(lra)|]. destruct (N c0 (- b0)) as [X' Y']; [vc2 ltac:(lra)|]. destruct (N 1 0) as [X2 _]; [vc2 ltac:(lra)|]. lra. }
  assert (E : vector_oblique_projection_2 [a0; a1] [b0; b1] [c0; c1] = vscale ((a0 * c1 - a1 * c0) / (b0 * c1 - b1 * c0)) [b0; b1]).
  { unfold vector_oblique_projection_2. vc2 ltac:(field; lra). }
  cbv zeta. rewrite E. split; [eexists; reflexivity|]. split.
  - exists ((a1 * b0 - a0 * b1) / (b0 * c1 - b1 * c0)). vc2 ltac:(field; lra).
  - intros s t. vcalc. intros K. injection K. intros K1 K0. replace ((a0 * c1 - a1 * c0) / (b0 * c1 - b1 * c0)) with s; [reflexivity|]. apply (Rmult_eq_reg_r (b0 * c1 - b1 * c0)); [|exact D].
    replace ((a0 * c1 - a1 * c0) / (b0 * c1 - b1 * c0) * (b0 * c1 - b1 * c0)) with (a0 * c1 - a1 * c0) by (field; exact D). assert (A0 : a0 = s * b0 + t * c0) by lra. assert (A1 : a1 = s * b1 + t * c1) by lra. rewrite A0, A1. ring.
Qed.
Print Assumptions C92_oblique.

(** ** Examples *)
Definition pa : vec := [0; 0]. Definition pb : vec := [4; 0]. Definition pc : vec := [0; 3].
Definition pd : vec := [0; 0; 1]. Definition pe : vec := [4; 0; 1]. Definition pf : vec := [0; 3; 1].
Lemma ex_proper : proper pa pb pc.
Proof. split; [reflexivity|]. split; [reflexivity|]. intros s t. unfold pa, pb, pc. vcalc. intros E. injection E. lra. Qed.
Lemma ex_proper3 : proper pd pe pf.
Proof. split; [reflexivity|]. split; [reflexivity|]. intros s t. unfold pd, pe, pf. vcalc. intros E. injection E. lra. Qed.
Lemma ex_lengths : edge_lengths [pa; pb; pc] = [5; 3; 4].
Proof.
  unfold edge_lengths, edges, pa, pb, pc. cbn [map seq vx nth Nat.modulo Nat.divmod Nat.add fst snd Nat.sub].
  f_equal; [|f_equal; [|f_equal]]; (apply vnorm_eq; [lra|vcalc; ring]).
Qed.
Lemma ex_measurable : measurable_triangle pa pb pc.
Proof. right. rewrite ex_lengths. cbn [In]. intros l [<- | [<- | [<- | []]]]; lra. Qed.
Example C85_ex : diameter [pa; pb; pc] = 5 /\ perimeter [pa; pb; pc] = 12 /\ vnorm (vsub (combination (/ 2) (/ 2) 0 pa pb pc) (combination 0 0 1 pa pb pc)) <= 5.
Proof.
  assert (D : diameter [pa; pb; pc] = 5) by (unfold diameter; rewrite ex_lengths; cbn [nth]; rewrite (Rmax_right 3 4), Rmax_left by lra; reflexivity).
  split; [exact D|]. split; [unfold perimeter; rewrite ex_lengths; vcalc; ring|]. rewrite <- D. apply (C85_diameter pa pb pc eq_refl eq_refl); lra.
Qed.
Example C86_ex : area [pa; pb; pc] = Ok 6 /\ exists hs, altitudes [pa; pb; pc] = Ok hs /\ line_distance pa [pa; pb; pc] 0 (12 / 5) /\ nth 0 hs 0 = 12 / 5.
Proof.
  assert (A : area [pa; pb; pc] = Ok 6) by (unfold pa, pb, pc; rewrite C86_area_plane; rewrite Rabs_right by lra; f_equal; lra).
  split; [exact A|]. destruct (C86_altitudes pa pb pc ex_proper (or_introl eq_refl)) as (hs & S & E & _ & ES & H). rewrite A in ES. injection ES as <-. exists hs. destruct (H 0%nat ltac:(lia)) as (_ & L & K).
  pose proof ex_lengths as EL. apply (f_equal (fun l => nth 0 l 0)) in EL. cbn [nth] in EL. destruct (C85_edges pa pb pc 0 eq_refl eq_refl ltac:(lia)) as (_ & El & _). rewrite EL in El. rewrite <- El in K. assert (X : nth 0 hs 0 = 12 / 5) by lra. rewrite X in L. repeat split; assumption || apply L.
Qed.
Example C87_ex : exists n, normal [pd; pe; pf] = Ok (CV n) /\ vnorm n = 1 /\ vdot n (vsub pe pd) = 0 /\ normal [pa; pb; pc] = Ok (CS 1).
Proof.
  destruct (C87_normal pd pe pf ex_proper3 eq_refl) as (n & w & E & _ & L & N & H & _). exists n. repeat split; try assumption.
  - exact (H 2%nat ltac:(lia)).
  - unfold pa, pb, pc. rewrite C87_normal_plane by exact ex_proper. rewrite rltb_t by lra. reflexivity.
Qed.
Example C88_ex : cartesian_to_barycentric [1; 1] [pa; pb; pc] = Ok [5 / 12; / 4; / 3] /\ inside_triangle [1; 1] [pa; pb; pc] false = Ok true /\ inside_triangle [2; 2] [pa; pb; pc] true = Ok false.
Proof.
  assert (X : [1; 1] = combination (5 / 12) (/ 4) (/ 3) pa pb pc) by (unfold combination, pa, pb, pc; vc2 ltac:(lra)).
  assert (Y : [2; 2] = combination (- / 6) (/ 2) (2 / 3) pa pb pc) by (unfold combination, pa, pb, pc; vc2 ltac:(lra)).
  split; [rewrite X; apply (C88_round_trip pa pb pc); [exact ex_proper|left; reflexivity|lra]|]. split.
  - rewrite X. destruct (C88_inside pa pb pc (5 / 12) (/ 4) (/ 3) ex_proper (or_introl eq_refl) ltac:(lra)) as (c & o & _ & Eo & _ & Ho). rewrite Eo. f_equal. apply Ho. lra.
  - rewrite Y. destruct (C88_inside pa pb pc (- / 6) (/ 2) (2 / 3) ex_proper (or_introl eq_refl) ltac:(lra)) as (c & o & Ec & _ & Hc & _). rewrite Ec. f_equal. destruct c; [|reflexivity]. exfalso. destruct Hc as [Hc _]. specialize (Hc eq_refl). lra.
Qed.
Example C89_ex : trilinear_to_barycentric [1; 1; 1] [pa; pb; pc] = [5 / 12; / 4; / 3] /\ trilinear_to_side_distances [2; 2; 2] [pa; pb; pc] = Ok [1; 1; 1].
Proof.
  pose proof ex_lengths as EL. split.
  - unfold trilinear_to_barycentric. unfold edge_lengths, edges in EL. cbn [map seq vx nth Nat.modulo Nat.divmod Nat.add fst snd Nat.sub] in EL. unfold edges. cbn [map seq vx nth Nat.modulo Nat.divmod Nat.add fst snd Nat.sub]. injection EL as -> -> ->. vc2 ltac:(field).
  - unfold trilinear_to_side_distances. rewrite EL. rewrite (proj1 C86_ex). cbn [fold_left seq nth bind]. f_equal. vc2 ltac:(field).
Qed.
Example C90_ex : circumradius [pa; pb; pc] = 5 / 2 /\ inradius [pa; pb; pc] = Ok 1 /\ (exists c, circumcenter [pa; pb; pc] = Ok c /\ vnorm (vsub c pc) = 5 / 2) /\ exists h, orthocenter [pa; pb; pc] = Ok h /\ vdot (vsub h pb) (vsub pc pa) = 0.
Proof.
  assert (C : circumradius [pa; pb; pc] = 5 / 2).
  { unfold circumradius. rewrite ex_lengths. cbn [nth]. replace ((5 + 3 + 4) * (3 + 4 - 5) * (4 + 5 - 3) * (5 + 3 - 4)) with (24 * 24) by ring. rewrite sqrt_square by lra. lra. }
  split; [exact C|]. split; [|split].
  - unfold inradius. rewrite (proj1 C86_ex). rewrite (proj1 (proj2 C85_ex)). cbn [bind]. f_equal. lra.
  - destruct (C90_circumcenter pa pb pc ex_proper ex_measurable) as (c & _ & _ & _ & E & _ & _ & H). exists c. split; [exact E|]. rewrite <- C. exact (H 2%nat ltac:(lia)).
  - destruct (C90_orthocenter pa pb pc ex_proper ex_measurable) as (h & _ & _ & _ & E & _ & _ & H). exists h. split; [exact E|]. exact (H 1%nat ltac:(lia)).
Qed.
Example C91_ex : angle [pa; pb; pc] 0 = Ok (PI / 2) /\ is_degenerate [pa; pb; pc] (PI / 6) = false.
Proof.
  destruct (C91_angles pa pb pc eq_refl eq_refl ex_measurable) as (a & b & c & Ea & Eb & Ec & Ia & Ib & Ic & Sum & L). cbv zeta in L. rewrite ex_lengths in L.
  pose proof (L 0%nat ltac:(lia)) as L0. pose proof (L 1%nat ltac:(lia)) as L1. pose proof (L 2%nat ltac:(lia)) as L2. cbn [nth Nat.modulo Nat.divmod Nat.add fst snd Nat.sub] in L0, L1, L2. pose proof PI_RGT_0 as Hpi.
  assert (A : a = PI / 2) by (apply cos_inj_0_PI; [exact Ia|lra|rewrite cos_PI2; lra]). split; [rewrite Ea, A; reflexivity|].
  destruct (is_degenerate [pa; pb; pc] (PI / 6)) eqn:G; [exfalso|reflexivity]. apply (C91_is_degenerate pa pb pc (PI / 6) eq_refl eq_refl ex_measurable ltac:(lra)) in G. destruct G as (i & x & Hi & Ex & Lx).
  pose proof (cos_PI6) as C6. assert (S3 : sqrt 3 * sqrt 3 = 3) by (apply sqrt_sqrt; lra). pose proof (sqrt_pos 3) as Ps.
  assert (M : 0 <= x -> cos (PI / 6) < cos x) by (intros; apply cos_decreasing_1; lra).
  assert (Q : 17 / 10 < sqrt 3) by nra.
  destruct i as [|[|[|i]]]; [| | |lia]; [rewrite Ea in Ex|rewrite Eb in Ex|rewrite Ec in Ex]; injection Ex as <-; rewrite C6 in M; lra.
Qed.
Example C92_ex : let x := vector_oblique_projection_2 [3; 1] [1; 0] [1; 1] in x = [2; 0].
Proof. cbv zeta. unfold vector_oblique_projection_2. vc2 ltac:(field). Qed.
