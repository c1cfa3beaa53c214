(** Property C115: the midpoint rules on triangles and tetrahedrons. *)
From Coq Require Import Reals Lra Factorial.
From Coquelicot Require Import Coquelicot.
From Verif Require Import Base MultiIndex MultiIndexFacts Fld FldInst ExNum LinSolve Det Linalg VecFacts SimplexGeo SimplexFacts AffineFacts Mesh MeshFacts MeshNum MeshVerts KdTree RVec Triangle Quadrature QuadReal SimplexInt IntReal SimplexIntReal KdMesh MeshGeo MidpointInt MidpointGrid MidpointSums Midpoint MidpointFacts Prop_Quadrature.
Local Open Scope R_scope.

(** how far the edges at the first vertex reach in the coordinate [j] *)
Definition spread (vs : list (list R)) (j : nat) : R := fold_right (fun v s => Rabs (nth j v 0 - nth j (hd [] vs) 0) + s) 0 (tl vs).
(** [g] varies by at most [eps] on the part of the simplex near a point: points
    whose coordinates differ by at most the [n]th part of the spread *)
Definition varies (k : nat) (vs : list (list R)) (g : list R -> R) (n : nat) (eps : R) : Prop :=
  forall x y, in_hull (Q := RO) k vs x -> in_hull (Q := RO) k vs y -> length x = k -> length y = k ->
    (forall j, (j < k)%nat -> Rabs (nth j x 0 - nth j y 0) <= spread vs j / INR n) -> Rabs (g x - g y) <= eps.

Lemma tri_rows_of (vs : list (list R)) : rows_of (F := RF) 3 2 vs -> exists p0 p1 q0 q1 r0 r1, vs = [[p0; p1]; [q0; q1]; [r0; r1]].
Proof.
  intros [L H]. destruct vs as [|p [|q [|r [|? ?]]]]; try discriminate L. pose proof (H p ltac:(cbn; tauto)) as Hp. pose proof (H q ltac:(cbn; tauto)) as Hq. pose proof (H r ltac:(cbn; tauto)) as Hr.
  destruct p as [|p0 [|p1 [|? ?]]]; try discriminate Hp. destruct q as [|q0 [|q1 [|? ?]]]; try discriminate Hq. destruct r as [|r0 [|r1 [|? ?]]]; try discriminate Hr. exists p0, p1, q0, q1, r0, r1. reflexivity.
Qed.
Lemma tet_rows_of (vs : list (list R)) : rows_of (F := RF) 4 3 vs -> exists p0 p1 p2 q0 q1 q2 r0 r1 r2 t0 t1 t2, vs = [[p0; p1; p2]; [q0; q1; q2]; [r0; r1; r2]; [t0; t1; t2]].
Proof.
  intros [L H]. destruct vs as [|p [|q [|r [|t [|? ?]]]]]; try discriminate L. pose proof (H p ltac:(cbn; tauto)) as Hp. pose proof (H q ltac:(cbn; tauto)) as Hq. pose proof (H r ltac:(cbn; tauto)) as Hr. pose proof (H t ltac:(cbn; tauto)) as Ht.
  destruct p as [|p0 [|p1 [|p2 [|? ?]]]]; try discriminate Hp. destruct q as [|q0 [|q1 [|q2 [|? ?]]]]; try discriminate Hq. destruct r as [|r0 [|r1 [|r2 [|? ?]]]]; try discriminate Hr. destruct t as [|t0 [|t1 [|t2 [|? ?]]]]; try discriminate Ht.
  exists p0, p1, p2, q0, q1, q2, r0, r1, r2, t0, t1, t2. reflexivity.
Qed.

(** ** The error is at most the variation over one cell times the volume *)
Theorem C115_triangle : forall f g n eps I (vs : list (list R)), (1 <= n)%nat -> rows_of (F := RF) 3 2 vs -> computes 2 f g -> simplex_integral 2 vs g I -> varies 2 vs g n eps ->
  exists v, quadrature_triangle_midpoint_rule f vs n = Ok (Sc (F := RF) v) /\ Rabs (v - I) <= eps * (Rabs (edges_det 2 vs) / 2).
Proof.
  intros f g n eps I vs Hn HV S HI B. apply tri_rows_of in HV as (p0 & p1 & q0 & q1 & r0 & r1 & ->). unfold edges_det. rewrite det2_eq. apply (tri_rule_near p0 p1 q0 q1 r0 r1 f g n eps I Hn S HI).
  intros x y Hx Hy Lx Ly D0 D1. apply B; try assumption. intros [|[|j]] Hj; [..|lia]; unfold spread; cbn [tl hd fold_right]; rewrite Rplus_0_r; assumption.
Qed.
Print Assumptions C115_triangle.
Theorem C115_tetrahedron : forall f g n eps I (vs : list (list R)), (1 <= n)%nat -> rows_of (F := RF) 4 3 vs -> computes 3 f g -> simplex_integral 3 vs g I -> varies 3 vs g n eps ->
  exists v, quadrature_tetrahedron_midpoint_rule f vs n = Ok (Sc (F := RF) v) /\ Rabs (v - I) <= eps * (Rabs (edges_det 3 vs) / 6).
Proof.
  intros f g n eps I vs Hn HV S HI B. apply tet_rows_of in HV as (p0 & p1 & p2 & q0 & q1 & q2 & r0 & r1 & r2 & t0 & t1 & t2 & ->). unfold edges_det. rewrite det3_eq. apply (tet_rule_near p0 p1 p2 q0 q1 q2 r0 r1 r2 t0 t1 t2 f g n eps I Hn S HI).
  intros x y Hx Hy Lx Ly D0 D1 D2. apply B; try assumption. intros [|[|[|j]]] Hj; [..|lia]; unfold spread; cbn [tl hd fold_right]; rewrite Rplus_0_r, <- Rplus_assoc; assumption.
Qed.
Print Assumptions C115_tetrahedron.

(** a Lipschitz constant gives an error of the order 1 / n *)
Definition lipschitz (k : nat) (vs : list (list R)) (g : list R -> R) (c : R) : Prop :=
  0 <= c /\ forall x y, in_hull (Q := RO) k vs x -> in_hull (Q := RO) k vs y -> length x = k -> length y = k ->
    Rabs (g x - g y) <= c * fold_right Rplus 0 (map (fun j => Rabs (nth j x 0 - nth j y 0)) (seq 0 k)).
Lemma sum_le (l : list nat) (a b : nat -> R) (c : R) : (forall j, In j l -> a j <= b j * c) -> fold_right Rplus 0 (map a l) <= fold_right Rplus 0 (map b l) * c.
Proof. induction l as [|j l IH]; intros H; cbn [map fold_right]; [lra|]. pose proof (H j (or_introl eq_refl)). pose proof (IH (fun i Hi => H i (or_intror Hi))). rewrite Rmult_plus_distr_r. apply Rplus_le_compat; assumption. Qed.
Lemma lipschitz_varies k vs g c n : (1 <= n)%nat -> lipschitz k vs g c -> varies k vs g n (c * (fold_right Rplus 0 (map (spread vs) (seq 0 k)) / INR n)).
Proof.
  intros Hn [Hc H] x y Hx Hy Lx Ly D. eapply Rle_trans; [apply H; assumption|]. apply Rmult_le_compat_l; [exact Hc|]. unfold Rdiv. apply sum_le. intros j Hj. apply in_seq in Hj. apply D. lia.
Qed.
Theorem C115_triangle_lipschitz : forall f g n c I (vs : list (list R)), (1 <= n)%nat -> rows_of (F := RF) 3 2 vs -> computes 2 f g -> simplex_integral 2 vs g I -> lipschitz 2 vs g c ->
  exists v, quadrature_triangle_midpoint_rule f vs n = Ok (Sc (F := RF) v) /\ Rabs (v - I) <= c * ((spread vs 0 + spread vs 1) / INR n) * (Rabs (edges_det 2 vs) / 2).
Proof.
  intros f g n c I vs Hn HV S HI L. destruct (C115_triangle f g n _ I vs Hn HV S HI (lipschitz_varies 2 vs g c n Hn L)) as (v & E & B). exists v. split; [exact E|]. cbn [seq map fold_right] in B. rewrite Rplus_0_r in B. exact B.
Qed.
Print Assumptions C115_triangle_lipschitz.
Theorem C115_tetrahedron_lipschitz : forall f g n c I (vs : list (list R)), (1 <= n)%nat -> rows_of (F := RF) 4 3 vs -> computes 3 f g -> simplex_integral 3 vs g I -> lipschitz 3 vs g c ->
  exists v, quadrature_tetrahedron_midpoint_rule f vs n = Ok (Sc (F := RF) v) /\ Rabs (v - I) <= c * ((spread vs 0 + (spread vs 1 + spread vs 2)) / INR n) * (Rabs (edges_det 3 vs) / 6).
Proof.
  intros f g n c I vs Hn HV S HI L. destruct (C115_tetrahedron f g n _ I vs Hn HV S HI (lipschitz_varies 3 vs g c n Hn L)) as (v & E & B). exists v. split; [exact E|]. cbn [seq map fold_right] in B. rewrite Rplus_0_r in B. exact B.
Qed.
Print Assumptions C115_tetrahedron_lipschitz.

(** ** Convergence for uniformly continuous functions *)
Definition uniformly_continuous (k : nat) (vs : list (list R)) (g : list R -> R) : Prop :=
  forall eps, 0 < eps -> exists delta, 0 < delta /\ forall x y, in_hull (Q := RO) k vs x -> in_hull (Q := RO) k vs y -> length x = k -> length y = k ->
    (forall j, (j < k)%nat -> Rabs (nth j x 0 - nth j y 0) < delta) -> Rabs (g x - g y) < eps.
Lemma spread_nonneg vs j : 0 <= spread vs j.
Proof. unfold spread. induction (tl vs) as [|v l IH]; cbn [fold_right]; [lra|]. pose proof (Rabs_pos (nth j v 0 - nth j (hd [] vs) 0)). lra. Qed.
Lemma sum_ge (l : list nat) (a : nat -> R) j : (forall i, 0 <= a i) -> In j l -> a j <= fold_right Rplus 0 (map a l).
Proof.
  intros P. assert (N : forall l', 0 <= fold_right Rplus 0 (map a l')) by (induction l' as [|i l' IH]; cbn; [lra|]; pose proof (P i); lra).
  induction l as [|i l IH]; intros H; [destruct H|]. cbn [map fold_right]. destruct H as [->|H]; [pose proof (N l); lra|]. pose proof (IH H). pose proof (P i). lra.
Qed.
Lemma uniform_varies k vs g eps : uniformly_continuous k vs g -> 0 < eps -> exists N, (1 <= N)%nat /\ forall n, (N <= n)%nat -> varies k vs g n eps.
Proof.
  intros U He. destruct (U eps He) as (delta & Hd & H). set (s := fold_right Rplus 0 (map (spread vs) (seq 0 k))).
  assert (Hs : 0 <= s) by (unfold s; generalize (seq 0 k); induction l as [|j l IH]; cbn [map fold_right]; [lra|]; pose proof (spread_nonneg vs j); lra).
  destruct (nfloor_ex (s / delta)) as (N0 & _ & HN0); [apply Rmult_le_pos; [exact Hs|apply Rlt_le, Rinv_0_lt_compat, Hd]|]. set (N := S N0). assert (HN : s / delta < INR N) by (unfold N; rewrite S_INR; exact HN0). clearbody N. exists (S N). split; [lia|]. intros n Hn x y Hx Hy Lx Ly D. apply Rlt_le, H; try assumption. intros j Hj. eapply Rle_lt_trans; [apply D, Hj|].
  assert (Pn : 0 < INR n) by (apply lt_0_INR; lia). apply (Rmult_lt_reg_r (INR n)); [exact Pn|]. unfold Rdiv. rewrite Rmult_assoc, Rinv_l, Rmult_1_r by lra.
  eapply Rle_lt_trans; [apply (sum_ge (seq 0 k) (spread vs) j); [apply spread_nonneg|apply in_seq; lia]|]. fold s. apply (Rle_lt_trans _ (s / delta * delta)); [right; field; lra|]. rewrite (Rmult_comm delta). apply Rmult_lt_compat_r; [exact Hd|]. eapply Rlt_le_trans; [exact HN|]. apply le_INR. lia.
Qed.
Theorem C115_triangle_converges : forall f g I (vs : list (list R)), rows_of (F := RF) 3 2 vs -> computes 2 f g -> simplex_integral 2 vs g I -> uniformly_continuous 2 vs g ->
  forall eps, 0 < eps -> exists N, forall n, (N <= n)%nat -> exists v, quadrature_triangle_midpoint_rule f vs n = Ok (Sc (F := RF) v) /\ Rabs (v - I) < eps.
Proof.
  intros f g I vs HV S HI U eps He. set (a := Rabs (edges_det 2 vs) / 2). assert (Ha : 0 <= a) by (pose proof (Rabs_pos (edges_det 2 vs)); unfold a; lra).
  destruct (uniform_varies 2 vs g (eps / (a + 1)) U) as (N & N1 & H); [apply Rdiv_lt_0_compat; lra|]. exists N. intros n Hn. destruct (C115_triangle f g n (eps / (a + 1)) I vs ltac:(lia) HV S HI (H n Hn)) as (v & E & B). exists v. split; [exact E|]. fold a in B.
  eapply Rle_lt_trans; [exact B|]. apply (Rmult_lt_reg_r (a + 1)); [lra|]. replace (eps / (a + 1) * a * (a + 1)) with (eps * a) by (field; lra). apply Rmult_lt_compat_l; lra.
Qed.
Print Assumptions C115_triangle_converges.
Theorem C115_tetrahedron_converges : forall f g I (vs : list (list R)), rows_of (F := RF) 4 3 vs -> computes 3 f g -> simplex_integral 3 vs g I -> uniformly_continuous 3 vs g ->
  forall eps, 0 < eps -> exists N, forall n, (N <= n)%nat -> exists v, quadrature_tetrahedron_midpoint_rule f vs n = Ok (Sc (F := RF) v) /\ Rabs (v - I) < eps.
Proof.
  intros f g I vs HV S HI U eps He. set (a := Rabs (edges_det 3 vs) / 6). assert (Ha : 0 <= a) by (pose proof (Rabs_pos (edges_det 3 vs)); unfold a; lra).
  destruct (uniform_varies 3 vs g (eps / (a + 1)) U) as (N & N1 & H); [apply Rdiv_lt_0_compat; lra|]. exists N. intros n Hn. destruct (C115_tetrahedron f g n (eps / (a + 1)) I vs ltac:(lia) HV S HI (H n Hn)) as (v & E & B). exists v. split; [exact E|]. fold a in B.
  eapply Rle_lt_trans; [exact B|]. apply (Rmult_lt_reg_r (a + 1)); [lra|]. replace (eps / (a + 1) * a * (a + 1)) with (eps * a) by (field; lra). apply Rmult_lt_compat_l; lra.
Qed.
Print Assumptions C115_tetrahedron_converges.

(** ** Polynomials of degree one are integrated exactly, for every [n] *)
Theorem C115_triangle_exact : forall f g n a b c (vs : list (list R)), (1 <= n)%nat -> rows_of (F := RF) 3 2 vs -> computes 2 f g -> (forall x y, g [x; y] = a + b * x + c * y) ->
  exists I, quadrature_triangle_midpoint_rule f vs n = Ok (Sc (F := RF) I) /\ simplex_integral 2 vs g I.
Proof.
  intros f g n a b c vs Hn HV S G. apply tri_rows_of in HV as (p0 & p1 & q0 & q1 & r0 & r1 & ->). destruct (tri_rule_affine p0 p1 q0 q1 r0 r1 f g n a b c Hn S G) as (I & E & H & _). exists I. split; assumption.
Qed.
Print Assumptions C115_triangle_exact.
Theorem C115_tetrahedron_exact : forall f g n a b c d (vs : list (list R)), (1 <= n)%nat -> rows_of (F := RF) 4 3 vs -> computes 3 f g -> (forall x y z, g [x; y; z] = a + b * x + c * y + d * z) ->
  exists I, quadrature_tetrahedron_midpoint_rule f vs n = Ok (Sc (F := RF) I) /\ simplex_integral 3 vs g I.
Proof.
  intros f g n a b c d vs Hn HV S G. apply tet_rows_of in HV as (p0 & p1 & p2 & q0 & q1 & q2 & r0 & r1 & r2 & t0 & t1 & t2 & ->). destruct (tet_rule_affine p0 p1 p2 q0 q1 q2 r0 r1 r2 t0 t1 t2 f g n a b c d Hn S G) as (I & E & H & _). exists I. split; assumption.
Qed.
Print Assumptions C115_tetrahedron_exact.

(** ** The vertices of the cells of a tetrahedron *)
Theorem C115_tetrahedron_vertices : forall (vs us : list (list R)) E, (2 <= E)%nat -> rows_of (F := RF) 4 3 vs -> tetrahedron_vertices (F := RF) E = Ok us ->
  exists ps, general_tetrahedron_vertices (F := RF) vs E = Ok ps /\ length ps = length us /\
    forall i, (i < length us)%nat -> affine_comb (F := RF) 3 (bary_of (F := RF) (nth i us [])) vs (nth i ps []).
Proof.
  intros vs us E HE HV EU. apply tet_rows_of in HV as (p0 & p1 & p2 & q0 & q1 & q2 & r0 & r1 & r2 & t0 & t1 & t2 & ->). rewrite tet_rows in EU by exact HE. injection EU as <-.
  eexists. split; [apply tet_vertices_value; exact HE|]. rewrite !map_length. split; [reflexivity|]. intros i Hi.
  destruct (nth_error (tcells3 E) i) as [c|] eqn:Ec; [|apply nth_error_None in Ec; lia].
  do 2 (erewrite (nth_error_nth _ i); [|apply map_nth_error; exact Ec]).
  apply Phi3_comb. reflexivity.
Qed.
Print Assumptions C115_tetrahedron_vertices.

(** ** No parts *)
Theorem C115_none : forall f (vs : list (list R)), (rows_of (F := RF) 3 2 vs -> quadrature_triangle_midpoint_rule f vs 0 = Err ZeroDivisionError) /\ quadrature_tetrahedron_midpoint_rule f vs 0 = Err AssertionError.
Proof.
  intros f vs. split; [|reflexivity]. intros HV. apply tri_rows_of in HV as (p0 & p1 & q0 & q1 & r0 & r1 & ->). cbn. reflexivity.
Qed.
Print Assumptions C115_none.

(** ** Examples: x y on a triangle and x y z on a tetrahedron *)
Definition xy_of (x : list R) : R := nth 0 x 0 * nth 1 x 0.
Definition call2 (h : R -> R -> R) : callable RF := mkCallable (F := RF) (Some [POSITIONAL; POSITIONAL]) (fun xs => match xs with [Sc x; Sc y] => Ok (Sc (F := RF) (h x y)) | _ => Err TypeError end).
Definition call3 (h : R -> R -> R -> R) : callable RF := mkCallable (F := RF) (Some [POSITIONAL; POSITIONAL; POSITIONAL]) (fun xs => match xs with [Sc x; Sc y; Sc z] => Ok (Sc (F := RF) (h x y z)) | _ => Err TypeError end).
Definition tri_ex : list (list R) := [[0; 0]; [1; 0]; [0; 1]].
Lemma tri_ex_rows : rows_of (F := RF) 3 2 tri_ex. Proof. split; [reflexivity|]. intros r [<-|[<-|[<-|[]]]]; reflexivity. Qed.
Lemma tri_ex_hull x : in_hull (Q := RO) 2 tri_ex x -> 0 <= nth 0 x 0 <= 1 /\ 0 <= nth 1 x 0 <= 1.
Proof.
  intros (w & L & P & S & C). destruct w as [|w0 [|w1 [|w2 [|? ?]]]]; try discriminate L.
  pose proof (proj1 (kle_R _ _) (P 0%nat ltac:(cbn; lia))) as P0. pose proof (proj1 (kle_R _ _) (P 1%nat ltac:(cbn; lia))) as P1. pose proof (proj1 (kle_R _ _) (P 2%nat ltac:(cbn; lia))) as P2.
  pose proof (C 0%nat ltac:(lia)) as C0. pose proof (C 1%nat ltac:(lia)) as C1. unfold tri_ex in *. cbn in P0, P1, P2, S, C0, C1. change (K (OF RO)) with R in *. cbn. split; [match type of C0 with _ = ?e => replace (nth 0 x 0) with e by (symmetry; exact C0) end|match type of C1 with _ = ?e => replace (nth 1 x 0) with e by (symmetry; exact C1) end]; lra.
Qed.
Lemma product_lip (a b c d : R) : 0 <= b <= 1 -> 0 <= c <= 1 -> Rabs (a * b - c * d) <= 1 * (Rabs (a - c) + (Rabs (b - d) + 0)).
Proof.
  intros Hb Hc. replace (a * b - c * d) with ((a - c) * b + c * (b - d)) by ring. eapply Rle_trans; [apply Rabs_triang|]. rewrite (Rabs_mult (a - c) b), (Rabs_mult c (b - d)), (Rabs_right b), (Rabs_right c) by lra. pose proof (Rabs_pos (a - c)). pose proof (Rabs_pos (b - d)). nra.
Qed.
Lemma tri_ex_lip : lipschitz 2 tri_ex xy_of 1.
Proof. split; [lra|]. intros x y Hx Hy _ _. apply tri_ex_hull in Hx as [Hx0 Hx1]. apply tri_ex_hull in Hy as [Hy0 Hy1]. exact (product_lip _ _ _ _ Hx1 Hy0). Qed.
Lemma tri_ex_integral : exists I, simplex_integral 2 tri_ex xy_of I.
Proof.
  destruct (C72_triangle 2 (call2 Rmult) xy_of [0; 0; 0; 0; 1; 0] [[0; 0]; [1; 0]; [2; 0]; [0; 1]; [1; 1]; [0; 2]]%nat tri_ex) as (I & _ & H); try reflexivity; try lia.
  - exact tri_ex_rows.
  - intros [|x [|y [|? ?]]] H; try discriminate H. unfold poly_fn, xy_of. cbn. rring.
  - intros [|x [|y [|? ?]]] H; try discriminate H. reflexivity.
  - exists I. exact H.
Qed.
Lemma xy_call : computes 2 (call2 Rmult) xy_of. Proof. intros [|x [|y [|? ?]]] H; try discriminate H. reflexivity. Qed.
(** with a hundred parts of an edge the integral of x y is found up to 1/100 *)
Example C115_triangle_ex : exists v I, quadrature_triangle_midpoint_rule (call2 Rmult) tri_ex 100 = Ok (Sc (F := RF) v) /\ simplex_integral 2 tri_ex xy_of I /\ Rabs (v - I) <= 1 / 100.
Proof.
  destruct tri_ex_integral as (I & HI). destruct (C115_triangle_lipschitz (call2 Rmult) xy_of 100 1 I tri_ex ltac:(lia) tri_ex_rows xy_call HI tri_ex_lip) as (v & E & B). exists v, I. split; [exact E|]. split; [exact HI|].
  eapply Rle_trans; [exact B|]. right. unfold edges_det, tri_ex. rewrite det2_eq. unfold det2, spread. cbn [tl hd fold_right nth]. replace (INR 100) with 100 by (rewrite INR_IZR_INZ; reflexivity). replace ((1 - 0) * (1 - 0) - (0 - 0) * (0 - 0)) with 1 by ring. rewrite !Rminus_0_r, !Rabs_R1, !Rabs_R0. field.
Qed.
Example C115_converges_ex : exists I, simplex_integral 2 tri_ex xy_of I /\ exists N, forall n, (N <= n)%nat -> exists v, quadrature_triangle_midpoint_rule (call2 Rmult) tri_ex n = Ok (Sc (F := RF) v) /\ Rabs (v - I) < / 10 ^ 9.
Proof.
  destruct tri_ex_integral as (I & HI). exists I. split; [exact HI|]. apply (C115_triangle_converges _ xy_of I tri_ex tri_ex_rows xy_call HI).
  - destruct tri_ex_lip as [_ L]. intros eps He. exists (eps / 2). split; [lra|]. intros x y Hx Hy Lx Ly D. eapply Rle_lt_trans; [apply L; assumption|]. cbn [seq map fold_right]. pose proof (D 0%nat ltac:(lia)). pose proof (D 1%nat ltac:(lia)). lra.
  - apply Rinv_0_lt_compat, pow_lt. lra.
Qed.
Definition tet_ex : list (list R) := [[1; 0; 0]; [0; 2; 0]; [0; 0; 3]; [0; 0; 0]].
Lemma tet_ex_rows : rows_of (F := RF) 4 3 tet_ex. Proof. split; [reflexivity|]. intros r [<-|[<-|[<-|[<-|[]]]]]; reflexivity. Qed.
Example C115_tetrahedron_ex : exists I, quadrature_tetrahedron_midpoint_rule (call3 (fun x y z => 1 + 2 * x - y + 3 * z)) tet_ex 7 = Ok (Sc (F := RF) I) /\ simplex_integral 3 tet_ex (fun p => 1 + 2 * nth 0 p 0 - nth 1 p 0 + 3 * nth 2 p 0) I.
Proof.
  apply (C115_tetrahedron_exact _ _ 7 1 2 (-1) 3 tet_ex ltac:(lia) tet_ex_rows); [|intros x y z; cbn [nth]; ring].
  intros [|x [|y [|z [|? ?]]]] H; try discriminate H. reflexivity.
Qed.
(** the value of the rule itself *)
Example C115_value : quadrature_tetrahedron_midpoint_rule (call3 (fun x y z => 1)) tet_ex 5 = Ok (Sc (F := RF) 1).
Proof.
  unfold tet_ex. etransitivity; [apply (tet_rule_value _ _ _ _ _ _ _ _ _ _ _ _ _ (fun _ => 1)); [lia|]|].
  - intros [|x [|y [|z [|? ?]]]] H; try discriminate H. reflexivity.
  - rewrite lsum_one, tet_ct_length by lia. do 2 f_equal. rR. unfold det3. match goal with |- Rabs ?t / _ / _ * _ = _ => replace t with (-6) by ring end. rewrite Rabs_left by lra. replace (INR ((6 - 1) ^ 3)) with 125 by (rewrite INR_IZR_INZ; reflexivity). replace (INR (5 ^ 3)) with 125 by (rewrite INR_IZR_INZ; reflexivity). field.
Qed.
Example C115_vertices_ex : exists us ps, tetrahedron_vertices (F := RF) 4 = Ok us /\ general_tetrahedron_vertices (F := RF) tet_ex 4 = Ok ps /\ length ps = 20%nat.
Proof.
  destruct (tetrahedron_vertices_eq (F := RF) 4 ltac:(lia)) as (us & EU & LU & _). destruct (C115_tetrahedron_vertices tet_ex us 4 ltac:(lia) tet_ex_rows EU) as (ps & EP & LP & _). exists us, ps. split; [exact EU|]. split; [exact EP|]. rewrite LP. exact LU.
Qed.
