(** Property C116: the adaptive quadratures compute the integral if scipy does;
    the limit of the midpoint rules of C115 exists. *)
From Coq Require Import Reals Lra Factorial.
From Coquelicot Require Import Coquelicot.
From Verif Require Import Base MultiIndex MultiIndexFacts Fld FldInst ExNum LinSolve Det Linalg VecFacts SimplexGeo SimplexFacts AffineFacts Mesh MeshVerts KdTree RVec Triangle Quadrature HomogInt QuadReal SimplexInt IntReal SimplexIntReal KdMesh MeshGeo MidpointInt SimplexCont Midpoint MidpointFacts Adaptive AdaptiveFacts Prop_Quadrature Prop_Midpoint.
Local Open Scope R_scope.

Lemma point2 p0 p1 q0 q1 r0 r1 x : length x = 2%nat -> simplex_point (Q := RO) 2 [[p0; p1]; [q0; q1]; [r0; r1]] x = Phi2 p0 p1 q0 q1 r0 r1 x.
Proof. intros L. apply (PolySimplexMul.affine_comb_unique (Q := RO) 2 (bary_of (F := RF) x) [[p0; p1]; [q0; q1]; [r0; r1]]); [|apply Phi2_comb, L]. apply (simplex_point_comb (Q := RO)). exact (f_equal Datatypes.S L). Qed.
Lemma point3 p0 p1 p2 q0 q1 q2 r0 r1 r2 t0 t1 t2 x : length x = 3%nat -> simplex_point (Q := RO) 3 [[p0; p1; p2]; [q0; q1; q2]; [r0; r1; r2]; [t0; t1; t2]] x = Phi3 p0 p1 p2 q0 q1 q2 r0 r1 r2 t0 t1 t2 x.
Proof. intros L. apply (PolySimplexMul.affine_comb_unique (Q := RO) 3 (bary_of (F := RF) x) [[p0; p1; p2]; [q0; q1; q2]; [r0; r1; r2]; [t0; t1; t2]]); [|apply Phi3_comb, L]. apply (simplex_point_comb (Q := RO)). exact (f_equal Datatypes.S L). Qed.

Lemma prod_lt d e a s : 0 < d -> Rabs a < d / (s + 1) -> Rabs e <= s -> 0 <= s -> Rabs (a * e) <= d * (s / (s + 1)).
Proof.
  intros Hd Ha He Hs. rewrite Rabs_mult. replace (d * (s / (s + 1))) with (d / (s + 1) * s) by (field; lra). apply Rmult_le_compat; [apply Rabs_pos|apply Rabs_pos|lra|exact He].
Qed.
Lemma frac_lt s : 0 <= s -> s / (s + 1) < 1.
Proof. intros Hs. apply (Rmult_lt_reg_r (s + 1)); [lra|]. replace (s / (s + 1) * (s + 1)) with s by (field; lra). lra. Qed.
Lemma tri_ucont (vs : list (list R)) g : rows_of (F := RF) 3 2 vs -> uniformly_continuous 2 vs g -> ucont 2 (fun x => g (simplex_point (Q := RO) 2 vs x)).
Proof.
  intros HV U eps He. apply tri_rows_of in HV as (p0 & p1 & q0 & q1 & r0 & r1 & ->). destruct (U eps He) as (d & Hd & H).
  set (s := Rabs (q0 - p0) + Rabs (r0 - p0) + Rabs (q1 - p1) + Rabs (r1 - p1)). assert (Hs : 0 <= s) by (unfold s; pose proof (Rabs_pos (q0 - p0)); pose proof (Rabs_pos (r0 - p0)); pose proof (Rabs_pos (q1 - p1)); pose proof (Rabs_pos (r1 - p1)); lra).
  exists (d / (s + 1)). split; [apply Rdiv_lt_0_compat; lra|]. intros x y (Lx & Px & Sx) (Ly & Py & Sy) C. rewrite !point2 by assumption. apply Rlt_le, H; try reflexivity; try (apply Phi2_hull; assumption).
  destruct x as [|x0 [|x1 [|? ?]]]; try discriminate Lx. destruct y as [|y0 [|y1 [|? ?]]]; try discriminate Ly. inversion C as [|? ? ? ? C0 C1]; subst. inversion C1 as [|? ? ? ? C2 _]; subst.
  assert (D : forall e h, Rabs e + Rabs h <= s -> Rabs ((x0 - y0) * e + (x1 - y1) * h) < d).
  { intros e h Q. pose proof (Rabs_pos e). pose proof (Rabs_pos h). eapply Rle_lt_trans; [apply Rabs_triang|]. rewrite !Rabs_mult. apply (Rle_lt_trans _ (d / (s + 1) * (Rabs e + Rabs h))).
    - rewrite Rmult_plus_distr_l. apply Rplus_le_compat; apply Rmult_le_compat_r; lra.
    - apply (Rle_lt_trans _ (d / (s + 1) * s)); [apply Rmult_le_compat_l; [apply Rlt_le, Rdiv_lt_0_compat; lra|exact Q]|]. replace (d / (s + 1) * s) with (d * (s / (s + 1))) by (field; lra). pose proof (frac_lt s Hs). nra. }
  pose proof (Rabs_pos (q0 - p0)). pose proof (Rabs_pos (r0 - p0)). pose proof (Rabs_pos (q1 - p1)). pose proof (Rabs_pos (r1 - p1)).
  intros [|[|j]] Hj; [..|lia]; unfold Phi2; cbn [nth].
  - match goal with |- Rabs ?t < d => replace t with ((x0 - y0) * (q0 - p0) + (x1 - y1) * (r0 - p0)) by ring end. apply D. unfold s. lra.
  - match goal with |- Rabs ?t < d => replace t with ((x0 - y0) * (q1 - p1) + (x1 - y1) * (r1 - p1)) by ring end. apply D. unfold s. lra.
Qed.
Lemma tet_ucont (vs : list (list R)) g : rows_of (F := RF) 4 3 vs -> uniformly_continuous 3 vs g -> ucont 3 (fun x => g (simplex_point (Q := RO) 3 vs x)).
Proof.
  intros HV U eps He. apply tet_rows_of in HV as (p0 & p1 & p2 & q0 & q1 & q2 & r0 & r1 & r2 & t0 & t1 & t2 & ->). destruct (U eps He) as (d & Hd & H).
  set (b := fun a b c => Rabs a + Rabs b + Rabs c). assert (Hb : forall a c e, 0 <= b a c e) by (intros a c e; unfold b; pose proof (Rabs_pos a); pose proof (Rabs_pos c); pose proof (Rabs_pos e); lra).
  set (s := b (q0 - p0) (r0 - p0) (t0 - p0) + b (q1 - p1) (r1 - p1) (t1 - p1) + b (q2 - p2) (r2 - p2) (t2 - p2)). pose proof (Hb (q0 - p0) (r0 - p0) (t0 - p0)) as B0. pose proof (Hb (q1 - p1) (r1 - p1) (t1 - p1)) as B1. pose proof (Hb (q2 - p2) (r2 - p2) (t2 - p2)) as B2. assert (Hs : 0 <= s) by (unfold s; lra).
  exists (d / (s + 1)). split; [apply Rdiv_lt_0_compat; lra|]. intros x y (Lx & Px & Sx) (Ly & Py & Sy) C. rewrite !point3 by assumption. apply Rlt_le, H; try reflexivity; try (apply Phi3_hull; assumption).
  destruct x as [|x0 [|x1 [|x2 [|? ?]]]]; try discriminate Lx. destruct y as [|y0 [|y1 [|y2 [|? ?]]]]; try discriminate Ly. inversion C as [|? ? ? ? C0 C1]; subst. inversion C1 as [|? ? ? ? C2 C3]; subst. inversion C3 as [|? ? ? ? C4 _]; subst.
  assert (D : forall e h k, b e h k <= s -> Rabs ((x0 - y0) * e + (x1 - y1) * h + (x2 - y2) * k) < d).
  { intros e h k Q. unfold b in Q. pose proof (Rabs_pos e). pose proof (Rabs_pos h). pose proof (Rabs_pos k). apply (Rle_lt_trans _ (Rabs ((x0 - y0) * e) + Rabs ((x1 - y1) * h) + Rabs ((x2 - y2) * k))); [eapply Rle_trans; [apply Rabs_triang|]; apply Rplus_le_compat_r, Rabs_triang|].
    rewrite !Rabs_mult. apply (Rle_lt_trans _ (d / (s + 1) * (Rabs e + Rabs h + Rabs k))).
    - rewrite !Rmult_plus_distr_l. apply Rplus_le_compat; [apply Rplus_le_compat|]; apply Rmult_le_compat_r; lra.
    - apply (Rle_lt_trans _ (d / (s + 1) * s)); [apply Rmult_le_compat_l; [apply Rlt_le, Rdiv_lt_0_compat; lra|exact Q]|]. replace (d / (s + 1) * s) with (d * (s / (s + 1))) by (field; lra). pose proof (frac_lt s Hs). nra. }
  intros [|[|[|j]]] Hj; [..|lia]; unfold Phi3; cbn [nth].
  - match goal with |- Rabs ?t < d => replace t with ((x0 - y0) * (q0 - p0) + (x1 - y1) * (r0 - p0) + (x2 - y2) * (t0 - p0)) by ring end. apply D. unfold s. lra.
  - match goal with |- Rabs ?t < d => replace t with ((x0 - y0) * (q1 - p1) + (x1 - y1) * (r1 - p1) + (x2 - y2) * (t1 - p1)) by ring end. apply D. unfold s. lra.
  - match goal with |- Rabs ?t < d => replace t with ((x0 - y0) * (q2 - p2) + (x1 - y1) * (r2 - p2) + (x2 - y2) * (t2 - p2)) by ring end. apply D. unfold s. lra.
Qed.

(** ** Uniformly continuous functions have an integral *)
Lemma integral_of n (vs : list (list R)) g I : rows_of (F := RF) (S n) n vs -> simplex_int n 1 (fun x => g (simplex_point (Q := RO) n vs x)) I -> simplex_integral n vs g (Rabs (edges_det n vs) * I).
Proof.
  intros Hr HI Phi HP. exists I. split; [|reflexivity]. refine (simplex_int_ext n 1 _ _ _ _ _ HI); [lra|]. intros x Lx _ _. f_equal.
  apply (PolySimplexMul.affine_comb_unique (Q := RO) n (bary_of (F := RF) x) vs); [|apply HP, Lx]. apply (simplex_point_comb (Q := RO)). destruct Hr as [LV _]. refine (eq_trans _ (eq_sym LV)). f_equal. exact Lx.
Qed.
Theorem C115_triangle_limit : forall f g (vs : list (list R)), rows_of (F := RF) 3 2 vs -> computes 2 f g -> uniformly_continuous 2 vs g ->
  exists I, simplex_integral 2 vs g I /\ forall eps, 0 < eps -> exists N, forall n, (N <= n)%nat -> exists v, quadrature_triangle_midpoint_rule f vs n = Ok (Sc (F := RF) v) /\ Rabs (v - I) < eps.
Proof.
  intros f g vs HV S U. destruct (ucont_int 2 _ (tri_ucont vs g HV U)) as (w & Hw). apply (integral_of 2 vs g w HV) in Hw. eexists. split; [exact Hw|]. exact (C115_triangle_converges f g _ vs HV S Hw U).
Qed.
Print Assumptions C115_triangle_limit.
Theorem C115_tetrahedron_limit : forall f g (vs : list (list R)), rows_of (F := RF) 4 3 vs -> computes 3 f g -> uniformly_continuous 3 vs g ->
  exists I, simplex_integral 3 vs g I /\ forall eps, 0 < eps -> exists N, forall n, (N <= n)%nat -> exists v, quadrature_tetrahedron_midpoint_rule f vs n = Ok (Sc (F := RF) v) /\ Rabs (v - I) < eps.
Proof.
  intros f g vs HV S U. destruct (ucont_int 3 _ (tet_ucont vs g HV U)) as (w & Hw). apply (integral_of 3 vs g w HV) in Hw. eexists. split; [exact Hw|]. exact (C115_tetrahedron_converges f g _ vs HV S Hw U).
Qed.
Print Assumptions C115_tetrahedron_limit.

(** ** C116 *)
Theorem C116_interval : forall q f g a b I eps, (forall x : R, c_run f [Sc (F := RF) x] = Ok (Sc (F := RF) (g x))) -> is_RInt g a b I -> accurate1 q g eps ->
  exists v, quadrature_interval q f a b = Ok (Sc (F := RF) v) /\ Rabs (v - I) <= eps.
Proof. intros q f g a b I eps S HI A. exact (A f a b I S HI). Qed.
Print Assumptions C116_interval.
(** the fixed and the adaptive rule have the same value for a < b and opposite
    values for b < a *)
Theorem C116_interval_fixed : forall q (gl : nat -> list R * list R) f p r a b eps, gauss_rule (2 * ((r + 2) / 2) - 1) 0 (gl ((r + 2) / 2)%nat) -> is_univariate f = Ok true ->
  (forall x : R, c_run f [Sc (F := RF) x] = Ok (Sc (F := RF) (rpoly p x))) -> (length p <= S r)%nat -> a <> b -> accurate1 q (rpoly p) eps ->
  exists v w, quadrature_interval q f a b = Ok (Sc (F := RF) v) /\ quadrature_interval_fixed (Q := RO) gl f a b r = Ok (Sc (F := RF) w) /\
    (a < b -> Rabs (v - w) <= eps) /\ (b < a -> Rabs (v + w) <= eps).
Proof.
  intros q gl f p r a b eps G U S Hp Hab A. destruct (interval_exact gl f p r a b G U S Hp Hab) as (I & E & HI). destruct (Rle_dec a b) as [L|L].
  - rewrite Rmin_left, Rmax_right in HI by lra. destruct (A f a b I S HI) as (v & Ev & B). exists v, I. split; [exact Ev|]. split; [exact E|]. split; [intros _; exact B|lra].
  - rewrite Rmin_right, Rmax_left in HI by lra. apply (is_RInt_swap (V := R_NormedModule)) in HI. destruct (A f a b (- I) S HI) as (v & Ev & B). exists v, I. split; [exact Ev|]. split; [exact E|]. split; [lra|]. intros _. replace (v + I) with (v - - I) by ring. exact B.
Qed.
Print Assumptions C116_interval_fixed.
Theorem C116_unit_interval : forall q f g I eps, (forall x : R, c_run f [Sc (F := RF) x] = Ok (Sc (F := RF) (g x))) -> simplex_int 1 1 (fun x => g (nth 0 x 0)) I -> accurate1 q g eps ->
  exists v, quadrature_unit_interval q f = Ok (Sc (F := RF) v) /\ Rabs (v - I) <= eps.
Proof. intros q f g I eps S HI A. apply (A f 0 1 I S). apply int1 in HI; [exact HI|lra]. Qed.
Print Assumptions C116_unit_interval.

(** the unit triangle and the unit tetrahedron: scipy integrates over the last
    argument of [f] first from outside *)
Theorem C116_unit_triangle : forall q f g eps, ucont 2 g -> computes 2 f g -> accurate2 q (fun y x => g [y; x]) eps ->
  exists v I, quadrature_unit_triangle q f = Ok (Sc (F := RF) v) /\ simplex_int 2 1 g I /\ Rabs (v - I) <= eps.
Proof. exact unit_triangle_near. Qed.
Print Assumptions C116_unit_triangle.
Theorem C116_unit_tetrahedron : forall q f g eps, ucont 3 g -> computes 3 f g -> accurate3 q (fun z y x => g [z; y; x]) eps ->
  exists v I, quadrature_unit_tetrahedron q f = Ok (Sc (F := RF) v) /\ simplex_int 3 1 g I /\ Rabs (v - I) <= eps.
Proof. exact unit_tetrahedron_near. Qed.
Print Assumptions C116_unit_tetrahedron.

(** any triangle and any tetrahedron; [Phi] maps the unit simplex to it *)
Theorem C116_triangle : forall q f g eps (vs : list (list R)), rows_of (F := RF) 3 2 vs -> is_univariate f = Ok false -> computes 2 f g -> uniformly_continuous 2 vs g ->
  (forall Phi, (forall x, length x = 2%nat -> affine_comb (F := RF) 2 (bary_of (F := RF) x) vs (Phi x)) -> accurate2 q (fun y x => g (Phi [y; x])) eps) ->
  exists v I, quadrature_triangle q f vs = Ok (Sc (F := RF) v) /\ simplex_integral 2 vs g I /\ Rabs (v - I) <= Rabs (edges_det 2 vs) * eps.
Proof.
  intros q f g eps vs HV Uf S U A. apply (simplex_pull 2); try assumption; [lia|]. intros h Sh. apply unit_triangle_near; [apply tri_ucont; assumption|exact Sh|]. apply (A (simplex_point (Q := RO) 2 vs)).
  intros x Lx. apply (simplex_point_comb (Q := RO)). refine (eq_trans (f_equal Datatypes.S Lx) (eq_sym (proj1 HV))).
Qed.
Print Assumptions C116_triangle.
Theorem C116_tetrahedron : forall q f g eps (vs : list (list R)), rows_of (F := RF) 4 3 vs -> is_univariate f = Ok false -> computes 3 f g -> uniformly_continuous 3 vs g ->
  (forall Phi, (forall x, length x = 3%nat -> affine_comb (F := RF) 3 (bary_of (F := RF) x) vs (Phi x)) -> accurate3 q (fun z y x => g (Phi [z; y; x])) eps) ->
  exists v I, quadrature_tetrahedron q f vs = Ok (Sc (F := RF) v) /\ simplex_integral 3 vs g I /\ Rabs (v - I) <= Rabs (edges_det 3 vs) * eps.
Proof.
  intros q f g eps vs HV Uf S U A. apply (simplex_pull 3); try assumption; [lia|]. intros h Sh. apply unit_tetrahedron_near; [apply tet_ucont; assumption|exact Sh|]. apply (A (simplex_point (Q := RO) 3 vs)).
  intros x Lx. apply (simplex_point_comb (Q := RO)). refine (eq_trans (f_equal Datatypes.S Lx) (eq_sym (proj1 HV))).
Qed.
Print Assumptions C116_tetrahedron.

(** the adaptive and the midpoint rule agree in the limit *)
Theorem C116_midpoint : forall q f g eps (vs : list (list R)), rows_of (F := RF) 3 2 vs -> is_univariate f = Ok false -> computes 2 f g -> uniformly_continuous 2 vs g ->
  (forall Phi, (forall x, length x = 2%nat -> affine_comb (F := RF) 2 (bary_of (F := RF) x) vs (Phi x)) -> accurate2 q (fun y x => g (Phi [y; x])) eps) ->
  exists v, quadrature_triangle q f vs = Ok (Sc (F := RF) v) /\ forall d, 0 < d -> exists N, forall n, (N <= n)%nat -> exists w, quadrature_triangle_midpoint_rule f vs n = Ok (Sc (F := RF) w) /\ Rabs (v - w) < Rabs (edges_det 2 vs) * eps + d.
Proof.
  intros q f g eps vs HV Uf S U A. destruct (C116_triangle q f g eps vs HV Uf S U A) as (v & I & E & HI & B). exists v. split; [exact E|]. intros d Hd.
  destruct (C115_triangle_converges f g I vs HV S HI U d Hd) as (N & H). exists N. intros n Hn. destruct (H n Hn) as (w & Ew & Bw). exists w. split; [exact Ew|].
  apply Rabs_def1; apply Rabs_def2 in Bw; apply Rabs_le_between in B; lra.
Qed.
Print Assumptions C116_midpoint.

(** ** Example: exact integration in place of scipy *)
Definition val (r : result (arr RF)) : R := match r with Ok (Sc x) => x | _ => 0 end.
Definition exact2 (f : callable RF) (a b : R) (lo hi : R -> R) : result (arr RF) := Ok (Sc (F := RF) (RInt (fun x => RInt (fun y => val (c_run f [Sc (F := RF) y; Sc (F := RF) x])) (lo x) (hi x)) a b)).
Definition exact3 (f : callable RF) (a b : R) (lo hi : R -> R) (lo2 hi2 : R -> R -> R) : result (arr RF) :=
  Ok (Sc (F := RF) (RInt (fun x => RInt (fun y => RInt (fun z => val (c_run f [Sc (F := RF) z; Sc (F := RF) y; Sc (F := RF) x])) (lo2 x y) (hi2 x y)) (lo x) (hi x)) a b)).
Lemma exact2_ok g : accurate2 exact2 g 0.
Proof.
  intros f a b lo hi J v Hab S H1 H2. eexists. split; [reflexivity|]. replace (RInt _ a b) with v; [rewrite Rminus_eq_0, Rabs_R0; lra|]. symmetry. apply is_RInt_unique. apply (is_RInt_ext J); [|exact H2]. intros x Hx. rewrite Rmin_left, Rmax_right in Hx by lra.
  symmetry. apply is_RInt_unique. apply (is_RInt_ext (fun y => g y x)); [|apply H1; lra]. intros y _. rewrite S. reflexivity.
Qed.
Lemma exact3_ok g : accurate3 exact3 g 0.
Proof.
  intros f a b lo hi lo2 hi2 K J v Hab Hlo S H0 H1 H2. eexists. split; [reflexivity|]. replace (RInt _ a b) with v; [rewrite Rminus_eq_0, Rabs_R0; lra|]. symmetry. apply is_RInt_unique. apply (is_RInt_ext J); [|exact H2]. intros x Hx. rewrite Rmin_left, Rmax_right in Hx by lra.
  symmetry. apply is_RInt_unique. apply (is_RInt_ext (K x)); [|apply H1; lra]. intros y Hy. rewrite Rmin_left, Rmax_right in Hy by (apply Hlo; lra). symmetry. apply is_RInt_unique. apply (is_RInt_ext (fun z => g z y x)); [|apply H0; lra]. intros z _. rewrite S. reflexivity.
Qed.
Lemma xy_uc : uniformly_continuous 2 tri_ex xy_of.
Proof.
  destruct tri_ex_lip as [_ L]. intros eps He. exists (eps / 2). split; [lra|]. intros x y Hx Hy Lx Ly D. eapply Rle_lt_trans; [apply L; assumption|]. cbn [seq map fold_right]. pose proof (D 0%nat ltac:(lia)). pose proof (D 1%nat ltac:(lia)). lra.
Qed.
Example C116_triangle_ex : exists I, quadrature_triangle exact2 (call2 Rmult) tri_ex = Ok (Sc (F := RF) I) /\ simplex_integral 2 tri_ex xy_of I.
Proof.
  destruct (C116_triangle exact2 (call2 Rmult) xy_of 0 tri_ex tri_ex_rows eq_refl xy_call xy_uc (fun Phi _ => exact2_ok _)) as (v & I & E & HI & B). rewrite Rmult_0_r in B. exists I. split; [|exact HI]. rewrite E. do 2 f_equal. pose proof (Rabs_pos (v - I)).
  destruct (Req_dec v I) as [|N]; [assumption|]. pose proof (Rabs_pos_lt (v - I) ltac:(lra)). lra.
Qed.
(** 2 x - y + z, which is not symmetric, on the unit tetrahedron *)
Example C116_unit_tetrahedron_ex : exists I, quadrature_unit_tetrahedron exact3 (call3 (fun x y z => 2 * x - y + z)) = Ok (Sc (F := RF) I) /\ simplex_int 3 1 (fun p => 2 * nth 0 p 0 - nth 1 p 0 + nth 2 p 0) I.
Proof.
  destruct (C116_unit_tetrahedron exact3 (call3 (fun x y z => 2 * x - y + z)) (fun p => 2 * nth 0 p 0 - nth 1 p 0 + nth 2 p 0) 0) as (v & I & E & HI & B).
  - intros eps He. exists (eps / 4). split; [lra|]. intros x y (Lx & _) (Ly & _) C. destruct x as [|x0 [|x1 [|x2 [|? ?]]]]; try discriminate Lx. destruct y as [|y0 [|y1 [|y2 [|? ?]]]]; try discriminate Ly.
    inversion C as [|? ? ? ? C0 C1]; subst. inversion C1 as [|? ? ? ? C2 C3]; subst. inversion C3 as [|? ? ? ? C4 _]; subst. cbn [nth]. apply Rabs_def2 in C0, C2, C4. apply Rabs_le_between. lra.
  - intros [|x [|y [|z [|? ?]]]] H; try discriminate H. reflexivity.
  - apply exact3_ok.
  - exists I. split; [|exact HI]. rewrite E. do 2 f_equal. pose proof (Rabs_pos (v - I)). destruct (Req_dec v I) as [|N]; [assumption|]. pose proof (Rabs_pos_lt (v - I) ltac:(lra)). lra.
Qed.
Example C116_interval_ex : forall q, accurate1 q (fun x => x) (/ 100) -> exists v, quadrature_interval q (mkCallable (F := RF) (Some [POSITIONAL]) (fun xs => match xs with [x] => Ok x | _ => Err TypeError end)) 3 1 = Ok (Sc (F := RF) v) /\ Rabs (v - - 4) <= / 100.
Proof.
  intros q A. apply (C116_interval q _ (fun x => x) 3 1 (-4)); [reflexivity| |exact A]. replace (-4) with (minus (1 ^ 2 / 2) (3 ^ 2 / 2)) by (unfold minus, plus, opp; cbn; field).
  apply (is_RInt_derive (V := R_CompleteNormedModule) (fun x => x ^ 2 / 2)); [intros x _; auto_derive; [exact I|field]|]. intros x _. apply continuous_id.
Qed.
