(** Geometry of the triangulations: they cover the meshed domain, and the
    interiors of different elements are disjoint (over the reals). *)
From Coq Require Import Reals Lra.
From Verif Require Import Base MultiIndex MultiIndexFacts Fld FldInst KdMesh Mesh MeshFacts MeshNum.
Local Open Scope R_scope.

(** ** One dimension *)
Lemma find_cell m X : (1 <= m)%nat -> 0 <= X <= INR m -> exists a, (a < m)%nat /\ INR a <= X <= INR a + 1.
Proof.
  induction m as [|m IH]; intros Hm HX; [lia|]. rewrite S_INR in HX. destruct (Rle_dec X (INR m)) as [H|H].
  - destruct m as [|m]; [exists 0%nat; cbn [INR] in *; split; [lia|lra]|]. destruct IH as (a & Ha & B); [lia|lra|]. exists a. split; [lia|exact B].
  - exists m. split; [lia|lra].
Qed.
Lemma cell_unique a a' X : INR a < X < INR a + 1 -> INR a' < X < INR a' + 1 -> a = a'.
Proof.
  intros H H'. assert (a < S a')%nat by (apply INR_lt; rewrite S_INR; lra). assert (a' < S a)%nat by (apply INR_lt; rewrite S_INR; lra). lia.
Qed.

(** ** Barycentric weights *)
Definition wle (strict : bool) (u : R) : Prop := if strict then 0 < u else 0 <= u.
Definition bw2 (s : bool) (t : list pt2) (X Y : R) : Prop :=
  match t with
  | [p; q; r] => exists u v w, wle s u /\ wle s v /\ wle s w /\ u + v + w = 1 /\
      X = u * INR (fst p) + v * INR (fst q) + w * INR (fst r) /\ Y = u * INR (snd p) + v * INR (snd q) + w * INR (snd r)
  | _ => False
  end.
Definition bw3 (s : bool) (t : list pt3) (X Y Z : R) : Prop :=
  match t with
  | [p; q; r; z] => exists u v w y, wle s u /\ wle s v /\ wle s w /\ wle s y /\ u + v + w + y = 1 /\
      X = u * INR (cx p) + v * INR (cx q) + w * INR (cx r) + y * INR (cx z) /\
      Y = u * INR (cy p) + v * INR (cy q) + w * INR (cy r) + y * INR (cy z) /\
      Z = u * INR (cz p) + v * INR (cz q) + w * INR (cz r) + y * INR (cz z)
  | _ => False
  end.

Lemma bw2_T1 s a b X Y : bw2 s (T1 (a, b)) X Y <-> wle s (X - INR a) /\ wle s (Y - INR b) /\ wle s (INR a + INR b + 1 - X - Y).
Proof.
  unfold bw2, T1. cbn [fst snd]. rewrite !S_INR. split.
  - intros (u & v & w & H1 & H2 & H3 & H4 & -> & ->). replace u with (1 - v - w) in * by lra. unfold wle in *. destruct s; repeat split; lra.
  - intros (H1 & H2 & H3). exists (INR a + INR b + 1 - X - Y), (X - INR a), (Y - INR b). repeat split; try assumption; lra.
Qed.
Lemma bw2_T2 s a b X Y : bw2 s (T2 (a, b)) X Y <-> wle s (INR a + 1 - X) /\ wle s (INR b + 1 - Y) /\ wle s (X + Y - (INR a + INR b + 1)).
Proof.
  unfold bw2, T2. cbn [fst snd]. rewrite !S_INR. split.
  - intros (u & v & w & H1 & H2 & H3 & H4 & -> & ->). replace u with (1 - v - w) in * by lra. unfold wle in *. destruct s; repeat split; lra.
  - intros (H1 & H2 & H3). exists (INR b + 1 - Y), (X + Y - (INR a + INR b + 1)), (INR a + 1 - X). repeat split; try assumption; lra.
Qed.
Lemma bw2_cover a b X Y : INR a <= X <= INR a + 1 -> INR b <= Y <= INR b + 1 -> (X + Y <= INR a + INR b + 1 /\ bw2 false (T1 (a, b)) X Y) \/ (INR a + INR b + 1 < X + Y /\ bw2 false (T2 (a, b)) X Y).
Proof.
  intros HX HY. destruct (Rle_dec (X + Y) (INR a + INR b + 1)) as [H|H]; [left|right]; (split; [lra|]); [apply bw2_T1|apply bw2_T2]; unfold wle; repeat split; lra.
Qed.
Lemma ct2_disjoint L p t t' X Y : In t (ct2 L p) -> In t' (ct2 L p) -> bw2 true t X Y -> bw2 true t' X Y -> t = t'.
Proof.
  intros Ht Ht' B B'. apply in_ct2 in Ht as ([a b] & _ & Ht). apply in_ct2 in Ht' as ([a' b'] & _ & Ht').
  assert (HA : forall a b t, (t = T1 (a, b) \/ p (a, b) = true /\ t = T2 (a, b)) -> bw2 true t X Y -> INR a < X < INR a + 1 /\ INR b < Y < INR b + 1).
  { clear. intros a b t [->|[_ ->]] B; [apply bw2_T1 in B|apply bw2_T2 in B]; unfold wle in B; lra. }
  pose proof (HA _ _ _ Ht B) as [A1 A2]. pose proof (HA _ _ _ Ht' B') as [A1' A2'].
  assert (a' = a) by (apply (cell_unique a' a X); assumption). assert (b' = b) by (apply (cell_unique b' b Y); assumption). subst a' b'.
  destruct Ht as [->|[_ ->]], Ht' as [->|[_ ->]]; try reflexivity; exfalso; rewrite ?bw2_T1, ?bw2_T2 in *; unfold wle in *; lra.
Qed.
Lemma rect_cover m n X Y : (1 <= m)%nat -> (1 <= n)%nat -> 0 <= X <= INR m -> 0 <= Y <= INR n -> exists t, In t (rect_ct m n) /\ bw2 false t X Y.
Proof.
  intros Hm Hn HX HY. destruct (find_cell m X Hm HX) as (a & Ha & A). destruct (find_cell n Y Hn HY) as (b & Hb & B).
  destruct (bw2_cover a b X Y A B) as [[_ H]|[_ H]]; eexists; (split; [|exact H]); apply in_ct2; exists (a, b); rewrite in_gcells; auto.
Qed.
Lemma tri_cover r X Y : (1 <= r)%nat -> 0 <= X -> 0 <= Y -> X + Y <= INR r -> exists t, In t (tri_ct r) /\ bw2 false t X Y.
Proof.
  intros Hr HX HY HS. destruct (find_cell r Y Hr ltac:(lra)) as (b & Hb & B). destruct (find_cell (r - b) X ltac:(lia)) as (a & Ha & A); [rewrite minus_INR by lia; lra|].
  destruct (bw2_cover a b X Y A B) as [[_ H]|[HL H]]; eexists; (split; [|exact H]); apply in_ct2; exists (a, b); rewrite in_tri_cells; (split; [lia|]); [auto|right].
  split; [|reflexivity]. cbn [fst snd]. apply Nat.ltb_lt. apply INR_lt. rewrite S_INR, plus_INR. lra.
Qed.
(** All points of an element of the mesh belong to the meshed domain. *)
Lemma bw2_bounds s t X Y (lo hi al be : R) : bw2 s t X Y -> (forall c, In c t -> lo <= al * INR (fst c) + be * INR (snd c) <= hi) -> lo <= al * X + be * Y <= hi.
Proof.
  destruct t as [|p [|q [|r [|z t]]]]; cbn [bw2]; try contradiction. intros (u & v & w & H1 & H2 & H3 & H4 & -> & ->) H.
  assert (0 <= u /\ 0 <= v /\ 0 <= w) as (P1 & P2 & P3) by (unfold wle in *; destruct s; lra).
  pose proof (H p ltac:(cbn; auto)). pose proof (H q ltac:(cbn; auto)). pose proof (H r ltac:(cbn; auto)).
  set (fp := al * INR (fst p) + be * INR (snd p)) in *. set (fq := al * INR (fst q) + be * INR (snd q)) in *. set (fr := al * INR (fst r) + be * INR (snd r)) in *.
  replace (al * (u * INR (fst p) + v * INR (fst q) + w * INR (fst r)) + be * (u * INR (snd p) + v * INR (snd q) + w * INR (snd r))) with (u * fp + v * fq + w * fr) by (unfold fp, fq, fr; ring).
  replace u with (1 - v - w) in * by lra. split; nra.
Qed.

(** *** Tetrahedra *)
Definition six_ineq (s : bool) (q : nat) (u v w : R) : Prop :=
  match q with
  | 0%nat => wle s (1 - u - v - w) /\ wle s u /\ wle s v /\ wle s w
  | 1%nat => wle s (1 - u - v) /\ wle s (u + v + w - 1) /\ wle s (1 - v - w) /\ wle s v
  | 2%nat => wle s (1 - u - v) /\ wle s u /\ wle s (1 - w) /\ wle s (v + w - 1)
  | 3%nat => wle s (1 - v - w) /\ wle s (u + v - 1) /\ wle s (1 - u) /\ wle s w
  | 4%nat => wle s (1 - v) /\ wle s (u + v - 1) /\ wle s (2 - u - v - w) /\ wle s (v + w - 1)
  | _ => wle s (1 - v) /\ wle s (u + v + w - 2) /\ wle s (1 - w) /\ wle s (1 - u)
  end.
Lemma bw3_six s a b c q X Y Z : (q < 6)%nat -> bw3 s (nth q (six (a, b, c)) []) X Y Z <-> six_ineq s q (X - INR a) (Y - INR b) (Z - INR c).
Proof.
  intros Hq. destruct q as [|[|[|[|[|[|q]]]]]]; [..|lia]; cbn [nth six bw3 six_ineq]; cbv [cx cy cz fst snd]; rewrite ?S_INR; (split;
  [intros (u & v & w & y & H1 & H2 & H3 & H4 & H5 & -> & -> & ->); replace u with (1 - v - w - y) in * by lra; unfold wle in *; destruct s; repeat split; lra
  |intros (H1 & H2 & H3 & H4); eexists _, _, _, _; (split; [exact H1|]); (split; [exact H2|]); (split; [exact H3|]); (split; [exact H4|]); repeat split; lra]).
Qed.
Lemma six_strict q u v w : (q < 6)%nat -> six_ineq true q u v w -> 0 < u < 1 /\ 0 < v < 1 /\ 0 < w < 1.
Proof. intros Hq. destruct q as [|[|[|[|[|[|q]]]]]]; [..|lia]; cbn [six_ineq wle]; lra. Qed.
Lemma six_disjoint q q' u v w : (q < 6)%nat -> (q' < 6)%nat -> six_ineq true q u v w -> six_ineq true q' u v w -> q = q'.
Proof.
  intros Hq Hq'. destruct q as [|[|[|[|[|[|q]]]]]]; [..|lia]; (destruct q' as [|[|[|[|[|[|q']]]]]]; [..|lia]); try reflexivity; cbn [six_ineq wle]; intros; exfalso; lra.
Qed.
Lemma six_cover u v w : 0 <= u <= 1 -> 0 <= v <= 1 -> 0 <= w <= 1 -> exists q, (q < 6)%nat /\ six_ineq false q u v w /\ (u + v + w <= 2 -> (q < 5)%nat) /\ (u + v + w <= 1 -> (q < 1)%nat).
Proof.
  intros Hu Hv Hw. destruct (Rle_dec (u + v + w) 1) as [A|A]; [exists 0%nat; cbn [six_ineq wle]; repeat split; try lia; lra|].
  destruct (Rle_dec (u + v + w) 2) as [B|B]; [|exists 5%nat; cbn [six_ineq wle]; repeat split; try lia; lra].
  destruct (Rle_dec (u + v) 1) as [C|C], (Rle_dec (v + w) 1) as [D|D].
  - exists 1%nat; cbn [six_ineq wle]; repeat split; try lia; lra.
  - exists 2%nat; cbn [six_ineq wle]; repeat split; try lia; lra.
  - exists 3%nat; cbn [six_ineq wle]; repeat split; try lia; lra.
  - exists 4%nat; cbn [six_ineq wle]; repeat split; try lia; lra.
Qed.
Lemma ct3_disjoint L cnt t t' X Y Z : In t (ct3 L cnt) -> In t' (ct3 L cnt) -> bw3 true t X Y Z -> bw3 true t' X Y Z -> t = t'.
Proof.
  intros Ht Ht' B B'. apply in_ct3 in Ht as ([[a b] c] & q & _ & _ & Hq & ->). apply in_ct3 in Ht' as ([[a' b'] c'] & q' & _ & _ & Hq' & ->).
  apply bw3_six in B; [|exact Hq]. apply bw3_six in B'; [|exact Hq'].
  destruct (six_strict _ _ _ _ Hq B) as (A1 & A2 & A3). destruct (six_strict _ _ _ _ Hq' B') as (A1' & A2' & A3').
  assert (a' = a) by (apply (cell_unique a' a X); lra). assert (b' = b) by (apply (cell_unique b' b Y); lra). assert (c' = c) by (apply (cell_unique c' c Z); lra). subst a' b' c'.
  rewrite (six_disjoint _ _ _ _ _ Hq Hq' B B'). reflexivity.
Qed.
Lemma box_cover m n p X Y Z : (1 <= m)%nat -> (1 <= n)%nat -> (1 <= p)%nat -> 0 <= X <= INR m -> 0 <= Y <= INR n -> 0 <= Z <= INR p -> exists t, In t (box_ct m n p) /\ bw3 false t X Y Z.
Proof.
  intros Hm Hn Hp HX HY HZ. destruct (find_cell m X Hm HX) as (a & Ha & A). destruct (find_cell n Y Hn HY) as (b & Hb & B). destruct (find_cell p Z Hp HZ) as (c & Hc & C).
  destruct (six_cover (X - INR a) (Y - INR b) (Z - INR c)) as (q & Hq & I & _); [lra..|].
  exists (nth q (six (a, b, c)) []). split; [apply in_ct3; exists (a, b, c), q; rewrite in_gcells3; auto|apply bw3_six; assumption].
Qed.
Lemma tet_cover E X Y Z : (2 <= E)%nat -> 0 <= X -> 0 <= Y -> 0 <= Z -> X + Y + Z <= INR (E - 1) -> exists t, In t (tet_ct E) /\ bw3 false t X Y Z.
Proof.
  intros HE HX HY HZ HS. set (r := (E - 1)%nat) in *.
  destruct (find_cell r Z ltac:(lia) ltac:(lra)) as (c & Hc & C).
  destruct (find_cell (r - c) Y ltac:(lia)) as (b & Hb & B); [rewrite minus_INR by lia; lra|].
  destruct (find_cell (r - c - b) X ltac:(lia)) as (a & Ha & A); [rewrite !minus_INR by lia; lra|].
  destruct (six_cover (X - INR a) (Y - INR b) (Z - INR c)) as (q & Hq & I & H2 & H1); [lra..|].
  exists (nth q (six (a, b, c)) []). split; [|apply bw3_six; assumption]. apply in_ct3. exists (a, b, c), q. rewrite in_tcells3, tcnt_lt. fold r. split; [lia|]. split; [|auto].
  assert (D : (a + b + c + 3 <= r \/ a + b + c + 2 = r \/ a + b + c + 1 = r)%nat) by lia. destruct D as [D|[D|D]].
  - left. lia.
  - right. left. split; [|exact D]. apply H2. rewrite <- D in HS. rewrite !plus_INR in HS. cbn [INR] in HS. lra.
  - right. right. split; [|exact D]. apply H1. rewrite <- D in HS. rewrite !plus_INR in HS. cbn [INR] in HS. lra.
Qed.

(** ** Vertices in space *)
(** [x] is a combination of the points [vs] with positive weights of sum 1; for
    affinely independent [vs]: an interior point of the simplex. *)
Definition in_interior {Q : ofld} (k : nat) (vs : list (list Q)) (x : list Q) : Prop :=
  exists w : list Q, length w = length vs /\ (forall i, (i < length vs)%nat -> klt 0%K (nth i w 0%K)) /\
    ksum (seq 0 (length vs)) (fun i => nth i w 0%K) = 1%K /\
    forall j, (j < k)%nat -> nth j x 0%K = ksum (seq 0 (length vs)) (fun i => nth i w 0 * nth j (nth i vs []) 0)%K.
(** The corner points of a simplex of a mesh. *)
Definition corners {A} (vs : list (list A)) (t : list nat) : list (list A) := map (fun i => nth i vs []) t.
Definition in_conv (s : bool) (k : nat) (vs : list (list RO)) (x : list RO) : Prop := if s then in_interior k vs x else in_hull k vs x.

Lemma kle_R (a b : RO) : kle a b <-> (a <= b). Proof. unfold kle. cbn. split; [apply Rnot_lt_le|apply Rle_not_lt]. Qed.
Ltac ringR := match goal with |- @eq _ ?a ?b => change (@eq R a b) end; ring.
Ltac cbnR := cbn [length seq nth ksum fold_right kadd kmul k0 k1 RO RF OF kofnat] in *.
Lemma conv3 s k (p q r x : list RO) : in_conv s k [p; q; r] x <->
  exists u v w : R, wle s u /\ wle s v /\ wle s w /\ u + v + w = 1 /\ forall j, (j < k)%nat -> nth j x 0 = u * nth j p 0 + v * nth j q 0 + w * nth j r 0 :> R.
Proof.
  split.
  - intros H. assert (H' : exists w : list RO, length w = 3%nat /\ (forall i, (i < 3)%nat -> wle s (nth i w 0)) /\ ksum (seq 0 3) (fun i => nth i w 0%K) = 1%K /\
      forall j, (j < k)%nat -> nth j x 0%K = ksum (seq 0 3) (fun i => nth i w 0 * nth j (nth i [p; q; r] []) 0)%K).
    { destruct s; destruct H as (w & H1 & H2 & H3 & H4); exists w; (split; [exact H1|]); (split; [|split; [exact H3|exact H4]]); intros i Hi; specialize (H2 i Hi); [exact H2|apply kle_R in H2; exact H2]. }
    clear H. destruct H' as (w & H1 & H2 & H3 & H4). destruct w as [|u [|v [|z [|y w]]]]; try discriminate. exists u, v, z.
    split; [apply (H2 0%nat); lia|]. split; [apply (H2 1%nat); lia|]. split; [apply (H2 2%nat); lia|]. cbnR. split; [lra|]. intros j Hj. rewrite (H4 j Hj). ringR.
  - intros (u & v & w & H1 & H2 & H3 & H4 & H5).
    assert (H' : exists w : list RO, length w = 3%nat /\ (forall i, (i < 3)%nat -> wle s (nth i w 0)) /\ ksum (seq 0 3) (fun i => nth i w 0%K) = 1%K /\
      forall j, (j < k)%nat -> nth j x 0%K = ksum (seq 0 3) (fun i => nth i w 0 * nth j (nth i [p; q; r] []) 0)%K).
    { exists [u; v; w]. split; [reflexivity|]. split; [intros [|[|[|i]]] Hi; [exact H1|exact H2|exact H3|lia]|]. cbnR. split; [lra|]. intros j Hj. rewrite (H5 j Hj). ringR. }
    clear - H'. destruct H' as (w & H1 & H2 & H3 & H4). destruct s; exists w; (split; [exact H1|]); (split; [|split; [exact H3|exact H4]]); intros i Hi; specialize (H2 i Hi); [exact H2|apply kle_R; exact H2].
Qed.
Lemma conv4 s k (p q r z x : list RO) : in_conv s k [p; q; r; z] x <->
  exists u v w y : R, wle s u /\ wle s v /\ wle s w /\ wle s y /\ u + v + w + y = 1 /\ forall j, (j < k)%nat -> nth j x 0 = u * nth j p 0 + v * nth j q 0 + w * nth j r 0 + y * nth j z 0 :> R.
Proof.
  split.
  - intros H. assert (H' : exists w : list RO, length w = 4%nat /\ (forall i, (i < 4)%nat -> wle s (nth i w 0)) /\ ksum (seq 0 4) (fun i => nth i w 0%K) = 1%K /\
      forall j, (j < k)%nat -> nth j x 0%K = ksum (seq 0 4) (fun i => nth i w 0 * nth j (nth i [p; q; r; z] []) 0)%K).
    { destruct s; destruct H as (w & H1 & H2 & H3 & H4); exists w; (split; [exact H1|]); (split; [|split; [exact H3|exact H4]]); intros i Hi; specialize (H2 i Hi); [exact H2|apply kle_R in H2; exact H2]. }
    clear H. destruct H' as (w & H1 & H2 & H3 & H4). destruct w as [|u [|v [|z' [|y [|? w]]]]]; try discriminate. exists u, v, z', y.
    split; [apply (H2 0%nat); lia|]. split; [apply (H2 1%nat); lia|]. split; [apply (H2 2%nat); lia|]. split; [apply (H2 3%nat); lia|]. cbnR. split; [lra|]. intros j Hj. rewrite (H4 j Hj). ringR.
  - intros (u & v & w & y & H1 & H2 & H3 & H3' & H4 & H5).
    assert (H' : exists w : list RO, length w = 4%nat /\ (forall i, (i < 4)%nat -> wle s (nth i w 0)) /\ ksum (seq 0 4) (fun i => nth i w 0%K) = 1%K /\
      forall j, (j < k)%nat -> nth j x 0%K = ksum (seq 0 4) (fun i => nth i w 0 * nth j (nth i [p; q; r; z] []) 0)%K).
    { exists [u; v; w; y]. split; [reflexivity|]. split; [intros [|[|[|[|i]]]] Hi; [exact H1|exact H2|exact H3|exact H3'|lia]|]. cbnR. split; [lra|]. intros j Hj. rewrite (H5 j Hj). ringR. }
    clear - H'. destruct H' as (w & H1 & H2 & H3 & H4). destruct s; exists w; (split; [exact H1|]); (split; [|split; [exact H3|exact H4]]); intros i Hi; specialize (H2 i Hi); [exact H2|apply kle_R; exact H2].
Qed.

Section Affine2.
  Variables (k : nat) (o e1 e2 : nat -> R) (ct : list (list pt2)) (num : pt2 -> nat) (vs : list (list RO)).
  Hypothesis HV : forall t c j, In t ct -> In c t -> (j < k)%nat -> nth j (nth (num c) vs []) 0 = o j + INR (fst c) * e1 j + INR (snd c) * e2 j.
  Hypothesis H3 : forall t, In t ct -> length t = 3%nat.
  Lemma conv_bw2 s t x : In t ct -> in_conv s k (corners vs (map num t)) x <-> exists X Y, bw2 s t X Y /\ forall j, (j < k)%nat -> nth j x 0 = o j + X * e1 j + Y * e2 j.
  Proof.
    intros Ht. pose proof (H3 t Ht) as L. pose proof (HV t) as V. destruct t as [|p [|q [|r [|z t]]]]; try discriminate. clear L. unfold corners. cbn [map]. rewrite conv3. cbn [bw2]. split.
    - intros (u & v & w & U1 & U2 & U3 & U4 & U5). eexists _, _. split; [exists u, v, w; repeat split; eassumption|]. intros j Hj. rewrite (U5 j Hj). rewrite !V by (try assumption; cbn; auto). replace u with (1 - v - w) by lra. ringR.
    - intros (X & Y & (u & v & w & U1 & U2 & U3 & U4 & -> & ->) & U5). exists u, v, w. repeat (split; [assumption|]). intros j Hj. rewrite (U5 j Hj). rewrite !V by (try assumption; cbn; auto). replace u with (1 - v - w) by lra. ringR.
  Qed.
  Lemma cover2 x X Y : (forall j, (j < k)%nat -> nth j x 0 = o j + X * e1 j + Y * e2 j) -> (exists t, In t ct /\ bw2 false t X Y) ->
    exists t, In t (map (map num) ct) /\ in_hull (Q := RO) k (corners vs t) x.
  Proof. intros Hx (t & Ht & B). exists (map num t). split; [apply in_map, Ht|]. apply (conv_bw2 false t x Ht). exists X, Y. auto. Qed.
  Lemma within2 t x : In t (map (map num) ct) -> in_hull (Q := RO) k (corners vs t) x -> exists t' X Y, In t' ct /\ bw2 false t' X Y /\ forall j, (j < k)%nat -> nth j x 0 = o j + X * e1 j + Y * e2 j.
  Proof. intros Ht H. apply in_map_iff in Ht as (t' & <- & Ht). apply (conv_bw2 false t' x Ht) in H as (X & Y & B & E). exists t', X, Y. auto. Qed.
  Hypothesis HI : forall al be, (forall j, (j < k)%nat -> al * e1 j + be * e2 j = 0) -> al = 0 /\ be = 0.
  Lemma disjoint2 t t' x : (forall t t' X Y, In t ct -> In t' ct -> bw2 true t X Y -> bw2 true t' X Y -> t = t') ->
    In t (map (map num) ct) -> In t' (map (map num) ct) -> in_interior (Q := RO) k (corners vs t) x -> in_interior (Q := RO) k (corners vs t') x -> t = t'.
  Proof.
    intros HD Ht Ht' H H'. apply in_map_iff in Ht as (c & <- & Hc). apply in_map_iff in Ht' as (c' & <- & Hc').
    apply (conv_bw2 true c x Hc) in H as (X & Y & B & E). apply (conv_bw2 true c' x Hc') in H' as (X' & Y' & B' & E').
    destruct (HI (X - X') (Y - Y')) as [Z1 Z2]. { intros j Hj. pose proof (E j Hj). pose proof (E' j Hj). lra. }
    f_equal. apply (HD c c' X Y); try assumption. replace X with X' by lra. replace Y with Y' by lra. exact B'.
  Qed.
End Affine2.

Section Affine3.
  Variables (k : nat) (o e1 e2 e3 : nat -> R) (ct : list (list pt3)) (num : pt3 -> nat) (vs : list (list RO)).
  Hypothesis HV : forall t c j, In t ct -> In c t -> (j < k)%nat -> nth j (nth (num c) vs []) 0 = o j + INR (cx c) * e1 j + INR (cy c) * e2 j + INR (cz c) * e3 j.
  Hypothesis H4 : forall t, In t ct -> length t = 4%nat.
  Lemma conv_bw3 s t x : In t ct -> in_conv s k (corners vs (map num t)) x <-> exists X Y Z, bw3 s t X Y Z /\ forall j, (j < k)%nat -> nth j x 0 = o j + X * e1 j + Y * e2 j + Z * e3 j.
  Proof.
    intros Ht. pose proof (H4 t Ht) as L. pose proof (HV t) as V. destruct t as [|p [|q [|r [|z [|? t]]]]]; try discriminate. clear L. unfold corners. cbn [map]. rewrite conv4. cbn [bw3]. split.
    - intros (u & v & w & y & U1 & U2 & U3 & U3' & U4 & U5). eexists _, _, _. split; [exists u, v, w, y; repeat split; eassumption|]. intros j Hj. rewrite (U5 j Hj). rewrite !V by (try assumption; cbn; auto). replace u with (1 - v - w - y) by lra. ringR.
    - intros (X & Y & Z & (u & v & w & y & U1 & U2 & U3 & U3' & U4 & -> & -> & ->) & U5). exists u, v, w, y. repeat (split; [assumption|]). intros j Hj. rewrite (U5 j Hj). rewrite !V by (try assumption; cbn; auto). replace u with (1 - v - w - y) by lra. ringR.
  Qed.
  Lemma cover3 x X Y Z : (forall j, (j < k)%nat -> nth j x 0 = o j + X * e1 j + Y * e2 j + Z * e3 j) -> (exists t, In t ct /\ bw3 false t X Y Z) ->
    exists t, In t (map (map num) ct) /\ in_hull (Q := RO) k (corners vs t) x.
  Proof. intros Hx (t & Ht & B). exists (map num t). split; [apply in_map, Ht|]. apply (conv_bw3 false t x Ht). exists X, Y, Z. auto. Qed.
  Lemma within3 t x : In t (map (map num) ct) -> in_hull (Q := RO) k (corners vs t) x -> exists t' X Y Z, In t' ct /\ bw3 false t' X Y Z /\ forall j, (j < k)%nat -> nth j x 0 = o j + X * e1 j + Y * e2 j + Z * e3 j.
  Proof. intros Ht H. apply in_map_iff in Ht as (t' & <- & Ht). apply (conv_bw3 false t' x Ht) in H as (X & Y & Z & B & E). exists t', X, Y, Z. auto. Qed.
  Hypothesis HI : forall al be ga, (forall j, (j < k)%nat -> al * e1 j + be * e2 j + ga * e3 j = 0) -> al = 0 /\ be = 0 /\ ga = 0.
  Lemma disjoint3 t t' x : (forall t t' X Y Z, In t ct -> In t' ct -> bw3 true t X Y Z -> bw3 true t' X Y Z -> t = t') ->
    In t (map (map num) ct) -> In t' (map (map num) ct) -> in_interior (Q := RO) k (corners vs t) x -> in_interior (Q := RO) k (corners vs t') x -> t = t'.
  Proof.
    intros HD Ht Ht' H H'. apply in_map_iff in Ht as (c & <- & Hc). apply in_map_iff in Ht' as (c' & <- & Hc').
    apply (conv_bw3 true c x Hc) in H as (X & Y & Z & B & E). apply (conv_bw3 true c' x Hc') in H' as (X' & Y' & Z' & B' & E').
    destruct (HI (X - X') (Y - Y') (Z - Z')) as (Z1 & Z2 & Z3). { intros j Hj. pose proof (E j Hj). pose proof (E' j Hj). lra. }
    f_equal. apply (HD c c' X Y Z); try assumption. replace X with X' by lra. replace Y with Y' by lra. replace Z with Z' by lra. exact B'.
  Qed.
End Affine3.
Lemma bw3_bounds s t X Y Z (lo hi al be ga : R) : bw3 s t X Y Z -> (forall c, In c t -> lo <= al * INR (cx c) + be * INR (cy c) + ga * INR (cz c) <= hi) -> lo <= al * X + be * Y + ga * Z <= hi.
Proof.
  destruct t as [|p [|q [|r [|z [|? t]]]]]; cbn [bw3]; try contradiction. intros (u & v & w & y & H1 & H2 & H3 & H3' & H4 & -> & -> & ->) H.
  assert (0 <= u /\ 0 <= v /\ 0 <= w /\ 0 <= y) as (P1 & P2 & P3 & P4) by (unfold wle in *; destruct s; lra).
  pose proof (H p ltac:(cbn; auto)). pose proof (H q ltac:(cbn; auto)). pose proof (H r ltac:(cbn; auto)). pose proof (H z ltac:(cbn; auto)).
  set (fp := al * INR (cx p) + be * INR (cy p) + ga * INR (cz p)) in *. set (fq := al * INR (cx q) + be * INR (cy q) + ga * INR (cz q)) in *. set (fr := al * INR (cx r) + be * INR (cy r) + ga * INR (cz r)) in *. set (fz := al * INR (cx z) + be * INR (cy z) + ga * INR (cz z)) in *.
  replace (al * (u * INR (cx p) + v * INR (cx q) + w * INR (cx r) + y * INR (cx z)) + be * (u * INR (cy p) + v * INR (cy q) + w * INR (cy r) + y * INR (cy z)) + ga * (u * INR (cz p) + v * INR (cz q) + w * INR (cz r) + y * INR (cz z))) with (u * fp + v * fq + w * fr + y * fz) by (unfold fp, fq, fr, fz; ring).
  replace u with (1 - v - w - y) in * by lra. split; nra.
Qed.
