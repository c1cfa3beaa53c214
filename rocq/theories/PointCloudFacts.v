(** Sums, orthonormal matrices and sorting for the properties of PointCloud.v. *)
From Coq Require Import Reals Lra Psatz Lia Permutation Sorted.
From Coquelicot Require Import Coquelicot.
From Verif Require Import Base RVec Angle AngleFacts RotFacts TriFacts MeshNormalsFacts PointCloud.
From Verif Require Permutations PermFacts Fld FldInst LinSolve.
Local Open Scope R_scope.

Lemma rsum_cons a l : rsum (a :: l) = a + rsum l. Proof. reflexivity. Qed.
Lemma rsum_nil : rsum [] = 0. Proof. reflexivity. Qed.
Lemma rsum_perm l l' : Permutation l l' -> rsum l = rsum l'.
Proof. induction 1; rewrite ?rsum_cons in *; lra. Qed.
Lemma rsum_const {A} c (l : list A) : rsum (map (fun _ => c) l) = INR (length l) * c.
Proof. induction l as [|a l IH]; [cbn [map length INR]; rewrite rsum_nil; ring|]. cbn [map]. rewrite rsum_cons, IH. cbn [length]. rewrite S_INR. ring. Qed.
Lemma rsum_swap {A B} (f : A -> B -> R) (l : list A) (m : list B) : rsum (map (fun a => rsum (map (f a) m)) l) = rsum (map (fun b => rsum (map (fun a => f a b) l)) m).
Proof.
  induction l as [|a l IH]; cbn [map].
  - rewrite rsum_nil. rewrite rsum_const. ring.
  - rewrite rsum_cons, IH, <- rsum_map_add. apply rsum_ext. intros b _. reflexivity.
Qed.
Lemma rsum_le {A} (f g : A -> R) l : (forall x, In x l -> f x <= g x) -> rsum (map f l) <= rsum (map g l).
Proof. induction l as [|x l IH]; intros H; cbn [map]; [lra|]. rewrite !rsum_cons. pose proof (H x ltac:(now left)). assert (rsum (map f l) <= rsum (map g l)) by (apply IH; intros; apply H; now right). lra. Qed.
Lemma vdot_seq n : forall (u v : vec), length u = n -> length v = n -> vdot u v = rsum (map (fun k => nth k u 0 * nth k v 0) (seq 0 n)).
Proof.
  induction n as [|n IH]; intros [|a u] [|b v] Hu Hv; try discriminate; [reflexivity|]. injection Hu as Hu. injection Hv as Hv. rewrite vdot_cons, (IH u v Hu Hv). cbn [seq map]. rewrite rsum_cons, <- seq_shift, map_map. reflexivity.
Qed.
(** products with a matrix and its transpose *)
Definition mv (V : list vec) (c : vec) : vec := map (fun r => vdot r c) V.
Definition mtv (m : nat) (V : list vec) (u : vec) : vec := map (fun i => vdot (column V i) u) (seq 0 m).
Lemma nth_map_seq {A} (f : nat -> A) n d i : (i < n)%nat -> nth i (map f (seq 0 n)) d = f i.
Proof. intros H. rewrite (nth_indep _ d (f 0%nat)) by (rewrite map_length, seq_length; exact H). rewrite map_nth, seq_nth by exact H. reflexivity. Qed.
Lemma adj m (V : list vec) (c : vec) : length c = m -> forall u : vec, (forall r, In r V -> length r = m) -> length u = length V -> vdot (mv V c) u = vdot c (mtv m V u).
Proof.
  intros Hc. induction V as [|r V IH]; intros [|a u] Hr Hu; try discriminate.
  - cbn [mv map]. rewrite vdot_nil_l. symmetry. rewrite vdot_sym. replace (mtv m [] []) with (vzero m); [apply vdot_zero_l|]. unfold mtv, vzero. cbn [column map]. apply vec_ext; [rewrite repeat_length, map_length, seq_length; reflexivity|]. rewrite repeat_length. intros i Hi. rewrite nth_map_seq by exact Hi. rewrite nth_repeat. reflexivity.
  - injection Hu as Hu. cbn [mv map]. rewrite vdot_cons. fold (mv V c). rewrite IH by (try assumption; intros; apply Hr; now right). pose proof (Hr r ltac:(now left)) as Lr.
    assert (Lm : forall V u, length (mtv m V u) = m) by (intros; unfold mtv; rewrite map_length, seq_length; reflexivity).
    transitivity (vdot c (vadd (vscale a r) (mtv m V u))).
    + rewrite vdot_add_r by (rewrite vscale_len, Lm; exact Lr). rewrite vdot_scale_r, (vdot_sym c r). ring.
    + f_equal. apply vec_ext; [rewrite vadd_len, vscale_len, Lm; [exact Lr|rewrite vscale_len, Lm; exact Lr]|]. rewrite vadd_len, vscale_len by (rewrite vscale_len, Lm; exact Lr). intros i Hi. rewrite nth_vadd, nth_vscale by (rewrite vscale_len, Lm; exact Lr). unfold mtv. rewrite !nth_map_seq by lia. cbn [column map]. rewrite vdot_cons. fold (column V i). ring.
Qed.
Definition orthonormal_columns (m : nat) (V : list vec) : Prop := length V = m /\ (forall r, In r V -> length r = m) /\
  forall i j, (i < m)%nat -> (j < m)%nat -> vdot (column V i) (column V j) = if (i =? j)%nat then 1 else 0.
Lemma column_len V i : length (column V i) = length V. Proof. apply map_length. Qed.
Lemma mv_len V c : length (mv V c) = length V. Proof. apply map_length. Qed.
Lemma mtv_len m V c : length (mtv m V c) = m. Proof. unfold mtv. rewrite map_length, seq_length. reflexivity. Qed.
Lemma coordinate m V c k : orthonormal_columns m V -> length c = m -> (k < m)%nat -> vdot (column V k) (mv V c) = nth k c 0.
Proof.
  intros (LV & HR & HO) Hc Hk. rewrite vdot_sym, (adj m) by (try assumption; apply column_len). rewrite (vdot_seq m) by (try assumption; apply mtv_len).
  rewrite (rsum_ext _ (fun i => if (i =? k)%nat then nth k c 0 else 0)).
  2:{ intros i Hi. apply in_seq in Hi. unfold mtv. rewrite nth_map_seq by lia. rewrite HO by lia. destruct (Nat.eqb_spec i k) as [ -> |]; ring. }
  assert (G : forall s, (s <= k < s + m)%nat -> rsum (map (fun i => if (i =? k)%nat then nth k c 0 else 0) (seq s m)) = nth k c 0).
  { assert (Z : forall n s, (k < s \/ s + n <= k)%nat -> rsum (map (fun i => if (i =? k)%nat then nth k c 0 else 0) (seq s n)) = 0).
    { induction n as [|n IH]; intros s Hs; cbn [seq map]; [reflexivity|]. rewrite rsum_cons, IH by lia. destruct (Nat.eqb_spec s k); [lia|ring]. }
    clear Hk Hc LV HR HO. induction m as [|n IH]; intros s Hs; [lia|]. cbn [seq map]. rewrite rsum_cons. destruct (Nat.eqb_spec s k) as [ -> |D]; [rewrite Z by lia; ring|rewrite IH by lia; ring]. }
  apply G. lia.
Qed.
Lemma dot_vdot : forall u v : list R, LinSolve.dot (F := FldInst.RF) u v = vdot u v.
Proof. induction u as [|a u IH]; intros [|b v]; try reflexivity. rewrite vdot_cons, <- IH. exact (LinSolve.dot_cons (F := FldInst.RF) a u b v). Qed.
Lemma spans m V w : m <> 0%nat -> orthonormal_columns m V -> length w = m -> exists c, length c = m /\ mv V c = w.
Proof.
  intros Hm HV Hw. pose proof HV as (LV & HR & HO).
  destruct (LinSolve.solve_ok (F := FldInst.RF) m 1 V (map (fun x => [x]) w)) as (x & _ & Lx & Rx & S); try assumption.
  - rewrite map_length. exact Hw.
  - intros row Hr. apply in_map_iff in Hr as (y & <- & _). reflexivity.
  - intros v Lv Hz. change (Fld.K FldInst.RF) with R in *. assert (E : mv V v = vzero m).
    { apply vec_ext; [rewrite mv_len, vzero_len; exact LV|]. rewrite mv_len. intros i Hi. rewrite nth_vzero. unfold mv. rewrite (nth_indep _ 0 (vdot [] v)) by (rewrite map_length; exact Hi). rewrite (map_nth (fun r => vdot r v)). rewrite <- dot_vdot. apply Hz, nth_In, Hi. }
    apply (vec_ext v (repeat 0 m)); [rewrite repeat_length; exact Lv|]. rewrite Lv. intros i Hi. rewrite nth_repeat. rewrite <- (coordinate m V v i HV Lv Hi), E, vdot_sym. apply vdot_zero_l.
  - change (Fld.K FldInst.RF) with R in *. exists (LinSolve.mat_col (F := FldInst.RF) x 0). split; [unfold LinSolve.mat_col; rewrite map_length; exact Lx|].
    apply vec_ext; [rewrite mv_len; congruence|]. rewrite mv_len, LV. intros i Hi. specialize (S i 0%nat Hi). rewrite dot_vdot in S. unfold mv. rewrite (nth_indep _ 0 (vdot [] (LinSolve.mat_col (F := FldInst.RF) x 0))) by (rewrite map_length, LV; exact Hi).
    rewrite (map_nth (fun r => vdot r (LinSolve.mat_col (F := FldInst.RF) x 0))). refine (eq_trans S _). change (nth 0 (nth i (map (fun x => [x]) w) []) 0 = nth i w 0). rewrite (nth_indep _ [] [0]) by (rewrite map_length, Hw; exact Hi). rewrite (map_nth (fun x => [x])). reflexivity.
Qed.
