(** Iterated integrals of uniformly continuous functions over the standard
    simplex: they exist, and they do not depend on the order of the variables. *)
From Coq Require Import Reals Lra Permutation Factorial.
From Coquelicot Require Import Coquelicot.
From Verif Require Import Base MultiIndex MultiIndexFacts Fld SimplexInt SimplexPos MidpointInt.
Local Open Scope R_scope.

Definition on_simplex (n : nat) (s : R) (x : list R) : Prop := length x = n /\ (forall u, In u x -> 0 <= u) /\ fold_right Rplus 0 x <= s.
Definition close (d : R) (x y : list R) : Prop := Forall2 (fun a b => Rabs (a - b) < d) x y.
Definition ucont (n : nat) (f : list R -> R) : Prop :=
  forall eps, 0 < eps -> exists d, 0 < d /\ forall x y, on_simplex n 1 x -> on_simplex n 1 y -> close d x y -> Rabs (f x - f y) <= eps.

(** the iterated integral as a function *)
Fixpoint sint (n : nat) (s : R) (f : list R -> R) : R :=
  match n with O => f [] | S n' => RInt (fun t => sint n' (s - t) (fun y => f (t :: y))) 0 s end.
Lemma sint_ok n : forall s f v, 0 <= s -> simplex_int n s f v -> sint n s f = v.
Proof.
  induction n as [|n IH]; intros s f v Hs H; cbn [simplex_int sint] in *; [symmetry; exact H|].
  destruct H as (g & H1 & H2). apply is_RInt_unique. apply (is_RInt_ext g); [|exact H2]. intros t Ht. rewrite Rmin_left, Rmax_right in Ht by lra. symmetry. apply IH; [lra|]. apply H1. lra.
Qed.
Lemma simplex_int_const n : exists C, 0 <= C /\ simplex_int n 1 (fun _ => 1) C.
Proof.
  assert (H : simplex_int n 1 (fun _ => 1) (pl_int n 1 [(1, repeat 0%nat n)])).
  { apply (simplex_int_ext n 1 (pl [(1, repeat 0%nat n)])); [lra| |apply pl_integral; [lra|intros e [<-|[]]; apply repeat_length]].
    intros x Lx _ _. unfold pl. cbn [fold_right fst snd]. replace (rmpow x (repeat 0%nat n)) with 1; [ring|]. clear. revert x. induction n as [|n IH]; intros [|u x]; cbn; try reflexivity. rewrite <- IH. ring. }
  eexists. split; [|exact H]. apply (simplex_int_nonneg n 1 (fun _ => 1)); [lra|intros; lra|exact H].
Qed.
Lemma simplex_int_near n e f g v w C : 0 <= e -> simplex_int n 1 f v -> simplex_int n 1 g w -> simplex_int n 1 (fun _ => 1) C -> (forall x, on_simplex n 1 x -> Rabs (f x - g x) <= e) -> Rabs (v - w) <= e * C.
Proof.
  intros He Hf Hg HC B.
  assert (P : forall f g v w, simplex_int n 1 f v -> simplex_int n 1 g w -> (forall x, on_simplex n 1 x -> Rabs (f x - g x) <= e) -> v - w <= e * C).
  { clear - He HC. intros f g v w Hf Hg B.
    assert (D : simplex_int n 1 (fun x => e * 1 + (g x + -1 * f x)) (e * C + (w + -1 * v))) by (apply simplex_int_plus; [lra|apply simplex_int_scal; [lra|exact HC]|]; apply simplex_int_plus; [lra|exact Hg|]; apply simplex_int_scal; [lra|exact Hf]).
    apply simplex_int_nonneg in D; [lra|lra|]. intros x Lx Px Sx. assert (Q := B x (conj Lx (conj Px Sx))). apply Rabs_le_between in Q. lra. }
  apply Rabs_le_between. split.
  - assert (Q := P g f w v Hg Hf). enough (w - v <= e * C) by lra. apply Q. intros x Hx. rewrite Rabs_minus_sym. apply B, Hx.
  - apply (P f g v w Hf Hg B).
Qed.
Lemma simplex_int_zero n : forall f, simplex_int n 0 f (0 ^ n * f []).
Proof.
  induction n as [|n IH]; intros f; cbn [simplex_int]; [cbn; ring|]. exists (fun t => 0 ^ n * f (t :: [])). split.
  - intros t Ht. assert (t = 0) by lra. subst t. rewrite Rminus_0_r. apply (IH (fun y => f (0 :: y))).
  - replace (0 ^ S n * f []) with 0 by (cbn; ring). apply (is_RInt_point (V := R_NormedModule)).
Qed.

(** ** Continuity *)
Definition clamp (t : R) : R := Rmax 0 (Rmin 1 t).
Lemma clamp_range t : 0 <= clamp t <= 1. Proof. unfold clamp, Rmax, Rmin. destruct (Rle_dec 1 t); destruct (Rle_dec 0 _); lra. Qed.
Lemma clamp_id t : 0 <= t <= 1 -> clamp t = t. Proof. intros H. unfold clamp, Rmax, Rmin. destruct (Rle_dec 1 t); destruct (Rle_dec 0 _); lra. Qed.
Lemma clamp_lip s t : Rabs (clamp s - clamp t) <= Rabs (s - t).
Proof. unfold clamp, Rmax, Rmin, Rabs. destruct (Rle_dec 1 t); destruct (Rle_dec 1 s); repeat destruct (Rle_dec 0 _); repeat destruct (Rcase_abs _); lra. Qed.
Lemma clamp_cont (k : R -> R) : (forall eps, 0 < eps -> exists d, 0 < d /\ forall t t', 0 <= t <= 1 -> 0 <= t' <= 1 -> Rabs (t - t') < d -> Rabs (k t - k t') <= eps) -> forall z, continuous (fun t => k (clamp t)) z.
Proof.
  intros U z. apply continuity_pt_filterlim. intros eps He. destruct (U (eps / 2) ltac:(lra)) as (d & Hd & H). exists d. split; [exact Hd|]. intros x [_ Hx]. cbn in *. unfold R_dist in *.
  eapply Rle_lt_trans; [apply H; try apply clamp_range|lra]. eapply Rle_lt_trans; [apply clamp_lip|exact Hx].
Qed.

Definition slice_at (f : list R -> R) (t : R) (u : list R) : R := f (t :: map (fun a => (1 - t) * a) u).
Lemma sum_map_scal c l : fold_right Rplus 0 (map (fun a => c * a) l) = c * fold_right Rplus 0 l.
Proof. induction l as [|a l IH]; cbn; [ring|]. rewrite IH. ring. Qed.
Lemma slice_on n t u : 0 <= t <= 1 -> on_simplex n 1 u -> on_simplex (S n) 1 (t :: map (fun a => (1 - t) * a) u).
Proof.
  intros Ht (L & P & S). split; [cbn; rewrite map_length; congruence|]. split.
  - intros v [<-|Hv]; [lra|]. apply in_map_iff in Hv as (a & <- & Ha). apply Rmult_le_pos; [lra|apply P, Ha].
  - cbn [fold_right]. rewrite sum_map_scal. assert ((1 - t) * fold_right Rplus 0 u <= (1 - t) * 1) by (apply Rmult_le_compat_l; lra). lra.
Qed.
Lemma on_simplex_le n x u : on_simplex n 1 x -> In u x -> 0 <= u <= 1.
Proof.
  intros (_ & P & S) H. split; [apply P, H|]. apply (Rle_trans _ (fold_right Rplus 0 x)); [|exact S]. clear S. induction x as [|v x IH]; [destruct H|]. cbn [fold_right].
  assert (Q : 0 <= fold_right Rplus 0 x) by (assert (PP := fun w Hw => P w (or_intror Hw)); clear - PP; induction x as [|w x IH]; cbn; [lra|]; pose proof (PP w (or_introl eq_refl)); pose proof (IH (fun a Ha => PP a (or_intror Ha))); lra).
  destruct H as [->|H]; [lra|]. pose proof (IH (fun w Hw => P w (or_intror Hw)) H). pose proof (P v (or_introl eq_refl)). lra.
Qed.
Lemma slice_ucont n f t : 0 <= t <= 1 -> ucont (S n) f -> ucont n (slice_at f t).
Proof.
  intros Ht U eps He. destruct (U eps He) as (d & Hd & H). exists d. split; [exact Hd|]. intros x y Hx Hy C. apply H; try (apply slice_on; assumption).
  constructor; [rewrite Rminus_eq_0, Rabs_R0; exact Hd|]. clear - C Ht. induction C as [|a b x y H C IH]; cbn [map]; constructor; [|exact IH].
  rewrite <- Rmult_minus_distr_l, Rabs_mult, (Rabs_right (1 - t)) by lra. pose proof (Rabs_pos (a - b)). nra.
Qed.
Lemma slice_near n f eps : ucont (S n) f -> 0 < eps -> exists d, 0 < d /\ forall t t' u, 0 <= t <= 1 -> 0 <= t' <= 1 -> on_simplex n 1 u -> Rabs (t - t') < d -> Rabs (slice_at f t u - slice_at f t' u) <= eps.
Proof.
  intros U He. destruct (U eps He) as (d & Hd & H). exists d. split; [exact Hd|]. intros t t' u Ht Ht' Hu D. apply H; try (apply slice_on; assumption).
  constructor; [exact D|]. assert (B := fun v Hv => on_simplex_le n u v Hu Hv). clear - B D. induction u as [|a u IH]; cbn [map]; constructor; [|apply IH; intros v Hv; apply B; right; exact Hv].
  replace ((1 - t) * a - (1 - t') * a) with (- ((t - t') * a)) by ring. rewrite Rabs_Ropp, Rabs_mult. pose proof (B a (or_introl eq_refl)). rewrite (Rabs_right a) by lra. pose proof (Rabs_pos (t - t')). nra.
Qed.

Theorem ucont_int n : forall f, ucont n f -> exists v, simplex_int n 1 f v.
Proof.
  induction n as [|n IH]; intros f U; [exists (f []); reflexivity|].
  set (k := fun t => sint n 1 (slice_at f t)). assert (K : forall t, 0 <= t <= 1 -> simplex_int n 1 (slice_at f t) (k t)).
  { intros t Ht. destruct (IH _ (slice_ucont n f t Ht U)) as (v & Hv). unfold k. rewrite (sint_ok n 1 _ v ltac:(lra) Hv). exact Hv. }
  clearbody k. destruct (simplex_int_const n) as (C & C0 & HC).
  assert (KC : forall z, continuous (fun t => k (clamp t)) z).
  { apply clamp_cont. intros eps He. destruct (slice_near n f (eps / (C + 1)) U) as (d & Hd & H); [apply Rdiv_lt_0_compat; lra|]. exists d. split; [exact Hd|]. intros t t' Ht Ht' D.
    apply (Rle_trans _ (eps / (C + 1) * C)).
    - apply (simplex_int_near n _ _ _ _ _ C) with (2 := K t Ht) (3 := K t' Ht'); [apply Rlt_le, Rdiv_lt_0_compat; lra|exact HC|]. intros x Hx. apply H; assumption.
    - apply (Rmult_le_reg_r (C + 1)); [lra|]. replace (eps / (C + 1) * C * (C + 1)) with (eps * C) by (field; lra). nra. }
  assert (IC : ex_RInt (fun t => (1 - clamp t) ^ n * k (clamp t)) 0 1).
  { apply (ex_RInt_continuous (V := R_CompleteNormedModule)). intros z _. apply (continuous_mult (K := R_AbsRing) (fun t => (1 - clamp t) ^ n)); [|apply KC].
    apply (continuous_comp clamp (fun s => (1 - s) ^ n)).
    - apply (clamp_cont (fun t => t)). intros eps He. exists eps. split; [exact He|]. intros t t' _ _ D. apply Rlt_le, D.
    - apply (ex_derive_continuous (V := R_NormedModule)). auto_derive. exact I. }
  destruct IC as (v & Hv). exists v. cbn [simplex_int]. exists (fun t => (1 - t) ^ n * k t). split.
  - intros t Ht. destruct (Req_dec t 1) as [->|N1].
    + replace (1 - 1) with 0 by ring. assert (Z := simplex_int_zero n (fun y => f (1 :: y))). replace (0 ^ n * k 1) with (0 ^ n * f [1]); [exact Z|]. destruct n as [|n']; [|cbn; ring]. f_equal. symmetry. exact (K 1 ltac:(lra)).
    + assert (Q := simplex_int_scale n 1 (1 - t) _ _ ltac:(lra) ltac:(lra) (K t Ht)). rewrite Rmult_1_r in Q. refine (simplex_int_ext _ _ _ _ _ _ _ Q); [lra|]. intros x _ _ _. unfold slice_at. f_equal. f_equal. rewrite map_map. rewrite <- map_id. apply map_ext. intros a. field. lra.
  - apply (is_RInt_ext (fun t => (1 - clamp t) ^ n * k (clamp t))); [|exact Hv]. intros t Ht. rewrite Rmin_left, Rmax_right in Ht by lra. rewrite clamp_id by lra. reflexivity.
Qed.

(** ** The order of the variables *)
Lemma cells_rev k N : Permutation (map (@rev nat) (cells k N)) (cells k N).
Proof.
  apply NoDup_Permutation.
  - apply FinFun.Injective_map_NoDup; [|apply cells_nodup]. intros a b E. rewrite <- (rev_involutive a), E. apply rev_involutive.
  - apply cells_nodup.
  - intros c. rewrite in_map_iff. split.
    + intros (d & <- & H). apply in_cells in H as [L H]. apply in_cells. split; [rewrite rev_length; exact L|]. intros a Ha. apply H, in_rev, Ha.
    + intros H. exists (rev c). split; [apply rev_involutive|]. apply in_cells in H as [L H]. apply in_cells. split; [rewrite rev_length; exact L|]. intros a Ha. apply H, in_rev, Ha.
Qed.
Lemma sum_app (x y : list R) : fold_right Rplus 0 (x ++ y) = fold_right Rplus 0 x + fold_right Rplus 0 y.
Proof. induction x as [|a x IH]; cbn; [ring|]. rewrite IH. ring. Qed.
Lemma sum_rev (x : list R) : fold_right Rplus 0 (rev x) = fold_right Rplus 0 x.
Proof. induction x as [|a x IH]; [reflexivity|]. cbn [rev]. rewrite sum_app, IH. cbn. ring. Qed.
Lemma csum_sum c : csum c = fold_right Rplus 0 (map INR c).
Proof. induction c as [|a c IH]; [reflexivity|]. rewrite csum_cons, IH. reflexivity. Qed.
Lemma csum_rev c : csum (rev c) = csum c. Proof. rewrite !csum_sum, map_rev. apply sum_rev. Qed.
Lemma rev_on n s x : on_simplex n s x -> on_simplex n s (rev x).
Proof. intros (L & P & S). split; [rewrite rev_length; exact L|]. split; [intros u Hu; apply P, in_rev, Hu|rewrite sum_rev; exact S]. Qed.
Lemma close_rev d x y : close d x y -> close d (rev x) (rev y).
Proof. unfold close. induction 1 as [|a b x y H C IH]; [constructor|]. cbn [rev]. apply Forall2_app; [exact IH|]. constructor; [exact H|constructor]. Qed.

Lemma rev_ucont n f : ucont n f -> ucont n (fun x => f (rev x)).
Proof. intros U eps He. destruct (U eps He) as (d & Hd & H). exists d. split; [exact Hd|]. intros x y Hx Hy C. apply H; [apply rev_on, Hx|apply rev_on, Hy|apply close_rev, C]. Qed.

Lemma ucont_grid k f v eps : ucont k f -> simplex_int k 1 f v -> 0 < eps -> exists N, (1 <= N)%nat /\ forall n, (N <= n)%nat ->
  Rabs (INR n ^ k * v - lsum (cells k n) (fun c => f (map (fun u => u / INR n) (map INR c)) * cellvol k (INR n - csum c))) <= eps * INR n ^ k.
Proof.
  intros U Hv He. destruct (U eps He) as (d & Hd & H). destruct (nfloor_ex (1 / d)) as (N0 & _ & HN0); [apply Rlt_le, Rdiv_lt_0_compat; lra|].
  exists (S N0). split; [lia|]. intros n Hn. assert (Pn : 0 < INR n) by (apply lt_0_INR; lia). assert (Dn : 1 / INR n < d).
  { apply (Rmult_lt_reg_r (INR n)); [exact Pn|]. replace (1 / INR n * INR n) with 1 by (field; lra). apply (Rle_lt_trans _ (d * (1 / d))); [right; field; lra|]. apply Rmult_lt_compat_l; [exact Hd|]. eapply Rlt_le_trans; [exact HN0|]. rewrite <- S_INR. apply le_INR. exact Hn. }
  assert (Q := simplex_int_scale k 1 (INR n) f v Pn ltac:(lra) Hv). rewrite Rmult_1_r in Q.
  assert (SC : forall x, on_simplex k (INR n) x -> on_simplex k 1 (map (fun u => u / INR n) x)).
  { intros x (L & P & S). split; [rewrite map_length; exact L|]. split.
    - intros u Hu. apply in_map_iff in Hu as (a & <- & Ha). apply Rmult_le_pos; [apply P, Ha|apply Rlt_le, Rinv_0_lt_compat, Pn].
    - replace (fold_right Rplus 0 (map (fun u => u / INR n) x)) with (/ INR n * fold_right Rplus 0 x) by (rewrite <- sum_map_scal; f_equal; apply map_ext; intros a; unfold Rdiv; ring).
      apply (Rmult_le_reg_l (INR n)); [exact Pn|]. rewrite <- Rmult_assoc, Rinv_r, Rmult_1_l by lra. lra. }
  eapply Rle_trans; [apply (grid_near k n (INR n) _ (fun c => f (map (fun u => u / INR n) (map INR c))) eps _ ltac:(lra) Q)|].
  - intros x c Lx Px Sx Cx Sc. apply H.
    + apply SC. split; [exact Lx|]. split; assumption.
    + apply SC. split; [|split].
      * rewrite map_length. rewrite <- Lx. clear - Cx. induction Cx; cbn; congruence.
      * intros u Hu. apply in_map_iff in Hu as (a & <- & _). apply pos_INR.
      * rewrite <- csum_sum. lra.
    + clear - Cx Pn Dn. unfold close. induction Cx as [|a u c x Hu Cx IH]; cbn [map]; constructor; [|exact IH].
      replace (u / INR n - INR a / INR n) with ((u - INR a) * (1 / INR n)) by (field; lra). rewrite Rabs_mult, (Rabs_right (1 / INR n)) by (apply Rle_ge, Rlt_le, Rdiv_lt_0_compat; lra). rewrite Rabs_right by lra.
      assert (0 < 1 / INR n) by (apply Rdiv_lt_0_compat; lra). nra.
  - apply Rmult_le_compat_l; [lra|]. rewrite tp_pos by exact Pn. pose proof (pow_lt (INR n) k Pn). pose proof (INR_fact_lt_0 k). assert (1 <= INR (fact k)) by (apply (le_INR 1), lt_O_fact).
    apply (Rmult_le_reg_r (INR (fact k))); [assumption|]. unfold Rdiv. rewrite Rmult_assoc, Rinv_l, Rmult_1_r by lra. nra.
Qed.

Theorem simplex_int_rev k f v w : ucont k f -> simplex_int k 1 f v -> simplex_int k 1 (fun x => f (rev x)) w -> v = w.
Proof.
  intros U Hv Hw. destruct (Req_dec v w) as [E|N]; [exact E|exfalso].
  set (eps := Rabs (v - w) / 3). assert (He : 0 < eps) by (unfold eps; pose proof (Rabs_pos_lt (v - w) ltac:(lra)); lra).
  destruct (ucont_grid k f v eps U Hv He) as (N1 & _ & H1). destruct (ucont_grid k _ w eps (rev_ucont k f U) Hw He) as (N2 & _ & H2).
  set (n := S (N1 + N2)). specialize (H1 n ltac:(unfold n; lia)). specialize (H2 n ltac:(unfold n; lia)). assert (Pn : 0 < INR n ^ k) by (apply pow_lt, lt_0_INR; unfold n; lia). clearbody n.
  assert (E : lsum (cells k n) (fun c => f (rev (map (fun u => u / INR n) (map INR c))) * cellvol k (INR n - csum c)) = lsum (cells k n) (fun c => f (map (fun u => u / INR n) (map INR c)) * cellvol k (INR n - csum c))).
  { rewrite <- (lsum_perm _ _ _ (cells_rev k n)), lsum_map. apply lsum_ext. intros c _. rewrite csum_rev, !map_rev, ?rev_involutive. reflexivity. }
  rewrite E in H2. set (s := lsum _ _) in *. assert (Q : Rabs (INR n ^ k * (v - w)) <= 2 * eps * INR n ^ k).
  { replace (INR n ^ k * (v - w)) with ((INR n ^ k * v - s) - (INR n ^ k * w - s)) by ring. apply Rabs_le_between. apply Rabs_le_between in H1, H2. lra. }
  rewrite Rabs_mult, (Rabs_right (INR n ^ k)) in Q by lra. unfold eps in Q. pose proof (Rabs_pos_lt (v - w) ltac:(lra)). nra.
Qed.
