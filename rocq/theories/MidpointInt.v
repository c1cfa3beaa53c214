(** Sums over the unit cells of a grid and integrals over a corner simplex: if a
    function differs by at most [eps] from a value [G c] on the cell [c], its
    integral differs by at most [eps] times the volume of the simplex from the
    sum of the [G c] weighted with the volumes of the cells inside the simplex. *)
From Coq Require Import Reals Lra List Lia Arith Factorial FinFun Permutation.
From Coquelicot Require Import Coquelicot.
From Verif Require Import SimplexInt.
Import ListNotations.
Local Open Scope R_scope.

(** ** Truncated powers *)
Definition tp (k : nat) (x : R) : R := if Rlt_dec 0 x then x ^ k / INR (fact k) else 0.
Lemma tp_pos k x : 0 < x -> tp k x = x ^ k / INR (fact k). Proof. intros H. unfold tp. destruct (Rlt_dec 0 x); [reflexivity|contradiction]. Qed.
Lemma tp_neg k x : x <= 0 -> tp k x = 0. Proof. intros H. unfold tp. destruct (Rlt_dec 0 x); [lra|reflexivity]. Qed.

Lemma is_RInt_zero_on (f : R -> R) a b : (forall t, Rmin a b < t < Rmax a b -> f t = 0) -> is_RInt f a b 0.
Proof.
  intros H. apply (is_RInt_ext (fun _ => 0)); [intros t Ht; symmetry; apply H, Ht|].
  pose proof (is_RInt_const (V := R_NormedModule) a b 0) as Z. unfold scal in Z; cbn in Z; unfold mult in Z; cbn in Z. rewrite Rmult_0_r in Z. exact Z.
Qed.
Lemma pow_int k x a b : is_RInt (fun v => (x - v) ^ k / INR (fact k)) a b ((x - a) ^ S k / INR (fact (S k)) - (x - b) ^ S k / INR (fact (S k))).
Proof.
  replace ((x - a) ^ S k / INR (fact (S k)) - (x - b) ^ S k / INR (fact (S k))) with (minus (- (x - b) ^ S k / INR (fact (S k))) (- (x - a) ^ S k / INR (fact (S k)))) by (unfold minus, plus, opp; cbn; unfold Rdiv; ring).
  assert (F : INR (fact (S k)) = INR (S k) * INR (fact k)) by (change (fact (S k)) with (S k * fact k)%nat; apply mult_INR).
  pose proof (INR_fact_neq_0 k) as N1. pose proof (INR_S_neq k) as N2.
  apply (is_RInt_derive (V := R_CompleteNormedModule) (fun v => - (x - v) ^ S k / INR (fact (S k)))).
  - intros t _. rewrite F. auto_derive; [exact I|]. replace (match k with 0%nat => 1 | S _ => INR k + 1 end) with (INR (S k)) by (rewrite S_INR; destruct k; [cbn; ring|reflexivity]).
    cbn [Nat.pred pow]. unfold Rminus. field. auto.
  - intros t _. apply (ex_derive_continuous (fun v => (x - v) ^ k / INR (fact k))). auto_derive. exact I.
Qed.
Lemma tp_int k x a b : a <= b -> is_RInt (fun v => tp k (x - v)) a b (tp (S k) (x - a) - tp (S k) (x - b)).
Proof.
  intros Hab. destruct (Rle_dec x a) as [H1|H1].
  - rewrite !tp_neg by lra. rewrite Rminus_0_r. apply is_RInt_zero_on. intros t Ht. rewrite Rmin_left in Ht by exact Hab. apply tp_neg. lra.
  - assert (P : forall c, a <= c <= x -> is_RInt (fun v => tp k (x - v)) a c ((x - a) ^ S k / INR (fact (S k)) - (x - c) ^ S k / INR (fact (S k)))).
    { intros c Hc. apply (is_RInt_ext (fun v => (x - v) ^ k / INR (fact k))); [|apply pow_int]. intros t Ht. rewrite Rmin_left, Rmax_right in Ht by lra. rewrite tp_pos by lra. reflexivity. }
    rewrite (tp_pos (S k) (x - a)) by lra. destruct (Rlt_dec b x) as [H2|H2].
    + rewrite (tp_pos (S k) (x - b)) by lra. apply P. lra.
    + rewrite (tp_neg (S k) (x - b)) by lra. replace ((x - a) ^ S k / INR (fact (S k)) - 0) with (plus ((x - a) ^ S k / INR (fact (S k)) - (x - x) ^ S k / INR (fact (S k))) 0) by (unfold plus; cbn [pow Hierarchy.AbelianGroup.plus]; cbn; unfold Rdiv; ring).
      apply (is_RInt_Chasles (V := R_NormedModule) _ a x b); [apply P; lra|].
      apply is_RInt_zero_on. intros t Ht. rewrite Rmin_left in Ht by lra. apply tp_neg. lra.
Qed.

(** ** The volume of the part [sum <= x] of a unit cube *)
Fixpoint iter_diff (k : nat) (f : R -> R) (x : R) : R := match k with O => f x | S k' => iter_diff k' f x - iter_diff k' f (x - 1) end.
Definition cellvol (k : nat) (x : R) : R := iter_diff k (tp k) x.
Lemma iter_diff_ext k : forall f g x, (forall y, y <= x -> f y = g y) -> iter_diff k f x = iter_diff k g x.
Proof. induction k as [|k IH]; intros f g x H; cbn [iter_diff]; [apply H; lra|]. rewrite (IH f g x H), (IH f g (x - 1)); [reflexivity|]. intros y Hy. apply H. lra. Qed.
Lemma iter_diff_S k : forall f x, iter_diff (S k) f x = iter_diff k (fun y => f y - f (y - 1)) x.
Proof. induction k as [|k IH]; intros f x; [reflexivity|]. change (iter_diff (S (S k)) f x) with (iter_diff (S k) f x - iter_diff (S k) f (x - 1)). rewrite (IH f x), (IH f (x - 1)). reflexivity. Qed.
Lemma iter_diff_int k : forall (f F : R -> R) a b, (forall x, is_RInt (fun v => f (x - v)) a b (F x)) -> forall x, is_RInt (fun v => iter_diff k f (x - v)) a b (iter_diff k F x).
Proof.
  induction k as [|k IH]; intros f F a b H x; cbn [iter_diff]; [apply H|].
  apply (is_RInt_minus (V := R_NormedModule)); [apply IH, H|]. apply (is_RInt_ext (fun v => iter_diff k f (x - 1 - v))); [intros t _; f_equal; ring|]. apply IH, H.
Qed.
Lemma cellvol_neg k x : x <= 0 -> cellvol k x = 0.
Proof.
  intros H. unfold cellvol. rewrite (iter_diff_ext k (tp k) (fun _ => 0)) by (intros y Hy; apply tp_neg; lra).
  clear H. revert x. induction k as [|k IH]; intros x; cbn [iter_diff]; [reflexivity|]. rewrite !IH. ring.
Qed.
Lemma cellvol_int k x a : is_RInt (fun v => cellvol k (x - v)) a (a + 1) (cellvol (S k) (x - a)).
Proof.
  unfold cellvol. rewrite iter_diff_S. apply (is_RInt_ext (fun v => iter_diff k (tp k) (x - v))); [reflexivity|].
  assert (H : forall z, is_RInt (fun v => tp k (z - v)) a (a + 1) (tp (S k) (z - a) - tp (S k) (z - a - 1))).
  { intros z. replace (z - a - 1) with (z - (a + 1)) by ring. apply tp_int. lra. }
  pose proof (iter_diff_int k (tp k) (fun z => tp (S k) (z - a) - tp (S k) (z - a - 1)) a (a + 1) H x) as R.
  replace (iter_diff k (fun y => tp (S k) y - tp (S k) (y - 1)) (x - a)) with (iter_diff k (fun z => tp (S k) (z - a) - tp (S k) (z - a - 1)) x); [exact R|].
  clear. revert x. induction k as [|k IH] using nat_ind; intros x.
  - reflexivity.
  - set (f := fun y => tp (S (S k)) y - tp (S (S k)) (y - 1)). change (fun z => tp (S (S k)) (z - a) - tp (S (S k)) (z - a - 1)) with (fun z => f (z - a)). generalize (S k) as m. clearbody f. clear IH. intros m. revert x. induction m as [|m IH]; intros x; cbn [iter_diff]; [reflexivity|].
    rewrite !IH. do 2 f_equal. ring.
Qed.

(** ** The cells *)
Fixpoint cells (k N : nat) : list (list nat) :=
  match k with O => [[]] | S k' => flat_map (fun a => map (cons a) (cells k' N)) (seq 0 N) end.
Lemma in_cells k N : forall c, In c (cells k N) <-> length c = k /\ forall a, In a c -> (a < N)%nat.
Proof.
  induction k as [|k IH]; intros c; cbn [cells].
  - split; [intros [<-|[]]; split; [reflexivity|intros a []]|intros [H _]; destruct c; [left; reflexivity|discriminate H]].
  - rewrite in_flat_map. split.
    + intros (a & Ha & H). apply in_map_iff in H as (d & <- & Hd). apply IH in Hd as [L B]. apply in_seq in Ha. split; [cbn; congruence|]. intros b [<-|Hb]; [lia|apply B, Hb].
    + intros [L B]. destruct c as [|a d]; [discriminate L|]. exists a. split; [apply in_seq; specialize (B a (or_introl eq_refl)); lia|]. apply in_map. apply IH. split; [cbn in L; congruence|]. intros b Hb. apply B. right. exact Hb.
Qed.
Lemma cells_nodup k N : NoDup (cells k N).
Proof.
  induction k as [|k IH]; cbn [cells]; [repeat constructor; intros []|].
  generalize (seq_NoDup N 0). generalize (seq 0 N) as l. induction l as [|a l IHl]; intros HN; cbn [flat_map]; [constructor|]. apply NoDup_cons_iff in HN as [H1 H2].
  assert (M : NoDup (map (cons a) (cells k N))) by (apply FinFun.Injective_map_NoDup; [intros u v E; congruence|exact IH]).
  assert (D : forall x, In x (map (cons a) (cells k N)) -> ~ In x (flat_map (fun a => map (cons a) (cells k N)) l)).
  { intros x Hx Hy. apply in_map_iff in Hx as (d & <- & _). apply in_flat_map in Hy as (b & Hb & Hy). apply in_map_iff in Hy as (e & E & _). injection E as -> _. contradiction. }
  specialize (IHl H2). revert M D IHl. generalize (map (cons a) (cells k N)) as u. generalize (flat_map (fun a => map (cons a) (cells k N)) l) as w. clear.
  intros w u M D Hw. induction u as [|x u IHu]; cbn [app]; [exact Hw|]. apply NoDup_cons_iff in M as [M1 M2]. constructor.
  - intros H. apply in_app_or in H as [H|H]; [contradiction|]. exact (D x (or_introl eq_refl) H).
  - apply IHu; [exact M2|]. intros y Hy. apply D. right. exact Hy.
Qed.
Definition lsum {A} (l : list A) (f : A -> R) : R := fold_right (fun a s => f a + s) 0 l.
Lemma lsum_app {A} (l m : list A) f : lsum (l ++ m) f = lsum l f + lsum m f.
Proof. unfold lsum. induction l as [|a l IH]; cbn [app fold_right]; [ring|]. rewrite IH. ring. Qed.
Lemma lsum_map {A B} (h : A -> B) l f : lsum (map h l) f = lsum l (fun a => f (h a)).
Proof. induction l as [|a l IH]; cbn; [reflexivity|]. unfold lsum in *. rewrite IH. reflexivity. Qed.
Lemma lsum_flat_map {A B} (h : A -> list B) l f : lsum (flat_map h l) f = lsum l (fun a => lsum (h a) f).
Proof. induction l as [|a l IH]; cbn [flat_map]; [reflexivity|]. rewrite lsum_app. cbn [lsum fold_right]. unfold lsum in *. rewrite IH. reflexivity. Qed.
Lemma lsum_ext {A} (l : list A) f g : (forall a, In a l -> f a = g a) -> lsum l f = lsum l g.
Proof. induction l as [|a l IH]; intros H; cbn; [reflexivity|]. unfold lsum in *. rewrite (H a (or_introl eq_refl)), IH; [reflexivity|]. intros b Hb. apply H. right. exact Hb. Qed.
Lemma lsum_int {A} (l : list A) (f : A -> R -> R) (v : A -> R) a b : (forall c, In c l -> is_RInt (f c) a b (v c)) -> is_RInt (fun t => lsum l (fun c => f c t)) a b (lsum l v).
Proof.
  induction l as [|c l IH]; intros H; cbn [lsum fold_right]; [apply is_RInt_zero_on; reflexivity|].
  apply (is_RInt_plus (V := R_NormedModule) (f c) (fun t => lsum l (fun c => f c t))); [apply H; left; reflexivity|]. apply IH. intros d Hd. apply H. right. exact Hd.
Qed.

(** the coordinates of a point of the cell *)
Definition in_cell (c : list nat) (x : list R) : Prop := Forall2 (fun a u => INR a <= u <= INR a + 1) c x.
Definition csum (c : list nat) : R := INR (list_sum c).
Lemma csum_cons a c : csum (a :: c) = INR a + csum c. Proof. unfold csum. cbn [list_sum fold_right]. apply plus_INR. Qed.

Lemma RInt_near (f s e : R -> R) a b I J E : a <= b -> is_RInt f a b I -> is_RInt s a b J -> is_RInt e a b E -> (forall t, a < t < b -> Rabs (f t - s t) <= e t) -> Rabs (I - J) <= E.
Proof.
  intros Hab Hf Hs He B.
  pose proof (is_RInt_minus (V := R_NormedModule) f s a b I J Hf Hs) as D. change (is_RInt (fun t => f t - s t) a b (I - J)) in D.
  assert (U : I - J <= E) by (apply (is_RInt_le (fun t => f t - s t) e a b); [exact Hab|exact D|exact He|]; intros t Ht; specialize (B t Ht); apply Rabs_le_between in B; lra).
  pose proof (is_RInt_opp (V := R_NormedModule) e a b E He) as O. change (is_RInt (fun t => - e t) a b (- E)) in O.
  assert (V : - E <= I - J) by (apply (is_RInt_le (fun t => - e t) (fun t => f t - s t) a b); [exact Hab|exact O|exact D|]; intros t Ht; specialize (B t Ht); apply Rabs_le_between in B; lra).
  apply Rabs_le_between. lra.
Qed.
Lemma RInt_uniq (f : R -> R) a b I J : is_RInt f a b I -> is_RInt f a b J -> I = J.
Proof. intros HI HJ. rewrite <- (is_RInt_unique f a b I HI). apply is_RInt_unique. exact HJ. Qed.
(** from pieces of length one *)
Lemma RInt_pieces (h : R -> R) (V E : nat -> R) : forall N I, is_RInt h 0 (INR N) I ->
  (forall a J, (a < N)%nat -> is_RInt h (INR a) (INR a + 1) J -> Rabs (J - V a) <= E a) -> Rabs (I - lsum (seq 0 N) V) <= lsum (seq 0 N) E.
Proof.
  induction N as [|N IH]; intros I H P.
  - cbn [seq lsum fold_right INR] in *. pose proof (is_RInt_point (V := R_NormedModule) h 0) as Z. rewrite (RInt_uniq h 0 0 I 0 H Z). rewrite Rminus_0_r, Rabs_R0. lra.
  - rewrite S_INR in H. assert (X : ex_RInt h 0 (INR N + 1)) by (exists I; exact H). pose proof (pos_INR N) as P0.
    assert (X1 : ex_RInt h 0 (INR N)) by (apply (ex_RInt_Chasles_1 (V := R_CompleteNormedModule) h 0 (INR N) (INR N + 1)); [lra|exact X]).
    assert (X2 : ex_RInt h (INR N) (INR N + 1)) by (apply (ex_RInt_Chasles_2 (V := R_CompleteNormedModule) h 0 (INR N) (INR N + 1)); [lra|exact X]).
    destruct X1 as [I1 H1], X2 as [J HJ]. pose proof (is_RInt_Chasles (V := R_NormedModule) h 0 (INR N) (INR N + 1) I1 J H1 HJ) as C. pose proof (RInt_uniq _ _ _ _ _ H C) as C'. clear C. rename C' into C. change (I = I1 + J) in C.
    rewrite seq_S, !lsum_app. cbn [lsum fold_right Nat.add]. rewrite C.
    assert (B1 : Rabs (I1 - lsum (seq 0 N) V) <= lsum (seq 0 N) E) by (apply IH; [exact H1|]; intros a K Ha HK; apply P; [lia|exact HK]).
    assert (B2 : Rabs (J - V N) <= E N) by (apply P; [lia|exact HJ]). apply Rabs_le_between in B1. apply Rabs_le_between in B2. apply Rabs_le_between. lra.
Qed.

Lemma telescope (f : nat -> R) N : lsum (seq 0 N) (fun a => f a - f (S a)) = f 0%nat - f N.
Proof. induction N as [|N IH]; [cbn; ring|]. rewrite seq_S, lsum_app, IH. cbn. ring. Qed.
Lemma lsum_scal {A} (l : list A) c f : lsum l (fun a => c * f a) = c * lsum l f.
Proof. induction l as [|a l IH]; cbn; [ring|]. unfold lsum in *. rewrite IH. ring. Qed.

Theorem grid_near k : forall N L g G eps I, 0 < L <= INR N -> simplex_int k L g I ->
  (forall x c, length x = k -> (forall u, In u x -> 0 <= u) -> fold_right Rplus 0 x <= L -> in_cell c x -> csum c < L -> Rabs (g x - G c) <= eps) ->
  Rabs (I - lsum (cells k N) (fun c => G c * cellvol k (L - csum c))) <= eps * tp k L.
Proof.
  induction k as [|k IH]; intros N L g G eps I HL HI B; cbn [simplex_int] in HI.
  - subst I. cbn [cells lsum fold_right]. unfold cellvol. cbn [iter_diff]. change (csum []) with 0. rewrite Rminus_0_r. rewrite tp_pos by lra. cbn [pow fact INR].
    replace (g [] - (G [] * (1 / 1) + 0)) with (g [] - G []) by field. replace (eps * (1 / 1)) with eps by field. apply B; [reflexivity|intros u []|cbn; lra|constructor|change (csum []) with 0; lra].
  - destruct HI as (h & H1 & H2).
    set (h' := fun t => if Rlt_dec t L then h t else 0).
    assert (H3 : is_RInt h' 0 (INR N) I).
    { replace I with (plus I 0) by (unfold plus; cbn; ring). apply (is_RInt_Chasles (V := R_NormedModule) h' 0 L (INR N)).
      - apply (is_RInt_ext h); [|exact H2]. intros t Ht. rewrite Rmin_left, Rmax_right in Ht by lra. unfold h'. destruct (Rlt_dec t L); [reflexivity|lra].
      - apply is_RInt_zero_on. intros t Ht. rewrite Rmin_left in Ht by lra. unfold h'. destruct (Rlt_dec t L); [lra|reflexivity]. }
    cbn [cells]. rewrite lsum_flat_map.
    replace (eps * tp (S k) L) with (lsum (seq 0 N) (fun a => eps * (tp (S k) (L - INR a) - tp (S k) (L - (INR a + 1))))).
    2:{ rewrite lsum_scal. f_equal. rewrite (lsum_ext _ _ (fun a => tp (S k) (L - INR a) - tp (S k) (L - INR (S a)))) by (intros a _; rewrite S_INR; reflexivity). rewrite (telescope (fun a => tp (S k) (L - INR a))).
        cbn [INR]. rewrite Rminus_0_r. rewrite (tp_neg (S k) (L - INR N)) by lra. ring. }
    apply (RInt_pieces h' _ _ N I H3). intros a J Ha HJ.
    apply (RInt_near h' (fun t => lsum (cells k N) (fun c => G (a :: c) * cellvol k (L - csum c - t))) (fun t => eps * tp k (L - t)) (INR a) (INR a + 1)); [lra|exact HJ| | |].
    + rewrite lsum_map. apply (lsum_int (cells k N) (fun c t => G (a :: c) * cellvol k (L - csum c - t))). intros c _. rewrite csum_cons. replace (L - (INR a + csum c)) with (L - csum c - INR a) by ring.
      apply (is_RInt_scal (V := R_NormedModule)). apply cellvol_int.
    + apply (is_RInt_scal (V := R_NormedModule)). apply tp_int. lra.
    + intros t Ht. pose proof (pos_INR a). unfold h'. destruct (Rlt_dec t L) as [C|C].
      * rewrite (lsum_ext _ _ (fun c => G (a :: c) * cellvol k (L - t - csum c))) by (intros c _; do 2 f_equal; ring).
        apply (IH N (L - t) (fun y => g (t :: y)) (fun c => G (a :: c))); [lra|apply H1; lra|].
        intros x c Lx Px Sx Cx Sc. apply B; [cbn; congruence| |cbn [fold_right]; lra|constructor; [lra|exact Cx]|rewrite csum_cons; lra]. intros u [<-|Hu]; [lra|apply Px, Hu].
      * rewrite (lsum_ext _ _ (fun _ => 0 * 0)).
        2:{ intros c _. rewrite cellvol_neg; [ring|]. pose proof (pos_INR (list_sum c)) as Pc. unfold csum. lra. }
        rewrite lsum_scal, Rmult_0_l, Rminus_0_r, Rabs_R0, tp_neg by lra. lra.
Qed.

(** ** The weights of the cells of the simplex of integer size *)
Lemma tp_nat k d : (d <= 0)%Z -> tp k (IZR d) = 0. Proof. intros H. apply tp_neg. apply IZR_le. exact H. Qed.
Lemma cellvol_2 (d : nat) : (1 <= d)%nat -> cellvol 2 (INR d) = if (d =? 1)%nat then / 2 else 1.
Proof.
  intros H. unfold cellvol. cbn [iter_diff]. destruct (Nat.eqb_spec d 1) as [->|N].
  - cbn [INR]. rewrite (tp_pos 2 1), !tp_neg by lra. cbn. field.
  - assert (D : 2 <= INR d) by (apply (le_INR 2 d); lia). rewrite (tp_pos 2 (INR d)), (tp_pos 2 (INR d - 1)) by lra.
    replace (tp 2 (INR d - 1 - 1)) with ((INR d - 2) ^ 2 / INR (fact 2)).
    + cbn. field.
    + destruct (Rlt_dec 2 (INR d)) as [C|C]; [rewrite tp_pos by lra; f_equal; ring|rewrite tp_neg by lra; replace (INR d) with 2 by lra; cbn; field].
Qed.
Lemma cellvol_3 (d : nat) : (1 <= d)%nat -> cellvol 3 (INR d) = if (d =? 1)%nat then / 6 else if (d =? 2)%nat then 5 / 6 else 1.
Proof.
  intros H. unfold cellvol. cbn [iter_diff]. destruct (Nat.eqb_spec d 1) as [->|N]; [|destruct (Nat.eqb_spec d 2) as [->|N2]].
  - cbn [INR]. rewrite (tp_pos 3 1), !tp_neg by lra. cbn. field.
  - replace (INR 2) with 2 by (cbn; ring). rewrite (tp_pos 3 2), (tp_pos 3 (2 - 1)), !tp_neg by lra. cbn. field.
  - assert (D : 3 <= INR d) by (replace 3 with (INR 3) by (cbn; ring); apply le_INR; lia). rewrite (tp_pos 3 (INR d)), (tp_pos 3 (INR d - 1)), (tp_pos 3 (INR d - 1 - 1)) by lra.
    replace (tp 3 (INR d - 1 - 1 - 1)) with ((INR d - 3) ^ 3 / INR (fact 3)).
    + cbn. field.
    + destruct (Rlt_dec 3 (INR d)) as [C|C]; [rewrite tp_pos by lra; f_equal; ring|rewrite tp_neg by lra; replace (INR d) with 3 by lra; cbn; field].
Qed.
Lemma lsum_perm {A} (l m : list A) f : Permutation l m -> lsum l f = lsum m f.
Proof. unfold lsum. induction 1; cbn [fold_right]; try congruence; try ring. Qed.
Lemma lsum_filter {A} (p : A -> bool) l f : lsum (filter p l) f = lsum l (fun a => if p a then f a else 0).
Proof. unfold lsum. induction l as [|a l IH]; cbn [filter fold_right]; [reflexivity|]. destruct (p a); cbn [fold_right]; rewrite IH; ring. Qed.

(** ** Scaling *)
Lemma simplex_int_scale k : forall s c f v, 0 < c -> 0 <= s -> simplex_int k s f v -> simplex_int k (c * s) (fun x => f (map (fun u => u / c) x)) (c ^ k * v).
Proof.
  induction k as [|k IH]; intros s c f v Hc Hs H; cbn [simplex_int] in *; [rewrite H; cbn; ring|].
  destruct H as (h & H1 & H2). exists (fun t => c ^ k * h (t / c)). split.
  - intros t Ht. assert (Q : 0 <= t / c <= s).
    { split; [apply Rmult_le_pos; [lra|apply Rlt_le, Rinv_0_lt_compat, Hc]|]. apply (Rmult_le_reg_l c); [exact Hc|]. replace (c * (t / c)) with t by (field; lra). lra. }
    replace (c * s - t) with (c * (s - t / c)) by (field; lra). apply (IH (s - t / c) c (fun y => f (t / c :: y))); [exact Hc|lra|]. apply H1, Q.
  - replace (c ^ S k * v) with (c ^ k * (c * v)) by (cbn; ring). apply (is_RInt_scal (V := R_NormedModule)).
    assert (H3 : is_RInt h (/ c * 0 + 0) (/ c * (c * s) + 0) v) by (replace (/ c * 0 + 0) with 0 by ring; replace (/ c * (c * s) + 0) with s by (field; lra); exact H2).
    apply (is_RInt_comp_lin (V := R_NormedModule)) in H3. apply (is_RInt_scal (V := R_NormedModule) _ _ _ c) in H3.
    apply (is_RInt_ext (fun t => c * (/ c * h (/ c * t + 0)))); [|exact H3]. intros t _. replace (/ c * t + 0) with (t / c) by (unfold Rdiv; ring). match goal with |- @eq _ ?a ?b => change (@eq R a b) end. field. lra.
Qed.
