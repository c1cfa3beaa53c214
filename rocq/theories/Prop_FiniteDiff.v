(** Properties C96-C98: calculus/finite_difference.py. *)
From Coq Require Import Reals Lra Lia.
From Coquelicot Require Import Coquelicot.
From Verif Require Import Base Fld FldInst MultiIndex LinSolve PolyEval Det Linalg VecFacts FiniteDiff FiniteDiffFacts QuadReal.
From Coq Require Import Field_theory Field.
Close Scope R_scope. Local Open Scope nat_scope.

Section Exact.
  Context {F : fld}.
  Add Field Kfield82 : (kth F).
  Local Open Scope fld_scope.
  Lemma two_neq : (1 + 1 : F) <> 0. Proof. intros H. apply (kofnat_neq (F := F) 2); [discriminate|]. refine (eq_trans _ H). rewrite !kofnat_S. change (kofnat 0) with (0 : F). ring. Qed.
  Lemma half_two (h : F) : half * h + half * h = h. Proof. unfold half. field. exact two_neq. Qed.

  Lemma kdiv_mul (a b : F) : a / b = a * (1 / b). Proof. rewrite (Fdiv_def (kth F) a b), (Fdiv_def (kth F) 1 b). ring. Qed.

  (** ** C96: gradients *)
  (** Every coordinate is the difference quotient in this coordinate, and the
      argument is left as it was. *)
  Theorem C96_forward : forall (f : list F -> result F) x h f0 (v : nat -> F), f x = Ok f0 -> (forall i, (i < length x)%nat -> f (shift x i h) = Ok (v i)) ->
    exists g, forward_difference f x h = (Ok g, x) /\ length g = length x /\ forall i, (i < length x)%nat -> nth i g 0 = (v i - f0) / h.
  Proof.
    intros f x h f0 v E H. exists (map (fun i => (v i - f0) / h) (seq 0 (length x))). split; [unfold forward_difference; rewrite E; apply (forward_loop_ok f h f0 x v (seq 0 (length x)) []); intros i Hi; apply in_seq in Hi; split; [lia|apply H; lia]|].
    split; [rewrite map_length, seq_length; reflexivity|]. intros i Hi. rewrite nth_map_seq0 by exact Hi. reflexivity.
  Qed.
  Theorem C96_central : forall (f : list F -> result F) x h (vp vm : nat -> F), (forall i, (i < length x)%nat -> f (shift x i (half * h)) = Ok (vp i) /\ f (shift x i (- (half * h))) = Ok (vm i)) ->
    exists g, central_difference f x h = (Ok g, x) /\ length g = length x /\ forall i, (i < length x)%nat -> nth i g 0 = (vp i - vm i) / h.
  Proof.
    intros f x h vp vm H. exists (map (fun i => (vp i - vm i) / h) (seq 0 (length x))). split; [unfold central_difference; apply (central_loop_ok f h x vp vm (seq 0 (length x)) []); intros i Hi; apply in_seq in Hi; split; [lia|apply H; lia]|].
    split; [rewrite map_length, seq_length; reflexivity|]. intros i Hi. rewrite nth_map_seq0 by exact Hi. reflexivity.
  Qed.
  (** A coordinate of the gradient is the derivative of the function of one variable. *)
  Theorem C96_coordinate : forall (f : list F -> F) x h i, (i < length x)%nat -> exists g g', forward_difference (fun y => Ok (f y)) x h = (Ok g, x) /\ nth i g 0 = forward_difference_univariate (fun t => f (upd x i t)) (nth i x 0) h /\
    central_difference (fun y => Ok (f y)) x h = (Ok g', x) /\ nth i g' 0 = central_difference_univariate (fun t => f (upd x i t)) (nth i x 0) h.
  Proof.
    intros f x h i Hi. destruct (C96_forward (fun y => Ok (f y)) x h (f x) (fun i => f (shift x i h)) eq_refl (fun _ _ => eq_refl)) as (g & E & _ & H). destruct (C96_central (fun y => Ok (f y)) x h (fun i => f (shift x i (half * h))) (fun i => f (shift x i (- (half * h)))) (fun _ _ => conj eq_refl eq_refl)) as (g' & E' & _ & H').
    exists g, g'. split; [exact E|]. split; [|split; [exact E'|]]; [rewrite H by exact Hi|rewrite H' by exact Hi].
    - unfold forward_difference_univariate. rewrite upd_nth_same by exact Hi. reflexivity.
    - unfold central_difference_univariate, shift. do 2 f_equal. f_equal. apply upd_ext. ring.
  Qed.
  (** affine and quadratic functions *)
  Definition quadratic (c : F) (a : list F) (q : nat -> nat -> F) (y : list F) : F :=
    c + ksum (seq 0 (length a)) (fun k => nth k a 0 * nth k y 0) + ksum (seq 0 (length a)) (fun k => ksum (seq 0 (length a)) (fun l => q k l * (nth k y 0 * nth l y 0))).
  (** the derivative in coordinate [i] *)
  Definition slope (a : list F) (q : nat -> nat -> F) (y : list F) (i : nat) : F := nth i a 0 + ksum (seq 0 (length a)) (fun l => (q i l + q l i) * nth l y 0).
  Lemma quadratic_shift c a q x i s : length x = length a -> (i < length x)%nat -> quadratic c a q (shift x i s) = quadratic c a q x + s * slope a q x i + s * s * q i i.
  Proof.
    intros L Hi. unfold quadratic, slope. rewrite L in Hi. set (n := length a) in *.
    rewrite (ksum_ext (fun k => nth k a 0 * nth k (shift x i s) 0) (fun k => nth k a 0 * nth k x 0 + s * ((if (k =? i)%nat then 1 else 0) * nth k a 0))) by (intros k _; rewrite nth_shift by (rewrite L; exact Hi); destruct (k =? i)%nat; ring).
    rewrite ksum_plus, ksum_scale_l, (delta_sum n i (fun k => nth k a 0) Hi).
    rewrite (ksum_ext (fun k => ksum (seq 0 n) (fun l => q k l * (nth k (shift x i s) 0 * nth l (shift x i s) 0)))
      (fun k => ksum (seq 0 n) (fun l => q k l * (nth k x 0 * nth l x 0)) + (s * (q k i * nth k x 0) + ((if (k =? i)%nat then 1 else 0) * (s * ksum (seq 0 n) (fun l => q k l * nth l x 0) + s * s * q k i))))).
    2:{ intros k _. rewrite (ksum_ext _ (fun l => q k l * (nth k x 0 * nth l x 0) + ((if (l =? i)%nat then 1 else 0) * (s * q k l * nth k x 0 + s * s * ((if (k =? i)%nat then 1 else 0) * q k l)) + s * ((if (k =? i)%nat then 1 else 0) * (q k l * nth l x 0))))) by (intros l _; rewrite !nth_shift by (rewrite L; exact Hi); destruct (k =? i)%nat, (l =? i)%nat; ring).
        rewrite !ksum_plus, (delta_sum n i (fun l => s * q k l * nth k x 0 + s * s * ((if (k =? i)%nat then 1 else 0) * q k l)) Hi), !ksum_scale_l. ring. }
    rewrite !ksum_plus, (delta_sum n i (fun k => s * ksum (seq 0 n) (fun l => q k l * nth l x 0) + s * s * q k i) Hi), ksum_scale_l.
    rewrite (ksum_ext (fun l => (q i l + q l i) * nth l x 0) (fun l => q i l * nth l x 0 + q l i * nth l x 0)) by (intros; ring). rewrite ksum_plus. ring.
  Qed.
  Theorem C96_forward_affine : forall c (a x : list F) h, length x = length a -> h <> 0 -> forward_difference (fun y => Ok (c + dot a y)) x h = (Ok a, x).
  Proof.
    intros c a x h L Hh. destruct (C96_forward (fun y => Ok (c + dot a y)) x h _ (fun i => c + dot a (shift x i h)) eq_refl (fun _ _ => eq_refl)) as (g & E & Lg & H). rewrite E. do 2 f_equal. apply (vec_ext _ _ (length x)); [exact Lg|symmetry; exact L|]. intros i Hi. rewrite H by exact Hi.
    assert (D : dot a (shift x i h) = dot a x + h * nth i a 0).
    { rewrite (dot_seq a _ (length a)), (dot_seq a x (length a)) by (rewrite ?shift_length; congruence). rewrite (ksum_ext _ (fun k => nth k a 0 * nth k x 0 + h * ((if (k =? i)%nat then 1 else 0) * nth k a 0))) by (intros k _; rewrite nth_shift by exact Hi; destruct (k =? i)%nat; ring). rewrite ksum_plus, ksum_scale_l, (delta_sum (length a) i (fun k => nth k a 0)) by congruence. reflexivity. }
    rewrite D. field. exact Hh.
  Qed.
  Theorem C96_central_quadratic : forall c (a x : list F) q h, length x = length a -> h <> 0 -> central_difference (fun y => Ok (quadratic c a q y)) x h = (Ok (map (slope a q x) (seq 0 (length x))), x).
  Proof.
    intros c a x q h L Hh. destruct (C96_central (fun y => Ok (quadratic c a q y)) x h (fun i => quadratic c a q (shift x i (half * h))) (fun i => quadratic c a q (shift x i (- (half * h)))) (fun _ _ => conj eq_refl eq_refl)) as (g & E & Lg & H). rewrite E. do 2 f_equal. apply (vec_ext _ _ (length x)); [exact Lg|rewrite map_length, seq_length; reflexivity|]. intros i Hi. rewrite H by exact Hi. rewrite nth_map_seq0 by exact Hi.
    rewrite !quadratic_shift by assumption. rewrite <- (half_two h) at 5. unfold half. field. split; [exact two_neq|exact Hh].
  Qed.
  (** If [f] raises an exception the argument keeps the changed coordinate. *)
  Theorem C96_forward_exception : forall (f : list F -> result F) x h f0 (v : nat -> F) i e, (i < length x)%nat -> f x = Ok f0 -> (forall l, (l < i)%nat -> f (shift x l h) = Ok (v l)) -> f (shift x i h) = Err e ->
    forward_difference f x h = (Err e, shift x i h).
  Proof.
    intros f x h f0 v i e Hi E H Ei. unfold forward_difference. rewrite E. replace (length x) with (i + S (length x - i - 1))%nat by lia. rewrite seq_app. cbn [seq Nat.add]. apply (forward_loop_err f h f0 x v e i); [|exact Ei]. intros l Hl. apply in_seq in Hl. split; [lia|apply H; lia].
  Qed.
  Theorem C96_central_exception : forall (f : list F -> result F) x h (vp vm : nat -> F) i e, (i < length x)%nat -> (forall l, (l < i)%nat -> f (shift x l (half * h)) = Ok (vp l) /\ f (shift x l (- (half * h))) = Ok (vm l)) ->
    (f (shift x i (half * h)) = Err e -> central_difference f x h = (Err e, shift x i (half * h))) /\ (f (shift x i (half * h)) = Ok (vp i) -> f (shift x i (- (half * h))) = Err e -> central_difference f x h = (Err e, shift x i (- (half * h)))).
  Proof.
    intros f x h vp vm i e Hi H. assert (P : forall l, In l (seq 0 i) -> (l < length x)%nat /\ f (shift x l (half * h)) = Ok (vp l) /\ f (shift x l (- (half * h))) = Ok (vm l)) by (intros l Hl; apply in_seq in Hl; split; [lia|apply H; lia]).
    unfold central_difference. replace (length x) with (i + S (length x - i - 1))%nat by lia. rewrite seq_app. cbn [seq Nat.add]. split; [intros E|intros E E']; apply (central_loop_err f h x vp vm e i _ _ _ _ P); [left; split; [exact E|reflexivity]|right; repeat split; assumption].
  Qed.
  Theorem C96_discrete : forall (f : F -> F) x h, discrete_forward_difference (f x) x (f (x + h)) (x + h) = forward_difference_univariate f x h.
  Proof. intros f x h. unfold discrete_forward_difference, forward_difference_univariate. replace (x + h - x) with h by ring. reflexivity. Qed.

  (** ** C97: Jacobians *)
  Theorem C97_jacobian : forall (phi : list F -> list F) n x h, (forall y, length y = length x -> length (phi y) = n) ->
    (exists J, forward_difference_jacobian (fun y => Ok (Fresh (Vec (phi y)))) n x h = (Ok J, x) /\ rows_of n (length x) J /\ forall i j, (i < n)%nat -> (j < length x)%nat -> nth j (nth i J []) 0 = (nth i (phi (shift x j h)) 0 - nth i (phi x) 0) * (1 / h)) /\
    (exists J, central_difference_jacobian (fun y => Ok (Fresh (Vec (phi y)))) n x h = (Ok J, x) /\ rows_of n (length x) J /\ forall i j, (i < n)%nat -> (j < length x)%nat -> nth j (nth i J []) 0 = (nth i (phi (shift x j (half * h))) 0 - nth i (phi (shift x j (- (half * h)))) 0) * (1 / h)).
  Proof.
    intros phi n x h Hn.
    assert (Q : forall u v, length u = n -> length v = n -> exists w, quotient x (Fresh (Vec u)) (Fresh (Vec v)) h = Ok (Vec w) /\ column_of n (Vec w) = Ok w /\ length w = n /\ forall i, (i < n)%nat -> nth i w 0 = (nth i u 0 - nth i v 0) * (1 / h)).
    { intros u v Lu Lv. destruct (quotient_vec x u v h ltac:(congruence)) as (w & E & L & H). exists w. split; [exact E|]. rewrite Lu in L, H. split; [cbn [column_of]; rewrite L, Nat.eqb_refl; reflexivity|]. split; assumption. }
    pose (col := fun u v : list F => map (fun i => (nth i u 0 - nth i v 0) * (1 / h)) (seq 0 n)).
    assert (Q' : forall u v, length u = n -> length v = n -> exists q, quotient x (Fresh (Vec u)) (Fresh (Vec v)) h = Ok q /\ column_of n q = Ok (col u v)).
    { intros u v Lu Lv. destruct (Q u v Lu Lv) as (w & E & E' & L & H). exists (Vec w). split; [exact E|]. rewrite E'. f_equal. apply (vec_ext _ _ n); [exact L|unfold col; rewrite map_length, seq_length; reflexivity|]. intros i Hi. unfold col. rewrite nth_map_seq0 by exact Hi. apply H, Hi. }
    assert (R : forall c : nat -> list F, rows_of n (length x) (of_cols n (map c (seq 0 (length x)))) /\ forall i j, (i < n)%nat -> (j < length x)%nat -> nth j (nth i (of_cols n (map c (seq 0 (length x)))) []) 0 = nth i (c j) 0).
    { intros c. split; [apply transpose_rows; rewrite map_length, seq_length; reflexivity|]. intros i j Hi Hj. change (ent (transpose n (map c (seq 0 (length x)))) i j = nth i (c j) 0). rewrite ent_transpose by exact Hi. unfold ent. rewrite nth_map_seq0 by exact Hj. reflexivity. }
    split.
    - pose (c := fun j => col (phi (shift x j h)) (phi x)). destruct (R c) as [R1 R2]. exists (of_cols n (map c (seq 0 (length x)))). split; [|split; [exact R1|intros i j Hi Hj; rewrite R2 by assumption; unfold c, col; rewrite nth_map_seq0 by exact Hi; reflexivity]].
      unfold forward_difference_jacobian. apply (forward_jacobian_ok _ n h _ x c (seq 0 (length x)) []). intros j Hj. apply in_seq in Hj. split; [lia|]. destruct (Q' (phi (shift x j h)) (phi x)) as (q & E1 & E2); [apply Hn, shift_length|apply Hn; reflexivity|]. exists (Fresh (Vec (phi (shift x j h)))), q. split; [reflexivity|]. split; [exact E1|exact E2].
    - pose (c := fun j => col (phi (shift x j (half * h))) (phi (shift x j (- (half * h))))). destruct (R c) as [R1 R2]. exists (of_cols n (map c (seq 0 (length x)))). split; [|split; [exact R1|intros i j Hi Hj; rewrite R2 by assumption; unfold c, col; rewrite nth_map_seq0 by exact Hi; reflexivity]].
      unfold central_difference_jacobian. apply (central_jacobian_ok _ n h x c (seq 0 (length x)) []). intros j Hj. apply in_seq in Hj. split; [lia|]. destruct (Q' (phi (shift x j (half * h))) (phi (shift x j (- (half * h))))) as (q & E1 & E2); [apply Hn, shift_length|apply Hn, shift_length|]. exists (Fresh (Vec (phi (shift x j (half * h))))), (Fresh (Vec (phi (shift x j (- (half * h)))))), q. repeat split; assumption.
  Qed.
  (** The rows are the gradients of the components. *)
  Theorem C97_rows : forall (phi : list F -> list F) n x h, h <> 0 -> (forall y, length y = length x -> length (phi y) = n) -> exists J J', forward_difference_jacobian (fun y => Ok (Fresh (Vec (phi y)))) n x h = (Ok J, x) /\ central_difference_jacobian (fun y => Ok (Fresh (Vec (phi y)))) n x h = (Ok J', x) /\
    forall i, (i < n)%nat -> forward_difference (fun y => Ok (nth i (phi y) 0)) x h = (Ok (nth i J []), x) /\ central_difference (fun y => Ok (nth i (phi y) 0)) x h = (Ok (nth i J' []), x).
  Proof.
    intros phi n x h Hh Hn. destruct (C97_jacobian phi n x h Hn) as ((J & E & R & H) & (J' & E' & R' & H')). exists J, J'. split; [exact E|]. split; [exact E'|]. intros i Hi. split.
    - destruct (C96_forward (fun y => Ok (nth i (phi y) 0)) x h _ (fun j => nth i (phi (shift x j h)) 0) eq_refl (fun _ _ => eq_refl)) as (g & Eg & Lg & G). rewrite Eg. do 2 f_equal. apply (vec_ext _ _ (length x)); [exact Lg|apply (rows_len n (length x)); assumption|]. intros j Hj. rewrite G, H by assumption. field. exact Hh.
    - destruct (C96_central (fun y => Ok (nth i (phi y) 0)) x h (fun j => nth i (phi (shift x j (half * h))) 0) (fun j => nth i (phi (shift x j (- (half * h)))) 0) (fun _ _ => conj eq_refl eq_refl)) as (g & Eg & Lg & G). rewrite Eg. do 2 f_equal. apply (vec_ext _ _ (length x)); [exact Lg|apply (rows_len n (length x)); assumption|]. intros j Hj. rewrite G, H' by assumption. field. exact Hh.
  Qed.
  (** linear maps *)
  Theorem C97_linear : forall n m (A : list (list F)) x h, h <> 0 -> rows_of n m A -> length x = m -> forward_difference_jacobian (fun y => Ok (Fresh (Vec (mat_vec A y)))) n x h = (Ok A, x) /\ central_difference_jacobian (fun y => Ok (Fresh (Vec (mat_vec A y)))) n x h = (Ok A, x).
  Proof.
    intros n m A x h Hh HA Lx. pose proof HA as [LA _]. destruct (C97_jacobian (mat_vec A) n x h) as ((J & E & R & H) & (J' & E' & R' & H')); [intros; rewrite mat_vec_length; exact LA|]. rewrite Lx in *.
    assert (D : forall s i j, (i < n)%nat -> (j < m)%nat -> nth i (mat_vec A (shift x j s)) 0 = nth i (mat_vec A x) 0 + s * ent A i j).
    { intros s i j Hi Hj. rewrite !(mat_vec_sum n m A) by (rewrite ?shift_length; assumption). rewrite (ksum_ext _ (fun k => ent A i k * nth k x 0 + s * ((if (k =? j)%nat then 1 else 0) * ent A i k))) by (intros k _; rewrite nth_shift by (rewrite Lx; exact Hj); destruct (k =? j)%nat; ring). rewrite ksum_plus, ksum_scale_l, (delta_sum m j (fun k => ent A i k) Hj). reflexivity. }
    split; [rewrite E|rewrite E']; do 2 f_equal; apply (rows_eq n m); try assumption; intros i j Hi Hj; [change (ent J i j) with (nth j (nth i J []) 0); rewrite H by assumption|change (ent J' i j) with (nth j (nth i J' []) 0); rewrite H' by assumption]; rewrite !D by assumption; [field; exact Hh|]. unfold half. field. split; [exact Hh|exact two_neq].
  Qed.
  (** values of a wrong length *)
  Theorem C97_shape : forall (phi : list F -> list F) n k x h, x <> [] -> k <> n -> k <> 1%nat -> (forall y, length (phi y) = k) -> forward_difference_jacobian (fun y => Ok (Fresh (Vec (phi y)))) n x h = (Err ValueError, x) /\ central_difference_jacobian (fun y => Ok (Fresh (Vec (phi y)))) n x h = (Err ValueError, x).
  Proof.
    intros phi n k x h Hx Hk H1 Hl. destruct x as [|x0 x]; [contradiction|].
    assert (Q : forall u v, length u = k -> length v = k -> (let* q := quotient (x0 :: x) (Fresh (Vec u)) (Fresh (Vec v)) h in column_of n q) = Err ValueError).
    { intros u v Lu Lv. destruct (quotient_vec (x0 :: x) u v h ltac:(congruence)) as (w & -> & L & _). cbn [bind column_of]. rewrite L, Lu. destruct (Nat.eqb_spec k n); [contradiction|]. destruct (Nat.eqb_spec k 1); [contradiction|]. reflexivity. }
    split; [unfold forward_difference_jacobian|unfold central_difference_jacobian]; cbn [length seq].
    - eapply forward_jacobian_err; [cbn; lia|reflexivity|apply Q; apply Hl].
    - eapply central_jacobian_err; [cbn; lia|reflexivity|reflexivity|apply Q; apply Hl].
  Qed.
  (** one variable *)
  Theorem C97_univariate : forall (phi : F -> list F) n x h, (forall t, length (phi t) = n) -> exists J J', forward_difference_jacobian_univariate (fun t => Vec (phi t)) n x h = Ok J /\ central_difference_jacobian_univariate (fun t => Vec (phi t)) n x h = Ok J' /\ rows_of n 1 J /\ rows_of n 1 J' /\
    forall i, (i < n)%nat -> nth 0 (nth i J []) 0 = (nth i (phi (x + h)) 0 - nth i (phi x) 0) * (1 / h) /\ nth 0 (nth i J' []) 0 = (nth i (phi (x + half * h)) 0 - nth i (phi (x - half * h)) 0) * (1 / h).
  Proof.
    intros phi n x h Hn. assert (Q : forall u v, length u = n -> length v = n -> exists J, (let* d := np_add (Vec u) (np_neg (Vec v)) in let* c := column_of n (np_scale (1 / h) d) in Ok (of_cols n [c])) = Ok J /\ rows_of n 1 J /\ forall i, (i < n)%nat -> nth 0 (nth i J []) 0 = (nth i u 0 - nth i v 0) * (1 / h)).
    { intros u v Lu Lv. destruct (quotient_vec [] u v h ltac:(congruence)) as (w & E & L & H). unfold quotient, deref in E. destruct (np_add (Vec u) (np_neg (Vec v))) as [d|]; cbn [bind] in *; [|discriminate]. injection E as ->. cbn [column_of]. rewrite L, Lu, Nat.eqb_refl. cbn [bind]. exists (of_cols n [w]). split; [reflexivity|]. split; [apply transpose_rows; reflexivity|].
      intros i Hi. change (ent (transpose n [w]) i 0 = (nth i u 0 - nth i v 0) * (1 / h)). rewrite ent_transpose by exact Hi. apply H. rewrite Lu. exact Hi. }
    destruct (Q (phi (x + h)) (phi x) (Hn _) (Hn _)) as (J & E & R & H). destruct (Q (phi (x + half * h)) (phi (x - half * h)) (Hn _) (Hn _)) as (J' & E' & R' & H'). exists J, J'. split; [exact E|]. split; [exact E'|]. split; [exact R|]. split; [exact R'|]. intros i Hi. split; [apply H|apply H']; exact Hi.
  Qed.
  (** A function that returns its argument has the identity matrix as Jacobian,
      but as the argument is changed in place the differences are zero. *)
  Theorem C97_identity_refuted : forall (x : list F) h, x <> [] -> exists J J', forward_difference_jacobian (fun _ => Ok Argument) (length x) x h = (Ok J, x) /\ central_difference_jacobian (fun _ => Ok Argument) (length x) x h = (Ok J', x) /\
    forall i j, (i < length x)%nat -> (j < length x)%nat -> nth j (nth i J []) 0 = 0 /\ nth j (nth i J' []) 0 = 0.
  Proof.
    intros x h Hx. set (n := length x). destruct (quotient_vec x x x h eq_refl) as (w & E & L & H). assert (Ec : column_of n (Vec w) = Ok w) by (cbn [column_of]; rewrite L; fold n; rewrite Nat.eqb_refl; reflexivity).
    assert (Z : forall i, (i < n)%nat -> nth i w 0 = 0) by (intros i Hi; rewrite H by exact Hi; ring).
    exists (of_cols n (map (fun _ => w) (seq 0 n))), (of_cols n (map (fun _ => w) (seq 0 n))). split; [|split].
    - unfold forward_difference_jacobian. apply (forward_jacobian_ok _ n h Argument x (fun _ => w) (seq 0 n) []). intros j Hj. apply in_seq in Hj. split; [fold n; lia|]. exists Argument, (Vec w). split; [reflexivity|]. split; [exact E|exact Ec].
    - unfold central_difference_jacobian. apply (central_jacobian_ok _ n h x (fun _ => w) (seq 0 n) []). intros j Hj. apply in_seq in Hj. split; [fold n; lia|]. exists Argument, Argument, (Vec w). split; [reflexivity|]. split; [reflexivity|]. split; [exact E|exact Ec].
    - intros i j Hi Hj. assert (K : nth j (nth i (of_cols n (map (fun _ => w) (seq 0 n))) []) 0 = 0) by (change (ent (transpose n (map (fun _ => w) (seq 0 n))) i j = 0); rewrite ent_transpose by exact Hi; unfold ent; rewrite (nth_map_seq0 (fun _ => w)) by exact Hj; apply Z, Hi). split; exact K.
  Qed.

  (** ** C98: Hessians *)
  Lemma forward_entry_eq (f : list F -> F) x h i j : (i < length x)%nat -> (j < length x)%nat -> forward_entry f x h (unit (length x) i) (unit (length x) j) = (f (shift (shift x i h) j h) - f (shift x i h) - f (shift x j h) + f x) * (1 / kpow h 2).
  Proof.
    intros Hi Hj. unfold forward_entry. rewrite !one_shift by assumption. rewrite (two_shifts x i j _ h h Hi Hj); [reflexivity|]. apply (vec_ext _ _ (length x)); [rewrite vscale_length, vadd_length; rewrite ?unit_length; reflexivity|rewrite vadd_length; rewrite !vscale_length, ?unit_length; reflexivity|].
    intros l Hl. rewrite nth_vscale, !nth_vadd, !nth_vscale by (rewrite ?vscale_length, ?unit_length; reflexivity). ring.
  Qed.
  Lemma central_entry_eq (f : list F -> F) x h i j : (i < length x)%nat -> (j < length x)%nat -> let k := half * h in central_entry f x h (unit (length x) i) (unit (length x) j) =
    (f (shift (shift x i k) j k) - f (shift (shift x i k) j (- k)) - f (shift (shift x i (- k)) j k) + f (shift (shift x i (- k)) j (- k))) * (1 / kpow h 2).
  Proof.
    intros Hi Hj k. unfold central_entry. fold k. set (n := length x) in *.
    assert (Lu : forall i, length (unit (F := F) n i) = n) by (intros; apply unit_length). assert (LA : forall u v : list F, length u = n -> length v = n -> length (vadd u v) = n) by (intros; rewrite vadd_length; congruence). assert (LS : forall u v : list F, length u = n -> length v = n -> length (vsub u v) = n) by (intros; rewrite vsub_length; congruence).
    rewrite (two_shifts x i j (vscale k (vadd (unit n i) (unit n j))) k k Hi Hj). 2:{ apply (vec_ext _ _ n); [rewrite vscale_length; apply LA; apply Lu|apply LA; rewrite vscale_length; apply Lu|]. intros l Hl. fold n. rewrite nth_vscale, !nth_vadd, !nth_vscale by (rewrite ?vscale_length, !Lu; reflexivity). ring. }
    rewrite (two_shifts x i j (vscale k (vsub (unit n i) (unit n j))) k (- k) Hi Hj). 2:{ apply (vec_ext _ _ n); [rewrite vscale_length; apply LS; apply Lu|apply LA; rewrite vscale_length; apply Lu|]. intros l Hl. fold n. rewrite nth_vscale, nth_vsub, !nth_vadd, !nth_vscale by (rewrite ?vscale_length, !Lu; reflexivity). ring. }
    rewrite (two_shifts x i j (vscale k (vsub (unit n j) (unit n i))) (- k) k Hi Hj). 2:{ apply (vec_ext _ _ n); [rewrite vscale_length; apply LS; apply Lu|apply LA; rewrite vscale_length; apply Lu|]. intros l Hl. fold n. rewrite nth_vscale, nth_vsub, !nth_vadd, !nth_vscale by (rewrite ?vscale_length, !Lu; reflexivity). ring. }
    rewrite <- (two_shifts x i j _ (- k) (- k) Hi Hj eq_refl). fold n. do 3 f_equal. apply (vec_ext _ _ n); [apply LS; [reflexivity|rewrite vscale_length; apply LA; apply Lu]|apply LA; [reflexivity|apply LA; rewrite vscale_length; apply Lu]|]. intros l Hl.
    rewrite nth_vsub by (rewrite vscale_length, LA by apply Lu; reflexivity). rewrite nth_vadd by (rewrite LA by (rewrite vscale_length; apply Lu); reflexivity). rewrite nth_vscale, !nth_vadd, !nth_vscale by (rewrite ?vscale_length, !Lu; reflexivity). ring.
  Qed.
  (** The entries in terms of values of [f]; whatever [np.empty] returned is
      overwritten. *)
  Theorem C98_forward : forall init (f : list F -> F) x h, rows_of (length x) (length x) init -> rows_of (length x) (length x) (second_forward_difference init f x h) /\
    forall i j, (i < length x)%nat -> (j < length x)%nat -> nth j (nth i (second_forward_difference init f x h) []) 0 = (f (shift (shift x i h) j h) - f (shift x i h) - f (shift x j h) + f x) / kpow h 2.
  Proof.
    intros init f x h HI. unfold second_forward_difference. destruct (hessian_ok (forward_entry f x h) (length x) init HI) as [R H]. split; [exact R|]. intros i j Hi Hj. change (ent (hessian (forward_entry f x h) init (length x)) i j = (f (shift (shift x i h) j h) - f (shift x i h) - f (shift x j h) + f x) / kpow h 2). rewrite H by assumption. rewrite (kdiv_mul _ (kpow h 2)).
    destruct (Nat.le_ge_cases i j) as [L|L]; [rewrite Nat.min_l, Nat.max_r by exact L; apply forward_entry_eq; assumption|]. rewrite Nat.min_r, Nat.max_l by exact L. rewrite forward_entry_eq by assumption. rewrite (shift_comm x i j) by assumption. ring.
  Qed.
  Theorem C98_central : forall init (f : list F -> F) x h, rows_of (length x) (length x) init -> rows_of (length x) (length x) (second_central_difference init f x h) /\
    forall i j, (i < length x)%nat -> (j < length x)%nat -> let k := half * h in nth j (nth i (second_central_difference init f x h) []) 0 = (f (shift (shift x i k) j k) - f (shift (shift x i k) j (- k)) - f (shift (shift x i (- k)) j k) + f (shift (shift x i (- k)) j (- k))) / kpow h 2.
  Proof.
    intros init f x h HI. unfold second_central_difference. destruct (hessian_ok (central_entry f x h) (length x) init HI) as [R H]. split; [exact R|]. intros i j Hi Hj. cbv zeta. set (k := half * h). match goal with |- _ = ?r => change (ent (hessian (central_entry f x h) init (length x)) i j = r) end. rewrite H by assumption. rewrite (kdiv_mul _ (kpow h 2)).
    destruct (Nat.le_ge_cases i j) as [L|L]; [rewrite Nat.min_l, Nat.max_r by exact L; exact (central_entry_eq f x h i j Hi Hj)|]. rewrite Nat.min_r, Nat.max_l by exact L. rewrite (central_entry_eq f x h j i Hj Hi). fold k. rewrite !(shift_comm x i j) by assumption. ring.
  Qed.
  Lemma slope_shift a q x i s j : length x = length a -> (i < length x)%nat -> slope a q (shift x i s) j = slope a q x j + s * (q j i + q i j).
  Proof.
    intros L Hi. unfold slope. rewrite (ksum_ext _ (fun l => (q j l + q l j) * nth l x 0 + s * ((if (l =? i)%nat then 1 else 0) * (q j l + q l j)))) by (intros l _; rewrite nth_shift by exact Hi; destruct (l =? i)%nat; ring). rewrite ksum_plus, ksum_scale_l, (delta_sum (length a) i (fun l => q j l + q l j)) by congruence. ring.
  Qed.
  Lemma square_neq (h : F) : h <> 0 -> kpow h 2 <> 0.
  Proof. intros H. cbn [kpow]. intros E. destruct (kmul_integral _ _ E) as [K|K]; [contradiction|]. destruct (kmul_integral _ _ K) as [K'|K']; [contradiction|exact (k1_neq_0 (F := F) K')]. Qed.
  Theorem C98_quadratic : forall init c (a x : list F) q h, rows_of (length x) (length x) init -> length x = length a -> h <> 0 -> forall i j, (i < length x)%nat -> (j < length x)%nat ->
    nth j (nth i (second_forward_difference init (quadratic c a q) x h) []) 0 = q i j + q j i /\ nth j (nth i (second_central_difference init (quadratic c a q) x h) []) 0 = q i j + q j i.
  Proof.
    intros init c a x q h HI L Hh i j Hi Hj. pose proof (square_neq h Hh) as H2. split; [rewrite (proj2 (C98_forward init (quadratic c a q) x h HI) i j Hi Hj)|rewrite (proj2 (C98_central init (quadratic c a q) x h HI) i j Hi Hj)]; rewrite !quadratic_shift, !slope_shift by (rewrite ?shift_length; assumption); cbn [kpow] in *.
    - field. exact Hh.
    - unfold half. field. split; first [exact Hh|exact two_neq].
  Qed.
  (** Central differences are exact for cubic functions. *)
  Theorem C98_cubic : forall init (f : list F -> F) x h i j (c : nat -> nat -> F), rows_of (length x) (length x) init -> h <> 0 -> (i < length x)%nat -> (j < length x)%nat -> i <> j ->
    (forall s t, f (shift (shift x i s) j t) = ksum (seq 0 4) (fun a => ksum (seq 0 (4 - a)) (fun b => c a b * (kpow s a * kpow t b)))) -> nth j (nth i (second_central_difference init f x h) []) 0 = c 1%nat 1%nat.
  Proof.
    intros init f x h i j c HI Hh Hi Hj N H. rewrite (proj2 (C98_central init f x h HI) i j Hi Hj). cbv zeta. rewrite !H. unfold ksum. cbn [seq fold_right map Nat.sub kpow]. unfold half. field. split; first [exact Hh|exact two_neq].
  Qed.
  Theorem C98_cubic_diagonal : forall init (f : list F -> F) x h i (c : nat -> F), rows_of (length x) (length x) init -> h <> 0 -> (i < length x)%nat ->
    (forall s, f (shift x i s) = ksum (seq 0 4) (fun a => c a * kpow s a)) -> nth i (nth i (second_central_difference init f x h) []) 0 = (1 + 1) * c 2%nat.
  Proof.
    intros init f x h i c HI Hh Hi H. rewrite (proj2 (C98_central init f x h HI) i i Hi Hi). cbv zeta. rewrite !shift_add by exact Hi. rewrite !H. unfold ksum. cbn [seq fold_right map kpow]. unfold half. field. split; first [exact Hh|exact two_neq].
  Qed.
  (** The diagonal holds the second differences of functions of one variable. *)
  Theorem C98_diagonal : forall init (f : list F -> F) x h i, rows_of (length x) (length x) init -> (i < length x)%nat ->
    nth i (nth i (second_forward_difference init f x h) []) 0 = second_forward_difference_univariate (fun t => f (upd x i t)) (nth i x 0) h /\ nth i (nth i (second_central_difference init f x h) []) 0 = second_central_difference_univariate (fun t => f (upd x i t)) (nth i x 0) h.
  Proof.
    intros init f x h i HI Hi. rewrite (proj2 (C98_forward init f x h HI) i i Hi Hi), (proj2 (C98_central init f x h HI) i i Hi Hi). cbv zeta. rewrite !shift_add by exact Hi. unfold second_forward_difference_univariate, second_central_difference_univariate. rewrite upd_nth_same by exact Hi. split.
    - unfold shift. replace (nth i x 0 + (h + h)) with (nth i x 0 + (1 + 1) * h) by ring. f_equal. ring.
    - replace (half * h + - (half * h)) with (0 : F) by ring. replace (- (half * h) + half * h) with (0 : F) by ring. rewrite half_two, shift_0. replace (- (half * h) + - (half * h)) with (- h) by (rewrite <- (half_two h) at 1; ring). unfold shift. replace (nth i x 0 + - h) with (nth i x 0 - h) by ring. f_equal. ring.
  Qed.
  (** symmetry *)
  Theorem C98_symmetric : forall init (f : list F -> F) x h i j, rows_of (length x) (length x) init -> (i < length x)%nat -> (j < length x)%nat ->
    nth j (nth i (second_forward_difference init f x h) []) 0 = nth i (nth j (second_forward_difference init f x h) []) 0 /\ nth j (nth i (second_central_difference init f x h) []) 0 = nth i (nth j (second_central_difference init f x h) []) 0.
  Proof.
    intros init f x h i j HI Hi Hj. unfold second_forward_difference, second_central_difference.
    destruct (hessian_ok (forward_entry f x h) (length x) init HI) as [_ H]. destruct (hessian_ok (central_entry f x h) (length x) init HI) as [_ H']. pose proof (H i j Hi Hj) as A. pose proof (H j i Hj Hi) as B. pose proof (H' i j Hi Hj) as A'. pose proof (H' j i Hj Hi) as B'. unfold ent in A, B, A', B'. rewrite A, B, A', B', (Nat.min_comm j i), (Nat.max_comm j i). split; reflexivity.
  Qed.
End Exact.

(** ** Error bounds over the real numbers *)
Local Open Scope R_scope.
Lemma half_R (h : R) : (@half RF * h)%K = h / 2. Proof. unfold half. change (1 / (1 + 1) * h = h / 2). field. Qed.
Lemma forward_R f (x h : R) : forward_difference_univariate (F := RF) f x h = (f (x + h) - f x) / h. Proof. reflexivity. Qed.
Lemma central_R f (x h : R) : central_difference_univariate (F := RF) f x h = (f (x + h / 2) - f (x - h / 2)) / h.
Proof. unfold central_difference_univariate. rewrite half_R. reflexivity. Qed.
Lemma second_forward_R f (x h : R) : second_forward_difference_univariate (F := RF) f x h = (f (x + 2 * h) - 2 * f (x + h) + f x) / h ^ 2. Proof. reflexivity. Qed.
Lemma second_central_R f (x h : R) : second_central_difference_univariate (F := RF) f x h = (f (x + h) - 2 * f x + f (x - h)) / h ^ 2. Proof. reflexivity. Qed.
(** [f] has [n] derivatives in the interval, the last one bounded by [M] *)
Definition smooth (f : R -> R) (n : nat) (a b M : R) : Prop := (exists d, 0 < d /\ forall t k, a - d < t < b + d -> (k <= n)%nat -> ex_derive_n f k t) /\ forall t, a <= t <= b -> Rabs (Derive_n f n t) <= M.
Lemma taylor_right f n (x h M : R) : 0 < h -> smooth f (S n) x (x + h) M -> Rabs (f (x + h) - sum_f_R0 (fun m => h ^ m / INR (fact m) * Derive_n f m x) n) <= h ^ S n / INR (fact (S n)) * M.
Proof.
  intros Hh [(d & Hd & HD) HM]. destruct (Taylor_Lagrange f n x (x + h)) as (z & Hz & E); [lra|intros t Ht k Hk; apply HD; [lra|exact Hk]|]. replace (x + h - x) with h in E by ring. rewrite E.
  replace (_ - _) with (h ^ S n / INR (fact (S n)) * Derive_n f (S n) z) by ring. rewrite Rabs_mult. assert (P : 0 < h ^ S n / INR (fact (S n))) by (apply Rdiv_lt_0_compat; [apply pow_lt, Hh|apply INR_fact_lt_0]). rewrite (Rabs_pos_eq _ (Rlt_le _ _ P)). apply Rmult_le_compat_l; [apply Rlt_le, P|]. apply HM. lra.
Qed.
Lemma taylor_left f n (x h M : R) : 0 < h -> smooth f (S n) (x - h) x M -> Rabs (f (x - h) - sum_f_R0 (fun m => (- h) ^ m / INR (fact m) * Derive_n f m x) n) <= h ^ S n / INR (fact (S n)) * M.
Proof.
  intros Hh [(d & Hd & HD) HM].
  assert (Loc : forall t, x - h - d < - t < x + d -> forall n', (n' <= S n)%nat -> locally (- t) (fun y => forall k, (k <= n')%nat -> ex_derive_n f k y)).
  { intros t Ht n' Hn'. assert (P : 0 < Rmin (- t - (x - h - d)) (x + d - - t)) by (apply Rmin_pos; lra). exists (mkposreal _ P). intros y Hy k Hk. apply HD; [|lia]. change (Rabs (y - - t) < Rmin (- t - (x - h - d)) (x + d - - t)) in Hy. pose proof (Rmin_l (- t - (x - h - d)) (x + d - - t)). pose proof (Rmin_r (- t - (x - h - d)) (x + d - - t)). apply Rabs_def2 in Hy. lra. }
  destruct (Taylor_Lagrange (fun y => f (- y)) n (- x) (- x + h)) as (z & Hz & E); [lra|intros t Ht k Hk; apply ex_derive_n_comp_opp; apply Loc; [lra|exact Hk]|].
  replace (- x + h - - x) with h in E by ring. replace (- (- x + h)) with (x - h) in E by ring. rewrite E.
  assert (S1 : sum_f_R0 (fun m => h ^ m / INR (fact m) * Derive_n (fun y => f (- y)) m (- x)) n = sum_f_R0 (fun m => (- h) ^ m / INR (fact m) * Derive_n f m x) n).
  { apply sum_eq. intros m Hm. rewrite Derive_n_comp_opp by (apply Loc; [lra|lia]). rewrite Ropp_involutive. replace (- h) with (-1 * h) by ring. rewrite Rpow_mult_distr. unfold Rdiv. ring. }
  rewrite S1. replace (_ - _) with (h ^ S n / INR (fact (S n)) * Derive_n (fun y => f (- y)) (S n) z) by ring. rewrite Rabs_mult. assert (P : 0 < h ^ S n / INR (fact (S n))) by (apply Rdiv_lt_0_compat; [apply pow_lt, Hh|apply INR_fact_lt_0]). rewrite (Rabs_pos_eq _ (Rlt_le _ _ P)). apply Rmult_le_compat_l; [apply Rlt_le, P|].
  rewrite Derive_n_comp_opp by (apply Loc; [lra|lia]). rewrite Rabs_mult, pow_1_abs, Rmult_1_l. apply HM. lra.
Qed.
Lemma smooth_sub f n a b a' b' M : a <= a' -> b' <= b -> smooth f n a b M -> smooth f n a' b' M.
Proof. intros Ha Hb [(d & Hd & H) HM]. split; [exists d; split; [exact Hd|]; intros t k Ht Hk; apply H; [lra|exact Hk]|]. intros t Ht. apply HM. lra. Qed.
Lemma div_bound (a b e h : R) : 0 < h -> Rabs (a - b * h) <= e * h -> Rabs (a / h - b) <= e.
Proof. intros Hh H. replace (a / h - b) with ((a - b * h) * / h) by (field; lra). rewrite Rabs_mult, (Rabs_pos_eq (/ h)) by (apply Rlt_le, Rinv_0_lt_compat, Hh). apply (Rmult_le_reg_r h); [exact Hh|]. rewrite Rmult_assoc, Rinv_l by lra. lra. Qed.
(** The forward difference is of first order. *)
Theorem C96_forward_error : forall (f : R -> R) (x h M : R), 0 < h -> smooth f 2 x (x + h) M -> Rabs (forward_difference_univariate (F := RF) f x h - Derive f x) <= M / 2 * h.
Proof.
  intros f x h M Hh HS. rewrite forward_R. pose proof (taylor_right f 1 x h M Hh HS) as T. cbn [sum_f_R0 fact INR Derive_n] in T. apply div_bound; [exact Hh|]. change (Derive (fun y => f y) x) with (Derive f x) in T. refine (Rle_trans _ _ _ (Req_le _ _ _) (Rle_trans _ _ _ T (Req_le _ _ _))); [f_equal; cbn; field|cbn; field].
Qed.
(** The central difference is of second order. *)
Theorem C96_central_error : forall (f : R -> R) (x h M : R), 0 < h -> smooth f 3 (x - h / 2) (x + h / 2) M -> Rabs (central_difference_univariate (F := RF) f x h - Derive f x) <= M / 24 * h ^ 2.
Proof.
  intros f x h M Hh HS. rewrite central_R. pose proof (taylor_right f 2 x (h / 2) M ltac:(lra) (smooth_sub f 3 (x - h / 2) (x + h / 2) x (x + h / 2) M ltac:(lra) ltac:(lra) HS)) as T1. pose proof (taylor_left f 2 x (h / 2) M ltac:(lra) (smooth_sub f 3 (x - h / 2) (x + h / 2) (x - h / 2) x M ltac:(lra) ltac:(lra) HS)) as T2.
  cbn [sum_f_R0] in T1, T2. change (Derive_n f 1 x) with (Derive f x) in *. change (Derive_n f 0 x) with (f x) in *. set (d2 := Derive_n f 2 x) in *. apply div_bound; [exact Hh|]. set (e1 := f (x + h / 2)) in *. set (e2 := f (x - h / 2)) in *. set (d1 := Derive f x) in *.
  match type of T1 with Rabs ?u <= ?v => set (r1 := u) in * end. match type of T2 with Rabs ?u <= ?v => set (r2 := u) in * end. replace (e1 - e2 - d1 * h) with (r1 - r2) by (unfold r1, r2; cbn; field). refine (Rle_trans _ _ _ (Rabs_triang r1 (- r2)) _). rewrite Rabs_Ropp. refine (Rle_trans _ _ _ (Rplus_le_compat _ _ _ _ T1 T2) (Req_le _ _ _)). cbn. field.
Qed.
(** Second differences. *)
Theorem C98_forward_error : forall (f : R -> R) (x h M : R), 0 < h -> smooth f 3 x (x + 2 * h) M -> Rabs (second_forward_difference_univariate (F := RF) f x h - Derive_n f 2 x) <= 5 / 3 * M * h.
Proof.
  intros f x h M Hh HS. rewrite second_forward_R. pose proof (taylor_right f 2 x h M Hh (smooth_sub f 3 x (x + 2 * h) x (x + h) M ltac:(lra) ltac:(lra) HS)) as T1. pose proof (taylor_right f 2 x (2 * h) M ltac:(lra) HS) as T2. cbn [sum_f_R0] in T1, T2. change (Derive_n f 1 x) with (Derive f x) in *. change (Derive_n f 0 x) with (f x) in *. set (d2 := Derive_n f 2 x) in *. set (d1 := Derive f x) in *.
  assert (H2 : 0 < h ^ 2) by (apply pow_lt; exact Hh). apply div_bound; [exact H2|]. set (e1 := f (x + h)) in *. set (e2 := f (x + 2 * h)) in *. match type of T1 with Rabs ?u <= ?v => set (r1 := u) in * end. match type of T2 with Rabs ?u <= ?v => set (r2 := u) in * end.
  replace (e2 - 2 * e1 + f x - d2 * h ^ 2) with (r2 + (- (2)) * r1) by (unfold r1, r2; cbn; field). refine (Rle_trans _ _ _ (Rabs_triang _ _) _). rewrite Rabs_mult, Rabs_Ropp, (Rabs_pos_eq 2) by lra. refine (Rle_trans _ _ _ (Rplus_le_compat _ _ _ _ T2 (Rmult_le_compat_l 2 _ _ ltac:(lra) T1)) (Req_le _ _ _)). cbn. field.
Qed.
Theorem C98_central_error : forall (f : R -> R) (x h M : R), 0 < h -> smooth f 4 (x - h) (x + h) M -> Rabs (second_central_difference_univariate (F := RF) f x h - Derive_n f 2 x) <= M / 12 * h ^ 2.
Proof.
  intros f x h M Hh HS. rewrite second_central_R. pose proof (taylor_right f 3 x h M Hh (smooth_sub f 4 (x - h) (x + h) x (x + h) M ltac:(lra) ltac:(lra) HS)) as T1. pose proof (taylor_left f 3 x h M Hh (smooth_sub f 4 (x - h) (x + h) (x - h) x M ltac:(lra) ltac:(lra) HS)) as T2. cbn [sum_f_R0] in T1, T2. change (Derive_n f 1 x) with (Derive f x) in *. change (Derive_n f 0 x) with (f x) in *. set (d2 := Derive_n f 2 x) in *. set (d1 := Derive f x) in *. set (d3 := Derive_n f 3 x) in *.
  assert (H2 : 0 < h ^ 2) by (apply pow_lt; exact Hh). apply div_bound; [exact H2|]. set (e1 := f (x + h)) in *. set (e2 := f (x - h)) in *. match type of T1 with Rabs ?u <= ?v => set (r1 := u) in * end. match type of T2 with Rabs ?u <= ?v => set (r2 := u) in * end.
  replace (e1 - 2 * f x + e2 - d2 * h ^ 2) with (r1 + r2) by (unfold r1, r2; cbn; field). refine (Rle_trans _ _ _ (Rabs_triang _ _) _). refine (Rle_trans _ _ _ (Rplus_le_compat _ _ _ _ T1 T2) (Req_le _ _ _)). cbn. field.
Qed.
(** Mixed second differences are values of the mixed derivative nearby. *)
Theorem C98_mixed : forall init (f : list R -> R) (x : list R) (h : R) i j (d1 d12 : R -> R -> R), rows_of (F := RF) (length x) (length x) init -> 0 < h -> (i < length x)%nat -> (j < length x)%nat ->
  let phi := fun s t : R => f (shift (F := RF) (shift (F := RF) x i s) j t) in (forall s t, - h <= s <= h -> - h <= t <= h -> is_derive (fun s => phi s t) s (d1 s t) /\ is_derive (fun t => d1 s t) t (d12 s t)) ->
  (exists s t, 0 < s < h /\ 0 < t < h /\ nth j (nth i (second_forward_difference (F := RF) init f x h) []) 0 = d12 s t) /\
  (exists s t, - (h / 2) < s < h / 2 /\ - (h / 2) < t < h / 2 /\ nth j (nth i (second_central_difference (F := RF) init f x h) []) 0 = d12 s t).
Proof.
  intros init f x h i j d1 d12 HI Hh Hi Hj phi HD.
  assert (MV : forall a b, - h <= a -> a < b -> b <= h -> exists s t, a < s < b /\ a < t < b /\ phi b b - phi b a - phi a b + phi a a = d12 s t * (b - a) ^ 2).
  { intros a b Ha Hab Hb. destruct (MVT_cor2 (fun s => phi s b - phi s a) (fun s => d1 s b - d1 s a) a b Hab) as (s & Es & Hs).
    - intros c Hc. apply is_derive_Reals. apply (is_derive_minus (V := R_NormedModule) (fun s => phi s b) (fun s => phi s a)); apply HD; lra.
    - destruct (MVT_cor2 (fun t => d1 s t) (fun t => d12 s t) a b Hab) as (t & Et & Ht).
      + intros c Hc. apply is_derive_Reals. apply HD; lra.
      + exists s, t. split; [exact Hs|]. split; [exact Ht|]. rewrite Et in Es. transitivity (phi b b - phi b a - (phi a b - phi a a)); [ring|]. rewrite Es. ring. }
  split.
  - destruct (MV 0 h ltac:(lra) Hh (Rle_refl h)) as (s & t & Hs & Ht & E). exists s, t. split; [exact Hs|]. split; [exact Ht|]. change (nth j (nth i (second_forward_difference (F := RF) init f x h) []) 0 = d12 s t) with (nth j (nth i (second_forward_difference (F := RF) init f x h) []) (k0 (f := RF)) = d12 s t). rewrite (proj2 (C98_forward (F := RF) init f x h HI) i j Hi Hj).
    assert (P0 : phi h 0 = f (shift (F := RF) x i h)) by (unfold phi; f_equal; apply (shift_0 (F := RF))). assert (P1 : phi 0 h = f (shift (F := RF) x j h)) by (unfold phi; do 2 f_equal; apply (shift_0 (F := RF))). assert (P2 : phi 0 0 = f x) by (unfold phi; rewrite (shift_0 (F := RF) (shift (F := RF) x i 0)); f_equal; apply (shift_0 (F := RF))).
    rewrite P0, P1, P2 in E. unfold phi in E. change (@kpow RF h 2) with (h ^ 2). change ((f (shift (F := RF) (shift (F := RF) x i h) j h) - f (shift (F := RF) x i h) - f (shift (F := RF) x j h) + f x) / h ^ 2 = d12 s t). rewrite E. field. lra.
  - destruct (MV (- (h / 2)) (h / 2) ltac:(lra) ltac:(lra) ltac:(lra)) as (s & t & Hs & Ht & E). exists s, t. split; [exact Hs|]. split; [exact Ht|]. change (nth j (nth i (second_central_difference (F := RF) init f x h) []) 0 = d12 s t) with (nth j (nth i (second_central_difference (F := RF) init f x h) []) (k0 (f := RF)) = d12 s t). rewrite (proj2 (C98_central (F := RF) init f x h HI) i j Hi Hj). cbv zeta. rewrite half_R.
    unfold phi in E. change ((f (shift (F := RF) (shift (F := RF) x i (h / 2)) j (h / 2)) - f (shift (F := RF) (shift (F := RF) x i (h / 2)) j (- (h / 2))) - f (shift (F := RF) (shift (F := RF) x i (- (h / 2))) j (h / 2)) + f (shift (F := RF) (shift (F := RF) x i (- (h / 2))) j (- (h / 2)))) / h ^ 2 = d12 s t). rewrite E. field. lra.
Qed.
Print Assumptions C96_forward.
Print Assumptions C96_central.
Print Assumptions C96_coordinate.
Print Assumptions C96_forward_affine.
Print Assumptions C96_central_quadratic.
Print Assumptions C96_forward_exception.
Print Assumptions C96_central_exception.
Print Assumptions C96_discrete.
Print Assumptions C96_forward_error.
Print Assumptions C96_central_error.
Print Assumptions C97_jacobian.
Print Assumptions C97_rows.
Print Assumptions C97_linear.
Print Assumptions C97_shape.
Print Assumptions C97_univariate.
Print Assumptions C97_identity_refuted.
Print Assumptions C98_forward.
Print Assumptions C98_central.
Print Assumptions C98_quadratic.
Print Assumptions C98_cubic.
Print Assumptions C98_cubic_diagonal.
Print Assumptions C98_diagonal.
Print Assumptions C98_symmetric.
Print Assumptions C98_forward_error.
Print Assumptions C98_central_error.
Print Assumptions C98_mixed.

(** The logarithm-like function that fails for a second coordinate above 2. *)
Definition bounded (y : list RF) : result RF := if Rle_dec (nth 1 y 0) 2 then Ok (nth 0 y 0) else Err ValueError.
(** After an exception the argument of the caller is not what it was. *)
Theorem C96_exception_refuted : exists (f : list RF -> result RF) (x : list RF) (h : RF) e x', forward_difference f x h = (Err e, x') /\ x' <> x.
Proof.
  exists bounded, [1; 2], 1, ValueError, [1; 3].
  rewrite (C96_forward_exception bounded [1; 2] 1 1 (fun _ => 2) 1 ValueError).
  - split; [|intros H; injection H; lra]. unfold shift. cbn. repeat f_equal. change (2 + 1 = 3 :> R). ring.
  - cbn. lia.
  - unfold bounded. cbn. destruct (Rle_dec 2 2); [reflexivity|lra].
  - intros l Hl. assert (l = 0)%nat by lia. subst l. unfold bounded, shift. cbn. destruct (Rle_dec 2 2); [|lra]. reflexivity.
  - unfold bounded. destruct (Rle_dec _ _) as [H|H]; [|reflexivity]. exfalso. change (nth 1 (shift (F := RF) [1; 2] 1 1) 0) with (2 + 1) in H. lra.
Qed.
Print Assumptions C96_exception_refuted.
Example C96_example_affine : forward_difference (F := RF) (fun y => Ok (@kadd RF 5 (dot (F := RF) [2; 3] y))) [1; 4] (1 / 8) = (Ok [2; 3], [1; 4]).
Proof. apply (C96_forward_affine (F := RF)); [reflexivity|]. change (1 / 8 <> 0). lra. Qed.
(** 2 x^2 + 3 x y at (1, 4) *)
Definition entries (i j : nat) : R := match i, j with O, O => 2 | O, S O => 3 | _, _ => 0 end.
Definition coefs (a b : nat) : R := match a, b with O, O => 4 | S O, O => 8 | S (S O), O => 4 | O, S O => 1 | S O, S O => 2 | S (S O), S O => 1 | _, _ => 0 end.
Example C96_example_quadratic : exists g, central_difference (F := RF) (fun y => Ok (quadratic (F := RF) 0 [0; 0] entries y)) [1; 4] (1 / 8) = (Ok g, [1; 4]) /\ g = [16; 3].
Proof.
  rewrite (C96_central_quadratic (F := RF)); [|reflexivity|change (1 / 8 <> 0); lra]. eexists. split; [reflexivity|]. unfold slope, ksum. cbn. repeat f_equal; [change (0 + ((2 + 2) * 1 + ((3 + 0) * 4 + 0)) = 16)|change (0 + ((0 + 3) * 1 + ((0 + 0) * 4 + 0)) = 3)]; ring.
Qed.
Lemma smooth_exp n a b : smooth exp n a b (exp b).
Proof.
  assert (D : forall k t, is_derive_n exp k t (exp t)) by (intros; apply is_derive_n_exp). split.
  - exists 1. split; [lra|]. intros t k _ _. destruct k; [exact I|]. exists (exp t). apply (D (S k)).
  - intros t Ht. rewrite (is_derive_n_unique _ _ _ _ (D n t)). rewrite Rabs_pos_eq by (apply Rlt_le, exp_pos). destruct (Rle_lt_or_eq_dec t b ltac:(lra)) as [H|H]; [apply Rlt_le, exp_increasing, H|rewrite H; apply Rle_refl].
Qed.
Example C96_example_error : Rabs (forward_difference_univariate (F := RF) exp 0 (1 / 100) - Derive exp 0) <= exp (0 + 1 / 100) / 2 * (1 / 100) /\ Rabs (central_difference_univariate (F := RF) exp 0 (1 / 100) - Derive exp 0) <= exp (0 + 1 / 100 / 2) / 24 * (1 / 100) ^ 2.
Proof. split; [apply C96_forward_error|apply C96_central_error]; try lra; apply smooth_exp. Qed.
Example C97_example_linear : forward_difference_jacobian (F := RF) (fun y => Ok (Fresh (Vec (F := RF) (mat_vec (F := RF) [[1; 2; 3]; [4; 5; 6]] y)))) 2 [1; 0; 7] (1 / 2) = (Ok [[1; 2; 3]; [4; 5; 6]], [1; 0; 7]).
Proof. eapply proj1,  (C97_linear (F := RF) 2 3); [change (1 / 2 <> 0); lra|split; [reflexivity|intros r [<-|[<-|[]]]; reflexivity]|reflexivity]. Qed.
Example C97_example_shape : forward_difference_jacobian (F := RF) (fun y => Ok (Fresh (Vec (F := RF) [1; 2; 3]))) 2 [1] 1 = (Err ValueError, [1]).
Proof. eapply proj1,  (C97_shape (F := RF) (fun _ => [1; 2; 3]) 2 3); [discriminate|discriminate|discriminate|reflexivity]. Qed.
Example C97_example_identity : exists J J', forward_difference_jacobian (F := RF) (fun _ => Ok Argument) 1 [5] 1 = (Ok J, [5]) /\ central_difference_jacobian (F := RF) (fun _ => Ok Argument) 1 [5] 1 = (Ok J', [5]) /\ nth 0 (nth 0 J []) (k0 (f := RF)) = k0 (f := RF).
Proof. destruct (C97_identity_refuted (F := RF) [5] 1 ltac:(discriminate)) as (J & J' & E & E' & H). exists J, J'. split; [exact E|]. split; [exact E'|]. apply H; cbn; lia. Qed.
Example C97_example_univariate : exists J J', forward_difference_jacobian_univariate (F := RF) (fun t => Vec (F := RF) [t; t * t]) 2 3 1 = Ok J /\ central_difference_jacobian_univariate (F := RF) (fun t => Vec (F := RF) [t; t * t]) 2 3 1 = Ok J' /\ nth 0 (nth 1 J []) (k0 (f := RF)) = 7 /\ nth 0 (nth 1 J' []) (k0 (f := RF)) = 6.
Proof.
  destruct (C97_univariate (F := RF) (fun t : RF => [t; t * t]) 2 3 1 ltac:(reflexivity)) as (J & J' & E & E' & _ & _ & H). exists J, J'. split; [exact E|]. split; [exact E'|]. destruct (H 1%nat ltac:(lia)) as [H1 H2]. rewrite H1, H2. rewrite half_R. split; [change (((3 + 1) * (3 + 1) - 3 * 3) * (1 / 1) = 7); field|]. change (((3 + 1 / 2) * (3 + 1 / 2) - (3 - 1 / 2) * (3 - 1 / 2)) * (1 / 1) = 6). field.
Qed.
Definition garbage : list (list RF) := [[7; 7]; [7; 7]].
Lemma garbage_rows : rows_of (F := RF) 2 2 garbage. Proof. split; [reflexivity|intros r [<-|[<-|[]]]; reflexivity]. Qed.
Example C98_example_quadratic : nth 1 (nth 0 (second_forward_difference (F := RF) garbage (quadratic (F := RF) 0 [0; 0] entries) [1; 4] (1 / 8)) []) (k0 (f := RF)) = 3.
Proof. rewrite (proj1 (C98_quadratic (F := RF) garbage 0 [0; 0] [1; 4] _ (1 / 8) garbage_rows eq_refl ltac:(change (1 / 8 <> 0); lra) 0 1 ltac:(cbn; lia) ltac:(cbn; lia))). change (3 + 0 = 3). ring. Qed.
(** x^2 y at (1, 4): the mixed derivative is 2 x *)
Example C98_example_cubic : nth 1 (nth 0 (second_central_difference (F := RF) garbage (fun y => nth 0 y 0 * nth 0 y 0 * nth 1 y 0) [1; 4] (1 / 8)) []) (k0 (f := RF)) = 2.
Proof.
  apply (C98_cubic (F := RF) garbage _ [1; 4] (1 / 8) 0 1 coefs); [exact garbage_rows|change (1 / 8 <> 0); lra|cbn; lia|cbn; lia|discriminate|].
  intros s t. unfold shift, ksum. cbn [upd nth seq fold_right map Nat.sub kpow].
  change ((1 + s) * (1 + s) * (4 + t) = 4 * (1 * 1) + (1 * (1 * (t * 1)) + (0 * (1 * (t * (t * 1))) + (0 * (1 * (t * (t * (t * 1)))) + 0))) + ((8 * (s * 1 * 1) + (2 * (s * 1 * (t * 1)) + (0 * (s * 1 * (t * (t * 1))) + 0))) + ((4 * (s * (s * 1) * 1) + (1 * (s * (s * 1) * (t * 1)) + 0)) + ((0 * (s * (s * (s * 1)) * 1) + 0) + 0)))). ring.
Qed.
Example C98_example_error : Rabs (second_central_difference_univariate (F := RF) exp 0 (1 / 100) - Derive_n exp 2 0) <= exp (0 + 1 / 100) / 12 * (1 / 100) ^ 2 /\ Rabs (second_forward_difference_univariate (F := RF) exp 0 (1 / 100) - Derive_n exp 2 0) <= 5 / 3 * exp (0 + 2 * (1 / 100)) * (1 / 100).
Proof. split; [apply C98_central_error|apply C98_forward_error]; try lra; apply smooth_exp. Qed.
(** exp (x + 2 y) *)
Example C98_example_mixed : exists s t, 0 < s < 1 / 10 /\ 0 < t < 1 / 10 /\ nth 1 (nth 0 (second_forward_difference (F := RF) garbage (fun y => exp (nth 0 y 0 + 2 * nth 1 y 0)) [0; 0] (1 / 10)) []) 0 = 2 * exp (s + 2 * t).
Proof.
  eapply proj1, (C98_mixed garbage (fun y => exp (nth 0 y 0 + 2 * nth 1 y 0)) [0; 0] (1 / 10) 0 1 (fun s t => exp (s + 2 * t)) (fun s t => 2 * exp (s + 2 * t)) garbage_rows ltac:(lra) ltac:(cbn; lia) ltac:(cbn; lia)).
  intros s t Hs Ht. unfold shift. cbn [upd nth]. split.
  - change (is_derive (fun s => exp ((0 + s) + 2 * (0 + t))) s (exp (s + 2 * t))). auto_derive; [exact I|]. replace (0 + s + 2 * (0 + t)) with (s + 2 * t) by ring. ring.
  - auto_derive; [exact I|]. ring.
Qed.
