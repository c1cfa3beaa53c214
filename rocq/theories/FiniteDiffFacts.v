(** Facts about FiniteDiff.v. *)
From Verif Require Import Base Fld FldInst MultiIndex LinSolve PolyEval Det Linalg VecFacts FiniteDiff.
From Coq Require Import Field_theory Field.

Section Facts.
  Context {F : fld}.
  Add Field Kfield81 : (kth F).
  Local Open Scope fld_scope.
  (** [x] with [s] added to coordinate [i] *)
  Definition shift (x : list F) (i : nat) (s : F) : list F := upd x i (nth i x 0 + s).
  Lemma upd_twice {A} (l : list A) i a b : upd (upd l i a) i b = upd l i b.
  Proof. revert i. induction l as [|y l IH]; intros [|i]; cbn [upd]; try reflexivity. rewrite IH. reflexivity. Qed.
  Lemma upd_back (x : list F) i v : (i < length x)%nat -> upd (upd x i v) i (nth i x 0) = x.
  Proof. intros Hi. rewrite upd_twice. apply upd_nth_same, Hi. Qed.
  Lemma upd_ext {A} (l : list A) i v w : v = w -> upd l i v = upd l i w. Proof. intros ->. reflexivity. Qed.

  (** ** Gradients *)
  Lemma forward_loop_ok (f : list F -> result F) h f0 x (v : nat -> F) : forall is_ g, (forall i, In i is_ -> (i < length x)%nat /\ f (shift x i h) = Ok (v i)) ->
    forward_loop f h f0 is_ x g = (Ok (g ++ map (fun i => (v i - f0) / h) is_), x).
  Proof.
    induction is_ as [|i is_ IH]; intros g H; cbn [forward_loop map]; [rewrite app_nil_r; reflexivity|]. destruct (H i (or_introl eq_refl)) as [Hi E]. fold (shift x i h). rewrite E. unfold shift. rewrite upd_back by exact Hi.
    rewrite IH by (intros; apply H; right; assumption). rewrite <- app_assoc. reflexivity.
  Qed.
  Lemma forward_loop_err (f : list F -> result F) h f0 x (v : nat -> F) e i post : forall pre g, (forall l, In l pre -> (l < length x)%nat /\ f (shift x l h) = Ok (v l)) -> f (shift x i h) = Err e ->
    forward_loop f h f0 (pre ++ i :: post) x g = (Err e, shift x i h).
  Proof.
    induction pre as [|l pre IH]; intros g H E; cbn [forward_loop app]; [fold (shift x i h); rewrite E; reflexivity|]. destruct (H l (or_introl eq_refl)) as [Hl El]. fold (shift x l h). rewrite El. unfold shift at 1. rewrite upd_back by exact Hl. apply IH; [intros; apply H; right; assumption|exact E].
  Qed.
  Lemma central_step (x : list F) i (h : F) : upd (shift x i (half * h)) i (nth i x 0 - half * h) = shift x i (- (half * h)).
  Proof. unfold shift. rewrite upd_twice. apply upd_ext. ring. Qed.
  Lemma central_loop_ok (f : list F -> result F) h x (vp vm : nat -> F) : forall is_ g, (forall i, In i is_ -> (i < length x)%nat /\ f (shift x i (half * h)) = Ok (vp i) /\ f (shift x i (- (half * h))) = Ok (vm i)) ->
    central_loop f h is_ x g = (Ok (g ++ map (fun i => (vp i - vm i) / h) is_), x).
  Proof.
    induction is_ as [|i is_ IH]; intros g H; cbn [central_loop map]; [rewrite app_nil_r; reflexivity|]. destruct (H i (or_introl eq_refl)) as (Hi & E & E'). fold (shift x i (half * h)). rewrite E, central_step, E'. unfold shift. rewrite upd_back by exact Hi.
    rewrite IH by (intros; apply H; right; assumption). rewrite <- app_assoc. reflexivity.
  Qed.
  Lemma central_loop_err (f : list F -> result F) h x (vp vm : nat -> F) e i post y : forall pre g, (forall l, In l pre -> (l < length x)%nat /\ f (shift x l (half * h)) = Ok (vp l) /\ f (shift x l (- (half * h))) = Ok (vm l)) ->
    (f (shift x i (half * h)) = Err e /\ y = shift x i (half * h)) \/ (f (shift x i (half * h)) = Ok (vp i) /\ f (shift x i (- (half * h))) = Err e /\ y = shift x i (- (half * h))) ->
    central_loop f h (pre ++ i :: post) x g = (Err e, y).
  Proof.
    induction pre as [|l pre IH]; intros g H E; cbn [central_loop app].
    - fold (shift x i (half * h)). destruct E as [[E ->]|(E & E' & ->)]; rewrite E; [reflexivity|]. rewrite central_step, E'. reflexivity.
    - destruct (H l (or_introl eq_refl)) as (Hl & El & El'). fold (shift x l (half * h)). rewrite El, central_step, El'. unfold shift at 1. rewrite upd_back by exact Hl. apply IH; [intros; apply H; right; assumption|exact E].
  Qed.

  (** ** Jacobians *)
  Lemma forward_jacobian_ok (f : list F -> result ret) n h f0 x (c : nat -> list F) : forall js cols,
    (forall j, In j js -> (j < length x)%nat /\ exists r q, f (shift x j h) = Ok r /\ quotient x r f0 h = Ok q /\ column_of n q = Ok (c j)) ->
    forward_jacobian_loop f n h f0 js x cols = (Ok (of_cols n (cols ++ map c js)), x).
  Proof.
    induction js as [|j js IH]; intros cols H; cbn [forward_jacobian_loop map]; [rewrite app_nil_r; reflexivity|]. destruct (H j (or_introl eq_refl)) as (Hj & r & q & E1 & E2 & E3). fold (shift x j h). rewrite E1. unfold shift. rewrite upd_back by exact Hj. rewrite E2. cbn [bind]. rewrite E3.
    rewrite IH by (intros; apply H; right; assumption). rewrite <- app_assoc. reflexivity.
  Qed.
  Lemma central_jacobian_ok (f : list F -> result ret) n h x (c : nat -> list F) : forall js cols,
    (forall j, In j js -> (j < length x)%nat /\ exists r r' q, f (shift x j (half * h)) = Ok r /\ f (shift x j (- (half * h))) = Ok r' /\ quotient x r r' h = Ok q /\ column_of n q = Ok (c j)) ->
    central_jacobian_loop f n h js x cols = (Ok (of_cols n (cols ++ map c js)), x).
  Proof.
    induction js as [|j js IH]; intros cols H; cbn [central_jacobian_loop map]; [rewrite app_nil_r; reflexivity|]. destruct (H j (or_introl eq_refl)) as (Hj & r & r' & q & E1 & E1' & E2 & E3). fold (shift x j (half * h)). rewrite E1, central_step, E1'. unfold shift. rewrite upd_back by exact Hj. rewrite E2. cbn [bind]. rewrite E3.
    rewrite IH by (intros; apply H; right; assumption). rewrite <- app_assoc. reflexivity.
  Qed.
  Lemma forward_jacobian_err (f : list F -> result ret) n h f0 x j js cols r e : (j < length x)%nat -> f (shift x j h) = Ok r -> (let* q := quotient x r f0 h in column_of n q) = Err e ->
    forward_jacobian_loop f n h f0 (j :: js) x cols = (Err e, x).
  Proof. intros Hj E1 E2. cbn [forward_jacobian_loop]. fold (shift x j h). rewrite E1. unfold shift. rewrite upd_back by exact Hj. rewrite E2. reflexivity. Qed.
  Lemma central_jacobian_err (f : list F -> result ret) n h x j js cols r r' e : (j < length x)%nat -> f (shift x j (half * h)) = Ok r -> f (shift x j (- (half * h))) = Ok r' -> (let* q := quotient x r r' h in column_of n q) = Err e ->
    central_jacobian_loop f n h (j :: js) x cols = (Err e, x).
  Proof. intros Hj E1 E1' E2. cbn [central_jacobian_loop]. fold (shift x j (half * h)). rewrite E1, central_step, E1'. unfold shift. rewrite upd_back by exact Hj. rewrite E2. reflexivity. Qed.
  Lemma quotient_vec x (u v : list F) h : length u = length v -> exists w, quotient x (Fresh (Vec u)) (Fresh (Vec v)) h = Ok (Vec w) /\ length w = length u /\ forall i, (i < length u)%nat -> nth i w 0 = (nth i u 0 - nth i v 0) * (1 / h).
  Proof.
    intros L. unfold quotient, np_neg, np_scale, np_add, bcast, deref. rewrite map_length, L, Nat.eqb_refl. cbn [bind]. eexists. split; [reflexivity|]. split; [rewrite !map_length, combine_length, map_length, L; lia|].
    intros i Hi. rewrite (nth_indep _ 0 (1 / h * 0)) by (rewrite !map_length, combine_length, map_length; lia). rewrite (map_nth (fun y => 1 / h * y)). rewrite (nth_indep _ 0 (fst ((0 : F), (0 : F)) + snd ((0 : F), (0 : F)))) by (rewrite map_length, combine_length, map_length; lia). rewrite (map_nth (fun p => fst p + snd p)).
    rewrite combine_nth by (rewrite map_length; exact L). cbn [fst snd]. rewrite (nth_indep (map _ v) 0 (- (1) * 0)) by (rewrite map_length; lia). rewrite (map_nth (fun y => - (1) * y)). ring.
  Qed.

  (** ** Hessians *)
  Definition unit (n i : nat) : list F := upd (repeat 0 n) i 1.
  Lemma unit_length n i : length (unit n i) = n. Proof. unfold unit. rewrite upd_length, repeat_length. reflexivity. Qed.
  Lemma nth_unit n i j : (i < n)%nat -> nth j (unit n i) 0 = if (j =? i)%nat then 1 else 0.
  Proof. intros Hi. unfold unit. destruct (Nat.eqb_spec j i) as [->|N]; [apply nth_upd_same; rewrite repeat_length; exact Hi|]. rewrite nth_upd_other by congruence. apply nth_repeat. Qed.
  Lemma unit_reset n i : (i < n)%nat -> upd (unit n i) i 0 = repeat 0 n.
  Proof. intros Hi. unfold unit. rewrite upd_twice. transitivity (upd (repeat (0 : F) n) i (nth i (repeat 0 n) 0)); [rewrite nth_repeat; reflexivity|]. apply upd_nth_same. rewrite repeat_length. exact Hi. Qed.
  Lemma set_entry_ok n (m : list (list F)) i j v : rows_of n n m -> (i < n)%nat -> (j < n)%nat -> rows_of n n (set_entry m i j v) /\ forall a b, ent (set_entry m i j v) a b = if ((a =? i) && (b =? j))%nat%bool then v else ent m a b.
  Proof.
    intros Hm Hi Hj. pose proof Hm as [L R]. assert (Lr : length (nth i m []) = n) by (apply (rows_len n n); assumption). unfold set_entry. split.
    - split; [rewrite upd_length; exact L|]. intros r Hr. apply (In_nth _ _ []) in Hr as (a & Ha & <-). rewrite upd_length in Ha. destruct (Nat.eq_dec i a) as [<-|N]; [rewrite nth_upd_same by lia; rewrite upd_length; exact Lr|rewrite nth_upd_other by exact N; apply R, nth_In; exact Ha].
    - intros a b. unfold ent. destruct (Nat.eqb_spec a i) as [->|N]; cbn [andb]; [|rewrite nth_upd_other by congruence; reflexivity]. rewrite nth_upd_same by lia. destruct (Nat.eqb_spec b j) as [->|N]; [apply nth_upd_same; lia|apply nth_upd_other; congruence].
  Qed.
  Lemma inner_ok entry n i : (i < n)%nat -> forall k s M, (i <= s)%nat -> (s + k <= n)%nat -> rows_of n n M -> exists M', fold_left (hessian_inner entry i (unit n i)) (seq s k) (M, repeat 0 n) = (M', repeat 0 n) /\ rows_of n n M' /\
    forall a b, ent M' a b = if ((a =? i) && (s <=? b) && (b <? s + k))%nat%bool then entry (unit n i) (unit n b) else if ((b =? i) && (s <=? a) && (a <? s + k))%nat%bool then entry (unit n i) (unit n a) else ent M a b.
  Proof.
    intros Hi. induction k as [|k IH]; intros s M His Hs HM; cbn [seq fold_left].
    - exists M. split; [reflexivity|]. split; [exact HM|]. intros a b. destruct (Nat.leb_spec s b), (Nat.ltb_spec b (s + 0)), (Nat.leb_spec s a), (Nat.ltb_spec a (s + 0)); rewrite ?andb_false_r; try reflexivity; lia.
    - unfold hessian_inner at 2. fold (unit n s). rewrite unit_reset by lia. destruct (set_entry_ok n M i s (entry (unit n i) (unit n s)) HM Hi ltac:(lia)) as [R1 E1]. set (M1 := set_entry M i s _) in *. clearbody M1.
      assert (S2 : exists M2, (if (i =? s)%nat then M1 else set_entry M1 s i (nth s (nth i M1 []) 0)) = M2 /\ rows_of n n M2 /\ forall a b, ent M2 a b = if ((a =? i) && (b =? s))%nat%bool then entry (unit n i) (unit n s) else if ((a =? s) && (b =? i))%nat%bool then entry (unit n i) (unit n s) else ent M a b).
      { destruct (Nat.eqb_spec i s) as [->|N].
        - exists M1. split; [reflexivity|]. split; [exact R1|]. intros a b. rewrite E1. destruct ((a =? s) && (b =? s))%nat%bool; reflexivity.
        - destruct (set_entry_ok n M1 s i (nth s (nth i M1 []) 0) R1 ltac:(lia) Hi) as [R2 E2]. eexists. split; [reflexivity|]. split; [exact R2|]. intros a b. rewrite E2. change (nth s (nth i M1 []) 0) with (ent M1 i s). rewrite !E1, !Nat.eqb_refl. cbn [andb].
          destruct (Nat.eqb_spec a s) as [->|]; destruct (Nat.eqb_spec b i) as [->|]; cbn [andb]; destruct (Nat.eqb_spec s i); try lia; cbn [andb]; try reflexivity; destruct ((a =? i) && _)%nat%bool; reflexivity. }
      destruct S2 as (M2 & -> & R2 & E2). destruct (IH (S s) M2 ltac:(lia) ltac:(lia) R2) as (M' & EM & RM & HM'). exists M'. split; [exact EM|]. split; [exact RM|]. intros a b. rewrite HM', E2.
      destruct (Nat.eqb_spec a i), (Nat.eqb_spec b i), (Nat.eqb_spec b s), (Nat.eqb_spec a s), (Nat.leb_spec (S s) b), (Nat.leb_spec s b), (Nat.ltb_spec b (S s + k)), (Nat.ltb_spec b (s + S k)), (Nat.leb_spec (S s) a), (Nat.leb_spec s a), (Nat.ltb_spec a (S s + k)), (Nat.ltb_spec a (s + S k)); cbn [andb]; try lia; try reflexivity; congruence.
  Qed.
  Lemma outer_ok entry n : forall k s M, (s + k <= n)%nat -> rows_of n n M -> exists M', fold_left (hessian_outer entry n) (seq s k) (M, repeat 0 n, repeat 0 n) = (M', repeat 0 n, repeat 0 n) /\ rows_of n n M' /\
    forall a b, (a < n)%nat -> (b < n)%nat -> ent M' a b = if ((s <=? Nat.min a b) && (Nat.min a b <? s + k))%nat%bool then entry (unit n (Nat.min a b)) (unit n (Nat.max a b)) else ent M a b.
  Proof.
    induction k as [|k IH]; intros s M Hs HM; cbn [seq fold_left].
    - exists M. split; [reflexivity|]. split; [exact HM|]. intros a b _ _. destruct (Nat.leb_spec s (Nat.min a b)), (Nat.ltb_spec (Nat.min a b) (s + 0)); cbn [andb]; try reflexivity; lia.
    - unfold hessian_outer at 2. fold (unit n s). destruct (inner_ok entry n s ltac:(lia) (n - s) s M ltac:(lia) ltac:(lia) HM) as (M1 & -> & R1 & E1). rewrite unit_reset by lia. destruct (IH (S s) M1 ltac:(lia) R1) as (M' & EM & RM & HM'). exists M'. split; [exact EM|]. split; [exact RM|]. intros a b Ha Hb. rewrite HM' by assumption. rewrite E1.
      replace (s + (n - s))%nat with n by lia. destruct (Nat.ltb_spec b n); [|lia]. destruct (Nat.ltb_spec a n); [|lia]. rewrite !andb_true_r.
      destruct (Nat.leb_spec (S s) (Nat.min a b)), (Nat.leb_spec s (Nat.min a b)), (Nat.ltb_spec (Nat.min a b) (S s + k)), (Nat.ltb_spec (Nat.min a b) (s + S k)), (Nat.eqb_spec a s), (Nat.eqb_spec b s), (Nat.leb_spec s b), (Nat.leb_spec s a); cbn [andb]; try lia; try reflexivity;
        try (replace (Nat.min a b) with s by lia; first [replace (Nat.max a b) with b by lia; reflexivity|replace (Nat.max a b) with a by lia; reflexivity]).
  Qed.
  Lemma hessian_ok entry n M : rows_of n n M -> rows_of n n (hessian entry M n) /\ forall a b, (a < n)%nat -> (b < n)%nat -> ent (hessian entry M n) a b = entry (unit n (Nat.min a b)) (unit n (Nat.max a b)).
  Proof.
    intros HM. unfold hessian. destruct (outer_ok entry n n 0 M ltac:(lia) HM) as (M' & -> & R & E). cbn [fst]. split; [exact R|]. intros a b Ha Hb. rewrite E by assumption. destruct (Nat.leb_spec 0 (Nat.min a b)), (Nat.ltb_spec (Nat.min a b) (0 + n)); cbn [andb]; try lia. reflexivity.
  Qed.
  (** the points at which [f] is evaluated *)
  Lemma shift_length x i s : length (shift x i s) = length x. Proof. apply upd_length. Qed.
  Lemma nth_shift x i s j : (i < length x)%nat -> nth j (shift x i s) 0 = nth j x 0 + (if (j =? i)%nat then s else 0).
  Proof. intros Hi. unfold shift. destruct (Nat.eqb_spec j i) as [->|N]; [apply nth_upd_same, Hi|]. rewrite nth_upd_other by congruence. ring. Qed.
  Lemma shift_comm x i j s t : (i < length x)%nat -> (j < length x)%nat -> shift (shift x i s) j t = shift (shift x j t) i s.
  Proof. intros Hi Hj. apply (vec_ext _ _ (length x)); [rewrite !shift_length; reflexivity..|]. intros l Hl. rewrite !nth_shift by (rewrite ?shift_length; assumption). ring. Qed.
  Lemma shift_add x i s t : (i < length x)%nat -> shift (shift x i s) i t = shift x i (s + t).
  Proof. intros Hi. apply (vec_ext _ _ (length x)); [rewrite !shift_length; reflexivity..|]. intros l Hl. rewrite !nth_shift by (rewrite ?shift_length; assumption). destruct (l =? i)%nat; ring. Qed.
  Lemma shift_0 x i : shift x i 0 = x.
  Proof. unfold shift. destruct (Nat.lt_ge_cases i (length x)) as [H|H]; [|apply upd_out, H]. replace (nth i x 0 + 0) with (nth i x 0) by ring. apply upd_nth_same, H. Qed.
  Lemma one_shift x i s : (i < length x)%nat -> vadd x (vscale s (unit (length x) i)) = shift x i s.
  Proof.
    intros Hi. apply (vec_ext _ _ (length x)); [apply vadd_length; rewrite vscale_length, unit_length; reflexivity|apply shift_length|]. intros l Hl. rewrite nth_vadd by (rewrite vscale_length, unit_length; reflexivity). rewrite nth_vscale, nth_unit, nth_shift by exact Hi. destruct (l =? i)%nat; ring.
  Qed.
  Lemma two_shifts x i j c s t : (i < length x)%nat -> (j < length x)%nat -> c = vadd (vscale s (unit (length x) i)) (vscale t (unit (length x) j)) -> vadd x c = shift (shift x i s) j t.
  Proof.
    intros Hi Hj ->. assert (L : forall u v : list F, length u = length x -> length v = length x -> length (vadd u v) = length x) by (intros; rewrite vadd_length; congruence). apply (vec_ext _ _ (length x)); [apply L; [reflexivity|apply L; rewrite vscale_length, unit_length; reflexivity]|rewrite !shift_length; reflexivity|]. intros l Hl.
    rewrite !nth_vadd by (rewrite ?L; rewrite ?vscale_length, ?unit_length; reflexivity). rewrite !nth_vscale, !nth_unit, !nth_shift by (rewrite ?shift_length; assumption). destruct (l =? i)%nat, (l =? j)%nat; ring.
  Qed.
End Facts.
