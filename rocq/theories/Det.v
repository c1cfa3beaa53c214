(** Determinants: a model of numpy.linalg.det in exact arithmetic (expansion
    along the first column), and the usual rules. *)
From Verif Require Import Base Fld LinSolve.
From Coq Require Import Field_theory Field.

(** Number [a] of the numbers other than [i]. *)
Definition skip (i a : nat) : nat := if a <? i then a else S a.
Lemma skip_lt i a n : a < n -> skip i a < S n. Proof. unfold skip. destruct (a <? i); lia. Qed.
Lemma skip_neq i a : skip i a <> i.
Proof. unfold skip. destruct (Nat.ltb_spec a i); lia. Qed.

Section Det.
  Context {F : fld}.
  Add Field Kfield40 : (kth F).
  Local Open Scope fld_scope.
  Notation matrix := (nat -> nat -> F).

  Definition sg (i : nat) : F := if Nat.even i then 1 else - (1).
  Fixpoint det (n : nat) (M : matrix) : F :=
    match n with
    | O => 1
    | S k => ksum (seq 0 n) (fun i => sg i * M i 0%nat * det k (fun a b => M (skip i a) (S b)))
    end.
  (** [np.linalg.det(a)] for the list of the rows of a square matrix *)
  Definition np_det (a : list (list F)) : F := det (length a) (fun i j => nth j (nth i a []) 0).

  Lemma sg_S i : sg (S i) = - sg i.
  Proof. unfold sg. rewrite Nat.even_succ, <- Nat.negb_even. destruct (Nat.even i); cbn [negb]; ring. Qed.
  Lemma sg_sq i : sg i * sg i = 1.
  Proof. unfold sg. destruct (Nat.even i); ring. Qed.
  Lemma det_S k M : det (S k) M = ksum (seq 0 (S k)) (fun i => sg i * M i 0%nat * det k (fun a b => M (skip i a) (S b))).
  Proof. reflexivity. Qed.

  Lemma det_ext n : forall M M' : matrix, (forall i j, (i < n)%nat -> (j < n)%nat -> M i j = M' i j) -> det n M = det n M'.
  Proof.
    induction n as [|n IH]; intros M M' H; [reflexivity|]. rewrite !det_S. apply ksum_ext. intros i Hi. apply in_seq in Hi.
    rewrite H by lia. f_equal. apply IH. intros a b Ha Hb. apply H; [apply skip_lt; exact Ha|lia].
  Qed.

  Definition setrow (M : matrix) (k : nat) (u : nat -> F) : matrix := fun i j => if (i =? k)%nat then u j else M i j.
  Lemma setrow_same M k u j : setrow M k u k j = u j. Proof. unfold setrow. rewrite Nat.eqb_refl. reflexivity. Qed.
  Lemma setrow_other M k u i j : i <> k -> setrow M k u i j = M i j.
  Proof. intros H. unfold setrow. apply Nat.eqb_neq in H. rewrite H. reflexivity. Qed.

  (** row [k] of the minor without row [i <> k] *)
  Definition pre (i k : nat) : nat := if (k <? i)%nat then k else (k - 1)%nat.
  Lemma skip_pre i k a : i <> k -> (skip i a =? k)%nat = (a =? pre i k)%nat.
  Proof.
    intros H. unfold skip, pre. destruct (Nat.ltb_spec k i); destruct (Nat.ltb_spec a i); apply Bool.eq_iff_eq_true; rewrite !Nat.eqb_eq; lia.
  Qed.
  Lemma pre_lt i k n : (i < S n)%nat -> (k < S n)%nat -> i <> k -> (pre i k < n)%nat.
  Proof. intros. unfold pre. destruct (Nat.ltb_spec k i); lia. Qed.

  Lemma det_linear n : forall M k (u v : nat -> F) c, (k < n)%nat ->
    det n (setrow M k (fun j => c * u j + v j)) = c * det n (setrow M k u) + det n (setrow M k v).
  Proof.
    induction n as [|n IH]; intros M k u v c Hk; [lia|]. rewrite !det_S, <- ksum_scale_l, <- ksum_plus. apply ksum_ext. intros i Hi. apply in_seq in Hi.
    destruct (Nat.eq_dec i k) as [->|Hik].
    - rewrite !setrow_same.
      assert (X : forall w, det n (fun a b => setrow M k w (skip k a) (S b)) = det n (fun a b => M (skip k a) (S b))).
      { intros w. apply det_ext. intros a b _ _. apply setrow_other, skip_neq. }
      rewrite !X. ring.
    - rewrite !setrow_other by exact Hik.
      assert (X : forall w, det n (fun a b => setrow M k w (skip i a) (S b)) = det n (setrow (fun a b => M (skip i a) (S b)) (pre i k) (fun j => w (S j)))).
      { intros w. apply det_ext. intros a b _ _. unfold setrow. rewrite skip_pre by exact Hik. reflexivity. }
      rewrite !X, (IH _ _ (fun j => u (S j)) (fun j => v (S j))) by (apply pre_lt; lia). ring.
  Qed.
  Lemma det_scale n M k u c : (k < n)%nat -> det n (setrow M k (fun j => c * u j)) = c * det n (setrow M k u).
  Proof.
    intros Hk. assert (Z : det n (setrow M k (fun j => 0)) = 0).
    { pose proof (det_linear n M k (fun j => 0) (fun j => 0) (- (1)) Hk) as E. transitivity (- (1) * det n (setrow M k (fun _ : nat => 0)) + det n (setrow M k (fun _ : nat => 0))); [|ring].
      rewrite <- E. apply det_ext. intros i j _ _. unfold setrow. destruct (i =? k)%nat; [ring|reflexivity]. }
    transitivity (c * det n (setrow M k u) + det n (setrow M k (fun j => 0))); [|rewrite Z; ring].
    rewrite <- (det_linear n M k u (fun j => 0) c Hk). apply det_ext. intros i j _ _. unfold setrow. destruct (i =? k)%nat; [ring|reflexivity].
  Qed.
  Lemma det_zero_row n M k : (k < n)%nat -> det n (setrow M k (fun j => 0)) = 0.
  Proof.
    intros Hk. transitivity (0 * det n (setrow M k (fun j => 0))); [|ring]. rewrite <- (det_scale n M k (fun _ => 0) 0 Hk).
    apply det_ext. intros i j _ _. unfold setrow. destruct (i =? k)%nat; [ring|reflexivity].
  Qed.
  Lemma det_sum {A} n M k (l : list A) (c : A -> F) (u : A -> nat -> F) : (k < n)%nat ->
    det n (setrow M k (fun j => ksum l (fun a => c a * u a j))) = ksum l (fun a => c a * det n (setrow M k (u a))).
  Proof.
    intros Hk. induction l as [|a l IH]; [apply det_zero_row; exact Hk|]. rewrite ksum_cons, <- IH, <- det_linear by exact Hk. reflexivity.
  Qed.
  Lemma setrow_self n M k : det n (setrow M k (M k)) = det n M.
  Proof. apply det_ext. intros i j _ _. unfold setrow. destruct (Nat.eqb_spec i k) as [->|]; reflexivity. Qed.

  (** Two adjacent equal rows. *)
  Lemma det_adjacent n : forall (M : matrix) k, (S k < n)%nat -> (forall j, (j < n)%nat -> M k j = M (S k) j) -> det n M = 0.
  Proof.
    induction n as [|n IH]; intros M k Hk HE; [lia|]. rewrite det_S.
    replace (seq 0 (S n)) with (seq 0 k ++ [k; S k] ++ seq (S (S k)) (n - S k)).
    2:{ replace (S n) with (k + (2 + (n - S k)))%nat by lia. rewrite seq_app. reflexivity. }
    assert (Z : forall i, (i < k \/ S k < i)%nat -> (i < S n)%nat -> det n (fun a b => M (skip i a) (S b)) = 0).
    { intros i Hi Hn. apply (IH _ (pre i k)).
      - unfold pre. destruct (Nat.ltb_spec k i); lia.
      - intros j Hj. replace (skip i (pre i k)) with k by (unfold skip, pre; destruct (Nat.ltb_spec k i); [destruct (Nat.ltb_spec k i)|destruct (Nat.ltb_spec (k - 1) i)]; lia).
        replace (skip i (S (pre i k))) with (S k) by (unfold skip, pre; destruct (Nat.ltb_spec k i); [destruct (Nat.ltb_spec (S k) i)|destruct (Nat.ltb_spec (S (k - 1)) i)]; lia). apply HE. lia. }
    rewrite !ksum_app, (ksum_zero _ (seq 0 k)), (ksum_zero _ (seq (S (S k)) _)).
    - rewrite !ksum_cons, ksum_nil, sg_S, (HE 0%nat) by lia.
      rewrite (det_ext n (fun a b => M (skip k a) (S b)) (fun a b => M (skip (S k) a) (S b))); [ring|].
      intros a b Ha Hb. unfold skip. destruct (Nat.ltb_spec a k); [destruct (Nat.ltb_spec a (S k)); [reflexivity|lia]|].
      destruct (Nat.ltb_spec a (S k)); [|reflexivity]. assert (a = k) as -> by lia. rewrite HE by lia. reflexivity.
    - intros i Hi. apply in_seq in Hi. rewrite Z by lia. ring.
    - intros i Hi. apply in_seq in Hi. rewrite Z by lia. ring.
  Qed.
  Definition swaprow (M : matrix) (k l : nat) : matrix := fun i => if (i =? k)%nat then M l else if (i =? l)%nat then M k else M i.
  Lemma det_swap_adj n M k : (S k < n)%nat -> det n (swaprow M k (S k)) = - det n M.
  Proof.
    intros Hk. set (N u v := setrow (setrow M k u) (S k) v).
    assert (Hz : forall u, det n (N u u) = 0).
    { intros u. apply (det_adjacent n _ k Hk). intros j _. unfold N. rewrite setrow_same, setrow_other by lia. rewrite setrow_same. reflexivity. }
    assert (L1 : forall u v w, det n (N u (fun j => 1 * v j + w j)) = 1 * det n (N u v) + det n (N u w)) by (intros; unfold N; apply det_linear; exact Hk).
    assert (C : forall u v, det n (N u v) = det n (setrow (setrow M (S k) v) k u)).
    { intros u v. apply det_ext. intros i j _ _. unfold N, setrow. destruct (Nat.eqb_spec i (S k)); destruct (Nat.eqb_spec i k); try reflexivity; lia. }
    assert (L2 : forall u v w, det n (N (fun j => 1 * u j + w j) v) = 1 * det n (N u v) + det n (N w v)) by (intros; rewrite !C; apply det_linear; lia).
    pose proof (Hz (fun j => 1 * M k j + M (S k) j)) as E. rewrite L1, !L2, !Hz in E.
    assert (E1 : det n (N (M k) (M (S k))) = det n M).
    { apply det_ext. intros i j _ _. unfold N, setrow. destruct (Nat.eqb_spec i (S k)) as [->|]; [reflexivity|]. destruct (Nat.eqb_spec i k) as [->|]; reflexivity. }
    assert (E2 : det n (N (M (S k)) (M k)) = det n (swaprow M k (S k))).
    { apply det_ext. intros i j _ _. unfold N, setrow, swaprow. destruct (Nat.eqb_spec i (S k)) as [->|]; [destruct (Nat.eqb_spec (S k) k); [lia|reflexivity]|]. destruct (Nat.eqb_spec i k) as [->|]; reflexivity. }
    rewrite E1, E2 in E.
    transitivity (1 * (1 * 0 + det n (swaprow M k (S k))) + (1 * det n M + 0) - det n M); [ring|rewrite E; ring].
  Qed.
  Lemma det_equal_rows n : forall d (M : matrix) k, (k + S d < n)%nat -> (forall j, (j < n)%nat -> M k j = M (k + S d)%nat j) -> det n M = 0.
  Proof.
    induction d as [|d IH]; intros M k Hk HE.
    - apply (det_adjacent n M k); [lia|]. intros j Hj. rewrite HE by exact Hj. f_equal. lia.
    - rewrite <- (det_ext n (swaprow (swaprow M (k + S d) (S (k + S d))) (k + S d) (S (k + S d)))).
      + rewrite det_swap_adj by lia. rewrite (IH _ k).
        * ring.
        * lia.
        * intros j Hj. unfold swaprow. destruct (Nat.eqb_spec k (k + S d)); [lia|]. destruct (Nat.eqb_spec k (S (k + S d))); [lia|]. rewrite Nat.eqb_refl, HE by exact Hj. f_equal. lia.
      + intros i j _ _. unfold swaprow. destruct (Nat.eqb_spec i (k + S d)) as [->|].
        * destruct (Nat.eqb_spec (S (k + S d)) (k + S d)); [lia|]. rewrite Nat.eqb_refl. reflexivity.
        * destruct (Nat.eqb_spec i (S (k + S d))) as [->|]; [|reflexivity]. rewrite Nat.eqb_refl. reflexivity.
  Qed.
  Lemma det_alternating n (M : matrix) k l : (k < n)%nat -> (l < n)%nat -> k <> l -> (forall j, (j < n)%nat -> M k j = M l j) -> det n M = 0.
  Proof.
    intros Hk Hl Hkl HE. destruct (Nat.lt_ge_cases k l) as [H|H].
    - apply (det_equal_rows n (l - k - 1) M k); [lia|]. intros j Hj. rewrite HE by exact Hj. f_equal. lia.
    - apply (det_equal_rows n (k - l - 1) M l); [lia|]. intros j Hj. rewrite <- HE by exact Hj. f_equal. lia.
  Qed.
  Lemma det_setrow_other n (M : matrix) k l : (k < n)%nat -> (l < n)%nat -> k <> l -> det n (setrow M k (M l)) = 0.
  Proof. intros Hk Hl Hkl. apply (det_alternating n _ k l Hk Hl Hkl). intros j _. rewrite setrow_same, setrow_other by lia. reflexivity. Qed.
  Lemma det_swap n (M : matrix) k l : (k < n)%nat -> (l < n)%nat -> k <> l -> det n (swaprow M k l) = - det n M.
  Proof.
    intros Hk Hl Hkl. set (N u v := setrow (setrow M k u) l v).
    assert (Hz : forall u, det n (N u u) = 0).
    { intros u. apply (det_alternating n _ k l Hk Hl Hkl). intros j _. unfold N. rewrite setrow_same, setrow_other by exact Hkl. rewrite setrow_same. reflexivity. }
    assert (L1 : forall u v w, det n (N u (fun j => 1 * v j + w j)) = 1 * det n (N u v) + det n (N u w)) by (intros; unfold N; apply det_linear; exact Hl).
    assert (C : forall u v, det n (N u v) = det n (setrow (setrow M l v) k u)).
    { intros u v. apply det_ext. intros i j _ _. unfold N, setrow. destruct (Nat.eqb_spec i l); destruct (Nat.eqb_spec i k); try reflexivity; lia. }
    assert (L2 : forall u v w, det n (N (fun j => 1 * u j + w j) v) = 1 * det n (N u v) + det n (N w v)) by (intros; rewrite !C; apply det_linear; exact Hk).
    pose proof (Hz (fun j => 1 * M k j + M l j)) as E. rewrite L1, !L2, !Hz in E.
    assert (E1 : det n (N (M k) (M l)) = det n M).
    { apply det_ext. intros i j _ _. unfold N, setrow. destruct (Nat.eqb_spec i l) as [->|]; [reflexivity|]. destruct (Nat.eqb_spec i k) as [->|]; reflexivity. }
    assert (E2 : det n (N (M l) (M k)) = det n (swaprow M k l)).
    { apply det_ext. intros i j _ _. unfold N, setrow, swaprow. destruct (Nat.eqb_spec i l) as [->|]; [destruct (Nat.eqb_spec l k); [congruence|reflexivity]|]. destruct (Nat.eqb_spec i k) as [->|]; reflexivity. }
    rewrite E1, E2 in E.
    transitivity (1 * (1 * 0 + det n (swaprow M k l)) + (1 * det n M + 0) - det n M); [ring|rewrite E; ring].
  Qed.
  (** A row that is a combination of the rows. *)
  Lemma det_comb n (M : matrix) k (c : nat -> F) : (k < n)%nat -> det n (setrow M k (fun j => ksum (seq 0 n) (fun l => c l * M l j))) = c k * det n M.
  Proof.
    intros Hk. rewrite det_sum by exact Hk. rewrite (ksum_ext _ (fun l => if Nat.eq_dec l k then c l * det n M else 0)).
    - apply (ksum_delta Nat.eq_dec (fun l => c l * det n M)); [apply seq_NoDup|apply in_seq; lia].
    - intros l Hl. apply in_seq in Hl. destruct (Nat.eq_dec l k) as [->|H]; [rewrite setrow_self; reflexivity|]. rewrite det_setrow_other by lia. ring.
  Qed.
  (** The rows are independent if the determinant is not zero. *)
  Lemma det_independent n (M : matrix) (c : nat -> F) : det n M <> 0 -> (forall j, (j < n)%nat -> ksum (seq 0 n) (fun l => c l * M l j) = 0) -> forall k, (k < n)%nat -> c k = 0.
  Proof.
    intros HD H k Hk. pose proof (det_comb n M k c Hk) as E.
    rewrite (det_ext n _ (setrow M k (fun _ => 0))), det_zero_row in E by (exact Hk || (intros i j _ Hj; unfold setrow; destruct (i =? k)%nat; [apply H; exact Hj|reflexivity])).
    destruct (kdec (c k) 0) as [|N]; [assumption|]. exfalso. apply (kmul_neq (c k) (det n M) N HD). symmetry. exact E.
  Qed.
  (** Subtracting one vector from all rows. *)
  Lemma det_sub_all n : forall m (M : matrix) (q : nat -> F), (m <= n)%nat ->
    det n (fun i j => if (i <? m)%nat then M i j - q j else M i j) = det n M - ksum (seq 0 m) (fun k => det n (setrow M k q)).
  Proof.
    induction m as [|m IH]; intros M q Hm.
    - cbn [seq]. rewrite ksum_nil. transitivity (det n M); [apply det_ext; reflexivity|ring].
    - set (A := fun i j => if (i <? m)%nat then M i j - q j else M i j).
      assert (E : det n (fun i j => if (i <? S m)%nat then M i j - q j else M i j) = det n (setrow A m (fun j => (- (1)) * q j + M m j))).
      { apply det_ext. intros i j _ _. unfold setrow, A. destruct (Nat.eqb_spec i m) as [->|]; [destruct (Nat.ltb_spec m (S m)); [ring|lia]|].
        destruct (Nat.ltb_spec i (S m)); destruct (Nat.ltb_spec i m); try reflexivity; lia. }
      rewrite E, det_linear by lia.
      assert (E2 : det n (setrow A m (M m)) = det n A).
      { apply det_ext. intros i j _ _. unfold setrow, A. destruct (Nat.eqb_spec i m) as [->|]; [destruct (Nat.ltb_spec m m); [lia|reflexivity]|reflexivity]. }
      rewrite E2. unfold A at 2. rewrite IH by lia. rewrite seq_S, ksum_app, ksum_cons, ksum_nil. cbn [Nat.add].
      assert (E3 : det n (setrow A m q) = det n (setrow M m q)).
      { set (B := setrow M m q).
        assert (E4 : det n (setrow A m q) = det n (fun i j => if (i <? m)%nat then B i j - q j else B i j)).
        { apply det_ext. intros i j _ _. unfold B, setrow, A. destruct (Nat.eqb_spec i m) as [->|]; [destruct (Nat.ltb_spec m m); [lia|reflexivity]|reflexivity]. }
        rewrite E4, IH by lia. rewrite ksum_zero; [ring|]. intros k Hk. apply in_seq in Hk. apply (det_alternating n _ k m); [lia|lia|lia|].
        intros j _. rewrite setrow_same, setrow_other by lia. unfold B. rewrite setrow_same. reflexivity. }
      rewrite E3. ring.
  Qed.

  (** Expansion along the first row, and transposition. *)
  Lemma det_row_expansion n : forall M : matrix, det (S n) M = ksum (seq 0 (S n)) (fun j => sg j * M 0%nat j * det n (fun a b => M (S a) (skip j b))).
  Proof.
    induction n as [|n IH]; intros M; [cbn; ring|].
    rewrite det_S. change (seq 0 (S (S n))) with (0%nat :: seq 1 (S n)). rewrite !ksum_cons. f_equal.
    rewrite <- seq_shift, !ksum_map.
    rewrite (ksum_ext _ (fun i => ksum (seq 0 (S n)) (fun j => sg (S i) * M (S i) 0%nat * (sg j * M 0%nat (S j) * det n (fun a b => M (S (skip i a)) (S (skip j b))))))).
    2:{ intros i Hi. apply in_seq in Hi. rewrite IH, <- ksum_scale_l. apply ksum_ext. intros j Hj. apply in_seq in Hj.
        replace (skip (S i) 0) with 0%nat by reflexivity. f_equal. f_equal. apply det_ext. intros a b Ha Hb. f_equal.
        unfold skip. destruct (Nat.ltb_spec (S a) (S i)); destruct (Nat.ltb_spec a i); lia. }
    rewrite ksum_swap. apply ksum_ext. intros j Hj. apply in_seq in Hj. rewrite det_S, <- ksum_scale_l. apply ksum_ext. intros i Hi. apply in_seq in Hi.
    rewrite !sg_S. replace (skip (S j) 0) with 0%nat by reflexivity.
    rewrite (det_ext n (fun a b => M (S (skip i a)) (skip (S j) (S b))) (fun a b => M (S (skip i a)) (S (skip j b)))); [ring|].
    intros a b Ha Hb. f_equal. unfold skip. destruct (Nat.ltb_spec (S b) (S j)); destruct (Nat.ltb_spec b j); lia.
  Qed.
  Theorem det_transpose n : forall M : matrix, det n (fun i j => M j i) = det n M.
  Proof.
    induction n as [|n IH]; intros M; [reflexivity|]. rewrite det_row_expansion, det_S. apply ksum_ext. intros i _. f_equal.
    exact (IH (fun a b => M (skip i a) (S b))).
  Qed.
  (** triangular matrices *)
  Lemma det_upper n : forall M : matrix, (forall i j, (j < i < n)%nat -> M i j = 0) -> det n M = kprod (seq 0 n) (fun i => M i i).
  Proof.
    induction n as [|n IH]; intros M H; [reflexivity|]. rewrite det_S. cbn [seq]. rewrite ksum_cons, kprod_cons, ksum_zero.
    - rewrite IH.
      + rewrite <- seq_shift. unfold sg. cbn [Nat.even]. assert (E : forall l (f : nat -> F), kprod (map S l) f = kprod l (fun i => f (S i))) by (intros l f; induction l as [|a l IHl]; [reflexivity|cbn [map]; rewrite !kprod_cons, IHl; reflexivity]).
        rewrite E. replace (kprod (seq 0 n) (fun i => M (skip 0 i) (S i))) with (kprod (seq 0 n) (fun i => M (S i) (S i))); [ring|reflexivity].
      + intros i j Hij. unfold skip. destruct (Nat.ltb_spec i 0); [lia|]. apply H. lia.
    - intros i Hi. apply in_seq in Hi. rewrite (H i 0%nat) by lia. ring.
  Qed.
  Lemma det_identity n : det n (fun i j => if (i =? j)%nat then 1 else 0) = 1.
  Proof.
    rewrite det_upper.
    - rewrite (kprod_ext _ (fun _ => 1)) by (intros; rewrite Nat.eqb_refl; reflexivity). generalize (seq 0 n). induction l as [|a l IH]; [reflexivity|]. rewrite kprod_cons, IH. ring.
    - intros i j Hij. destruct (Nat.eqb_spec i j); [lia|reflexivity].
  Qed.
  Lemma det_scale_all n : forall (M : matrix) c, det n (fun i j => c * M i j) = kpow c n * det n M.
  Proof.
    induction n as [|n IH]; intros M c; [cbn; ring|]. rewrite !det_S, <- ksum_scale_l. apply ksum_ext. intros i _. rewrite IH. cbn [kpow]. ring.
  Qed.

  (** ** Alternating forms in the rows, and the determinant of a product *)
  Definition altform (n d : nat) (f : matrix -> F) : Prop :=
    (forall M M' : matrix, (forall i j, (i < n)%nat -> (j < d)%nat -> M i j = M' i j) -> f M = f M') /\
    (forall M k (u v : nat -> F) c, (k < n)%nat -> f (setrow M k (fun j => c * u j + v j)) = c * f (setrow M k u) + f (setrow M k v)) /\
    (forall (M : matrix) k l, (k < n)%nat -> (l < n)%nat -> k <> l -> (forall j, (j < d)%nat -> M k j = M l j) -> f M = 0).
  Lemma det_altform n : altform n n (det n).
  Proof. split; [apply det_ext|]. split; [intros; apply det_linear; assumption|apply det_alternating]. Qed.

  Section Alt.
    Variables (n d : nat) (f : matrix -> F).
    Hypothesis Hf : altform n d f.
    Let Hext := proj1 Hf.
    Let Hlin := proj1 (proj2 Hf).
    Let Halt := proj2 (proj2 Hf).
    Lemma alt_zero M k : (k < n)%nat -> f (setrow M k (fun _ => 0)) = 0.
    Proof.
      intros Hk. pose proof (Hlin M k (fun j => 0) (fun j => 0) (- (1)) Hk) as E. transitivity (- (1) * f (setrow M k (fun _ : nat => 0)) + f (setrow M k (fun _ : nat => 0))); [|ring].
      rewrite <- E. apply Hext. intros i j _ _. unfold setrow. destruct (i =? k)%nat; [ring|reflexivity].
    Qed.
    Lemma alt_sum {A} M k (l : list A) (c : A -> F) (u : A -> nat -> F) : (k < n)%nat ->
      f (setrow M k (fun j => ksum l (fun a => c a * u a j))) = ksum l (fun a => c a * f (setrow M k (u a))).
    Proof.
      intros Hk. induction l as [|a l IH]; [apply alt_zero; exact Hk|]. rewrite ksum_cons, <- IH, <- Hlin by exact Hk. reflexivity.
    Qed.
    Lemma alt_swap M k l : (k < n)%nat -> (l < n)%nat -> k <> l -> f (swaprow M k l) = - f M.
    Proof.
      intros Hk Hl Hkl. set (N u v := setrow (setrow M k u) l v).
      assert (Hz : forall u, f (N u u) = 0).
      { intros u. apply (Halt _ k l Hk Hl Hkl). intros j _. unfold N. rewrite setrow_same, setrow_other by exact Hkl. rewrite setrow_same. reflexivity. }
      assert (L1 : forall u v w, f (N u (fun j => 1 * v j + w j)) = 1 * f (N u v) + f (N u w)) by (intros; unfold N; apply Hlin; exact Hl).
      assert (C : forall u v, f (N u v) = f (setrow (setrow M l v) k u)).
      { intros u v. apply Hext. intros i j _ _. unfold N, setrow. destruct (Nat.eqb_spec i l); destruct (Nat.eqb_spec i k); try reflexivity; lia. }
      assert (L2 : forall u v w, f (N (fun j => 1 * u j + w j) v) = 1 * f (N u v) + f (N w v)) by (intros; rewrite !C; apply Hlin; exact Hk).
      pose proof (Hz (fun j => 1 * M k j + M l j)) as E. rewrite L1, !L2, !Hz in E.
      assert (E1 : f (N (M k) (M l)) = f M).
      { apply Hext. intros i j _ _. unfold N, setrow. destruct (Nat.eqb_spec i l) as [->|]; [reflexivity|]. destruct (Nat.eqb_spec i k) as [->|]; reflexivity. }
      assert (E2 : f (N (M l) (M k)) = f (swaprow M k l)).
      { apply Hext. intros i j _ _. unfold N, setrow, swaprow. destruct (Nat.eqb_spec i l) as [->|]; [destruct (Nat.eqb_spec l k); [congruence|reflexivity]|]. destruct (Nat.eqb_spec i k) as [->|]; reflexivity. }
      rewrite E1, E2 in E.
      transitivity (1 * (1 * 0 + f (swaprow M k l)) + (1 * f M + 0) - f M); [ring|rewrite E; ring].
    Qed.
    (** multiples of row 0 may be added to the others *)
    Lemma alt_drop M (c : nat -> F) : forall m, (S m <= n)%nat -> f (fun i j => if (i =? 0)%nat then M 0%nat j else if (i <=? m)%nat then c i * M 0%nat j + M i j else M i j) = f M.
    Proof.
      induction m as [|m IH]; intros Hm.
      - apply Hext. intros i j _ _. destruct (Nat.eqb_spec i 0) as [->|]; [reflexivity|]. destruct (Nat.leb_spec i 0); [lia|reflexivity].
      - rewrite <- IH by lia. set (A := fun i j => if (i =? 0)%nat then M 0%nat j else if (i <=? m)%nat then c i * M 0%nat j + M i j else M i j).
        transitivity (f (setrow A (S m) (fun j => c (S m) * M 0%nat j + M (S m) j))).
        { apply Hext. intros i j _ _. unfold setrow, A. destruct (Nat.eqb_spec i (S m)) as [->|].
          - destruct (Nat.eqb_spec (S m) 0); [lia|]. destruct (Nat.leb_spec (S m) (S m)); [reflexivity|lia].
          - destruct (Nat.eqb_spec i 0); [reflexivity|]. destruct (Nat.leb_spec i (S m)); destruct (Nat.leb_spec i m); try reflexivity; lia. }
        rewrite Hlin by lia. rewrite (Halt (setrow A (S m) (M 0%nat)) 0 (S m)) by (lia || (intros j _; rewrite setrow_same, setrow_other by lia; reflexivity)).
        transitivity (f (setrow A (S m) (M (S m)))); [ring|]. apply Hext. intros i j _ _. unfold setrow. destruct (Nat.eqb_spec i (S m)) as [->|]; [|reflexivity].
        unfold A. destruct (Nat.eqb_spec (S m) 0); [lia|]. destruct (Nat.leb_spec (S m) m); [lia|reflexivity].
    Qed.
    Definition front (M : matrix) (k : nat) : matrix := fun i => match i with O => M k | S a => M (skip k a) end.
    Lemma alt_front M : forall k, (k < n)%nat -> f (front M k) = sg k * f M.
    Proof.
      induction k as [|k IH]; intros Hk.
      - unfold sg. cbn [Nat.even]. transitivity (f M); [|ring]. apply Hext. intros i j _ _. destruct i; reflexivity.
      - rewrite sg_S. transitivity (- (f (front M k))); [|rewrite IH by lia; ring]. rewrite <- (alt_swap (front M k) 0 (S k)) by lia. apply Hext. intros i j _ _.
        unfold swaprow, front, skip. destruct i as [|a]; [cbn [Nat.eqb]; destruct (Nat.ltb_spec k k); [lia|reflexivity]|]. cbn [Nat.eqb]. destruct (Nat.eqb_spec a k) as [->|].
        + destruct (Nat.ltb_spec k (S k)); [reflexivity|lia].
        + destruct (Nat.ltb_spec a (S k)); destruct (Nat.ltb_spec a k); try reflexivity; lia.
    Qed.
  End Alt.

  Definition mmul (d : nat) (A B : matrix) : matrix := fun i j => ksum (seq 0 d) (fun k => A i k * B k j).
  Lemma seq_split_at n k : (k < S n)%nat -> Permutation (seq 0 (S n)) (k :: map (skip k) (seq 0 n)).
  Proof.
    intros Hk. apply NoDup_Permutation.
    - apply seq_NoDup.
    - constructor.
      + intros H. apply in_map_iff in H as (a & E & _). exact (skip_neq k a E).
      + assert (HI : forall a b, skip k a = skip k b -> a = b) by (intros a b; unfold skip; destruct (Nat.ltb_spec a k); destruct (Nat.ltb_spec b k); lia).
        pose proof (seq_NoDup n 0) as HN. induction HN as [|a l Ha HN IH]; [constructor|]. cbn [map]. constructor; [|exact IH].
        intros H. apply in_map_iff in H as (b & E & Hb). apply HI in E. congruence.
    - intros x. rewrite in_seq. split.
      + intros H. destruct (Nat.eq_dec x k) as [->|]; [left; reflexivity|]. right. apply in_map_iff. exists (pre k x). unfold skip, pre. rewrite in_seq.
        destruct (Nat.ltb_spec x k); [destruct (Nat.ltb_spec x k); lia|]. destruct (Nat.ltb_spec (x - 1) k); lia.
      + intros [<-|H]; [lia|]. apply in_map_iff in H as (a & <- & Ha). apply in_seq in Ha. pose proof (skip_lt k a n ltac:(lia)). lia.
  Qed.
  Theorem alt_mul : forall n d f, altform n d f -> forall A B : matrix, f (mmul n A B) = det n A * f B.
  Proof.
    induction n as [|n IH]; intros d f Hf A B.
    - cbn [det]. transitivity (f B); [|ring]. apply (proj1 Hf). intros; lia.
    - rewrite det_row_expansion.
      transitivity (f (setrow (mmul (S n) A B) 0 (fun j => ksum (seq 0 (S n)) (fun k => A 0%nat k * B k j)))).
      { apply (proj1 Hf). intros i j _ _. unfold setrow. destruct (Nat.eqb_spec i 0) as [->|]; reflexivity. }
      rewrite (alt_sum (S n) d f Hf) by lia. rewrite <- ksum_scale_r. apply ksum_ext. intros k Hk. apply in_seq in Hk.
      set (g := fun M : matrix => f (fun i => match i with O => B k | S a => M a end)).
      assert (Hg : altform n d g).
      { destruct Hf as (H1 & H2 & H3). unfold g. split; [|split].
        - intros M M' H. apply H1. intros [|i] j Hi Hj; [reflexivity|]. apply H; lia.
        - intros M l u v c Hl. pose proof (H2 (fun i => match i with O => B k | S a => M a end) (S l) u v c ltac:(lia)) as E.
          transitivity (f (setrow (fun i => match i with O => B k | S a => M a end) (S l) (fun j => c * u j + v j))).
          { apply H1. intros [|i] j _ _; reflexivity. }
          rewrite E. f_equal; [f_equal|]; apply H1; intros [|i] j _ _; reflexivity.
        - intros M l l' Hl Hl' Hne HE. apply (H3 _ (S l) (S l')); [lia|lia|lia|]. exact HE. }
      specialize (IH d g Hg (fun a b => A (S a) (skip k b)) (fun a => B (skip k a))).
      assert (E1 : f (setrow (mmul (S n) A B) 0 (B k)) = g (mmul n (fun a b => A (S a) (skip k b)) (fun a => B (skip k a)))).
      { unfold g. rewrite <- (alt_drop (S n) d f Hf _ (fun i => - A i k) n) by lia. apply (proj1 Hf). intros [|i] j Hi Hj; [reflexivity|].
        unfold setrow. cbn [Nat.eqb]. destruct (Nat.leb_spec (S i) n); [|lia]. unfold mmul. rewrite (ksum_perm _ _ _ (seq_split_at n k ltac:(lia))), ksum_cons, ksum_map. ring. }
      rewrite E1, IH. assert (E2 : g (fun a => B (skip k a)) = sg k * f B).
      { rewrite <- (alt_front (S n) d f Hf B k) by lia. reflexivity. }
      rewrite E2. ring.
  Qed.
  Theorem det_mul n (A B : matrix) : det n (mmul n A B) = det n A * det n B.
  Proof. apply (alt_mul n n (det n) (det_altform n)). Qed.
  Lemma det_cols_independent n (M : matrix) (c : nat -> F) : det n M <> 0 -> (forall i, (i < n)%nat -> ksum (seq 0 n) (fun l => M i l * c l) = 0) -> forall k, (k < n)%nat -> c k = 0.
  Proof.
    intros HD H. apply (det_independent n (fun i j => M j i) c).
    - rewrite det_transpose. exact HD.
    - intros j Hj. rewrite <- (H j Hj). apply ksum_ext. intros l _. ring.
  Qed.
End Det.
