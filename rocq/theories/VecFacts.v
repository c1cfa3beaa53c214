(** Facts about vectors, matrices, inverses and pseudoinverses given as lists. *)
From Verif Require Import Base Fld FldInst LinSolve PolyEval Det Linalg.
From Coq Require Import Field_theory Field.

Section Vec.
  Context {F : fld}.
  Add Field Kfield41 : (kth F).
  Local Open Scope fld_scope.

  Definition ent (M : list (list F)) (i j : nat) : F := nth j (nth i M []) 0.
  Definition rows_of (m n : nat) (M : list (list F)) : Prop := length M = m /\ forall r, In r M -> length r = n.

  Lemma vec_ext (u v : list F) d : length u = d -> length v = d -> (forall j, (j < d)%nat -> nth j u 0 = nth j v 0) -> u = v.
  Proof. intros Hu Hv H. apply (nth_ext _ _ 0 0); [congruence|]. intros j Hj. apply H. lia. Qed.
  Lemma nth_map_seq0 {A} (h : nat -> A) n d i : (i < n)%nat -> nth i (map h (seq 0 n)) d = h i.
  Proof. intros H. rewrite (nth_indep _ d (h 0%nat)) by (rewrite map_length, seq_length; exact H). rewrite map_nth, seq_nth by exact H. reflexivity. Qed.
  Lemma rows_len m n M i : rows_of m n M -> (i < m)%nat -> length (nth i M []) = n.
  Proof. intros [H1 H2] Hi. apply H2, nth_In. lia. Qed.
  Lemma nth_mat_vec (M : list (list F)) v i : nth i (mat_vec M v) 0 = dot (nth i M []) v.
  Proof. unfold mat_vec. change (0 : F) with (dot [] v). exact (map_nth (fun row => dot row v) M [] i). Qed.
  Lemma mat_vec_length (M : list (list F)) v : length (mat_vec M v) = length M. Proof. apply map_length. Qed.
  Lemma nth_mat_col (M : list (list F)) j i : nth i (mat_col M j) 0 = ent M i j.
  Proof.
    unfold ent, mat_col. revert i. induction M as [|r M IH]; intros [|i]; cbn [map nth]; try (destruct j; reflexivity); try reflexivity. apply IH.
  Qed.
  Lemma mat_col_length (M : list (list F)) j : length (mat_col M j) = length M. Proof. apply map_length. Qed.
  Lemma transpose_rows n m (M : list (list F)) : length M = m -> rows_of n m (transpose n M).
  Proof.
    intros H. unfold transpose. split; [rewrite map_length, seq_length; reflexivity|]. intros r Hr. apply in_map_iff in Hr as (j & <- & _). rewrite mat_col_length. exact H.
  Qed.
  Lemma ent_transpose n (M : list (list F)) i j : (i < n)%nat -> ent (transpose n M) i j = ent M j i.
  Proof. intros Hi. unfold ent at 1, transpose. rewrite nth_map_seq0 by exact Hi. apply nth_mat_col. Qed.
  Lemma nth_transpose n (M : list (list F)) i : (i < n)%nat -> nth i (transpose n M) [] = mat_col M i.
  Proof. intros Hi. unfold transpose. apply nth_map_seq0. exact Hi. Qed.
  Lemma transpose_transpose m n (M : list (list F)) : rows_of m n M -> transpose m (transpose n M) = M.
  Proof.
    intros H. apply (nth_ext _ _ [] []).
    - unfold transpose at 1. rewrite map_length, seq_length. symmetry. apply H.
    - intros i Hi. unfold transpose at 1 in Hi. rewrite map_length, seq_length in Hi. rewrite nth_transpose by exact Hi. apply (vec_ext _ _ n).
      + rewrite mat_col_length. unfold transpose. rewrite map_length, seq_length. reflexivity.
      + apply (rows_len m n); assumption.
      + intros j Hj. rewrite nth_mat_col, ent_transpose by exact Hj. reflexivity.
  Qed.
  Lemma ncols_rows m n (M : list (list F)) : rows_of m n M -> m <> 0%nat -> ncols M = n.
  Proof. intros [H1 H2] Hm. unfold ncols. destruct M as [|r M]; [cbn in H1; lia|]. apply H2. left. reflexivity. Qed.

  Lemma mat_vec_sum m n (M : list (list F)) (v : list F) i : rows_of m n M -> length v = n -> (i < m)%nat -> nth i (mat_vec M v) 0 = ksum (seq 0 n) (fun k => ent M i k * nth k v 0).
  Proof. intros H Hv Hi. rewrite nth_mat_vec. apply dot_seq; [apply (rows_len m n); assumption|exact Hv]. Qed.
  Lemma mat_mul_rows m n k (A B : list (list F)) : rows_of m n A -> rows_of n k B -> n <> 0%nat -> rows_of m k (mat_mul A B).
  Proof.
    intros HA HB Hn. unfold mat_mul. split; [rewrite map_length; apply HA|]. intros r Hr. apply in_map_iff in Hr as (a & <- & _). rewrite map_length, seq_length. apply (ncols_rows n k); assumption.
  Qed.
  Lemma ent_mat_mul m n k (A B : list (list F)) i j : rows_of m n A -> rows_of n k B -> n <> 0%nat -> (i < m)%nat -> (j < k)%nat ->
    ent (mat_mul A B) i j = ksum (seq 0 n) (fun l => ent A i l * ent B l j).
  Proof.
    intros HA HB Hn Hi Hj. unfold ent at 1, mat_mul. rewrite (nth_indep _ [] ((fun row => map (fun j => dot row (mat_col B j)) (seq 0 (ncols B))) [])) by (rewrite map_length; destruct HA; lia).
    rewrite (map_nth (fun row => map (fun j => dot row (mat_col B j)) (seq 0 (ncols B)))). rewrite (ncols_rows n k B HB Hn), nth_map_seq0 by exact Hj.
    rewrite (dot_seq _ _ n); [|apply (rows_len m n); assumption|rewrite mat_col_length; apply HB]. apply ksum_ext. intros l _. rewrite nth_mat_col. reflexivity.
  Qed.
  Lemma ent_identity n i j : (i < n)%nat -> (j < n)%nat -> ent (identity n) i j = if (i =? j)%nat then 1 else 0.
  Proof. intros Hi Hj. unfold ent, identity. rewrite (nth_map_seq0 (fun i => map _ (seq 0 n))), nth_map_seq0 by assumption. reflexivity. Qed.
  Lemma identity_rows n : rows_of n n (@identity F n).
  Proof. unfold identity. split; [rewrite map_length, seq_length; reflexivity|]. intros r Hr. apply in_map_iff in Hr as (i & <- & _). rewrite map_length, seq_length. reflexivity. Qed.
  Lemma rows_eq m n (A B : list (list F)) : rows_of m n A -> rows_of m n B -> (forall i j, (i < m)%nat -> (j < n)%nat -> ent A i j = ent B i j) -> A = B.
  Proof.
    intros HA HB H. apply (nth_ext _ _ [] []); [destruct HA, HB; congruence|]. intros i Hi. assert (Hi' : (i < m)%nat) by (destruct HA; lia).
    apply (vec_ext _ _ n); [apply (rows_len m n); assumption..|]. intros j Hj. apply H; assumption.
  Qed.
  Lemma delta_sum n i (f : nat -> F) : (i < n)%nat -> ksum (seq 0 n) (fun l => (if (l =? i)%nat then 1 else 0) * f l) = f i.
  Proof.
    intros Hi. rewrite (ksum_ext _ (fun l => if Nat.eq_dec l i then f l else 0)).
    - apply (ksum_delta Nat.eq_dec); [apply seq_NoDup|apply in_seq; lia].
    - intros l _. destruct (Nat.eq_dec l i) as [->|H]; [rewrite Nat.eqb_refl; ring|]. apply Nat.eqb_neq in H. rewrite H. ring.
  Qed.

  (** ** Inverse *)
  Lemma solve_err n k : forall rows (e : err), solve_rows (F := F) n k rows = Err e -> e = LinAlgError.
  Proof.
    induction n as [|n IH]; intros rows e; cbn [solve_rows]; [discriminate|]. destruct (find_pivot rows) as [[p rest]|]; [|congruence].
    unfold bind. destruct (solve_rows n k _) eqn:E; [discriminate|]. intros H. injection H as <-. exact (IH _ _ E).
  Qed.
  Lemma np_inv_ok n (A : list (list F)) : n <> 0%nat -> rows_of n n A -> det n (ent A) <> 0 -> exists B, np_inv A = Ok B /\ rows_of n n B /\
    (forall i j, (i < n)%nat -> (j < n)%nat -> ksum (seq 0 n) (fun l => ent A i l * ent B l j) = if (i =? j)%nat then 1 else 0) /\
    (forall i j, (i < n)%nat -> (j < n)%nat -> ksum (seq 0 n) (fun l => ent B i l * ent A l j) = if (i =? j)%nat then 1 else 0).
  Proof.
    intros Hn HA HD. pose proof HA as [L1 L2].
    destruct (solve_ok n n A (identity n)) as (B & EB & LB & RB & HB).
    - exact L1.
    - apply identity_rows.
    - exact L2.
    - apply identity_rows.
    - exact Hn.
    - intros v Hv H0. apply (vec_ext _ _ n); [exact Hv|apply repeat_length|]. intros j Hj. rewrite nth_repeat.
      apply (det_cols_independent n (ent A) (fun l => nth l v 0) HD); [|exact Hj]. intros i Hi. refine (eq_trans _ (H0 (nth i A []) _)); [|apply nth_In; lia].
      symmetry. apply dot_seq; [apply (rows_len n n); assumption|exact Hv].
    - assert (X : forall i j, (i < n)%nat -> (j < n)%nat -> ksum (seq 0 n) (fun l => ent A i l * ent B l j) = if (i =? j)%nat then 1 else 0).
      { intros i j Hi Hj. rewrite <- (ent_identity n i j Hi Hj). unfold ent at 3. rewrite <- (HB i j Hi). rewrite (dot_seq _ _ n); [|apply (rows_len n n); assumption|rewrite mat_col_length; exact LB].
        apply ksum_ext. intros l _. rewrite nth_mat_col. reflexivity. }
      exists B. split; [unfold np_inv; rewrite (ncols_rows n n A HA Hn), L1, Nat.eqb_refl; exact EB|]. split; [split; assumption|]. split; [exact X|].
      intros i j Hi Hj.
      assert (Z : forall k, (k < n)%nat -> ksum (seq 0 n) (fun l => ent B k l * ent A l j) - (if (k =? j)%nat then 1 else 0) = 0).
      { apply (det_cols_independent n (ent A) _ HD). intros k Hk.
        rewrite (ksum_ext _ (fun l => ent A k l * ksum (seq 0 n) (fun l0 => ent B l l0 * ent A l0 j) - (if (l =? j)%nat then 1 else 0) * ent A k l)) by (intros; ring).
        rewrite ksum_minus, delta_sum by exact Hj.
        rewrite (ksum_ext _ (fun l => ksum (seq 0 n) (fun l0 => (ent A k l * ent B l l0) * ent A l0 j))) by (intros; rewrite <- ksum_scale_l; apply ksum_ext; intros; ring).
        rewrite ksum_swap. rewrite (ksum_ext _ (fun l0 => (if (l0 =? k)%nat then 1 else 0) * ent A l0 j)).
        - rewrite delta_sum by exact Hk. ring.
        - intros l0 Hl0. apply in_seq in Hl0. rewrite ksum_scale_r, X by lia. rewrite Nat.eqb_sym. reflexivity. }
      specialize (Z i Hi). transitivity (ksum (seq 0 n) (fun l => ent B i l * ent A l j) - (if (i =? j)%nat then 1 else 0) + (if (i =? j)%nat then 1 else 0)); [ring|]. rewrite Z. ring.
  Qed.
  Lemma np_inv_singular n (A : list (list F)) : n <> 0%nat -> rows_of n n A -> det n (ent A) = 0 -> np_inv A = Err LinAlgError.
  Proof.
    intros Hn HA HD. pose proof HA as [L1 L2]. unfold np_inv. rewrite (ncols_rows n n A HA Hn), L1, Nat.eqb_refl.
    destruct (solve A (identity n)) as [B|e] eqn:E; [exfalso|f_equal; exact (solve_err _ _ _ _ E)].
    unfold solve in E. destruct (identity_rows n) as [I1 I2]. assert (HI : length (hd [] (@identity F n)) = n) by (apply (ncols_rows n n); [apply identity_rows|exact Hn]). rewrite L1, HI in E.
    assert (S : shape n n (combine A (identity n))).
    { intros row Hr. destruct row as [a b]. split; [apply L2; apply in_combine_l in Hr; exact Hr|apply I2; apply in_combine_r in Hr; exact Hr]. }
    destruct (solve_rows_shape n n _ _ S E) as [LB RB].
    assert (X : forall i j, (i < n)%nat -> (j < n)%nat -> ksum (seq 0 n) (fun l => ent A i l * ent B l j) = if (i =? j)%nat then 1 else 0).
    { intros i j Hi Hj. assert (Hin : In (nth i A [], nth i (@identity F n) []) (combine A (@identity F n))).
      { rewrite <- (combine_nth A (@identity F n) i [] []) by congruence. apply nth_In. rewrite combine_length, L1, I1. lia. }
      pose proof (solve_rows_sound n n _ _ S E _ j Hin ltac:(rewrite combine_length; lia)) as HS. cbn [fst snd] in HS. rewrite <- (ent_identity n i j Hi Hj). unfold ent at 3. rewrite <- HS.
      rewrite (dot_seq _ _ n); [|apply (rows_len n n); assumption|rewrite mat_col_length; exact LB]. apply ksum_ext. intros l _. rewrite nth_mat_col. reflexivity. }
    pose proof (det_mul n (ent A) (ent B)) as M. rewrite HD in M. rewrite (det_ext n _ (fun i j => if (i =? j)%nat then 1 else 0)) in M by exact X.
    rewrite det_identity in M. apply (k1_neq_0 (F := F)). rewrite M. ring.
  Qed.
End Vec.

(** ** Independent vectors, Gram matrix, pseudoinverse *)
Section Gram.
  Context {Q : ofld}.
  Add Field Kfield42 : (kth Q).
  Local Open Scope fld_scope.
  Definition indep (d : nat) (b : list (list Q)) : Prop :=
    forall c : nat -> Q, (forall j, (j < d)%nat -> ksum (seq 0 (length b)) (fun i => c i * ent b i j) = 0) -> forall i, (i < length b)%nat -> c i = 0.

  Lemma ksq_nonneg (x : Q) : kle 0 (x * x).
  Proof.
    destruct (klt_total _ 0 x) as [H|[<-|H]].
    - apply klt_le, klt_mul; exact H.
    - replace (0 * 0) with (0 : Q) by ring. apply kle_refl.
    - apply klt_sub in H. replace (x * x) with ((0 - x) * (0 - x)) by ring. apply klt_le, klt_mul; exact H.
  Qed.
  Lemma ksum_sq_zero {A} (l : list A) (f : A -> Q) : ksum l (fun a => f a * f a) = 0 -> forall a, In a l -> f a = 0.
  Proof.
    induction l as [|b l IH]; intros H a Ha; [destruct Ha|]. rewrite ksum_cons in H.
    assert (H1 : kle 0 (ksum l (fun a => f a * f a))) by (apply ksum_nonneg; intros; apply ksq_nonneg). pose proof (ksq_nonneg (f b)) as H2.
    assert (E1 : f b * f b = 0).
    { apply kle_antisym; [|exact H2]. apply kle_sub. replace (0 - f b * f b) with (ksum l (fun a => f a * f a)); [exact H1|]. transitivity (f b * f b + ksum l (fun a => f a * f a) - f b * f b); [ring|rewrite H; ring]. }
    assert (E2 : ksum l (fun a => f a * f a) = 0) by (transitivity (f b * f b + ksum l (fun a => f a * f a) - f b * f b); [ring|rewrite H, E1; ring]).
    destruct Ha as [<-|Ha]; [|apply IH; assumption]. destruct (kdec (f b) 0) as [|N]; [assumption|]. exfalso. exact (kmul_neq _ _ N N E1).
  Qed.
  Lemma dot_self_zero d (v : list Q) : length v = d -> dot v v = 0 -> forall j, (j < d)%nat -> nth j v 0 = 0.
  Proof. intros Hv H j Hj. rewrite (dot_seq v v d Hv Hv) in H. apply (ksum_sq_zero _ _ H). apply in_seq. lia. Qed.
  Lemma dot_self_nonneg (v : list Q) : kle 0 (dot v v).
  Proof. rewrite (dot_seq v v (length v) eq_refl eq_refl). apply ksum_nonneg. intros; apply ksq_nonneg. Qed.

  (** the product with a combination *)
  Lemma dot_lin d (u w : list Q) k (c : nat -> Q) (b : list (list Q)) : length u = d -> length w = d -> rows_of k d b ->
    (forall j, (j < d)%nat -> nth j w 0 = ksum (seq 0 k) (fun i => c i * ent b i j)) -> dot u w = ksum (seq 0 k) (fun i => c i * dot u (nth i b [])).
  Proof.
    intros Hu Hw Hb H. rewrite (dot_seq u w d Hu Hw). rewrite (ksum_ext _ (fun j => ksum (seq 0 k) (fun i => nth j u 0 * (c i * ent b i j)))) by (intros j Hj; apply in_seq in Hj; rewrite H by lia; rewrite <- ksum_scale_l; reflexivity).
    rewrite ksum_swap. apply ksum_ext. intros i Hi. apply in_seq in Hi. rewrite (dot_seq u _ d Hu) by (apply (rows_len k d); [exact Hb|lia]). rewrite <- ksum_scale_l. apply ksum_ext. intros j _. unfold ent. ring.
  Qed.
  Definition lincomb (d k : nat) (c : nat -> Q) (b : list (list Q)) : list Q := map (fun j => ksum (seq 0 k) (fun i => c i * ent b i j)) (seq 0 d).
  Lemma lincomb_length d k c b : length (lincomb d k c b) = d. Proof. unfold lincomb. rewrite map_length, seq_length. reflexivity. Qed.
  Lemma nth_lincomb d k c b j : (j < d)%nat -> nth j (lincomb d k c b) 0 = ksum (seq 0 k) (fun i => c i * ent b i j).
  Proof. intros Hj. exact (nth_map_seq0 (fun j => ksum (seq 0 k) (fun i => c i * ent b i j)) d 0 j Hj). Qed.

  Lemma gram_injective d k (b : list (list Q)) (c : nat -> Q) : rows_of k d b -> indep d b ->
    (forall i, (i < k)%nat -> ksum (seq 0 k) (fun j => dot (nth i b []) (nth j b []) * c j) = 0) -> forall i, (i < k)%nat -> c i = 0.
  Proof.
    intros Hb HI H i Hi. pose proof Hb as [L _]. rewrite <- L in Hi. apply HI; [|exact Hi]. intros j Hj. rewrite L.
    set (w := lincomb d k c b). pose proof (lincomb_length d k c b : length w = d) as Lw. rewrite <- (nth_lincomb d k c b j Hj). fold w. apply (dot_self_zero d); [exact Lw| |exact Hj].
    rewrite (dot_lin d w w k c b Lw Lw Hb) by (intros; apply nth_lincomb; assumption). apply ksum_zero. intros l Hl. apply in_seq in Hl.
    rewrite dot_comm. rewrite (dot_lin d _ w k c b) by (try apply (rows_len k d); try assumption; try lia; intros; apply nth_lincomb; assumption).
    rewrite (ksum_ext _ (fun j0 => dot (nth l b []) (nth j0 b []) * c j0)) by (intros; ring). rewrite H by lia. ring.
  Qed.
  Lemma pinv_ok d k (b : list (list Q)) : k <> 0%nat -> d <> 0%nat -> rows_of k d b -> indep d b -> exists P, np_pinv (of_cols d b) = Ok P /\ rows_of k d P /\
    forall v, length v = d -> forall i, (i < k)%nat -> ksum (seq 0 k) (fun j => dot (nth i b []) (nth j b []) * nth j (mat_vec P v) 0) = dot (nth i b []) v.
  Proof.
    intros Hk Hd Hb HI. pose proof Hb as [Lb _]. unfold np_pinv, of_cols.
    pose proof (transpose_rows d k b Lb) as HT. rewrite (ncols_rows d k _ HT Hd), (transpose_transpose k d b Hb).
    assert (HG : rows_of k k (mat_mul b (transpose d b))) by (apply (mat_mul_rows k d k); assumption).
    assert (EG : forall i j, (i < k)%nat -> (j < k)%nat -> ent (mat_mul b (transpose d b)) i j = dot (nth i b []) (nth j b [])).
    { intros i j Hi Hj. rewrite (ent_mat_mul k d k) by assumption. rewrite (dot_seq _ _ d) by (apply (rows_len k d); assumption). apply ksum_ext. intros l Hl. apply in_seq in Hl. rewrite ent_transpose by lia. reflexivity. }
    destruct (solve_ok k d (mat_mul b (transpose d b)) b) as (P & EP & LP & RP & HP).
    - apply HG.
    - exact Lb.
    - apply HG.
    - apply Hb.
    - exact Hk.
    - intros v Hv H0. apply (vec_ext _ _ k); [exact Hv|apply repeat_length|]. intros j Hj. rewrite nth_repeat.
      apply (gram_injective d k b (fun j => nth j v 0) Hb HI); [|exact Hj]. intros i Hi. refine (eq_trans _ (H0 (nth i (mat_mul b (transpose d b)) []) _)); [|apply nth_In; destruct HG; lia].
      rewrite (dot_seq _ v k) by (try apply (rows_len k k); assumption). apply ksum_ext. intros l Hl. apply in_seq in Hl. change (nth l (nth i (mat_mul b (transpose d b)) []) 0) with (ent (mat_mul b (transpose d b)) i l). rewrite EG by lia. reflexivity.
    - exists P. split; [exact EP|]. split; [split; assumption|]. intros v Hv i Hi.
      rewrite (ksum_ext _ (fun j => ksum (seq 0 d) (fun l => (dot (nth i b []) (nth j b []) * ent P j l) * nth l v 0))).
      2:{ intros j Hj. apply in_seq in Hj. rewrite (mat_vec_sum k d) by (try lia; try assumption; split; assumption). rewrite <- ksum_scale_l. apply ksum_ext. intros; ring. }
      rewrite ksum_swap. rewrite (dot_seq _ v d) by (try apply (rows_len k d); assumption). apply ksum_ext. intros l Hl. apply in_seq in Hl. rewrite ksum_scale_r. f_equal.
      rewrite <- (HP i l Hi). rewrite (dot_seq _ _ k); [|apply (rows_len k k); assumption|rewrite mat_col_length; exact LP]. apply ksum_ext. intros j Hj. apply in_seq in Hj. rewrite nth_mat_col, <- EG by lia. reflexivity.
  Qed.
  (** coordinates of a combination *)
  Lemma transform_comb d k (b : list (list Q)) v (c : nat -> Q) : k <> 0%nat -> d <> 0%nat -> rows_of k d b -> indep d b -> length v = d ->
    (forall j, (j < d)%nat -> nth j v 0 = ksum (seq 0 k) (fun i => c i * ent b i j)) -> transform_to_basis v b = Ok (map c (seq 0 k)).
  Proof.
    intros Hk Hd Hb HI Hv H. destruct (pinv_ok d k b Hk Hd Hb HI) as (P & EP & RP & HP). unfold transform_to_basis. rewrite Hv, EP. cbn [bind]. f_equal.
    apply (vec_ext _ _ k); [rewrite mat_vec_length; apply RP|rewrite map_length, seq_length; reflexivity|]. intros j Hj. rewrite nth_map_seq0 by exact Hj.
    assert (Z : forall i, (i < k)%nat -> nth i (mat_vec P v) 0 - c i = 0).
    { apply (gram_injective d k b (fun i => nth i (mat_vec P v) 0 - c i) Hb HI). intros i Hi. rewrite (ksum_ext _ (fun l => dot (nth i b []) (nth l b []) * nth l (mat_vec P v) 0 - c l * dot (nth i b []) (nth l b []))) by (intros; ring).
      rewrite ksum_minus, HP by assumption. rewrite <- (dot_lin d (nth i b []) v k c b); [ring|apply (rows_len k d); assumption|assumption..]. }
    specialize (Z j Hj). transitivity (nth j (mat_vec P v) 0 - c j + c j); [ring|rewrite Z; ring].
  Qed.
  (** coordinates in an orthonormal system *)
  Definition orthonormal (q : list (list Q)) : Prop :=
    forall i j, (i < length q)%nat -> (j < length q)%nat -> dot (nth i q []) (nth j q []) = if (i =? j)%nat then 1 else 0.
  Lemma orthonormal_indep d k q : rows_of k d q -> orthonormal q -> indep d q.
  Proof.
    intros Hq HO c H i Hi. pose proof Hq as [L _].
    assert (E : dot (nth i q []) (repeat 0 d) = ksum (seq 0 k) (fun l => c l * dot (nth i q []) (nth l q []))).
    { apply (dot_lin d); [apply (rows_len k d); [exact Hq|lia]|apply repeat_length|exact Hq|]. intros j Hj. rewrite nth_repeat. rewrite L in H. rewrite H by exact Hj. reflexivity. }
    rewrite (dot_seq _ _ d) in E by (try apply (rows_len k d); try apply repeat_length; try assumption; lia). rewrite ksum_zero in E by (intros; rewrite nth_repeat; ring).
    rewrite (ksum_ext _ (fun l => (if (l =? i)%nat then 1 else 0) * c l)) in E by (intros l Hl; apply in_seq in Hl; rewrite HO by lia; rewrite Nat.eqb_sym; ring).
    rewrite delta_sum in E by lia. symmetry. exact E.
  Qed.
  Lemma transform_orthonormal d k q v : k <> 0%nat -> d <> 0%nat -> rows_of k d q -> orthonormal q -> length v = d -> transform_to_basis v q = Ok (map (fun i => dot (nth i q []) v) (seq 0 k)).
  Proof.
    intros Hk Hd Hq HO Hv. destruct (pinv_ok d k q Hk Hd Hq (orthonormal_indep d k q Hq HO)) as (P & EP & RP & HP). pose proof Hq as [L _]. unfold transform_to_basis. rewrite Hv, EP. cbn [bind]. f_equal.
    apply (vec_ext _ _ k); [rewrite mat_vec_length; apply RP|rewrite map_length, seq_length; reflexivity|]. intros j Hj. rewrite nth_map_seq0 by exact Hj.
    rewrite <- (HP v Hv j Hj). rewrite (ksum_ext _ (fun l => (if (l =? j)%nat then 1 else 0) * nth l (mat_vec P v) 0)) by (intros l Hl; apply in_seq in Hl; rewrite HO by lia; rewrite Nat.eqb_sym; reflexivity).
    rewrite delta_sum by exact Hj. reflexivity.
  Qed.
End Gram.
