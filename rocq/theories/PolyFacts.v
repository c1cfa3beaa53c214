(** Coefficient arrays as functions on multi-indices; constructors. *)
From Verif Require Import Base MultiIndex MultiIndexFacts MultiCapFacts MultiIndexCache Fld CodeGen CodeGenFacts LinSolve MultiCoef MultiCoefFacts LagrangeCache Unisolv Poly.
From Coq Require Import Field_theory Field.

Lemma mapM_ok {A B} (f : A -> result B) (g : A -> B) l : (forall a, In a l -> f a = Ok (g a)) -> mapM f l = Ok (map g l).
Proof.
  induction l as [|a l IH]; intros H; [reflexivity|]. cbn [mapM map]. rewrite (H a) by (left; reflexivity). cbn [bind].
  rewrite IH by (intros b Hb; apply H; right; exact Hb). reflexivity.
Qed.
Lemma mapM_app {A B} (f : A -> result B) l m : mapM f (l ++ m) = let* u := mapM f l in let* v := mapM f m in Ok (u ++ v).
Proof.
  induction l as [|a l IH]; cbn [app mapM bind].
  - destruct (mapM f m); reflexivity.
  - destruct (f a); cbn [bind]; [|reflexivity]. rewrite IH. destruct (mapM f l); cbn [bind]; [|reflexivity]. destruct (mapM f m); reflexivity.
Qed.
Lemma mapM_inv {A B} (f : A -> result B) l r : mapM f l = Ok r -> Forall2 (fun a b => f a = Ok b) l r.
Proof.
  revert r. induction l as [|a l IH]; intros r H; cbn [mapM] in H.
  - injection H as <-. constructor.
  - destruct (f a) as [b|] eqn:E; [|discriminate]. cbn [bind] in H. destruct (mapM f l) as [t|]; [|discriminate]. cbn [bind] in H. injection H as <-. constructor; auto.
Qed.
Lemma mapM_length {A B} (f : A -> result B) l r : mapM f l = Ok r -> length r = length l.
Proof. intros H. apply mapM_inv in H. induction H; cbn; congruence. Qed.
Lemma foldM_ok {S A} (f : S -> A -> result S) (g : S -> A -> S) (P : S -> Prop) l : forall s, P s ->
  (forall s a, P s -> In a l -> f s a = Ok (g s a) /\ P (g s a)) -> foldM f s l = Ok (fold_left g l s).
Proof.
  induction l as [|a l IH]; intros s Hs H; [reflexivity|]. cbn [foldM fold_left]. destruct (H s a Hs (or_introl eq_refl)) as [-> HP]. cbn [bind].
  apply IH; [exact HP|]. intros s' b Hs' Hb. apply H; [exact Hs'|right; exact Hb].
Qed.

Lemma map_combine_seq {A B} (f : nat * A -> B) (g : A -> B) l : (forall i a, nth_error l i = Some a -> f (i, a) = g a) -> map f (combine (seq 0 (length l)) l) = map g l.
Proof.
  assert (G : forall k, (forall i a, nth_error l i = Some a -> f (k + i, a) = g a) -> map f (combine (seq k (length l)) l) = map g l).
  { induction l as [|a l IH]; intros k H; [reflexivity|]. cbn [length seq combine map]. f_equal.
    - rewrite <- (Nat.add_0_r k). apply H. reflexivity.
    - apply IH. intros i b Hb. replace (S k + i) with (k + S i) by lia. apply H. exact Hb. }
  apply (G 0).
Qed.

(** ** Dimensions *)
Lemma dim_all_mi r m : get_dimension r m = length (all_mi m r).
Proof. unfold get_dimension. rewrite all_mi_length, (Nat.add_comm m r). rewrite binomial_sym, (Nat.add_comm r m). reflexivity. Qed.
Lemma binomial_pos n k : k <= n -> 1 <= binomial n k.
Proof.
  intros H. replace n with (n - k + k) by lia. pose proof (binomial_fact (n - k) k) as E. pose proof (fact_neq_0 (n - k + k)). nia.
Qed.
Lemma get_dimension_S r m : 0 < m -> get_dimension r m < get_dimension (S r) m.
Proof.
  intros Hm. unfold get_dimension. destruct m as [|m]; [lia|]. replace (S r + S m) with (S (r + S m)) by lia. cbn [binomial].
  pose proof (binomial_pos (r + S m) m ltac:(lia)). lia.
Qed.
Lemma get_dimension_lt r s m : 0 < m -> r < s -> get_dimension r m < get_dimension s m.
Proof.
  intros Hm H. induction H as [|s H IH]; [apply get_dimension_S; exact Hm|]. pose proof (get_dimension_S s m Hm). lia.
Qed.
Lemma get_dimension_inj r s m : 0 < m -> get_dimension r m = get_dimension s m -> r = s.
Proof.
  intros Hm E. destruct (Nat.lt_trichotomy r s) as [H|[H|H]]; [|exact H|]; pose proof (get_dimension_lt _ _ m Hm H); lia.
Qed.
Lemma get_dimension_pos r m : 0 < get_dimension r m.
Proof. unfold get_dimension. apply binomial_pos. lia. Qed.
Lemma find_seq_first (p : nat -> bool) r : p r = true -> (forall s, p s = true -> s = r) -> forall n a, a <= r < a + n -> find p (seq a n) = Some r.
Proof.
  intros Hp Hu. induction n as [|n IH]; intros a H; [lia|]. cbn [seq find]. destruct (p a) eqn:E; [rewrite (Hu a E); reflexivity|].
  apply IH. destruct (Nat.eq_dec a r) as [->|]; [congruence|lia].
Qed.
Lemma get_degree_ok r m : 0 < m -> r < 20 -> get_degree_from_dimension (get_dimension r m) m = Ok r.
Proof.
  intros Hm Hr. unfold get_degree_from_dimension. rewrite (find_seq_first _ r).
  - reflexivity.
  - apply Nat.eqb_refl.
  - intros s Hs. apply Nat.eqb_eq in Hs. apply (get_dimension_inj s r m Hm Hs).
  - lia.
Qed.
Lemma get_degree_inv d m r : get_degree_from_dimension d m = Ok r -> r < 20 /\ d = get_dimension r m.
Proof.
  unfold get_degree_from_dimension. destruct (find _ (seq 0 20)) as [s|] eqn:E; [|discriminate]. intros [= ->].
  apply find_some in E as [H1 H2]. apply in_seq in H1. apply Nat.eqb_eq in H2. split; [lia|congruence].
Qed.

(** ** Positions of multi-indices *)
Lemma get_index_pos mi r i : pos (all_mi (length mi) r) mi = Some i -> nsum mi <= r -> get_index mi r = Ok i.
Proof.
  intros H Hs. rewrite get_index_eq. unfold norm. replace (nsum mi <=? r) with true by (symmetry; apply Nat.leb_le; exact Hs). rewrite H. reflexivity.
Qed.

Section Cf.
  Context {F : fld}.
  Add Field Kfield7 : (kth F).
  Local Open Scope fld_scope.

  Definition cfl (L : list (list nat)) (c : list F) (nu : list nat) : F :=
    match pos L nu with Some i => nth i c 0 | None => 0 end.
  Definition cf (m r : nat) (c : list F) (nu : list nat) : F := cfl (all_mi m r) c nu.

  Lemma cfl_cons_eq l L c0 c : cfl (l :: L) (c0 :: c) l = c0.
  Proof. unfold cfl. cbn [pos]. rewrite (proj2 (leqb_eq l l) eq_refl). reflexivity. Qed.
  Lemma cfl_cons_neq l L c0 c nu : l <> nu -> cfl (l :: L) (c0 :: c) nu = cfl L c nu.
  Proof.
    intros H. unfold cfl. cbn [pos]. destruct (leqb nu l) eqn:E; [apply leqb_eq in E; congruence|]. destruct (pos L nu); reflexivity.
  Qed.
  Lemma sum_cfl L (c : list F) (g : list nat -> F) : NoDup L -> length c = length L ->
    ksum (combine c L) (fun p => fst p * g (snd p)) = ksum L (fun nu => cfl L c nu * g nu).
  Proof.
    revert c. induction L as [|l L IH]; intros [|c0 c] HN E; try discriminate; [reflexivity|]. apply NoDup_cons_iff in HN as [Hl HN].
    cbn [combine]. rewrite !ksum_cons, cfl_cons_eq. cbn [fst snd]. f_equal. rewrite IH by (cbn in E; assumption || lia). apply ksum_ext.
    intros nu Hnu. rewrite cfl_cons_neq; [reflexivity|]. intros ->. contradiction.
  Qed.
  Lemma map_cfl L (c : list F) : NoDup L -> length c = length L -> map (cfl L c) L = c.
  Proof.
    revert c. induction L as [|l L IH]; intros [|c0 c] HN E; try discriminate; [reflexivity|]. apply NoDup_cons_iff in HN as [Hl HN].
    cbn [map]. rewrite cfl_cons_eq. f_equal. rewrite <- (IH c HN) at 2 by (cbn in E; lia). apply map_ext_in. intros nu Hnu. apply cfl_cons_neq. intros ->. contradiction.
  Qed.
  Lemma cfl_map L (f : list nat -> F) nu : In nu L -> cfl L (map f L) nu = f nu.
  Proof.
    intros H. unfold cfl. destruct (pos_in L nu H) as [i Hi]. rewrite Hi. pose proof (pos_nth _ _ _ Hi) as Hn.
    apply (map_nth_error f) in Hn. apply nth_error_nth. exact Hn.
  Qed.
  Lemma cfl_notin L (c : list F) nu : ~ In nu L -> cfl L c nu = 0.
  Proof. intros H. unfold cfl. rewrite pos_not_in by exact H. reflexivity. Qed.

  Lemma sum_cf m r (c : list F) (g : list nat -> F) : length c = get_dimension r m ->
    ksum (combine c (all_mi m r)) (fun p => fst p * g (snd p)) = ksum (all_mi m r) (fun nu => cf m r c nu * g nu).
  Proof. intros E. apply sum_cfl; [apply NoDup_all_mi|]. rewrite E. apply dim_all_mi. Qed.
  Lemma map_cf m r (c : list F) : length c = get_dimension r m -> map (cf m r c) (all_mi m r) = c.
  Proof. intros E. apply map_cfl; [apply NoDup_all_mi|]. rewrite E. apply dim_all_mi. Qed.
  Lemma cf_map m r (f : list nat -> F) nu : length nu = m -> nsum nu <= r -> cf m r (map f (all_mi m r)) nu = f nu.
  Proof. intros H1 H2. apply cfl_map. apply in_all_mi. split; assumption. Qed.
  Lemma cf_out m r (c : list F) nu : r < nsum nu -> cf m r c nu = 0.
  Proof. intros H. apply cfl_notin. rewrite in_all_mi. lia. Qed.
  Lemma map_all_mi_length m r (f : list nat -> F) : length (map f (all_mi m r)) = get_dimension r m.
  Proof. rewrite map_length. symmetry. apply dim_all_mi. Qed.

  Lemma nth_error_combine_seq' {A} (l : list A) (d : A) i : i < length l -> nth_error (combine (seq 0 (length l)) l) i = Some (i, nth i l d).
  Proof.
    intros H. assert (G : forall k, nth_error (combine (seq k (length l)) l) i = Some ((k + i)%nat, nth i l d)).
    { revert i H. induction l as [|a l IH]; intros [|i] H k; cbn [length] in H; try lia; cbn [length seq combine nth_error nth].
      - do 2 f_equal. lia.
      - rewrite IH by lia. do 2 f_equal. lia. }
    apply (G 0%nat).
  Qed.
  Lemma index_cf m r nu (c : list F) : length nu = m -> nsum nu <= r -> length c = get_dimension r m ->
    exists i, pos (all_mi m r) nu = Some i /\ get_index nu r = Ok i /\ i < length c /\ get c i = Ok (cf m r c nu).
  Proof.
    intros H1 H2 H3. assert (HI : In nu (all_mi m r)) by (apply in_all_mi; split; assumption).
    destruct (pos_in _ _ HI) as [i Hi]. exists i. split; [exact Hi|]. rewrite <- H1 in Hi. split; [apply get_index_pos; assumption|]. rewrite H1 in Hi.
    pose proof (pos_bound _ _ _ Hi) as Hb. rewrite <- dim_all_mi, <- H3 in Hb. split; [exact Hb|]. unfold get, cf, cfl. rewrite Hi.
    rewrite (nth_error_nth' c 0) by exact Hb. reflexivity.
  Qed.
  Lemma pos_inj L a b i : pos L a = Some i -> pos L b = Some i -> a = b.
  Proof. intros H1 H2. apply pos_nth in H1, H2. congruence. Qed.
  Definition mi_dec : forall a b : list nat, {a = b} + {a <> b} := list_eq_dec Nat.eq_dec.
  Lemma cf_upd m r nu i (c : list F) v mu : pos (all_mi m r) nu = Some i -> length c = get_dimension r m ->
    cf m r (upd c i v) mu = if mi_dec mu nu then v else cf m r c mu.
  Proof.
    intros Hi Hc. pose proof (pos_bound _ _ _ Hi) as Hb. rewrite <- dim_all_mi, <- Hc in Hb. unfold cf, cfl. destruct (mi_dec mu nu) as [->|Hn].
    - rewrite Hi. apply nth_upd_eq. exact Hb.
    - destruct (pos (all_mi m r) mu) as [j|] eqn:Ej; [|reflexivity]. apply nth_upd_neq. intros ->. apply Hn. apply (pos_inj _ _ _ _ Ej Hi).
  Qed.
  Lemma cf_repeat m r n mu : cf m r (repeat 0 n) mu = 0.
  Proof. unfold cf, cfl. destruct (pos (all_mi m r) mu); [apply nth_repeat|reflexivity]. Qed.
  Lemma cf_ext_eq m r (c d : list F) : length c = get_dimension r m -> length d = get_dimension r m ->
    (forall nu, length nu = m -> nsum nu <= r -> cf m r c nu = cf m r d nu) -> c = d.
  Proof.
    intros H1 H2 H. rewrite <- (map_cf m r c H1), <- (map_cf m r d H2). apply map_ext_in. intros nu Hnu. apply in_all_mi in Hnu as [? ?]. apply H; assumption.
  Qed.
  Lemma nth_cf r (c : list F) k : k <= r -> length c = get_dimension r 1 -> cf 1 r c [k] = nth k c 0.
  Proof.
    intros Hk Hc. unfold cf, cfl. rewrite all_mi_1. rewrite (pos_nth_error (map (fun k => [k]) (seq 0 (S r))) [k] k).
    - reflexivity.
    - rewrite <- all_mi_1. apply NoDup_all_mi.
    - apply (map_nth_error (fun k => [k])). rewrite nth_error_seq by lia. reflexivity.
  Qed.
  Lemma get_dimension_1 r : get_dimension r 1 = S r.
  Proof. rewrite dim_all_mi, all_mi_1, map_length, seq_length. reflexivity. Qed.
End Cf.
