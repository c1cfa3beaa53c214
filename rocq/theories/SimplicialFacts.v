(** Proofs about simplex_boundary, boundary and the sub-simplex functions
    (model in Simplicial.v). *)
From Verif Require Import Base MultiIndex MultiIndexFacts MultiCapFacts Permutations PermFacts CycleFacts PermEnum PermMisc Simplicial Orient ChainFacts.

(** ** delete_at *)
Lemma delete_at_in {A} (s : list A) i x : In x (delete_at i s) -> In x s.
Proof.
  unfold delete_at. rewrite in_app_iff. intros [H|H].
  - rewrite <- (firstn_skipn i s), in_app_iff. auto.
  - rewrite <- (firstn_skipn (S i) s), in_app_iff. auto.
Qed.
Lemma delete_at_perm {A} (s : list A) i d : i < length s -> Permutation s (nth i s d :: delete_at i s).
Proof.
  revert i; induction s as [|x s IH]; intros [|i] H; cbn [length] in H; try lia; [reflexivity|].
  rewrite delete_at_S. cbn [nth]. rewrite perm_swap. constructor. apply IH. lia.
Qed.
Lemma delete_at_nodup {A} (s : list A) i : NoDup s -> NoDup (delete_at i s).
Proof.
  destruct (Nat.lt_ge_cases i (length s)) as [H|H]; intros HN.
  - destruct s as [|d s0]; [cbn in H; lia|].
    apply (Permutation_NoDup (delete_at_perm _ i d H)) in HN. inversion HN; auto.
  - unfold delete_at. rewrite firstn_all2, skipn_all2, app_nil_r by lia. exact HN.
Qed.
Lemma delete_at_notin {A} (s : list A) i d : NoDup s -> i < length s -> ~ In (nth i s d) (delete_at i s).
Proof. intros HN H. apply (Permutation_NoDup (delete_at_perm s i d H)) in HN. inversion HN; auto. Qed.
Lemma delete_at_in_iff {A} (s : list A) i d x : NoDup s -> i < length s ->
  (In x (delete_at i s) <-> In x s /\ x <> nth i s d).
Proof.
  intros HN H. split.
  - intros Hx. split; [eapply delete_at_in; eauto|]. intros ->. eapply delete_at_notin; eauto.
  - intros [Hx Hn]. apply (Permutation_in _ (delete_at_perm s i d H)) in Hx as [Hx|Hx]; [congruence|exact Hx].
Qed.
Lemma delete_at_inj (s : list nat) i j : NoDup s -> i < length s -> j < length s ->
  Permutation (delete_at i s) (delete_at j s) -> i = j.
Proof.
  intros HN Hi Hj HP. destruct (Nat.eq_dec i j) as [|Hn]; [assumption|exfalso].
  apply (delete_at_notin s i 0 HN Hi). eapply Permutation_in; [symmetry; exact HP|].
  apply (delete_at_in_iff s j 0); [exact HN|exact Hj|]. split; [apply nth_In, Hi|].
  intros E. apply Hn. exact (proj1 (NoDup_nth s 0) HN i j Hi Hj E).
Qed.

(** ** simplex_boundary *)
Definition face_of (s : list nat) (i : nat) : list nat :=
  match boundary_face s i with Ok b => b | Err _ => [] end.

Lemma odd_mod2 i : (i mod 2 =? 1) = Nat.odd i.
Proof.
  rewrite (Nat.div_mod i 2) at 2 by lia. rewrite Nat.add_comm, Nat.mul_comm.
  rewrite <- (Nat.mul_comm 2). rewrite Nat.odd_add_mul_2.
  pose proof (Nat.mod_upper_bound i 2 ltac:(lia)). destruct (i mod 2) as [|[|k]]; try lia; reflexivity.
Qed.
Lemma boundary_face_ok s i : i < length s ->
  boundary_face s i = Ok (face_of s i) /\
  sperm (Nat.odd i && (2 <? length s)) (delete_at i s) (face_of s i).
Proof.
  intros Hi. unfold face_of. unfold boundary_face. rewrite odd_mod2.
  rewrite delete_at_length by exact Hi. replace (1 <? length s - 1) with (2 <? length s).
  2:{ destruct (Nat.ltb_spec 2 (length s)), (Nat.ltb_spec 1 (length s - 1)); lia || reflexivity. }
  destruct (Nat.odd i && (2 <? length s)) eqn:E.
  - apply andb_true_iff in E as [_ E]. apply Nat.ltb_lt in E.
    destruct (swap_last_sperm (delete_at i s)) as (m & Em & Hm & _); [rewrite delete_at_length by exact Hi; lia|].
    rewrite Em. auto.
  - split; [reflexivity|apply sperm_refl].
Qed.
Definition faces (s : list nat) : list (list nat) :=
  if 1 <? length s then map (face_of s) (seq 0 (length s)) else [].
Lemma simplex_boundary_ok s : s <> [] -> simplex_boundary s = Ok (faces s).
Proof.
  intros H. unfold simplex_boundary, faces. destruct s as [|x [|y s]]; [congruence|reflexivity|].
  set (s' := x :: y :: s). assert (E : (1 <? length s') = true) by (apply Nat.ltb_lt; unfold s'; cbn [length]; lia).
  rewrite E. apply mapM_map. intros i Hi. apply in_seq in Hi. apply boundary_face_ok. lia.
Qed.
Lemma faces_length s : 1 < length s -> length (faces s) = length s.
Proof. intros H. unfold faces. apply Nat.ltb_lt in H. rewrite H, map_length, seq_length. reflexivity. Qed.
Lemma faces_nth s i : 1 < length s -> i < length s -> nth i (faces s) [] = face_of s i.
Proof.
  intros H Hi. unfold faces. apply Nat.ltb_lt in H. rewrite H, (nth_map_in _ _ _ 0) by (rewrite seq_length; exact Hi).
  rewrite nth_seq0 by exact Hi. reflexivity.
Qed.
Lemma in_faces s f : In f (faces s) <-> 1 < length s /\ exists i, i < length s /\ f = face_of s i.
Proof.
  unfold faces. destruct (Nat.ltb_spec 1 (length s)) as [H|H].
  - rewrite in_map_iff. split.
    + intros (i & <- & Hi). apply in_seq in Hi. split; [exact H|]. exists i. split; [lia|reflexivity].
    + intros (_ & i & Hi & ->). exists i. split; [reflexivity|]. apply in_seq. lia.
  - split; [intros []|lia].
Qed.
Lemma face_of_perm s i : i < length s -> Permutation (delete_at i s) (face_of s i).
Proof. intros H. eapply sperm_perm. apply boundary_face_ok, H. Qed.
Lemma face_length s f : In f (faces s) -> length f = length s - 1.
Proof.
  intros H. apply in_faces in H as (_ & i & Hi & ->). rewrite <- (Permutation_length (face_of_perm s i Hi)).
  apply delete_at_length, Hi.
Qed.
Lemma face_nodup' s f : NoDup s -> In f (faces s) -> NoDup f.
Proof.
  intros HN H. apply in_faces in H as (_ & i & Hi & ->).
  eapply Permutation_NoDup; [apply face_of_perm, Hi|]. apply delete_at_nodup, HN.
Qed.

(** The vertex sets of the faces. *)
Lemma face_exists s t : NoDup s -> NoDup t -> incl t s -> length t + 1 = length s ->
  exists i, i < length s /\ @Permutation nat t (delete_at i s).
Proof.
  intros Hs Ht Hi HL.
  destruct (existsb (fun x => negb (existsb (Nat.eqb x) t)) s) eqn:E.
  - apply existsb_exists in E as (x & Hx & E). apply negb_true_iff in E.
    assert (Hxt : ~ In x t).
    { intros H. enough (existsb (Nat.eqb x) t = true) by congruence. apply existsb_exists. exists x. split; [exact H|apply Nat.eqb_refl]. }
    destruct (In_nth s x 0 Hx) as (i & Hil & <-). exists i. split; [exact Hil|].
    apply NoDup_Permutation_bis; [exact Ht|rewrite delete_at_length by exact Hil; lia|].
    intros y Hy. apply (delete_at_in_iff s i 0 y Hs Hil). split; [apply Hi, Hy|]. intros ->. contradiction.
  - exfalso. assert (Hst : incl s t).
    { intros x Hx. destruct (existsb (Nat.eqb x) t) eqn:E'.
      - apply existsb_exists in E' as (y & Hy & E'). apply Nat.eqb_eq in E'. subst. exact Hy.
      - enough (existsb (fun x => negb (existsb (Nat.eqb x) t)) s = true) by congruence.
        apply existsb_exists. exists x. split; [exact Hx|]. rewrite E'. reflexivity. }
    apply (NoDup_incl_length Hs) in Hst. lia.
Qed.

(** ** Counting faces *)
Definition count (k : list nat) (F : list (list nat)) : nat := length (filter (fun f => leqb (sorted f) k) F).
Lemma count_app k F G : count k (F ++ G) = count k F + count k G.
Proof. unfold count. rewrite filter_app, app_length. reflexivity. Qed.

(** [t] is a codimension one face of [s] (as vertex sets). *)
Definition is_face (t s : list nat) : bool := (length t + 1 =? length s) && forallb (fun v => existsb (Nat.eqb v) s) t.
Lemma existsb_eqb_in x l : existsb (Nat.eqb x) l = true <-> In x l.
Proof.
  rewrite existsb_exists. split.
  - intros (y & Hy & E). apply Nat.eqb_eq in E. subst. exact Hy.
  - intros H. exists x. split; [exact H|apply Nat.eqb_refl].
Qed.
Lemma forallb_in t s : forallb (fun v => existsb (Nat.eqb v) s) t = true <-> incl t s.
Proof.
  rewrite forallb_forall. split; intros H x Hx.
  - apply existsb_eqb_in. apply H, Hx.
  - apply existsb_eqb_in. apply H, Hx.
Qed.
Lemma is_face_spec t s : is_face t s = true <-> length t + 1 = length s /\ incl t s.
Proof. unfold is_face. rewrite andb_true_iff, Nat.eqb_eq, forallb_in. tauto. Qed.

Lemma count_faces t s : NoDup s -> NoDup t -> t <> [] ->
  count (sorted t) (faces s) = if is_face t s then 1 else 0.
Proof.
  intros Hs Ht Hne. unfold count.
  assert (Hnd : forall l, NoDup l -> (forall i, In i l -> i < length s) ->
     length (filter (fun f => leqb (sorted f) (sorted t)) (map (face_of s) l)) <= 1 /\
     (length (filter (fun f => leqb (sorted f) (sorted t)) (map (face_of s) l)) = 1 <->
       exists i : nat, In i l /\ Permutation t (delete_at i s))).
  { induction l as [|i l IH]; intros HN HB.
    - split; [cbn; lia|]. split; [cbn; lia|]. intros (i & [] & _).
    - apply NoDup_cons_iff in HN as [Hi HN]. destruct (IH HN) as [H1 H2]; [intros; apply HB; right; assumption|].
      cbn [map filter]. assert (Hil : i < length s) by (apply HB; left; reflexivity).
      destruct (leqb (sorted (face_of s i)) (sorted t)) eqn:E.
      + apply leqb_eq, sorted_eq in E. cbn [length]. rewrite <- (face_of_perm s i Hil) in E.
        assert (E0 : length (filter (fun f => leqb (sorted f) (sorted t)) (map (face_of s) l)) <> 1).
        { intros E1. apply H2 in E1 as (j & Hj & HP). apply Hi. replace i with j; [exact Hj|].
          apply (delete_at_inj s); [exact Hs| |exact Hil|]. { apply HB. right. exact Hj. }
          rewrite <- HP, <- E. reflexivity. }
        split; [lia|]. split; [|lia]. intros _. exists i. split; [left; reflexivity|]. symmetry. exact E.
      + split; [exact H1|]. rewrite H2. split.
        * intros (j & Hj & HP). exists j. split; [right; exact Hj|exact HP].
        * intros (j & [<-|Hj] & HP); [|exists j; auto]. exfalso.
          enough (leqb (sorted (face_of s i)) (sorted t) = true) by congruence.
          apply leqb_eq, sorted_eq. rewrite <- (face_of_perm s i Hil). symmetry. exact HP. }
  destruct (Hnd (seq 0 (length s)) (seq_NoDup _ _)) as [H1 H2]; [intros i Hi; apply in_seq in Hi; lia|].
  destruct (is_face t s) eqn:E.
  - apply is_face_spec in E as [HL Hi].
    assert (HL2 : 1 < length s) by (destruct t; [congruence|cbn in HL; lia]).
    unfold faces. apply Nat.ltb_lt in HL2. rewrite HL2. apply H2.
    destruct (face_exists s t Hs Ht Hi HL) as (i & Hil & HP). exists i. split; [apply in_seq; lia|exact HP].
  - unfold faces. destruct (Nat.ltb_spec 1 (length s)) as [HL|HL]; [|reflexivity].
    enough (length (filter (fun f => leqb (sorted f) (sorted t)) (map (face_of s) (seq 0 (length s)))) <> 1) by lia.
    intros E1. apply H2 in E1 as (i & Hi & HP). apply in_seq in Hi.
    enough (is_face t s = true) by congruence. apply is_face_spec. split.
    + rewrite (Permutation_length HP), delete_at_length; lia.
    + intros x Hx. eapply delete_at_in. eapply Permutation_in; [exact HP|exact Hx].
Qed.

Definition all_faces (S : list (list nat)) : list (list nat) := flat_map faces S.
Lemma count_all_faces t S : Forall (@NoDup nat) S -> NoDup t -> t <> [] ->
  count (sorted t) (all_faces S) = length (filter (is_face t) S).
Proof.
  intros HS Ht Hne. unfold all_faces. induction S as [|s S IH]; [reflexivity|].
  apply Forall_cons_iff in HS as [Hs HS]. cbn [flat_map filter]. rewrite count_app, IH, count_faces by assumption.
  destruct (is_face t s); reflexivity.
Qed.

(** ** boundary(): the invariant of the loop *)
Definition dkeys (st : bstate) := map fst (bs_dict st).
Definition didx (st : bstate) := map (fun e => snd (snd e)) (bs_dict st).
(** position [i] of [F] holds [v], the last face with its vertex set *)
Definition last_occ (F : list (list nat)) (v : list nat) (i : nat) : Prop :=
  nth_error F i = Some v /\ forall j w, i < j -> nth_error F j = Some w -> sorted w <> sorted v.
Definition binv (F : list (list nat)) (st : bstate) : Prop :=
  bs_idx st = length F /\ bs_set st = dkeys st /\ NoDup (dkeys st) /\
  StronglySorted lt (didx st) /\
  forall k v i, In (k, (v, i)) (bs_dict st) <-> k = sorted v /\ last_occ F v i /\ Nat.odd (count k F) = true.

Lemma tuple_mem_in t s : tuple_mem t s = true <-> In t s.
Proof.
  unfold tuple_mem. rewrite existsb_exists. split.
  - intros (x & Hx & E). apply leqb_eq in E. subst. exact Hx.
  - intros H. exists t. split; [exact H|apply leqb_refl].
Qed.
Lemma tuple_mem_notin t s : tuple_mem t s = false <-> ~ In t s.
Proof. rewrite <- tuple_mem_in. destruct (tuple_mem t s); split; congruence. Qed.

Definition neqk (t : list nat) (x : list nat) : bool := negb (leqb t x).
Lemma filter_all {A} (f : A -> bool) l : (forall x, In x l -> f x = true) -> filter f l = l.
Proof.
  induction l as [|x l IH]; intros H; cbn [filter]; [reflexivity|]. rewrite H by (left; reflexivity).
  rewrite IH; [reflexivity|]. intros; apply H; right; assumption.
Qed.
Lemma remove_first_spec t s : NoDup s -> In t s -> remove_first t s = Ok (filter (neqk t) s).
Proof.
  induction s as [|x s IH]; intros HN Hin; [destruct Hin|]. apply NoDup_cons_iff in HN as [Hx HN].
  cbn [remove_first filter]. unfold neqk at 1. destruct (leqb t x) eqn:E; cbn [negb].
  - apply leqb_eq in E. subst x. rewrite filter_all; [reflexivity|]. intros y Hy. unfold neqk. apply negb_true_iff, leqb_neq.
    intros ->. contradiction.
  - destruct Hin as [->|Hin]; [rewrite leqb_refl in E; discriminate|]. rewrite IH by assumption. reflexivity.
Qed.
Lemma dict_pop_spec {V} t (d : list (list nat * V)) : NoDup (map fst d) -> In t (map fst d) ->
  dict_pop t d = Ok (filter (fun e => neqk t (fst e)) d).
Proof.
  induction d as [|[x v] d IH]; cbn [map fst]; intros HN Hin; [destruct Hin|]. apply NoDup_cons_iff in HN as [Hx HN].
  cbn [dict_pop filter fst]. unfold neqk at 1. destruct (leqb t x) eqn:E; cbn [negb].
  - apply leqb_eq in E. subst x. rewrite filter_all; [reflexivity|]. intros [y w] Hy. cbn [fst]. unfold neqk.
    apply negb_true_iff, leqb_neq. intros ->. apply Hx. apply in_map_iff. exists (y, w). auto.
  - destruct Hin as [->|Hin]; [rewrite leqb_refl in E; discriminate|]. rewrite IH by assumption. reflexivity.
Qed.
Lemma dict_set_spec {V} t v (d : list (list nat * V)) : ~ In t (map fst d) -> dict_set t v d = d ++ [(t, v)].
Proof.
  induction d as [|[x w] d IH]; cbn [map fst dict_set app]; intros H; [reflexivity|].
  destruct (leqb t x) eqn:E; [apply leqb_eq in E; subst; exfalso; apply H; left; reflexivity|].
  rewrite IH; [reflexivity|]. intros ?; apply H; right; assumption.
Qed.
Lemma filter_map_fst {V} t (d : list (list nat * V)) :
  filter (neqk t) (map fst d) = map fst (filter (fun e => neqk t (fst e)) d).
Proof. induction d as [|[x v] d IH]; cbn [map filter fst]; [reflexivity|]. destruct (neqk t x); cbn [map fst]; rewrite IH; reflexivity. Qed.
Lemma SS_filter {A B} (R : B -> B -> Prop) (g : A -> B) (f : A -> bool) l :
  StronglySorted R (map g l) -> StronglySorted R (map g (filter f l)).
Proof.
  induction l as [|x l IH]; cbn [map filter]; intros H; [constructor|]. inversion H as [|? ? H1 H2]; subst.
  destruct (f x); [|auto]. cbn [map]. constructor; [auto|]. rewrite Forall_forall in *. intros y Hy.
  apply in_map_iff in Hy as (z & <- & Hz). apply filter_In in Hz as [Hz _]. apply H2, in_map, Hz.
Qed.
Lemma SS_snoc l (x : nat) : StronglySorted lt l -> (forall y, In y l -> y < x) -> StronglySorted lt (l ++ [x]).
Proof.
  induction 1 as [|y l Hs IH Hf]; intros H; cbn [app]; [repeat constructor|]. constructor.
  - apply IH. intros; apply H; right; assumption.
  - apply Forall_app. split; [exact Hf|]. repeat constructor. apply H. left. reflexivity.
Qed.

Lemma nth_error_snoc {A} (F : list A) f i v : nth_error (F ++ [f]) i = Some v <->
  nth_error F i = Some v \/ (i = length F /\ v = f).
Proof.
  destruct (Nat.lt_trichotomy i (length F)) as [H|[H|H]].
  - rewrite nth_error_app1 by exact H. split; [auto|]. intros [?|[? _]]; [assumption|lia].
  - subst i. rewrite nth_error_app2, Nat.sub_diag by lia. cbn. split.
    + intros [= ->]. auto.
    + intros [E|[_ ->]]; [|reflexivity]. assert (length F < length F) by (apply nth_error_Some; congruence). lia.
  - assert (E1 : nth_error (F ++ [f]) i = None) by (apply nth_error_None; rewrite app_length; cbn; lia).
    assert (E2 : nth_error F i = None) by (apply nth_error_None; lia).
    rewrite E1, E2. split; [discriminate|]. intros [?|[? _]]; [discriminate|lia].
Qed.
Lemma last_occ_snoc F f v i : last_occ (F ++ [f]) v i <->
  (last_occ F v i /\ sorted f <> sorted v) \/ (i = length F /\ v = f).
Proof.
  unfold last_occ. rewrite nth_error_snoc. split.
  - intros [[H|[-> ->]] Hl]; [left|right; auto]. assert (Hi : i < length F) by (apply nth_error_Some; congruence).
    split; [split; [exact H|]|].
    + intros j w Hj Hw. apply (Hl j w Hj). apply nth_error_snoc. auto.
    + apply (Hl (length F) f Hi). apply nth_error_snoc. auto.
  - intros [[[H Hl] Hf]|[-> ->]].
    + split; [auto|]. intros j w Hj Hw. apply nth_error_snoc in Hw as [Hw|[_ ->]]; [apply (Hl j w Hj Hw)|exact Hf].
    + split; [auto|]. intros j w Hj Hw.
      assert (Hlt : j < length (F ++ [f])) by (apply nth_error_Some; congruence). rewrite app_length in Hlt. cbn in Hlt. lia.
Qed.
Lemma count_snoc k F f : count k (F ++ [f]) = count k F + (if leqb (sorted f) k then 1 else 0).
Proof. rewrite count_app. unfold count at 2. cbn [filter]. destruct (leqb (sorted f) k); reflexivity. Qed.
Lemma last_occ_exists k F : count k F <> 0 -> exists v i, sorted v = k /\ last_occ F v i.
Proof.
  induction F as [|f F IH] using rev_ind; [intros H; cbn in H; lia|]. rewrite count_snoc. intros H.
  destruct (leqb (sorted f) k) eqn:E.
  - apply leqb_eq in E. exists f, (length F). split; [exact E|]. apply last_occ_snoc. right. auto.
  - apply leqb_neq in E. destruct IH as (v & i & Hv & Hl); [lia|]. exists v, i. split; [exact Hv|].
    apply last_occ_snoc. left. split; [exact Hl|]. congruence.
Qed.
Lemma binv_key F st k : binv F st -> (In k (dkeys st) <-> Nat.odd (count k F) = true).
Proof.
  intros (_ & _ & _ & _ & H). unfold dkeys. rewrite in_map_iff. split.
  - intros ([k' [v i]] & <- & Hin). apply H in Hin. tauto.
  - intros Ho. destruct (last_occ_exists k F) as (v & i & Hv & Hl); [intros E; rewrite E in Ho; discriminate|].
    exists (k, (v, i)). split; [reflexivity|]. apply H. auto.
Qed.

Lemma boundary_step_inv F st f : binv F st -> exists st', boundary_step st f = Ok st' /\ binv (F ++ [f]) st'.
Proof.
  intros HI. pose proof (binv_key F st (sorted f) HI) as Hk. destruct HI as (Hidx & Hset & HN & HS & HD).
  unfold boundary_step. rewrite Hset. destruct (tuple_mem (sorted f) (dkeys st)) eqn:E.
  - apply tuple_mem_in in E. rewrite (remove_first_spec _ _ HN E), (dict_pop_spec _ _ HN E). cbn [bind].
    eexists. split; [reflexivity|]. unfold binv, dkeys, didx. cbn [bs_idx bs_set bs_dict].
    split; [rewrite app_length; cbn; lia|]. split; [apply filter_map_fst|].
    split; [rewrite <- filter_map_fst; apply NoDup_filter, HN|]. split; [apply SS_filter, HS|].
    apply Hk in E. intros k v i. rewrite filter_In, HD. cbn [fst]. unfold neqk. rewrite negb_true_iff, leqb_neq, count_snoc, last_occ_snoc.
    split.
    + intros [(-> & Hl & Ho) Hne]. split; [reflexivity|]. split; [left; auto|].
      apply leqb_neq in Hne. rewrite Hne, Nat.add_0_r. exact Ho.
    + intros (-> & Hl & Ho). destruct (leqb (sorted f) (sorted v)) eqn:El.
      * apply leqb_eq in El. rewrite <- El in Ho. rewrite Nat.odd_add, E in Ho. discriminate.
      * rewrite Nat.add_0_r in Ho. apply leqb_neq in El. destruct Hl as [[Hl _]|[_ ->]]; [auto|congruence].
  - apply tuple_mem_notin in E. eexists. split; [reflexivity|].
    unfold binv, dkeys, didx. cbn [bs_idx bs_set bs_dict]. rewrite dict_set_spec by exact E.
    assert (Em : tuple_mem (sorted f) (dkeys st) = false) by (apply tuple_mem_notin, E).
    unfold set_add. unfold dkeys in Em. rewrite Em. rewrite !map_app. cbn [map fst snd].
    split; [rewrite app_length; cbn; lia|]. split; [reflexivity|].
    split. { apply NoDup_app_intro; [exact HN|repeat constructor; auto|]. intros x Hx [<-|[]]. contradiction. }
    split. { apply SS_snoc; [exact HS|]. intros y Hy. apply in_map_iff in Hy as ([k [v i]] & <- & Hin). cbn [snd].
             apply HD in Hin as (_ & [Hl _] & _). rewrite Hidx. apply nth_error_Some. congruence. }
    assert (Ec : Nat.odd (count (sorted f) F) = false).
    { destruct (Nat.odd (count (sorted f) F)) eqn:Eo; [|reflexivity]. exfalso. apply E, Hk. reflexivity. }
    intros k v i. rewrite in_app_iff, HD, count_snoc, last_occ_snoc. split.
    + intros [(-> & Hl & Ho)|[[= <- <- <-]|[]]].
      * assert (Hne : sorted f <> sorted v) by (intros Ee; rewrite Ee in Ec; congruence).
        split; [reflexivity|]. split; [left; auto|]. apply leqb_neq in Hne. rewrite Hne, Nat.add_0_r. exact Ho.
      * split; [reflexivity|]. split; [right; auto|]. rewrite leqb_refl, Nat.odd_add, Ec. reflexivity.
    + intros (-> & Hl & Ho). destruct Hl as [[Hl Hne]|[-> ->]].
      * left. apply leqb_neq in Hne. rewrite Hne, Nat.add_0_r in Ho. auto.
      * right. left. rewrite Hidx. reflexivity.
Qed.

Lemma foldM_step_inv G : forall F st, binv F st -> exists st', foldM boundary_step st G = Ok st' /\ binv (F ++ G) st'.
Proof.
  induction G as [|g G IH]; intros F st HI; cbn [foldM].
  - exists st. rewrite app_nil_r. auto.
  - destruct (boundary_step_inv F st g HI) as (st1 & -> & H1). cbn [bind].
    destruct (IH (F ++ [g]) st1 H1) as (st2 & E2 & H2). exists st2. split; [exact E2|]. rewrite <- app_assoc in H2. exact H2.
Qed.
Lemma boundary_loop_inv S : forall F st, Forall (fun s => s <> []) S -> binv F st ->
  exists st', boundary_loop st S = Ok st' /\ binv (F ++ all_faces S) st'.
Proof.
  unfold boundary_loop, all_faces. induction S as [|s S IH]; intros F st HS HI; cbn [foldM flat_map].
  - exists st. rewrite app_nil_r. auto.
  - apply Forall_cons_iff in HS as [Hs HS]. rewrite (simplex_boundary_ok s Hs). cbn [bind].
    destruct (foldM_step_inv (faces s) F st HI) as (st1 & -> & H1). cbn [bind].
    destruct (IH (F ++ faces s) st1 HS H1) as (st2 & E2 & H2). exists st2. split; [exact E2|]. rewrite <- app_assoc in H2. exact H2.
Qed.

Lemma sort_id {A} (leb : A -> A -> bool) l : StronglySorted (fun a b => leb a b = true) l -> sort leb l = l.
Proof.
  induction 1 as [|x l Hs IH Hf]; cbn [sort]; [reflexivity|]. rewrite IH. destruct l as [|y l]; [reflexivity|].
  cbn [insert]. inversion Hf; subst. rewrite H1. reflexivity.
Qed.
Lemma SS_unmap {A B} (R : B -> B -> Prop) (g : A -> B) l :
  StronglySorted R (map g l) -> StronglySorted (fun a b => R (g a) (g b)) l.
Proof.
  induction l as [|x l IH]; cbn [map]; intros H; [constructor|]. inversion H as [|? ? H1 H2]; subst.
  constructor; [auto|]. rewrite Forall_map in H2. exact H2.
Qed.
(** Strictly increasing lists with the same elements are equal. *)
Lemma SS_lt_ext l : forall m, StronglySorted lt l -> StronglySorted lt m -> (forall x, In x l <-> In x m) -> l = m.
Proof.
  intros m Hl Hm H. apply sorted_unique.
  - eapply StronglySorted_impl; [|exact Hl]. intros; lia.
  - eapply StronglySorted_impl; [|exact Hm]. intros; lia.
  - apply NoDup_Permutation; [apply SS_lt_NoDup, Hl|apply SS_lt_NoDup, Hm|exact H].
Qed.

(** Executable form of [last_occ] and the odd count. *)
Definition kept (F : list (list nat)) (i : nat) : bool :=
  let k := sorted (nth i F []) in
  Nat.odd (count k F) && (count k (skipn (S i) F) =? 0).

Lemma count_0 k F : count k F = 0 <-> forall j w, nth_error F j = Some w -> sorted w <> k.
Proof.
  unfold count. rewrite length_zero_iff_nil. split.
  - intros H j w Hw Hk. assert (Hin : In w (filter (fun f => leqb (sorted f) k) F)).
    { apply filter_In. split; [eapply nth_error_In; eauto|apply leqb_eq; exact Hk]. }
    rewrite H in Hin. destruct Hin.
  - intros H. destruct (filter (fun f => leqb (sorted f) k) F) as [|w l] eqn:E; [reflexivity|exfalso].
    assert (Hin : In w (filter (fun f => leqb (sorted f) k) F)) by (rewrite E; left; reflexivity).
    apply filter_In in Hin as [Hin Hk]. apply leqb_eq in Hk. apply In_nth_error in Hin as [j Hj]. exact (H j w Hj Hk).
Qed.
Lemma nth_error_skipn {A} n (l : list A) j : nth_error (skipn n l) j = nth_error l (n + j).
Proof. revert l; induction n as [|n IH]; intros l; [reflexivity|]. destruct l; [destruct j; reflexivity|]. cbn. apply IH. Qed.
Lemma kept_spec F i : i < length F -> (kept F i = true <->
  last_occ F (nth i F []) i /\ Nat.odd (count (sorted (nth i F [])) F) = true).
Proof.
  intros Hi. unfold kept. rewrite andb_true_iff, Nat.eqb_eq, count_0. unfold last_occ. split.
  - intros [Ho Hl]. split; [|exact Ho]. split; [apply nth_error_nth', Hi|]. intros j w Hj Hw.
    apply (Hl (j - S i) w). rewrite nth_error_skipn. replace (S i + (j - S i)) with j by lia. exact Hw.
  - intros [[_ Hl] Ho]. split; [exact Ho|]. intros j w Hw. rewrite nth_error_skipn in Hw. apply (Hl (S i + j) w); [lia|exact Hw].
Qed.

Definition boundary_list (S : list (list nat)) : list (list nat) :=
  let F := all_faces S in map (fun i => nth i F []) (filter (kept F) (seq 0 (length F))).

Lemma SS_seq n : forall k, StronglySorted lt (seq k n).
Proof.
  induction n as [|n IH]; intros k; cbn [seq]; constructor; [apply IH|]. apply Forall_forall. intros x Hx. apply in_seq in Hx. lia.
Qed.

Lemma boundary_raw S : Forall (fun s => s <> []) S ->
  exists st, boundary_loop (mkBS [] [] 0) S = Ok st /\
    map fst (sort (fun a b => snd a <=? snd b) (map snd (bs_dict st))) = boundary_list S.
Proof.
  intros HS. destruct (boundary_loop_inv S [] (mkBS [] [] 0) HS) as (st & E & HI).
  - unfold binv, dkeys, didx. cbn [bs_idx bs_set bs_dict map length].
    split; [reflexivity|]. split; [reflexivity|]. split; [constructor|]. split; [constructor|]. intros k v i. split; [intros []|].
    intros (_ & _ & H). discriminate.
  - exists st. split; [exact E|]. cbn [app] in HI. destruct HI as (_ & _ & _ & HSo & HD).
    unfold boundary_list. set (F := all_faces S) in *. rewrite sort_id.
    2:{ unfold didx in HSo. rewrite <- map_map in HSo. apply SS_unmap in HSo. eapply StronglySorted_impl; [|exact HSo].
        cbn. intros x y H. apply Nat.leb_le. lia. }
    assert (Ei : didx st = filter (kept F) (seq 0 (length F))).
    { apply SS_lt_ext; [exact HSo| |].
      - pose proof (SS_filter lt (fun x : nat => x) (kept F) (seq 0 (length F))) as H. rewrite !map_id in H. apply H, SS_seq.
      - intros i. unfold didx. rewrite in_map_iff, filter_In, in_seq. split.
        + intros ([k [v i']] & E' & Hin). cbn [snd] in E'. apply HD in Hin as (-> & Hl & Ho). rewrite E' in Hl. clear E' i'.
          assert (Hi : i < length F) by (apply nth_error_Some; destruct Hl; congruence).
          split; [lia|]. apply kept_spec; [exact Hi|]. destruct Hl as [Hl1 Hl2]. rewrite (nth_error_nth _ _ _ Hl1).
          split; [split|]; assumption.
        + intros [Hi Hk]. assert (Hi' : i < length F) by lia. apply kept_spec in Hk as [Hl Ho]; [|exact Hi'].
          exists (sorted (nth i F []), (nth i F [], i)). split; [reflexivity|]. apply HD. auto. }
    rewrite <- Ei. unfold didx. rewrite !map_map. apply map_ext_in. intros [k [v i]] Hin. cbn [fst snd].
    apply HD in Hin as (_ & [Hl _] & _). symmetry. apply nth_error_nth. exact Hl.
Qed.

Lemma in_boundary_list S f : In f (boundary_list S) ->
  In f (all_faces S) /\ Nat.odd (count (sorted f) (all_faces S)) = true.
Proof.
  unfold boundary_list. rewrite in_map_iff. intros (i & <- & Hi). apply filter_In in Hi as [Hi Hk]. apply in_seq in Hi.
  apply kept_spec in Hk as [_ Ho]; [|lia]. split; [apply nth_In; lia|exact Ho].
Qed.
Lemma np_rows_ok d l : Forall (fun f => length f = d) l -> np_rows l = Ok l.
Proof.
  intros H. destruct l as [|r t]; [reflexivity|]. apply Forall_cons_iff in H as [Hr Ht]. cbn [np_rows].
  replace (forallb (fun x => length x =? length r) t) with true; [reflexivity|]. symmetry. apply forallb_forall.
  rewrite Forall_forall in Ht. intros x Hx. apply Nat.eqb_eq. rewrite (Ht x Hx). congruence.
Qed.
Lemma all_faces_length d S : Forall (fun s => length s = d) S -> Forall (fun f => length f = d - 1) (all_faces S).
Proof.
  intros H. rewrite Forall_forall in *. intros f Hf. apply in_flat_map in Hf as (s & Hs & Hf).
  rewrite (face_length s f Hf), (H s Hs). reflexivity.
Qed.
Lemma boundary_ok d S : 1 <= d -> Forall (fun s => length s = d) S -> boundary S = Ok (boundary_list S).
Proof.
  intros Hd HS. unfold boundary. destruct (boundary_raw S) as (st & E & ER).
  - eapply Forall_impl; [|exact HS]. cbn. intros s Hs ->. cbn in Hs. lia.
  - rewrite E. cbn [bind]. rewrite ER. apply (np_rows_ok (d - 1)). apply all_faces_length in HS. rewrite Forall_forall in *.
    intros f Hf. apply HS. apply in_boundary_list in Hf. tauto.
Qed.
Lemma boundary_list_nodup S : NoDup (map sorted (boundary_list S)).
Proof.
  unfold boundary_list. set (F := all_faces S). rewrite map_map.
  assert (H : forall l, NoDup l -> (forall i, In i l -> i < length F /\ kept F i = true) ->
     NoDup (map (fun i => sorted (nth i F [])) l)).
  { induction l as [|i l IH]; intros HN HB; cbn [map]; [constructor|]. apply NoDup_cons_iff in HN as [Hi HN].
    constructor; [|apply IH; [exact HN|intros; apply HB; right; assumption]].
    intros Hin. apply in_map_iff in Hin as (j & Ej & Hj). apply Hi.
    destruct (HB i (or_introl eq_refl)) as [Hil Hik]. destruct (HB j (or_intror Hj)) as [Hjl Hjk].
    apply kept_spec in Hik as [[Hi1 Hi2] _]; [|exact Hil]. apply kept_spec in Hjk as [[Hj1 Hj2] _]; [|exact Hjl].
    destruct (Nat.lt_trichotomy i j) as [H|[->|H]]; [|exact Hj|].
    - exfalso. exact (Hi2 j _ H Hj1 Ej).
    - exfalso. exact (Hj2 i _ H Hi1 (eq_sym Ej)). }
  apply H; [apply NoDup_filter, seq_NoDup|]. intros i Hi. apply filter_In in Hi as [Hi Hk]. apply in_seq in Hi. split; [lia|exact Hk].
Qed.
Lemma boundary_list_mem S k : (exists f, In f (boundary_list S) /\ sorted f = k) <-> Nat.odd (count k (all_faces S)) = true.
Proof.
  split.
  - intros (f & Hf & <-). apply in_boundary_list in Hf. tauto.
  - intros Ho. destruct (last_occ_exists k (all_faces S)) as (v & i & Hv & Hl); [intros E; rewrite E in Ho; discriminate|].
    assert (Hi : i < length (all_faces S)) by (apply nth_error_Some; destruct Hl; congruence).
    exists v. split; [|exact Hv]. unfold boundary_list. apply in_map_iff. exists i. pose proof Hl as [Hl1 _].
    split; [apply nth_error_nth; exact Hl1|]. apply filter_In. split; [apply in_seq; lia|].
    apply kept_spec; [exact Hi|]. rewrite (nth_error_nth _ _ _ Hl1). split; [exact Hl|]. rewrite Hv. exact Ho.
Qed.

(** ** The boundary of a boundary is empty *)
Definition par {A} (f : A -> nat) (l : list A) : nat := nsum (map f l).
Lemma nsum_app' l m : nsum (l ++ m) = nsum l + nsum m.
Proof. unfold nsum. induction l as [|x l IH]; cbn [fold_right app]; [reflexivity|]. rewrite IH. lia. Qed.
Lemma length_filter_sum {A} (p : A -> bool) l : length (filter p l) = nsum (map (fun x => if p x then 1 else 0) l).
Proof. unfold nsum. induction l as [|x l IH]; cbn [filter map fold_right]; [reflexivity|]. destruct (p x); cbn [length]; lia. Qed.

(** Parity over the kept faces equals parity over all faces, for a predicate
    that depends on the vertex set only. *)
Lemma odd_sum_kept (p : list nat -> bool) : (forall f g, sorted f = sorted g -> p f = p g) ->
  forall F R, NoDup (map sorted R) ->
  (forall k, (exists f, In f R /\ sorted f = k) <-> Nat.odd (count k F) = true) ->
  Nat.odd (length (filter p R)) = Nat.odd (length (filter p F)).
Proof.
  intros Hp F. induction F as [|g F IH]; intros R HN HR.
  - destruct R as [|f R]; [reflexivity|exfalso]. assert (H : Nat.odd (count (sorted f) []) = true) by (apply HR; exists f; split; [left; reflexivity|reflexivity]).
    discriminate.
  - set (k := sorted g). destruct (tuple_mem k (map sorted R)) eqn:E.
    + apply tuple_mem_in, in_map_iff in E as (f & Ef & Hf). apply in_split in Hf as (R1 & R2 & ->).
      rewrite map_app in HN. cbn [map] in HN. pose proof (NoDup_remove_2 _ _ _ HN) as Hnot. apply NoDup_remove_1 in HN.
      rewrite <- map_app in HN, Hnot.
      specialize (IH (R1 ++ R2) HN).
      rewrite filter_app in *. cbn [filter]. rewrite !app_length in *. 
      assert (EG : Nat.odd (length (filter p R1) + length (filter p R2)) = Nat.odd (length (filter p F))).
      { apply IH. intros k'. split.
        - intros (f' & Hf' & <-). assert (Hne : sorted f' <> k).
          { intros Ee. apply Hnot. rewrite Ef, <- Ee. apply in_map. exact Hf'. }
          assert (Ho : Nat.odd (count (sorted f') (g :: F)) = true).
          { apply HR. exists f'. split; [|reflexivity]. rewrite in_app_iff in *. cbn. tauto. }
          unfold count in *. cbn [filter] in Ho. destruct (leqb (sorted g) (sorted f')) eqn:El; [apply leqb_eq in El; exfalso; apply Hne; first [exact El | exact (eq_sym El)]|exact Ho].
        - intros Ho. assert (Hne : k' <> k).
          { intros ->. assert (Ho' : Nat.odd (count k (g :: F)) = true).
            { apply HR. exists f. split; [rewrite in_app_iff; cbn; tauto|exact Ef]. }
            unfold count in *. cbn [filter] in Ho'. unfold k in Ho'. rewrite leqb_refl in Ho'. cbn [length] in Ho'.
            rewrite Nat.odd_succ, <- Nat.negb_odd in Ho'. fold k in Ho'. rewrite Ho in Ho'. discriminate. }
          destruct (proj2 (HR k')) as (f' & Hf' & Ek).
          { unfold count in *. cbn [filter]. destruct (leqb (sorted g) k') eqn:El; [apply leqb_eq in El; exfalso; apply Hne; first [exact El | exact (eq_sym El)]|exact Ho]. }
          exists f'. split; [|exact Ek]. rewrite in_app_iff in *. cbn in Hf'. destruct Hf' as [?|[->|?]]; auto. congruence. }
      rewrite (Hp f g Ef). destruct (p g).
      * cbn [length]. rewrite Nat.add_succ_r, !Nat.odd_succ, <- !Nat.negb_odd, EG. reflexivity.
      * exact EG.
    + apply tuple_mem_notin in E.
      assert (EG : Nat.odd (length (filter p (g :: R))) = Nat.odd (length (filter p F))).
      { apply IH; [cbn [map]; constructor; assumption|]. intros k'. split.
        - intros (f' & [<-|Hf'] & <-).
          + fold k. destruct (Nat.odd (count k F)) eqn:Eo; [reflexivity|exfalso]. apply E.
            destruct (proj2 (HR k)) as (f & Hf & Ef).
            { unfold count in *. cbn [filter]. unfold k. rewrite leqb_refl. cbn [length]. rewrite Nat.odd_succ, <- Nat.negb_odd. fold k. rewrite Eo. reflexivity. }
            rewrite <- Ef. apply in_map. exact Hf.
          + assert (Hne : sorted f' <> k) by (intros Ee; apply E; rewrite <- Ee; apply in_map; exact Hf').
            assert (Ho : Nat.odd (count (sorted f') (g :: F)) = true) by (apply HR; exists f'; auto).
            unfold count in *. cbn [filter] in Ho. destruct (leqb (sorted g) (sorted f')) eqn:El; [apply leqb_eq in El; exfalso; apply Hne; first [exact El | exact (eq_sym El)]|exact Ho].
        - intros Ho. destruct (list_eq_dec Nat.eq_dec k' k) as [->|Hne]; [exists g; split; [left; reflexivity|reflexivity]|].
          destruct (proj2 (HR k')) as (f' & Hf' & Ek).
          { unfold count in *. cbn [filter]. destruct (leqb (sorted g) k') eqn:El; [apply leqb_eq in El; exfalso; apply Hne; first [exact El | exact (eq_sym El)]|exact Ho]. }
          exists f'. split; [right; exact Hf'|exact Ek]. }
      cbn [filter] in *. destruct (p g); [|exact EG]. cbn [length] in *.
      rewrite Nat.odd_succ, <- Nat.negb_odd in EG |- *. rewrite <- EG, negb_involutive. reflexivity.
Qed.
