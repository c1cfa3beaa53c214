(** Proofs about simplex_boundary_orientation and the combinatorial part of
    triangle_mesh.py (model in Simplicial.v). *)
From Verif Require Import Base MultiIndex MultiIndexFacts MultiCapFacts Permutations PermFacts CycleFacts PermEnum PermMisc Simplicial Orient ChainFacts SimplicialFacts SimplicialFacts2.

(** ** substitute_vertex_indices *)
Lemma first_pos_some s v i : first_pos s v = Some i -> i < length s /\ nth i s 0 = v.
Proof.
  revert i; induction s as [|x s IH]; intros i; cbn [first_pos]; [discriminate|].
  destruct (Nat.eqb_spec x v) as [->|Hn]; [intros [= <-]; cbn; split; [lia|reflexivity]|].
  destruct (first_pos s v) as [j|]; [|discriminate]. cbn. intros [= <-]. destruct (IH j eq_refl). split; [lia|assumption].
Qed.
Lemma first_pos_none s v : first_pos s v = None -> ~ In v s.
Proof.
  induction s as [|x s IH]; cbn [first_pos]; [auto|]. destruct (Nat.eqb_spec x v); [discriminate|].
  destruct (first_pos s v); [discriminate|]. intros _ [H|H]; [congruence|]. exact (IH eq_refl H).
Qed.
Definition rank (dom : list nat) (k v : nat) : nat := match element_index Nat.eqb dom k v with Some n => n | None => v end.

Lemma nth_upd' l i v j : i < length l -> nth j (upd l i v) 0 = if j =? i then v else nth j l 0.
Proof.
  revert i j; induction l as [|x l IH]; intros [|i] [|j] H; cbn [length] in H; try lia; cbn [upd nth Nat.eqb]; auto. apply IH. lia.
Qed.
Lemma length_upd' {A} (l : list A) i v : length (upd l i v) = length l.
Proof. revert i; induction l as [|x l IH]; intros [|i]; cbn; auto. Qed.

Lemma substitute_loop s : NoDup s -> forall dom k u, length u = length s ->
  let r := fold_left (fun u on => match first_pos s (fst on) with Some n => upd u n (snd on) | None => u end)
             (combine dom (seq k (length dom))) u in
  length r = length s /\
  forall j, j < length s -> nth j r 0 = match element_index Nat.eqb dom k (nth j s 0) with Some n => n | None => nth j u 0 end.
Proof.
  intros HN. induction dom as [|x dom IH]; intros k u HL; cbn [length seq combine fold_left fst snd].
  - split; [exact HL|]. intros; reflexivity.
  - set (u' := match first_pos s x with Some n => upd u n k | None => u end).
    assert (HL' : length u' = length s) by (unfold u'; destruct (first_pos s x); [rewrite length_upd'|]; exact HL).
    destruct (IH (S k) u' HL') as [H1 H2]. split; [exact H1|]. intros j Hj. rewrite (H2 j Hj). cbn [element_index].
    destruct (element_index Nat.eqb dom (S k) (nth j s 0)); [reflexivity|]. unfold u'.
    destruct (first_pos s x) as [p|] eqn:E.
    + apply first_pos_some in E as [Hp Ep]. rewrite nth_upd' by lia.
      destruct (Nat.eqb_spec x (nth j s 0)) as [Hx|Hx].
      * replace j with p; [rewrite Nat.eqb_refl; reflexivity|]. apply (proj1 (NoDup_nth s 0) HN); [exact Hp|exact Hj|congruence].
      * destruct (Nat.eqb_spec j p); [congruence|reflexivity].
    + apply first_pos_none in E. destruct (Nat.eqb_spec x (nth j s 0)) as [->|]; [|reflexivity].
      exfalso. apply E, nth_In, Hj.
Qed.
Lemma substitute_spec s dom : NoDup s ->
  substitute_vertex_indices s (combine dom (seq 0 (length dom))) = map (rank dom 0) s.
Proof.
  intros HN. unfold substitute_vertex_indices. destruct (substitute_loop s HN dom 0 s eq_refl) as [H1 H2]. cbn zeta in H1, H2.
  apply (list_eq_nth 0); [rewrite map_length; exact H1|]. intros j Hj. rewrite H1 in Hj. rewrite (H2 j Hj).
  rewrite (nth_map_in _ _ _ 0) by exact Hj. reflexivity.
Qed.
Lemma rank_dom dom : NoDup dom -> map (rank dom 0) dom = seq 0 (length dom).
Proof.
  intros HN. apply (list_eq_nth 0); [rewrite map_length, seq_length; reflexivity|]. rewrite map_length. intros i Hi.
  rewrite (nth_map_in _ dom i 0) by exact Hi. rewrite nth_seq0 by exact Hi. unfold rank.
  destruct (element_index_some Nat.eqb Nat.eqb_eq dom 0 (nth i dom 0)) as [k Ek]; [apply nth_In, Hi|].
  rewrite Ek. apply (element_index_in Nat.eqb Nat.eqb_eq) in Ek as [Hk Hk']. rewrite Nat.sub_0_r in Hk'.
  apply (nth_error_nth _ _ 0) in Hk'. eapply (proj1 (NoDup_nth dom 0) HN); [|exact Hi|exact Hk'].
  cbn in Hk. lia.
Qed.

(** ** construct_permutation between two rearrangements of 0..m-1 *)
Lemma inversions_snoc l m : (forall x, In x l -> x < m) -> inversions (l ++ [m]) = inversions l.
Proof.
  induction l as [|x l IH]; intros H; [reflexivity|]. cbn [app inversions]. rewrite IH by (intros; apply H; right; assumption).
  f_equal. fold (ltc x (l ++ [m])) (ltc x l). rewrite ltc_app. unfold ltc at 2. cbn [filter].
  specialize (H x (or_introl eq_refl)). destruct (Nat.ltb_spec m x); [lia|cbn; lia].
Qed.
Lemma construct_sign m c p b : is_perm m p -> is_perm m b -> sperm c p b ->
  exists q, construct_permutation p b (m + 1) = Ok q /\ sign q = Ok (sgn c).
Proof.
  intros Hp Hb Hs. pose proof (is_perm_length _ _ Hp) as HLp. pose proof (is_perm_length _ _ Hb) as HLb.
  unfold construct_permutation. rewrite HLp, HLb, Nat.eqb_refl. cbn [assert_ bind].
  destruct (construct_spec (m + 1) (combine p b) (seq 0 (m + 1)) []) as (q & Eq & Hq & Hqv).
  - apply is_perm_id.
  - intros d e Hde. pose proof (in_combine_l _ _ _ _ Hde) as H1. pose proof (in_combine_r _ _ _ _ Hde) as H2.
    apply (is_perm_in _ _ _ Hp) in H1. apply (is_perm_in _ _ _ Hb) in H2. lia.
  - cbn [app]. rewrite combine_fst by lia. eapply is_perm_NoDup, Hp.
  - cbn [app]. rewrite combine_snd by lia. eapply is_perm_NoDup, Hb.
  - intros d e [].
  - exists q. split; [exact Eq|]. cbn [app] in Hqv.
    assert (Hqn : forall i, i < m -> nth (nth i p 0) q 0 = nth i b 0).
    { intros i Hi. apply Hqv. rewrite <- (combine_nth p b i 0 0) by lia. apply nth_In. rewrite combine_length. lia. }
    assert (Hqm : nth m q 0 = m).
    { pose proof (is_perm_nth (m + 1) q m Hq ltac:(lia)) as Hlt.
      destruct (Nat.eq_dec (nth m q 0) m) as [|Hne]; [assumption|exfalso].
      destruct (is_perm_surj m b (nth m q 0) Hb ltac:(lia)) as (i & Hi & Ei).
      rewrite <- Hqn in Ei by exact Hi. pose proof (is_perm_nth m p i Hp Hi).
      apply (is_perm_inj (m + 1) q) in Ei; [|exact Hq|lia|lia]. lia. }
    assert (Hsnoc : forall l, is_perm m l -> is_perm (m + 1) (l ++ [m])).
    { intros l Hl. unfold is_perm. rewrite Nat.add_1_r, seq_S. apply Permutation_app; [exact Hl|reflexivity]. }
    destruct (sign_composition (m + 1) q (p ++ [m])) as (t & a & d & Et & Ea & Ed & Etd); [lia|exact Hq|apply Hsnoc, Hp|].
    destruct (composition_spec (m + 1) q (p ++ [m])) as (t' & Et' & HLt & Ht); [lia|apply is_perm_length, Hq|apply Hsnoc, Hp|].
    assert (t' = t) by congruence. subst t'.
    assert (Eb : t = b ++ [m]).
    { apply (list_eq_nth 0); [rewrite app_length; cbn; lia|]. intros i Hi. rewrite HLt in Hi. rewrite Ht by exact Hi.
      destruct (Nat.eq_dec i m) as [->|Hne].
      - rewrite !app_nth2 by lia. rewrite HLp, HLb, Nat.sub_diag. cbn [nth]. exact Hqm.
      - rewrite !app_nth1 by lia. apply Hqn. lia. }
    subst t. rewrite (sign_inversions (m + 1)) in Etd by (apply Hsnoc, Hb). rewrite (sign_inversions (m + 1)) in Ed by (apply Hsnoc, Hp).
    rewrite inversions_snoc in Etd by (intros x Hx; apply (is_perm_in _ _ _ Hb), Hx).
    rewrite inversions_snoc in Ed by (intros x Hx; apply (is_perm_in _ _ _ Hp), Hx).
    rewrite pow_m1 in Etd, Ed. rewrite (sperm_inversions c p b Hs (is_perm_NoDup _ _ Hp)) in Etd.
    rewrite Ea. f_equal. injection Ed as <-. injection Etd as Etd. unfold sgn.
    destruct c, (Nat.odd (inversions p)); cbn in Etd; lia.
Qed.

(** ** simplex_boundary_orientation *)
Lemma find_boundary_face s t : NoDup s -> NoDup t -> 2 <= length s -> length t + 1 = length s ->
  (incl t s -> exists i, i < length s /\ Permutation t (delete_at i s) /\ find_boundary_simplex s t = Ok (Some (face_of s i))) /\
  (~ incl t s -> find_boundary_simplex s t = Ok None).
Proof.
  intros Hs Ht HL HLt. unfold find_boundary_simplex. rewrite simplex_boundary_ok by (intros ->; cbn in HL; lia). cbn [bind].
  assert (Hperm : forall i, i < length s -> forallb (fun v => existsb (Nat.eqb v) t) (face_of s i) = true -> Permutation t (delete_at i s)).
  { intros i Hi H. apply forallb_in in H. rewrite (face_of_perm s i Hi). symmetry. apply NoDup_Permutation_bis; [| |exact H].
    - eapply face_nodup'; [exact Hs|]. apply in_faces. split; [lia|]. exists i. auto.
    - rewrite <- (Permutation_length (face_of_perm s i Hi)), delete_at_length by exact Hi. lia. }
  split.
  - intros Hi. destruct (face_exists s t Hs Ht Hi HLt) as (i & Hil & HP).
    destruct (find (fun b => forallb (fun v => existsb (Nat.eqb v) t) b) (faces s)) as [f|] eqn:E.
    + apply find_some in E as [Hf Hft]. apply in_faces in Hf as (_ & j & Hj & ->). exists j. split; [exact Hj|]. split; [apply Hperm; assumption|reflexivity].
    + exfalso. assert (Hin : In (face_of s i) (faces s)) by (apply in_faces; split; [lia|]; exists i; auto).
      apply (find_none _ _ E) in Hin. enough (forallb (fun v => existsb (Nat.eqb v) t) (face_of s i) = true) by congruence.
      apply forallb_in. intros x Hx. eapply Permutation_in; [symmetry; exact HP|]. eapply Permutation_in; [symmetry; apply face_of_perm, Hil|exact Hx].
  - intros Hni. destruct (find (fun b => forallb (fun v => existsb (Nat.eqb v) t) b) (faces s)) as [f|] eqn:E; [|reflexivity].
    exfalso. apply find_some in E as [Hf Hft]. apply in_faces in Hf as (_ & j & Hj & ->). apply Hni.
    intros x Hx. eapply delete_at_in. eapply Permutation_in; [apply Hperm; eassumption|exact Hx].
Qed.

Lemma boundary_orientation_face s t i c : NoDup s -> NoDup t -> 2 <= length s -> i < length s ->
  sperm c (delete_at i s) t ->
  simplex_boundary_orientation s t = Ok (sgn (xorb c (Nat.odd i && (2 <? length s)))).
Proof.
  intros Hs Ht HL Hi Hc. unfold simplex_boundary_orientation.
  pose proof (sperm_perm _ _ _ Hc) as HP.
  assert (HLt : length t + 1 = length s) by (rewrite <- (Permutation_length HP), delete_at_length by exact Hi; lia).
  rewrite HLt, Nat.eqb_refl. cbn [assert_ bind].
  destruct (find_boundary_face s t Hs Ht HL HLt) as [Hf _].
  destruct Hf as (j & Hj & HPj & ->). { intros x Hx. eapply delete_at_in, Permutation_in; [symmetry; exact HP|exact Hx]. }
  assert (j = i) by (apply (delete_at_inj s); [exact Hs|exact Hj|exact Hi|rewrite <- HPj, HP; reflexivity]). subst j.
  cbn [bind]. destruct (boundary_face_ok s i Hi) as [_ Hf].
  assert (Hsp : sperm (xorb c (Nat.odd i && (2 <? length s))) t (face_of s i)) by (econstructor; [apply sperm_sym; exact Hc|exact Hf]).
  pose proof (sperm_perm _ _ _ Hsp) as HPf. assert (HNf : NoDup (face_of s i)) by (eapply Permutation_NoDup; eassumption).
  rewrite <- (sorted_length t). rewrite !substitute_spec by assumption.
  assert (Hr : forall l, Permutation t l -> is_perm (length t) (map (rank (sorted t) 0) l)).
  { intros l Hl. unfold is_perm. rewrite <- (sorted_length t), <- (rank_dom (sorted t)).
    - apply Permutation_map. rewrite <- Hl. symmetry. apply sorted_perm.
    - eapply Permutation_NoDup; [apply sorted_perm|exact Ht]. }
  destruct (construct_sign (length t) _ _ _ (Hr t (Permutation_refl _)) (Hr _ HPf) (sperm_map (rank (sorted t) 0) _ _ _ Hsp)) as (q & Eq & Hq).
  rewrite <- HLt in *. rewrite Eq. cbn [bind]. exact Hq.
Qed.

(** ** Triangles *)
Definition is_tri (t : list nat) : Prop := exists a b c, t = [a; b; c] /\ a <> b /\ b <> c /\ a <> c.
(** [u -> v] is a directed edge of the triangle. *)
Definition dedge (t : list nat) (u v : nat) : Prop := exists e, e < 3 /\ tv t ((e + 1) mod 3) = u /\ tv t ((e + 2) mod 3) = v.

Lemma dedge_abc a b c u v : dedge [a; b; c] u v <-> (u = b /\ v = c) \/ (u = c /\ v = a) \/ (u = a /\ v = b).
Proof.
  unfold dedge. split.
  - intros (e & He & H1 & H2). destruct e as [|[|[|e]]]; cbn in H1, H2; try lia; intuition.
  - intros [[-> ->]|[[-> ->]|[-> ->]]]; [exists 0|exists 1|exists 2]; cbn; repeat split; lia.
Qed.
Lemma dedge_in t u v : is_tri t -> dedge t u v -> In u t /\ In v t /\ u <> v.
Proof.
  intros (a & b & c & -> & H1 & H2 & H3). rewrite dedge_abc. cbn. intros [[-> ->]|[[-> ->]|[-> ->]]]; intuition.
Qed.
Lemma dedge_total t u v : is_tri t -> In u t -> In v t -> u <> v -> dedge t u v \/ dedge t v u.
Proof.
  intros (a & b & c & -> & H1 & H2 & H3) Hu Hv Hn. rewrite !dedge_abc. cbn in Hu, Hv.
  destruct Hu as [<-|[<-|[<-|[]]]]; destruct Hv as [<-|[<-|[<-|[]]]]; try contradiction; tauto.
Qed.
Lemma dedge_asym t u v : is_tri t -> dedge t u v -> dedge t v u -> False.
Proof.
  intros (a & b & c & -> & H1 & H2 & H3). rewrite !dedge_abc.
  intros [[-> ->]|[[-> ->]|[-> ->]]]; intros [[? ?]|[[? ?]|[? ?]]]; congruence.
Qed.
Lemma edge_dedge t e : e < 3 -> dedge t (tv t ((e + 1) mod 3)) (tv t ((e + 2) mod 3)).
Proof. intros H. exists e. auto. Qed.

Definition nb_test (T : list (list nat)) (i u v k : nat) : bool :=
  negb (k =? i) && (existsb (Nat.eqb u) (nth k T []) && existsb (Nat.eqb v) (nth k T [])).
Definition first_nb (T : list (list nat)) (i u v : nat) : option nat := find (nb_test T i u v) (seq 0 (length T)).
Lemma neighbour_first_nb T i e :
  neighbour T i e = first_nb T i (tv (nth i T []) ((e + 1) mod 3)) (tv (nth i T []) ((e + 2) mod 3)).
Proof. reflexivity. Qed.
Lemma nb_test_spec T i u v k : nb_test T i u v k = true <-> k <> i /\ In u (nth k T []) /\ In v (nth k T []).
Proof. unfold nb_test. rewrite !andb_true_iff, negb_true_iff, Nat.eqb_neq, !existsb_eqb_in. tauto. Qed.

Lemma find_seq (p : nat -> bool) n k : find p (seq 0 n) = Some k <-> k < n /\ p k = true /\ forall j, j < k -> p j = false.
Proof.
  assert (G : forall n s, find p (seq s n) = Some k <-> s <= k < s + n /\ p k = true /\ forall j, s <= j < k -> p j = false).
  { clear n. induction n as [|n IH]; intros s; cbn [seq find].
    - split; [discriminate|]. intros [H _]. lia.
    - destruct (p s) eqn:E.
      + split.
        * intros [= <-]. split; [lia|]. split; [exact E|]. intros j Hj. lia.
        * intros (H1 & H2 & H3). f_equal. destruct (Nat.eq_dec s k) as [|Hn]; [assumption|]. rewrite H3 in E by lia. discriminate.
      + rewrite IH. split.
        * intros (H1 & H2 & H3). split; [lia|]. split; [exact H2|]. intros j Hj. destruct (Nat.eq_dec j s) as [->|]; [exact E|]. apply H3. lia.
        * intros (H1 & H2 & H3). destruct (Nat.eq_dec s k) as [->|]; [congruence|]. split; [lia|]. split; [exact H2|]. intros j Hj. apply H3. lia. }
  rewrite G. split; intros (H1 & H2 & H3); (split; [lia|]; split; [exact H2|]; intros j Hj; apply H3; lia).
Qed.
Lemma find_seq_none (p : nat -> bool) n : find p (seq 0 n) = None <-> forall j, j < n -> p j = false.
Proof.
  split.
  - intros H j Hj. apply (find_none _ _ H). apply in_seq. lia.
  - intros H. destruct (find p (seq 0 n)) as [k|] eqn:E; [|reflexivity]. apply find_seq in E as (H1 & H2 & _). rewrite H in H2 by exact H1. discriminate.
Qed.
Lemma first_nb_some T i u v k : first_nb T i u v = Some k <->
  k < length T /\ (k <> i /\ In u (nth k T []) /\ In v (nth k T [])) /\
  forall j, j < k -> ~ (j <> i /\ In u (nth j T []) /\ In v (nth j T [])).
Proof.
  unfold first_nb. rewrite find_seq, nb_test_spec.
  split; intros (H1 & H2 & H3); (split; [exact H1|]; split; [exact H2|]); intros j Hj; specialize (H3 j Hj).
  - rewrite <- nb_test_spec, H3. discriminate.
  - rewrite <- nb_test_spec in H3. destruct (nb_test T i u v j); [exfalso; apply H3; reflexivity|reflexivity].
Qed.
Lemma first_nb_ex T i u v k : k < length T -> k <> i -> In u (nth k T []) -> In v (nth k T []) -> exists k', first_nb T i u v = Some k'.
Proof.
  intros H1 H2 H3 H4. destruct (first_nb T i u v) as [k'|] eqn:E; [exists k'; reflexivity|exfalso].
  unfold first_nb in E. rewrite find_seq_none in E. specialize (E k H1).
  enough (nb_test T i u v k = true) by congruence. apply nb_test_spec. auto.
Qed.

Lemma same_edge_spec T i e : Forall is_tri T -> i < length T -> e < 3 ->
  has_same_edge_orientation T i e = true <->
  (forall k, neighbour T i e = Some k -> dedge (nth k T []) (tv (nth i T []) ((e + 2) mod 3)) (tv (nth i T []) ((e + 1) mod 3))).
Proof.
  intros HT Hi He. unfold has_same_edge_orientation. destruct (neighbour T i e) as [k|] eqn:E.
  - rewrite neighbour_first_nb in E. apply first_nb_some in E as (Hk & (Hne & Hu & Hv) & _).
    set (u := tv (nth i T []) ((e + 1) mod 3)) in *. set (v := tv (nth i T []) ((e + 2) mod 3)) in *.
    assert (Hti : is_tri (nth i T [])) by (rewrite Forall_forall in HT; apply HT, nth_In, Hi).
    assert (Htk : is_tri (nth k T [])) by (rewrite Forall_forall in HT; apply HT, nth_In, Hk).
    assert (Huv : u <> v) by (apply (dedge_in _ u v Hti); apply edge_dedge, He).
    enough (H : (tv (nth k T []) (Z.to_nat ((match vertex_position (nth k T []) u with Some n => Z.of_nat n | None => -1 end - 1) mod 3)%Z) =? v) = true <-> dedge (nth k T []) v u).
    { rewrite H. split; [intros H' k' [= <-]; exact H'|intros H'; apply H'; reflexivity]. }
    clearbody u v. destruct Htk as (a & b & c & Et & H1 & H2 & H3). rewrite Et in *. rewrite Nat.eqb_eq, dedge_abc. unfold vertex_position. cbn [find tv nth].
    cbn in Hu, Hv.
    destruct (Nat.eqb_spec a u) as [->|Ha]; [cbn; try change (Pos.to_nat 2) with 2; try change (Pos.to_nat 1) with 1; cbn iota; clear Hu Hv; split; [intros <-; auto|intros [[? ?]|[[? ?]|[? ?]]]; congruence]|].
    destruct (Nat.eqb_spec b u) as [->|Hb]; [cbn; try change (Pos.to_nat 2) with 2; try change (Pos.to_nat 1) with 1; cbn iota; clear Hu Hv; split; [intros <-; auto|intros [[? ?]|[[? ?]|[? ?]]]; congruence]|].
    destruct (Nat.eqb_spec c u) as [->|Hc]; [cbn; try change (Pos.to_nat 2) with 2; try change (Pos.to_nat 1) with 1; cbn iota; clear Hu Hv; split; [intros <-; auto|intros [[? ?]|[[? ?]|[? ?]]]; congruence]|]. intuition congruence.
  - split; [intros _ k [=]|auto].
Qed.

Lemma consistent_spec T : Forall is_tri T ->
  has_consistent_orientation T = true <->
  (forall i u v k, i < length T -> dedge (nth i T []) u v -> first_nb T i u v = Some k -> dedge (nth k T []) v u).
Proof.
  intros HT. unfold has_consistent_orientation. rewrite forallb_forall. split.
  - intros H i u v k Hi (e & He & <- & <-) Hk. assert (Hs : has_same_edge_orientation T i e = true).
    { assert (Hi' : In i (seq 0 (length T))) by (apply in_seq; lia). specialize (H i Hi'). rewrite forallb_forall in H. apply H.
      cbn. lia. }
    exact (proj1 (same_edge_spec T i e HT Hi He) Hs k Hk).
  - intros H i Hi. apply in_seq in Hi. apply forallb_forall. intros e He. assert (He3 : e < 3) by (cbn in He; lia).
    apply same_edge_spec; [exact HT|lia|exact He3|]. intros k Hk. apply (H i _ _ k); [lia|apply edge_dedge, He3|exact Hk].
Qed.

(** every edge belongs to at most two triangles *)
Definition edge_manifold (T : list (list nat)) : Prop :=
  forall i j k u v, i < length T -> j < length T -> k < length T -> i <> j -> j <> k -> i <> k -> u <> v ->
    In u (nth i T []) -> In v (nth i T []) -> In u (nth j T []) -> In v (nth j T []) ->
    In u (nth k T []) -> In v (nth k T []) -> False.

Lemma tri_nth T i : Forall is_tri T -> i < length T -> is_tri (nth i T []).
Proof. intros HT Hi. rewrite Forall_forall in HT. apply HT, nth_In, Hi. Qed.

Lemma consistent_iff T : Forall is_tri T -> edge_manifold T ->
  has_consistent_orientation T = true <->
  (forall i k u v, i < length T -> k < length T -> i <> k -> dedge (nth i T []) u v -> ~ dedge (nth k T []) u v).
Proof.
  intros HT HM. rewrite (consistent_spec T HT). split.
  - intros H i k u v Hi Hk Hn Hd Hd'. destruct (dedge_in _ _ _ (tri_nth T i HT Hi) Hd) as (Hui & Hvi & Huv).
    destruct (dedge_in _ _ _ (tri_nth T k HT Hk) Hd') as (Huk & Hvk & _).
    destruct (first_nb_ex T i u v k Hk (not_eq_sym Hn) Huk Hvk) as (k' & Ek). specialize (H i u v k' Hi Hd Ek).
    apply first_nb_some in Ek as (Hk' & (Hn' & Hu' & Hv') & _).
    assert (k' = k).
    { destruct (Nat.eq_dec k' k) as [|Hx]; [assumption|exfalso]. apply (HM i k k' u v); auto. }
    subst k'. exact (dedge_asym _ _ _ (tri_nth T k HT Hk) Hd' H).
  - intros H i u v k Hi Hd Hk. apply first_nb_some in Hk as (Hk & (Hn & Hu & Hv) & _).
    destruct (dedge_in _ _ _ (tri_nth T i HT Hi) Hd) as (_ & _ & Huv).
    destruct (dedge_total _ u v (tri_nth T k HT Hk) Hu Hv Huv) as [Hd'|Hd']; [|exact Hd'].
    exfalso. exact (H i k u v Hi Hk (not_eq_sym Hn) Hd Hd').
Qed.

(** swapping *)
Lemma tri_swap_abc a b c : tri_swap [a; b; c] = [a; c; b].
Proof. reflexivity. Qed.
Lemma tri_swap_tri t : is_tri t -> is_tri (tri_swap t).
Proof. intros (a & b & c & -> & H1 & H2 & H3). exists a, c, b. repeat split; auto. Qed.
Lemma tri_swap_in t x : is_tri t -> (In x (tri_swap t) <-> In x t).
Proof. intros (a & b & c & -> & _). rewrite tri_swap_abc. cbn. tauto. Qed.
Lemma tri_swap_dedge t u v : is_tri t -> (dedge (tri_swap t) u v <-> dedge t v u).
Proof. intros (a & b & c & -> & _). rewrite tri_swap_abc, !dedge_abc. tauto. Qed.

Lemma tri_swap_all_map T : tri_swap_all T = map tri_swap T.
Proof.
  unfold tri_swap_all. enough (H : forall n done rest, T = done ++ rest -> length rest = n ->
    fold_left tri_swap_orientation (seq (length done) n) (map tri_swap done ++ rest) = map tri_swap T).
  { exact (H (length T) [] T eq_refl eq_refl). }
  induction n as [|n IH]; intros done rest E HL.
  - destruct rest; [|discriminate]. cbn [seq fold_left]. rewrite E, !app_nil_r. reflexivity.
  - destruct rest as [|t rest]; [discriminate|]. cbn [seq fold_left]. cbn in HL.
    replace (tri_swap_orientation (map tri_swap done ++ t :: rest) (length done)) with (map tri_swap (done ++ [t]) ++ rest).
    + replace (S (length done)) with (length (done ++ [t])) by (rewrite app_length; cbn; lia).
      apply IH; [rewrite <- app_assoc; exact E|lia].
    + unfold tri_swap_orientation. rewrite <- (map_length tri_swap done). set (d := map tri_swap done).
      rewrite app_nth2, Nat.sub_diag by lia. cbn [nth]. rewrite map_app. fold d. cbn [map]. rewrite <- app_assoc. cbn [app].
      clearbody d. clear. induction d as [|x d IH]; cbn; [reflexivity|]. f_equal. exact IH.
Qed.
Lemma first_nb_swap T i u v : Forall is_tri T -> first_nb (map tri_swap T) i u v = first_nb T i v u.
Proof.
  intros HT. unfold first_nb. rewrite map_length. 
  enough (H : forall l, (forall k, In k l -> k < length T) -> find (nb_test (map tri_swap T) i u v) l = find (nb_test T i v u) l).
  { apply H. intros k Hk. apply in_seq in Hk. lia. }
  induction l as [|k l IH]; intros HB; cbn [find]; [reflexivity|]. rewrite IH by (intros; apply HB; right; assumption).
  replace (nb_test (map tri_swap T) i u v k) with (nb_test T i v u k); [reflexivity|].
  assert (Hk : k < length T) by (apply HB; left; reflexivity).
  apply eq_true_iff_eq. rewrite !nb_test_spec. rewrite (nth_map_in tri_swap T k [] []) by exact Hk.
  rewrite !(tri_swap_in _ _ (tri_nth T k HT Hk)). tauto.
Qed.
Lemma consistent_swap_all T : Forall is_tri T ->
  has_consistent_orientation (tri_swap_all T) = has_consistent_orientation T.
Proof.
  intros HT. rewrite tri_swap_all_map.
  assert (HT' : Forall is_tri (map tri_swap T)).
  { apply Forall_map. eapply Forall_impl; [|exact HT]. apply tri_swap_tri. }
  apply eq_true_iff_eq. rewrite (consistent_spec T HT), (consistent_spec _ HT'). rewrite map_length. split.
  - intros H i u v k Hi Hd Hk. assert (Hkl : k < length T) by (apply first_nb_some in Hk; tauto).
    specialize (H i v u k Hi). rewrite !(nth_map_in tri_swap T _ [] []) in H by assumption.
    rewrite !tri_swap_dedge in H by (apply tri_nth; assumption). apply H; [exact Hd|]. rewrite first_nb_swap by exact HT. exact Hk.
  - intros H i u v k Hi Hd Hk. rewrite first_nb_swap in Hk by exact HT. assert (Hkl : k < length T) by (apply first_nb_some in Hk; tauto).
    rewrite !(nth_map_in tri_swap T _ [] []) in * by assumption.
    rewrite tri_swap_dedge in * by (apply tri_nth; assumption). exact (H i v u k Hi Hd Hk).
Qed.

Lemma has_same_orientation_spec t1 t2 a b : is_tri t1 -> is_tri t2 -> a <> b ->
  In a t1 -> In b t1 -> In a t2 -> In b t2 ->
  exists r, has_same_orientation [a; b] t1 t2 = Ok r /\ (r = true <-> (dedge t1 a b /\ dedge t2 b a) \/ (dedge t1 b a /\ dedge t2 a b)).
Proof.
  intros (x & y & z & -> & H1 & H2 & H3) (x' & y' & z' & -> & H1' & H2' & H3') Hn Ha1 Hb1 Ha2 Hb2.
  unfold has_same_orientation. cbn [get nth_error bind]. unfold vertex_position. cbn [find tv nth].
  cbn in Ha1, Hb1, Ha2, Hb2.
  destruct Ha1 as [->|[->|[->|[]]]], Hb1 as [->|[->|[->|[]]]]; try congruence;
  destruct Ha2 as [->|[->|[->|[]]]], Hb2 as [->|[->|[->|[]]]]; try congruence;
  repeat match goal with
  | |- context [?p =? ?p] => rewrite (Nat.eqb_refl p)
  | |- context [?p =? ?q] => rewrite (proj2 (Nat.eqb_neq p q)) by congruence
  end; cbn; (eexists; split; [reflexivity|]); rewrite !dedge_abc; intuition congruence.
Qed.
