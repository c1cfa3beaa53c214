(** More proofs about simplicial_complex.py: the boundary of a boundary,
    sub-simplices, boundary orientation. *)
From Verif Require Import Base MultiIndex MultiIndexFacts MultiCapFacts Permutations PermFacts CycleFacts PermEnum PermMisc Simplicial Orient ChainFacts SimplicialFacts.

(** ** opposite_sub_simplex *)
Lemma opposite_in s u x : In x (opposite_sub_simplex s u) <-> In x s /\ ~ In x u.
Proof.
  unfold opposite_sub_simplex. rewrite filter_In, negb_true_iff. rewrite <- (existsb_eqb_in x u).
  destruct (existsb (Nat.eqb x) u); split; intros [H1 H2]; split; auto; congruence.
Qed.
Lemma opposite_perm s u : NoDup s -> NoDup u -> incl u s -> Permutation s (u ++ opposite_sub_simplex s u).
Proof.
  intros Hs Hu Hi. apply NoDup_Permutation; [exact Hs| |].
  - apply NoDup_app_intro; [exact Hu|apply NoDup_filter, Hs|]. intros x Hx Hx'. apply opposite_in in Hx'. tauto.
  - intros x. rewrite in_app_iff, opposite_in. split.
    + intros Hx. destruct (in_dec Nat.eq_dec x u); tauto.
    + intros [Hx|Hx]; [apply Hi, Hx|tauto].
Qed.

(** ** The boundary of a boundary *)
Lemma is_face_sorted t f g : sorted f = sorted g -> is_face t f = is_face t g.
Proof.
  intros H. apply sorted_eq in H. apply eq_true_iff_eq. rewrite !is_face_spec, (Permutation_length H).
  split; intros [H1 H2]; (split; [exact H1|]); intros x Hx; [|symmetry in H]; eapply Permutation_in; eauto.
Qed.
Lemma filter_seq_nth {A} (p : A -> bool) (s : list A) d :
  length (filter (fun i => p (nth i s d)) (seq 0 (length s))) = length (filter p s).
Proof.
  induction s as [|x s IH] using rev_ind; [reflexivity|]. rewrite app_length. cbn [length].
  rewrite Nat.add_1_r, seq_S, !filter_app, !app_length. cbn [filter Nat.add]. rewrite app_nth2, Nat.sub_diag by lia. cbn [nth].
  rewrite <- IH. f_equal.
  - f_equal. apply filter_ext_in. intros i Hi. apply in_seq in Hi. rewrite app_nth1 by lia. reflexivity.
  - destruct (p x); reflexivity.
Qed.
Lemma filter_map_length {A B} (p : B -> bool) (g : A -> B) l : length (filter p (map g l)) = length (filter (fun x => p (g x)) l).
Proof. induction l as [|x l IH]; cbn [map filter]; [reflexivity|]. destruct (p (g x)); cbn [length]; lia. Qed.
Lemma faces_even t s : NoDup s -> NoDup t -> t <> [] ->
  Nat.odd (length (filter (is_face t) (faces s))) = false.
Proof.
  intros Hs Ht Hne. unfold faces. destruct (Nat.ltb_spec 1 (length s)) as [HL|HL]; [|reflexivity].
  rewrite filter_map_length.
  assert (Hf : forall i, i < length s -> is_face t (face_of s i) = (length t + 2 =? length s) && forallb (fun v => existsb (Nat.eqb v) s) t
      && negb (existsb (Nat.eqb (nth i s 0)) t)).
  { intros i Hi. apply eq_true_iff_eq. rewrite is_face_spec, !andb_true_iff, Nat.eqb_eq, forallb_in, negb_true_iff.
    rewrite <- (Permutation_length (face_of_perm s i Hi)), delete_at_length by exact Hi.
    assert (Hx : existsb (Nat.eqb (nth i s 0)) t = false <-> ~ In (nth i s 0) t).
    { rewrite <- existsb_eqb_in. destruct (existsb (Nat.eqb (nth i s 0)) t); split; congruence. }
    rewrite Hx. split.
    - intros [H1 H2]. assert (H3 : incl t (delete_at i s)).
      { intros x Hx'. eapply Permutation_in; [symmetry; apply face_of_perm, Hi|]. apply H2, Hx'. }
      split; [split; [lia|]|].
      + intros x Hx'. eapply delete_at_in, H3, Hx'.
      + intros Hin. apply H3 in Hin. exact (delete_at_notin s i 0 Hs Hi Hin).
    - intros [[H1 H2] H3]. split; [lia|]. intros x Hx'. eapply Permutation_in; [apply face_of_perm, Hi|].
      apply (delete_at_in_iff s i 0 x Hs Hi). split; [apply H2, Hx'|]. intros ->. contradiction. }
  rewrite (filter_ext_in _ (fun i => (length t + 2 =? length s) && forallb (fun v => existsb (Nat.eqb v) s) t
      && negb (existsb (Nat.eqb (nth i s 0)) t))).
  2:{ intros i Hi. apply in_seq in Hi. apply Hf. lia. }
  destruct ((length t + 2 =? length s) && forallb (fun v => existsb (Nat.eqb v) s) t) eqn:E.
  - apply andb_true_iff in E as [E1 E2]. apply Nat.eqb_eq in E1. apply forallb_in in E2. cbn [andb].
    rewrite (filter_seq_nth (fun v => negb (existsb (Nat.eqb v) t)) s 0).
    pose proof (Permutation_length (opposite_perm s t Hs Ht E2)) as HP. rewrite app_length in HP. unfold opposite_sub_simplex in HP.
    replace (length (filter (fun v => negb (existsb (Nat.eqb v) t)) s)) with 2 by lia. reflexivity.
  - cbn [andb]. replace (filter (fun _ => false) (seq 0 (length s))) with (@nil nat); [reflexivity|].
    induction (seq 0 (length s)); cbn [filter]; auto.
Qed.
Lemma all_faces_even t S : Forall (@NoDup nat) S -> NoDup t -> t <> [] ->
  Nat.odd (length (filter (is_face t) (all_faces S))) = false.
Proof.
  intros HS Ht Hne. unfold all_faces. induction S as [|s S IH]; [reflexivity|]. apply Forall_cons_iff in HS as [Hs HS].
  cbn [flat_map]. rewrite filter_app, app_length, Nat.odd_add, IH, faces_even by assumption. reflexivity.
Qed.
Lemma boundary_list_nodups S : Forall (@NoDup nat) S -> Forall (@NoDup nat) (boundary_list S).
Proof.
  rewrite !Forall_forall. intros H f Hf. apply in_boundary_list in Hf as [Hf _]. apply in_flat_map in Hf as (s & Hs & Hf).
  eapply face_nodup'; eauto.
Qed.
Lemma boundary_boundary S : Forall (@NoDup nat) S -> boundary_list (boundary_list S) = [].
Proof.
  intros HS. destruct (boundary_list (boundary_list S)) as [|f l] eqn:E; [reflexivity|exfalso].
  assert (Hf : In f (boundary_list (boundary_list S))) by (rewrite E; left; reflexivity).
  apply in_boundary_list in Hf as [Hf Ho].
  pose proof (boundary_list_nodups S HS) as HN. apply in_flat_map in Hf as (g & Hg & Hf).
  assert (Hnd : NoDup f) by (eapply face_nodup'; [|exact Hf]; rewrite Forall_forall in HN; auto).
  assert (Hne : f <> []).
  { intros ->. pose proof (face_length _ _ Hf) as HL. cbn in HL. apply in_faces in Hf as [H1 _]. lia. }
  rewrite (count_all_faces f _ HN Hnd Hne) in Ho.
  rewrite (odd_sum_kept (is_face f) (is_face_sorted f) (all_faces S)) in Ho.
  - rewrite all_faces_even in Ho by assumption. discriminate.
  - apply boundary_list_nodup.
  - apply boundary_list_mem.
Qed.

(** ** Sub-simplices *)
Lemma SS_le_lt' l : NoDup l -> StronglySorted le l -> StronglySorted lt l.
Proof.
  intros HN HS. induction HS as [|x l HS IH HF]; [constructor|]. apply NoDup_cons_iff in HN as [Hx HN].
  constructor; [auto|]. rewrite Forall_forall in *. intros y Hy. specialize (HF y Hy).
  assert (x <> y) by (intros ->; contradiction). lia.
Qed.
Lemma sorted_lt s : NoDup s -> StronglySorted lt (sorted s).
Proof. intros H. apply SS_le_lt'; [eapply Permutation_NoDup; [apply sorted_perm|exact H]|apply sorted_SS]. Qed.
Lemma sorted_in s x : In x (sorted s) <-> In x s.
Proof. split; apply Permutation_in; [symmetry|]; apply sorted_perm. Qed.
Lemma sorted_length s : length (sorted s) = length s.
Proof. apply sort_length. Qed.
Lemma sorted_lt_id t : StronglySorted lt t -> sorted t = t.
Proof.
  intros H. apply sorted_unique; [apply sorted_SS| |symmetry; apply sorted_perm].
  eapply StronglySorted_impl; [|exact H]. intros; lia.
Qed.

Lemma set_add_in t u x : In x (set_add t u) <-> In x u \/ x = t.
Proof.
  unfold set_add. destruct (tuple_mem t u) eqn:E.
  - apply tuple_mem_in in E. split; [auto|]. intros [?| ->]; auto.
  - rewrite in_app_iff. cbn. intuition.
Qed.
Lemma set_add_nodup t u : NoDup u -> NoDup (set_add t u).
Proof.
  intros H. unfold set_add. destruct (tuple_mem t u) eqn:E; [exact H|]. apply tuple_mem_notin in E.
  apply NoDup_app_intro; [exact H|repeat constructor; auto|]. intros x Hx [<-|[]]. contradiction.
Qed.
Lemma set_union_spec v : forall u, NoDup u -> NoDup (set_union u v) /\ forall x, In x (set_union u v) <-> In x u \/ In x v.
Proof.
  unfold set_union. induction v as [|t v IH]; intros u HN; cbn [fold_left].
  - split; [exact HN|]. cbn. tauto.
  - destruct (IH (set_add t u) (set_add_nodup t u HN)) as [H1 H2]. split; [exact H1|]. intros x. rewrite H2, set_add_in. cbn. intuition.
Qed.

(** The set described in the property: sorted tuples of the non-empty subsets. *)
Definition sub_spec (s : list nat) (include_self : bool) (t : list nat) : Prop :=
  StronglySorted lt t /\ t <> [] /\ incl t s /\ (include_self = false -> length t < length s).

Lemma sub_face_spec s t : NoDup s -> StronglySorted lt t -> t <> [] -> incl t s -> length t < length s ->
  exists f, In f (faces s) /\ incl t f.
Proof.
  intros Hs Ht Hne Hi HL.
  destruct (existsb (fun x => negb (existsb (Nat.eqb x) t)) s) eqn:E.
  - apply existsb_exists in E as (x & Hx & E). apply negb_true_iff in E.
    destruct (In_nth s x 0 Hx) as (i & Hil & <-). exists (face_of s i).
    assert (H1 : 1 < length s) by (destruct t; [congruence|cbn in HL; lia]).
    split; [apply in_faces; split; [exact H1|]; exists i; auto|].
    intros y Hy. eapply Permutation_in; [apply face_of_perm, Hil|]. apply (delete_at_in_iff s i 0 y Hs Hil).
    split; [apply Hi, Hy|]. intros ->. apply existsb_eqb_in in Hy. congruence.
  - exfalso. assert (Hst : incl s t).
    { intros x Hx. apply existsb_eqb_in. destruct (existsb (Nat.eqb x) t) eqn:E'; [reflexivity|].
      enough (existsb (fun x => negb (existsb (Nat.eqb x) t)) s = true) by congruence.
      apply existsb_exists. exists x. split; [exact Hx|]. rewrite E'. reflexivity. }
    apply (NoDup_incl_length Hs) in Hst. lia.
Qed.

Lemma sub_simplices_spec fuel : forall s inc, NoDup s -> s <> [] -> length s < fuel ->
  exists U, sub_simplices_fuel fuel s inc = Ok U /\ NoDup U /\ forall t, In t U <-> sub_spec s inc t.
Proof.
  induction fuel as [|fuel IH]; intros s inc Hs Hne HL; [lia|]. cbn [sub_simplices_fuel].
  set (start := if inc then [sorted s] else []).
  assert (Hstart : NoDup start /\ forall t, In t start <-> inc = true /\ t = sorted s).
  { unfold start. destruct inc; (split; [repeat constructor; auto|]); intros t; cbn; intuition congruence. }
  destruct Hstart as [Hst1 Hst2].
  assert (Hself : inc = true -> sub_spec s inc (sorted s)).
  { intros ->. split; [apply sorted_lt, Hs|]. split.
    - intros E. apply Hne. apply length_zero_iff_nil. rewrite <- sorted_length, E. reflexivity.
    - split; [intros x; apply sorted_in|discriminate]. }
  assert (Hfull : forall t, sub_spec s inc t -> length t < length s \/ (inc = true /\ t = sorted s)).
  { intros t (H1 & H2 & H3 & H4). destruct (Nat.lt_ge_cases (length t) (length s)) as [H|H]; [left; exact H|right].
    destruct inc; [|specialize (H4 eq_refl); lia]. split; [reflexivity|].
    rewrite <- (sorted_lt_id t H1). apply sorted_eq. apply NoDup_Permutation_bis; [apply SS_lt_NoDup, H1|exact H|exact H3]. }
  destruct (Nat.ltb_spec 1 (length s)) as [H1|H1].
  - rewrite (simplex_boundary_ok s Hne). cbn [bind].
    assert (HF : forall G u, (forall f, In f G -> In f (faces s)) -> NoDup u ->
      exists U, fold_left (fun acc b => let* a := acc in let* nested := sub_simplices_fuel fuel b true in Ok (set_union a nested)) G (Ok u) = Ok U
        /\ NoDup U /\ forall t, In t U <-> In t u \/ exists f, In f G /\ sub_spec f true t).
    { induction G as [|f G IHG]; intros u HG HN; cbn [fold_left].
      - exists u. split; [reflexivity|]. split; [exact HN|]. intros t. split; [auto|]. intros [?|(f & [] & _)]; assumption.
      - assert (Hf : In f (faces s)) by (apply HG; left; reflexivity). pose proof (face_length s f Hf) as HLf.
        destruct (IH f true) as (V & EV & HV & HVt).
        + eapply face_nodup'; eauto.
        + intros ->. cbn in HLf. lia.
        + lia.
        + cbn [bind]. rewrite EV. cbn [bind]. destruct (set_union_spec V u HN) as [HU1 HU2].
          destruct (IHG (set_union u V)) as (U & EU & HU & HUt); [intros; apply HG; right; assumption|exact HU1|].
          exists U. split; [exact EU|]. split; [exact HU|]. intros t. rewrite HUt, HU2, HVt. split.
          * intros [[?|?]|(g & Hg & ?)]; [auto|right; exists f; cbn; auto|right; exists g; cbn; auto].
          * intros [?|(g & [<-|Hg] & ?)]; [auto|auto|right; exists g; auto]. }
    destruct (HF (faces s) start (fun _ H => H) Hst1) as (U & EU & HU & HUt). exists U. split; [exact EU|]. split; [exact HU|].
    intros t. rewrite HUt, Hst2. split.
    + intros [[-> ->]|(f & Hf & Ht)]; [auto|]. destruct Ht as (Ha & Hb & Hc & _).
      assert (Hfs : incl f s).
      { apply in_faces in Hf as (_ & i & Hi & ->). intros x Hx. eapply delete_at_in, Permutation_in; [symmetry; apply face_of_perm, Hi|exact Hx]. }
      split; [exact Ha|]. split; [exact Hb|]. split; [intros x Hx; apply Hfs, Hc, Hx|]. intros _.
      apply (NoDup_incl_length (SS_lt_NoDup t Ha)) in Hc. rewrite (face_length s f Hf) in Hc. lia.
    + intros Ht. destruct (Hfull t Ht) as [H|H]; [right|left; exact H]. destruct Ht as (Ha & Hb & Hc & _).
      destruct (sub_face_spec s t Hs Ha Hb Hc H) as (f & Hf & Hi). exists f. split; [exact Hf|].
      split; [exact Ha|]. split; [exact Hb|]. split; [exact Hi|discriminate].
  - exists start. split; [reflexivity|]. split; [exact Hst1|]. intros t. rewrite Hst2. split.
    + intros [-> ->]. auto.
    + intros Ht. destruct (Hfull t Ht) as [H|H]; [|exact H]. exfalso. destruct Ht as (_ & Hb & _).
      destruct t; [congruence|]. cbn in H. lia.
Qed.

(** Counting by all increasing sublists. *)
Fixpoint sublists (l : list nat) : list (list nat) :=
  match l with [] => [[]] | x :: t => map (cons x) (sublists t) ++ sublists t end.
Lemma sublists_length l : length (sublists l) = 2 ^ length l.
Proof. induction l as [|x l IH]; cbn [sublists length Nat.pow]; [reflexivity|]. rewrite app_length, map_length, IH. lia. Qed.
Lemma in_sublists l : StronglySorted lt l -> forall t, In t (sublists l) <-> StronglySorted lt t /\ incl t l.
Proof.
  induction 1 as [|x l Hs IH Hf]; intros t; cbn [sublists].
  - cbn. split.
    + intros [<-|[]]. split; [constructor|]. intros y [].
    + intros [_ H]. left. destruct t as [|y t]; [reflexivity|]. destruct (H y (or_introl eq_refl)).
  - rewrite in_app_iff, in_map_iff, IH. rewrite Forall_forall in Hf. split.
    + intros [(u & <- & Hu)|Ht].
      * apply IH in Hu as [Hu1 Hu2]. split.
        -- constructor; [exact Hu1|]. apply Forall_forall. intros y Hy. apply Hf, Hu2, Hy.
        -- intros y [->|Hy]; [left; reflexivity|right; apply Hu2, Hy].
      * destruct Ht as [H1 H2]. split; [exact H1|]. intros y Hy. right. apply H2, Hy.
    + intros [H1 H2]. destruct t as [|y t].
      * right. split; [constructor|]. intros z [].
      * inversion H1 as [|? ? H3 H4]; subst. rewrite Forall_forall in H4.
        destruct (H2 y (or_introl eq_refl)) as [<-|Hy].
        -- left. exists t. split; [reflexivity|]. apply IH. split; [exact H3|]. intros z Hz.
           destruct (H2 z (or_intror Hz)) as [<-|Hz']; [specialize (H4 x Hz); lia|exact Hz'].
        -- right. split; [exact H1|]. intros z Hz. destruct (H2 z Hz) as [<-|Hz']; [|exact Hz'].
           exfalso. specialize (Hf y Hy). destruct Hz as [->|Hz]; [lia|]. specialize (H4 x Hz). lia.
Qed.
Lemma NoDup_sublists l : StronglySorted lt l -> NoDup (sublists l).
Proof.
  induction 1 as [|x l Hs IH Hf]; cbn [sublists]; [repeat constructor; auto|].
  apply NoDup_app_intro; [apply FinFun.Injective_map_NoDup; [intros a b E; congruence|exact IH]|exact IH|].
  intros t Ht1 Ht2. apply in_map_iff in Ht1 as (u & <- & _). apply (in_sublists l Hs) in Ht2 as [_ H].
  rewrite Forall_forall in Hf. specialize (Hf x (H x (or_introl eq_refl))). lia.
Qed.
Lemma sub_simplices_count s U : NoDup s -> s <> [] -> simplex_sub_simplices s true = Ok U ->
  length U = 2 ^ length s - 1.
Proof.
  intros Hs Hne E. destruct (sub_simplices_spec (S (length s)) s true Hs Hne) as (V & EV & HV & HVt); [lia|].
  unfold simplex_sub_simplices in E. rewrite EV in E. injection E as <-.
  assert (HP : Permutation ([] :: V) (sublists (sorted s))).
  { apply NoDup_Permutation.
    - constructor; [|exact HV]. rewrite HVt. intros (_ & H & _). congruence.
    - apply NoDup_sublists, sorted_lt, Hs.
    - intros t. rewrite (in_sublists _ (sorted_lt s Hs)). cbn [In]. rewrite HVt. unfold sub_spec. split.
      + intros [<-|(H1 & H2 & H3 & _)]; [split; [constructor|intros x []]|]. split; [exact H1|]. intros x Hx. apply sorted_in, H3, Hx.
      + intros [H1 H2]. destruct t as [|y t]; [left; reflexivity|right]. split; [exact H1|]. split; [discriminate|].
        split; [intros x Hx; apply sorted_in, H2, Hx|discriminate]. }
  apply Permutation_length in HP. cbn [length] in HP. rewrite sublists_length, sorted_length in HP. lia.
Qed.
Lemma fixed_dimension_spec s k : NoDup s -> (0 <= k < Z.of_nat (length s))%Z ->
  exists U, simplex_sub_simplices_fixed_dimension s k = Ok U /\ NoDup U /\
    (forall t, In t U <-> StronglySorted lt t /\ incl t s /\ Z.of_nat (length t) = (k + 1)%Z) /\
    length U = binomial (length s) (Z.to_nat k + 1).
Proof.
  intros Hs Hk. unfold simplex_sub_simplices_fixed_dimension, simplex_dimension.
  assert (E1 : (0 <=? k)%Z = true) by (apply Z.leb_le; lia). assert (E2 : (k <=? Z.of_nat (length s) - 1)%Z = true) by (apply Z.leb_le; lia).
  rewrite E1, E2. cbn [assert_ bind]. assert (Hne : s <> []) by (intros ->; cbn in Hk; lia).
  destruct (sub_simplices_spec (S (length s)) s true Hs Hne) as (V & EV & HV & HVt); [lia|].
  unfold simplex_sub_simplices. rewrite EV. cbn [bind]. eexists. split; [reflexivity|]. split; [apply NoDup_filter, HV|].
  assert (HM : forall t, In t (filter (fun t => (Z.of_nat (length t) - 1 =? k)%Z) V) <-> StronglySorted lt t /\ incl t s /\ Z.of_nat (length t) = (k + 1)%Z).
  { intros t. rewrite filter_In, HVt, Z.eqb_eq. unfold sub_spec. split.
    - intros [(H1 & H2 & H3 & _) H4]. split; [exact H1|]. split; [exact H3|lia].
    - intros (H1 & H2 & H3). split; [|lia]. split; [exact H1|]. split; [intros ->; cbn in H3; lia|]. split; [exact H2|discriminate]. }
  split; [exact HM|].
  assert (HP : Permutation (filter (fun t => (Z.of_nat (length t) - 1 =? k)%Z) V) (gen_increasing (sorted s) (Z.to_nat k + 1))).
  { apply NoDup_Permutation; [apply NoDup_filter, HV|apply NoDup_gen_increasing, sorted_lt, Hs|].
    intros t. rewrite HM, (in_gen_increasing _ _ _ (sorted_lt s Hs)). split.
    - intros (H1 & H2 & H3). split; [lia|]. split; [exact H1|]. intros x Hx. apply sorted_in, H2, Hx.
    - intros (H1 & H2 & H3). split; [exact H2|]. split; [intros x Hx; apply sorted_in, H3, Hx|lia]. }
  rewrite (Permutation_length HP), length_gen_increasing, sorted_length.
  destruct (Nat.ltb_spec (length s) (Z.to_nat k + 1)); [lia|reflexivity].
Qed.
