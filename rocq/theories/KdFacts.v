(** Proofs about kd-trees. *)
From Verif Require PermFacts.
From Verif Require Import Base MultiIndex MultiIndexFacts Fld FldInst PolyFacts Aabb AabbFacts KdTree.
From Coq Require Import Field_theory Field.

Section KdFacts.
  Context {Q : ofld}.
  Add Field Kfield33 : (kth Q).
  Local Open Scope fld_scope.
  Implicit Types h : heap Q.

  (** ** Well formed heaps *)
  Definition node_wf (K : nat) h (i : nat) (nd : node Q) : Prop :=
    n_k nd = K /\ (n_side nd <= 1)%nat /\ match n_parent nd with None => i = 0%nat | Some p => (p < i)%nat end /\
    match n_children nd with
    | None => True
    | Some (a, b) => (i < a)%nat /\ (i < b)%nat /\ (exists na, nth_error h a = Some na /\ n_parent na = Some i /\ n_side na = 0%nat) /\ (exists nb, nth_error h b = Some nb /\ n_parent nb = Some i /\ n_side nb = 1%nat) /\
        exists pt j, n_point nd = Some pt /\ n_idx nd = Some j /\ length pt = K /\ (j < K)%nat
    end.
  Definition wf (K : nat) h : Prop := h <> [] /\ forall i nd, nth_error h i = Some nd -> node_wf K h i nd.

  (** The nodes of the tree below node 0 *)
  Inductive attached h : nat -> Prop :=
  | att_root : attached h 0
  | att_child : forall p nd a b i, attached h p -> nth_error h p = Some nd -> n_children nd = Some (a, b) -> i = a \/ i = b -> attached h i.

  Lemma att_node K h i : wf K h -> attached h i -> exists nd, nth_error h i = Some nd /\ (n_parent nd = None <-> i = 0%nat).
  Proof.
    intros [Hne W] [|p nd a b j Hp E C H].
    - destruct h as [|nd h]; [contradiction|]. exists nd. split; [reflexivity|]. destruct (W 0%nat nd eq_refl) as (_ & _ & P & _). destruct (n_parent nd); [lia|tauto].
    - destruct (W p nd E) as (_ & _ & _ & X). rewrite C in X. destruct X as (La & Lb & (na & Ea & Pa & _) & (nb & Eb & Pb & _) & _). destruct H as [-> | ->]; [exists na|exists nb]; (split; [assumption|]); rewrite ?Pa, ?Pb; split; [discriminate|lia|discriminate|lia].
  Qed.
  Lemma nth_get {A} (l : list A) i a : nth_error l i = Some a -> get l i = Ok a.
  Proof. intros H. unfold get. rewrite H. reflexivity. Qed.
  Lemma att_parent K h i nd p : wf K h -> attached h i -> nth_error h i = Some nd -> n_parent nd = Some p ->
    exists pnd a b pt j, attached h p /\ nth_error h p = Some pnd /\ n_children pnd = Some (a, b) /\ n_point pnd = Some pt /\ n_idx pnd = Some j /\ length pt = K /\ (j < K)%nat /\ (p < i)%nat /\
      ((i = a /\ n_side nd = 0%nat) \/ (i = b /\ n_side nd = 1%nat)).
  Proof.
    intros W Ha E P. pose proof W as [Hne Wn]. destruct Ha as [|q qnd a b j Hq Eq C H].
    - destruct (Wn _ _ E) as (_ & _ & X & _). rewrite P in X. lia.
    - destruct (Wn _ _ Eq) as (_ & _ & _ & X). rewrite C in X. destruct X as (La & Lb & (na & Ea & Pa & Sa) & (nb & Eb & Pb & Sb) & (pt & jj & X1 & X2 & X3 & X4)).
      destruct H as [H|H].
      + rewrite H in E. rewrite Ea in E. injection E as E. rewrite <- E in P. rewrite Pa in P. injection P as <-. exists qnd, a, b, pt, jj. rewrite H, <- E. repeat (split; [assumption || lia|]). left. split; [reflexivity|exact Sa].
      + rewrite H in E. rewrite Eb in E. injection E as E. rewrite <- E in P. rewrite Pb in P. injection P as <-. exists qnd, a, b, pt, jj. rewrite H, <- E. repeat (split; [assumption || lia|]). right. split; [reflexivity|exact Sb].
  Qed.

  (** ** The planes above a node *)
  Inductive planes h : nat -> list (nat * nat * list Q) -> Prop :=
  | pl_root : forall i nd, nth_error h i = Some nd -> n_parent nd = None -> planes h i []
  | pl_step : forall i nd p pnd j pt l, nth_error h i = Some nd -> n_parent nd = Some p -> nth_error h p = Some pnd -> n_idx pnd = Some j -> n_point pnd = Some pt -> planes h p l -> planes h i ((n_side nd, j, pt) :: l).
  Lemma planes_fun h i l l' : planes h i l -> planes h i l' -> l = l'.
  Proof.
    intros H. revert l'. induction H as [i nd E P|i nd p pnd j pt l E P Ep Ej Ept Hl IH]; intros l' H'; inversion H'; subst; try congruence.
    assert (nd0 = nd) by congruence. subst. assert (p0 = p) by congruence. subst. assert (pnd0 = pnd) by congruence. subst. replace j0 with j by congruence. replace pt0 with pt by congruence. f_equal. apply IH. assumption.
  Qed.
  Definition good (K : nat) (l : list (nat * nat * list Q)) : Prop := forall s j pt, In (s, j, pt) l -> (s <= 1)%nat /\ (j < K)%nat /\ length pt = K.
  Lemma attached_planes K h i : wf K h -> attached h i -> exists l, planes h i l /\ good K l.
  Proof.
    intros W. revert i. induction i as [i IH] using (well_founded_induction lt_wf). intros Ha. destruct (att_node K h i W Ha) as (nd & E & HP). destruct (n_parent nd) as [p|] eqn:P.
    - destruct (att_parent K h i nd p W Ha E P) as (pnd & a & b & pt & j & Hp & Ep & C & Ept & Ej & Lpt & Lj & Lp & HS). destruct (IH p Lp Hp) as (l & Hl & Gl). exists ((n_side nd, j, pt) :: l). split; [econstructor; eassumption|].
      intros s j' pt' [H|H]; [injection H as <- <- <-; split; [destruct HS as [[_ ->]|[_ ->]]; lia|split; assumption]|apply Gl, H].
    - exists []. split; [apply (pl_root _ _ nd); assumption|intros ? ? ? []].
  Qed.

  Definition side_ok (x : list Q) (e : nat * nat * list Q) : bool :=
    let '(s, j, pt) := e in if (s =? 0)%nat then kleb (nth j x 0) (nth j pt 0) else kleb (nth j pt 0) (nth j x 0).
  Lemma kleb_sub (a b : Q) : kleb (a - b) 0 = kleb a b.
  Proof. apply eq_true_iff_eq. rewrite !kleb_spec. rewrite (kle_sub a b), (kle_sub (a - b) 0). replace (0 - (a - b)) with (b - a) by ring. reflexivity. Qed.
  Lemma kleb_sub' (a b : Q) : kleb 0 (a - b) = kleb b a.
  Proof. apply eq_true_iff_eq. rewrite !kleb_spec. rewrite (kle_sub b a). reflexivity. Qed.
  Lemma kltb_sub (a b : Q) : kltb (a - b) 0 = kltb a b.
  Proof. apply eq_true_iff_eq. rewrite !kltb_spec. rewrite (klt_sub a b), (klt_sub (a - b) 0). replace (0 - (a - b)) with (b - a) by ring. reflexivity. Qed.

  Definition parents_older h : Prop := forall i nd p, nth_error h i = Some nd -> n_parent nd = Some p -> (p < i)%nat.
  Lemma wf_older K h : wf K h -> parents_older h.
  Proof. intros [_ W] i nd p E P. destruct (W i nd E) as (_ & _ & X & _). rewrite P in X. exact X. Qed.
  Lemma space_planes K h i l x : parents_older h -> planes h i l -> good K l -> length x = K -> forall fuel, (i < fuel)%nat -> in_node_space_fuel fuel h i x = Ok (forallb (side_ok x) l).
  Proof.
    intros PO H. induction H as [i nd E P|i nd p pnd j pt l E P Ep Ej Ept Hl IH]; intros G Lx [|fuel] Hf; try lia; cbn [in_node_space_fuel]; rewrite (nth_get _ _ _ E); cbn [bind]; rewrite P; [reflexivity|].
    destruct (G _ _ _ (or_introl eq_refl)) as (_ & Hj & Lpt). pose proof (PO _ _ _ E P) as Lp. rewrite (nth_get _ _ _ Ep). cbn [bind]. rewrite Ej, Ept. cbn [not_none bind]. rewrite !(PermFacts.get_ok _ _ 0) by lia. cbn [bind not_none forallb side_ok].
    rewrite kleb_sub, kleb_sub'. rewrite IH; [|intros s j' pt' Hs; apply G; right; exact Hs|exact Lx|lia]. destruct (n_side nd =? 0)%nat; [destruct (kleb (nth j x 0) (nth j pt 0))|destruct (kleb (nth j pt 0) (nth j x 0))]; reflexivity.
  Qed.
  Definition clip (e : nat * nat * list Q) (b : aabb Q) : aabb Q :=
    let '(s, j, pt) := e in if (s =? 0)%nat then (fst b, upd (snd b) j (Fin (nth j pt 0))) else (upd (fst b) j (Fin (nth j pt 0)), snd b).
  Lemma clip_dim K e (b : aabb Q) : length (fst b) = K -> length (snd b) = K -> length (fst (clip e b)) = K /\ length (snd (clip e b)) = K.
  Proof. destruct e as [[s j] pt]. intros H1 H2. unfold clip. destruct (s =? 0)%nat; cbn [fst snd]; rewrite ?upd_length; auto. Qed.
  Lemma clips_dim K l : length (fst (fold_right clip (full K) l)) = K /\ length (snd (fold_right clip (full K) l)) = K.
  Proof. induction l as [|e l [H1 H2]]; cbn [fold_right]; [split; apply repeat_length|apply clip_dim; assumption]. Qed.
  Lemma aabb_planes K h i l : parents_older h -> (forall p nd, nth_error h p = Some nd -> n_k nd = K) -> planes h i l -> good K l -> forall fuel, (i < fuel)%nat -> node_aabb_fuel fuel h i = Ok (fold_right clip (full K) l).
  Proof.
    intros PO HK H. induction H as [i nd E P|i nd p pnd j pt l E P Ep Ej Ept Hl IH]; intros G [|fuel] Hf; try lia; cbn [node_aabb_fuel]; rewrite (nth_get _ _ _ E); cbn [bind]; rewrite P; [rewrite (HK _ _ E); reflexivity|].
    destruct (G _ _ _ (or_introl eq_refl)) as (_ & Hj & Lpt). pose proof (PO _ _ _ E P) as Lp. rewrite IH; [|intros s j' pt' Hs; apply G; right; exact Hs|lia]. cbn [bind]. rewrite (nth_get _ _ _ Ep). cbn [bind]. rewrite Ej, Ept. cbn [not_none bind]. rewrite (PermFacts.get_ok _ _ 0) by lia. cbn [bind fold_right].
    destruct (clips_dim K l) as [D1 D2]. set (B := fold_right clip (full K) l) in *. unfold clip. destruct (n_side nd =? 0)%nat; rewrite PermFacts.set_ok by (try rewrite D1; try rewrite D2; exact Hj); reflexivity.
  Qed.

  (** ** Operations *)
  (** What a successful subdivision does to the heap *)
  Definition sub_rel h (i : nat) (pt : list Q) (j : nat) (pa pb : list nat) h' : Prop :=
    exists nd, nth_error h i = Some nd /\ n_children nd = None /\ (j < n_k nd)%nat /\ length pt = n_k nd /\
      h' = upd h i (set_children (set_plane nd (Some pt) (Some j)) (Some (length h, S (length h)))) ++ [mkNode (Some i) 0 None None None (n_k nd) pa; mkNode (Some i) 1 None None None (n_k nd) pb].
  Lemma nth_error_upd {A} (l : list A) i v k : nth_error (upd l i v) k = if Nat.eq_dec k i then (if (i <? length l)%nat then Some v else None) else nth_error l k.
  Proof.
    revert i k. induction l as [|a l IH]; intros [|i] [|k]; cbn [upd nth_error length]; try reflexivity.
    - destruct (Nat.eq_dec (S k) (S i)); reflexivity.
    - rewrite IH. destruct (Nat.eq_dec k i), (Nat.eq_dec (S k) (S i)); try lia; reflexivity.
  Qed.
  Lemma sub_nth h i pt j pa pb h' k : sub_rel h i pt j pa pb h' -> exists nd, nth_error h i = Some nd /\ n_children nd = None /\ (i < length h)%nat /\
    nth_error h' k = (if Nat.eq_dec k i then Some (set_children (set_plane nd (Some pt) (Some j)) (Some (length h, S (length h))))
      else if Nat.eq_dec k (length h) then Some (mkNode (Some i) 0 None None None (n_k nd) pa)
      else if Nat.eq_dec k (S (length h)) then Some (mkNode (Some i) 1 None None None (n_k nd) pb) else nth_error h k).
  Proof.
    intros (nd & E & C & Hj & Lpt & ->). exists nd. assert (Li : (i < length h)%nat) by (apply nth_error_Some; congruence). split; [exact E|]. split; [exact C|]. split; [exact Li|].
    destruct (Nat.lt_ge_cases k (length h)) as [Hk|Hk].
    - rewrite nth_error_app1 by (rewrite upd_length; exact Hk). rewrite nth_error_upd. replace (i <? length h)%nat with true by (symmetry; apply Nat.ltb_lt; exact Li).
      destruct (Nat.eq_dec k i); [reflexivity|]. destruct (Nat.eq_dec k (length h)); [lia|]. destruct (Nat.eq_dec k (S (length h))); [lia|reflexivity].
    - rewrite nth_error_app2 by (rewrite upd_length; exact Hk). rewrite upd_length. destruct (Nat.eq_dec k i); [lia|]. destruct (Nat.eq_dec k (length h)) as [->|]; [rewrite Nat.sub_diag; reflexivity|]. destruct (Nat.eq_dec k (S (length h))) as [->|]; [replace (S (length h) - length h)%nat with 1%nat by lia; reflexivity|].
      rewrite (proj2 (nth_error_None h k)) by lia. destruct (k - length h)%nat as [|[|u]] eqn:Eu; try lia. destruct u; reflexivity.
  Qed.
  Lemma sub_wf K h i pt j pa pb h' : wf K h -> sub_rel h i pt j pa pb h' -> wf K h'.
  Proof.
    intros [Hne W] HS. pose proof HS as (nd & E & C & Hj & Lpt & Eh'). destruct (W _ _ E) as (Kn & Sn & Pn & _). split; [rewrite Eh'; intros X; apply app_eq_nil in X as [_ X]; discriminate|].
    assert (Li : (i < length h)%nat) by (apply nth_error_Some; congruence).
    assert (N : forall k, nth_error h' k = (if Nat.eq_dec k i then Some (set_children (set_plane nd (Some pt) (Some j)) (Some (length h, S (length h))))
      else if Nat.eq_dec k (length h) then Some (mkNode (Some i) 0 None None None (n_k nd) pa)
      else if Nat.eq_dec k (S (length h)) then Some (mkNode (Some i) 1 None None None (n_k nd) pb) else nth_error h k)).
    { intros k. destruct (sub_nth h i pt j pa pb h' k HS) as (nd' & E' & _ & _ & H). replace nd' with nd in H by congruence. exact H. }
    intros k kn Ek. rewrite N in Ek. destruct (Nat.eq_dec k i) as [Hk|Hk]; [|destruct (Nat.eq_dec k (length h)) as [Hk1|Hk1]; [|destruct (Nat.eq_dec k (S (length h))) as [Hk2|Hk2]]].
    - injection Ek as <-. rewrite Hk. unfold node_wf. cbn [set_children set_plane n_k n_side n_parent n_children n_point n_idx n_pot]. split; [exact Kn|]. split; [exact Sn|]. split; [exact Pn|]. split; [lia|]. split; [lia|]. split; [|split].
      + exists (mkNode (Some i) 0 None None None (n_k nd) pa). rewrite N. destruct (Nat.eq_dec (length h) i); [lia|]. destruct (Nat.eq_dec (length h) (length h)); [|lia]. auto.
      + exists (mkNode (Some i) 1 None None None (n_k nd) pb). rewrite N. destruct (Nat.eq_dec (S (length h)) i); [lia|]. destruct (Nat.eq_dec (S (length h)) (length h)); [lia|]. destruct (Nat.eq_dec (S (length h)) (S (length h))); [|lia]. auto.
      + exists pt, j. rewrite Lpt, Kn in *. auto.
    - injection Ek as <-. unfold node_wf. cbn [set_children set_plane n_k n_side n_parent n_children n_point n_idx n_pot]. split; [exact Kn|]. split; [lia|]. split; [lia|exact I].
    - injection Ek as <-. unfold node_wf. cbn [set_children set_plane n_k n_side n_parent n_children n_point n_idx n_pot]. split; [exact Kn|]. split; [lia|]. split; [lia|exact I].
    - destruct (W _ _ Ek) as (A1 & A2 & A3 & A4). unfold node_wf. split; [exact A1|]. split; [exact A2|]. split; [exact A3|]. destruct (n_children kn) as [[a b]|]; [|exact I].
      destruct A4 as (B1 & B2 & (na & B3 & B4 & B5) & (nb & B6 & B7 & B8) & B9). split; [exact B1|]. split; [exact B2|].
      assert (Z : forall c nc, nth_error h c = Some nc -> exists nc', nth_error h' c = Some nc' /\ n_parent nc' = n_parent nc /\ n_side nc' = n_side nc).
      { intros c nc Ec. assert (c < length h)%nat by (apply nth_error_Some; congruence). rewrite N. destruct (Nat.eq_dec c i) as [E0|]; [eexists; split; [reflexivity|]; cbn; replace nc with nd by (rewrite E0 in Ec; congruence); auto|]. destruct (Nat.eq_dec c (length h)); [lia|]. destruct (Nat.eq_dec c (S (length h))); [lia|]. exists nc. auto. }
      split; [destruct (Z a na B3) as (na' & Z1 & Z2 & Z3); exists na'; rewrite Z2, Z3; auto|]. split; [destruct (Z b nb B6) as (nb' & Z1 & Z2 & Z3); exists nb'; rewrite Z2, Z3; auto|exact B9].
  Qed.
  Lemma cut_nth h i nd k : nth_error h i = Some nd -> nth_error (upd h i (set_children (set_plane nd None None) None)) k = if Nat.eq_dec k i then Some (set_children (set_plane nd None None) None) else nth_error h k.
  Proof. intros E. rewrite nth_error_upd. replace (i <? length h)%nat with true by (symmetry; apply Nat.ltb_lt, nth_error_Some; congruence). reflexivity. Qed.
  Lemma cut_wf K h i nd : wf K h -> nth_error h i = Some nd -> wf K (upd h i (set_children (set_plane nd None None) None)).
  Proof.
    intros [Hne W] E. split; [intros X; apply (f_equal (@length _)) in X; rewrite upd_length in X; destruct h; [contradiction|discriminate]|].
    intros k kn Ek. rewrite (cut_nth h i nd k E) in Ek. destruct (Nat.eq_dec k i) as [Hk|Hk].
    - injection Ek as <-. destruct (W _ _ E) as (A1 & A2 & A3 & _). rewrite Hk. unfold node_wf. cbn [set_children set_plane n_k n_side n_parent n_children n_point n_idx n_pot]. auto.
    - destruct (W _ _ Ek) as (A1 & A2 & A3 & A4). unfold node_wf. split; [exact A1|]. split; [exact A2|]. split; [exact A3|]. destruct (n_children kn) as [[a b]|]; [|exact I].
      destruct A4 as (B1 & B2 & (na & B3 & B4 & B5) & (nb & B6 & B7 & B8) & B9). split; [exact B1|]. split; [exact B2|].
      assert (Z : forall c nc, nth_error h c = Some nc -> exists nc', nth_error (upd h i (set_children (set_plane nd None None) None)) c = Some nc' /\ n_parent nc' = n_parent nc /\ n_side nc' = n_side nc).
      { intros c nc Ec. rewrite (cut_nth h i nd c E). destruct (Nat.eq_dec c i) as [E0|]; [|exists nc; auto]. eexists. split; [reflexivity|]. cbn. replace nc with nd by (rewrite E0 in Ec; congruence). auto. }
      split; [destruct (Z a na B3) as (na' & Z1 & Z2 & Z3); exists na'; rewrite Z2, Z3; auto|]. split; [destruct (Z b nb B6) as (nb' & Z1 & Z2 & Z3); exists nb'; rewrite Z2, Z3; auto|exact B9].
  Qed.

  (** What an operation does to the attached nodes *)
  Lemma planes_mono h h' i l : (forall p nd, nth_error h p = Some nd -> exists nd', nth_error h' p = Some nd' /\ n_parent nd' = n_parent nd /\ n_side nd' = n_side nd) ->
    (forall p nd j pt, nth_error h p = Some nd -> n_idx nd = Some j -> n_point nd = Some pt -> exists nd', nth_error h' p = Some nd' /\ n_idx nd' = Some j /\ n_point nd' = Some pt) -> planes h i l -> planes h' i l.
  Proof.
    intros H1 H2 H. induction H as [i nd E P|i nd p pnd j pt l E P Ep Ej Ept Hl IH].
    - destruct (H1 i nd E) as (nd' & E' & P' & _). apply (pl_root _ _ nd'); congruence.
    - destruct (H1 i nd E) as (nd' & E' & P' & S'). destruct (H2 p pnd j pt Ep Ej Ept) as (pnd' & Ep' & Ej' & Ept'). rewrite <- S'. apply (pl_step _ _ _ p pnd'); congruence.
  Qed.
  Lemma sub_old K h i pt j pa pb h' : wf K h -> sub_rel h i pt j pa pb h' -> forall k, attached h' k ->
    (attached h k /\ (forall l, planes h k l -> planes h' k l)) \/ (attached h i /\ (k = length h \/ k = S (length h)) /\ forall l, planes h i l -> planes h' k ((k - length h, j, pt)%nat :: l)).
  Proof.
    intros W HS. pose proof HS as (nd & E & C & Hj & Lpt & Eh'). assert (Li : (i < length h)%nat) by (apply nth_error_Some; congruence).
    assert (N : forall k, nth_error h' k = (if Nat.eq_dec k i then Some (set_children (set_plane nd (Some pt) (Some j)) (Some (length h, S (length h))))
      else if Nat.eq_dec k (length h) then Some (mkNode (Some i) 0 None None None (n_k nd) pa)
      else if Nat.eq_dec k (S (length h)) then Some (mkNode (Some i) 1 None None None (n_k nd) pb) else nth_error h k)).
    { intros k. destruct (sub_nth h i pt j pa pb h' k HS) as (nd' & E' & _ & _ & H). replace nd' with nd in H by congruence. exact H. }
    assert (M1 : forall p pn, nth_error h p = Some pn -> exists nd', nth_error h' p = Some nd' /\ n_parent nd' = n_parent pn /\ n_side nd' = n_side pn).
    { intros c nc Ec. assert (c < length h)%nat by (apply nth_error_Some; congruence). rewrite N. destruct (Nat.eq_dec c i) as [E0|]; [eexists; split; [reflexivity|]; cbn; replace nc with nd by (rewrite E0 in Ec; congruence); auto|]. destruct (Nat.eq_dec c (length h)); [lia|]. destruct (Nat.eq_dec c (S (length h))); [lia|]. exists nc. auto. }
    assert (OLD : forall k l, attached h k -> planes h k l -> planes h' k l).
    { intros k. induction k as [k IH] using (well_founded_induction lt_wf). intros l Ha Hl. destruct (att_node K h k W Ha) as (kn & Ek & HP). inversion Hl as [i0 nd0 X1 X2 X3|i0 nd0 p pnd j0 pt0 l0 X1 X2 X3 X4 X5 X6 X7 X8].
      - destruct (M1 k kn Ek) as (nd' & Z1 & Z2 & _). apply (pl_root _ _ nd'); congruence.
      - destruct (att_parent K h k nd0 p W Ha X1 X2) as (pnd' & a & b & pt' & j' & Hp & Ep & Cp & Ept & Ej & _ & _ & Lp & _). destruct (M1 k kn Ek) as (nd' & Z1 & Z2 & Z3). assert (nd0 = kn) by congruence. replace nd0 with kn in *. rewrite <- Z3.
        assert (p <> i) by (intros Ei; rewrite Ei in Ep; congruence). apply (pl_step _ _ _ p pnd); try congruence.
        + rewrite N. assert (p < length h)%nat by (apply nth_error_Some; congruence). destruct (Nat.eq_dec p i); [contradiction|]. destruct (Nat.eq_dec p (length h)); [lia|]. destruct (Nat.eq_dec p (S (length h))); [lia|exact X3].
        + apply IH; assumption. }
    intros k Hk. induction Hk as [|p pn a b k Hp IHp Ep Cp Hab].
    - left. split; [constructor|]. intros l. apply OLD. constructor.
    - rewrite N in Ep. destruct (Nat.eq_dec p i) as [Hi|Hi].
      + injection Ep as <-. cbn in Cp. injection Cp as <- <-. destruct IHp as [[A1 A2]|[_ [Hx _]]]; [|lia]. rewrite Hi in A1. right. split; [exact A1|]. split; [exact Hab|]. intros l Hl.
        destruct (M1 i nd E) as (nd' & Z1 & Z2 & Z3). destruct Hab as [-> | ->].
        * rewrite Nat.sub_diag. refine (pl_step h' (length h) (mkNode (Some i) 0 None None None (n_k nd) pa) i (set_children (set_plane nd (Some pt) (Some j)) (Some (length h, S (length h)))) j pt l _ eq_refl _ eq_refl eq_refl _); [rewrite N; destruct (Nat.eq_dec (length h) i); [lia|]; destruct (Nat.eq_dec (length h) (length h)); [reflexivity|lia]|rewrite N; destruct (Nat.eq_dec i i); [reflexivity|lia]|apply OLD; assumption].
        * replace (S (length h) - length h)%nat with 1%nat by lia. refine (pl_step h' (S (length h)) (mkNode (Some i) 1 None None None (n_k nd) pb) i (set_children (set_plane nd (Some pt) (Some j)) (Some (length h, S (length h)))) j pt l _ eq_refl _ eq_refl eq_refl _); [rewrite N; destruct (Nat.eq_dec (S (length h)) i); [lia|]; destruct (Nat.eq_dec (S (length h)) (length h)); [lia|]; destruct (Nat.eq_dec (S (length h)) (S (length h))); [reflexivity|lia]|rewrite N; destruct (Nat.eq_dec i i); [reflexivity|lia]|apply OLD; assumption].
      + destruct (Nat.eq_dec p (length h)); [injection Ep as <-; discriminate|]. destruct (Nat.eq_dec p (S (length h))); [injection Ep as <-; discriminate|]. destruct IHp as [[A1 A2]|[_ [Hx _]]]; [|lia]. left. assert (A : attached h k) by (econstructor; eassumption). split; [exact A|]. intros l Hl. apply OLD; assumption.
  Qed.
  Lemma cut_old K h i nd : wf K h -> nth_error h i = Some nd -> forall k, attached (upd h i (set_children (set_plane nd None None) None)) k -> attached h k /\ forall l, planes h k l -> planes (upd h i (set_children (set_plane nd None None) None)) k l.
  Proof.
    intros W E. set (h' := upd h i (set_children (set_plane nd None None) None)). assert (N : forall k, nth_error h' k = if Nat.eq_dec k i then Some (set_children (set_plane nd None None) None) else nth_error h k) by (intros k; apply cut_nth, E).
    assert (M1 : forall p pn, nth_error h p = Some pn -> exists nd', nth_error h' p = Some nd' /\ n_parent nd' = n_parent pn /\ n_side nd' = n_side pn).
    { intros c nc Ec. rewrite N. destruct (Nat.eq_dec c i) as [E0|]; [|exists nc; auto]. eexists. split; [reflexivity|]. cbn. replace nc with nd by (rewrite E0 in Ec; congruence). auto. }
    assert (A : forall k, attached h' k -> attached h k).
    { intros k Hk. induction Hk as [|p pn a b k Hp IHp Ep Cp Hab]; [constructor|]. rewrite N in Ep. destruct (Nat.eq_dec p i) as [Hi|Hi]; [injection Ep as <-; discriminate|]. econstructor; eassumption. }
    intros k Hk. split; [apply A, Hk|]. induction Hk as [|p pn a b k Hp IHp Ep Cp Hab]; intros l Hl.
    - destruct (att_node K h 0 W (att_root h)) as (n0 & E0 & P0). destruct (M1 _ _ E0) as (n0' & Z1 & Z2 & _). inversion Hl as [i0 nd0 X1 X2 X3|i0 nd0 p pnd j0 pt0 l0 X1 X2 X3 X4 X5 X6 X7 X8].
      + apply (pl_root _ _ n0'); [exact Z1|]. rewrite Z2. apply P0. reflexivity.
      + exfalso. assert (nd0 = n0) by congruence. subst nd0. rewrite (proj2 P0 eq_refl) in X2. discriminate.
    - rewrite N in Ep. destruct (Nat.eq_dec p i) as [Hi|Hi]; [injection Ep as <-; discriminate|]. assert (Ak : attached h k) by (econstructor; [apply A, Hp|exact Ep|exact Cp|exact Hab]).
      destruct (att_node K h k W Ak) as (kn & Ek & Pk). destruct (proj2 W p pn Ep) as (_ & _ & _ & X). rewrite Cp in X. destruct X as (La & Lb & (na & Ea & Pa & Sa) & (nb & Eb & Pb & Sb) & (pt & jj & X1 & X2 & X3 & X4)).
      assert (PK : n_parent kn = Some p) by (destruct Hab as [Hk|Hk]; rewrite Hk in Ek; congruence). destruct (M1 _ _ Ek) as (kn' & Z1 & Z2 & Z3).
      inversion Hl as [i0 nd0 Y1 Y2 Y3|i0 nd0 p' pnd j0 pt0 l0 Y1 Y2 Y3 Y4 Y5 Y6 Y7 Y8]; [congruence|]. assert (nd0 = kn) by congruence. subst nd0. assert (p' = p) by congruence. subst p'. rewrite <- Z3. apply (pl_step _ _ _ p pnd); try congruence; [|apply IHp; exact Y6]. rewrite N. destruct (Nat.eq_dec p i); [contradiction|exact Y3].
  Qed.
End KdFacts.
