(** Point location, addresses, boxes and meshes of kd-trees, for every history
    of subdivisions and cuts. *)
From Verif Require PermFacts.
From Verif Require Import Base MultiIndex MultiIndexFacts Fld FldInst PolyFacts Aabb AabbFacts KdTree KdFacts.
From Coq Require Import Field_theory Field.

Section KdProps.
  Context {Q : ofld}.
  Add Field Kfield34 : (kth Q).
  Local Open Scope fld_scope.
  Implicit Types h : heap Q.

  (** ** Outcomes of an operation *)
  Definition junk_rel h (i : nat) h' : Prop :=
    exists nd a b l, nth_error h i = Some nd /\ n_children nd = None /\ h' = upd h i (set_plane nd a b) ++ l /\
      forall x, In x l -> n_parent x = Some i /\ (n_side x <= 1)%nat /\ n_k x = n_k nd /\ n_children x = None.
  Lemma new_node_cases c h p k s int : exists l, (new_node c h p k s int = (h ++ [mkNode p s None None None k l], Ok (length h))) \/ exists e, new_node c h p k s int = (h ++ [mkNode p s None None None k l], Err e).
  Proof.
    destruct c as [|ss vs]; cbn [new_node]; [exists []; left; reflexivity|].
    destruct (get_potentially_intersecting_simplices (h ++ [mkNode p s None None None k []]) (length h) ss vs int) as [l|e]; [exists l; left; reflexivity|exists []; right; exists e; reflexivity].
  Qed.
  Lemma subdivide_cases c h i pp j : (exists e, subdivide c h i pp j = (h, Err e)) \/ (exists h' e, subdivide c h i pp j = (h', Err e) /\ junk_rel h i h') \/ (exists h' pt pa pb, subdivide c h i pp j = (h', Ok tt) /\ sub_rel h i pt j pa pb h').
  Proof.
    unfold subdivide. destruct (nth_error h i) as [nd|] eqn:E; [|left; eexists; reflexivity]. destruct (is_leaf nd) eqn:L; cbn [negb]; [|left; eexists; reflexivity]. unfold is_leaf in L. destruct (n_children nd) eqn:C; [discriminate|]. clear L.
    destruct (Nat.ltb_spec j (n_k nd)) as [Hj|Hj]; cbn [negb]; [|left; eexists; reflexivity].
    destruct (match pp with PNum x => if (n_k nd =? 1)%nat then Ok [x] else Err TypeError | PVec l => Ok l end) as [pt|e]; [|left; eexists; reflexivity].
    destruct (Nat.eqb_spec (length pt) (n_k nd)) as [Lp|Lp]; cbn [negb]; [|left; eexists; reflexivity]. assert (Li : (i < length h)%nat) by (apply nth_error_Some; congruence).
    destruct (new_node_cases c (upd h i (set_plane nd (Some pt) (Some j))) (Some i) (n_k nd) 0 None) as [l0 [H0|[e H0]]]; rewrite H0.
    - destruct (new_node_cases c (upd h i (set_plane nd (Some pt) (Some j)) ++ [mkNode (Some i) 0 None None None (n_k nd) l0]) (Some i) (n_k nd) 1 None) as [l1 [H1|[e H1]]]; rewrite H1.
      + right. right. eexists _, pt, l0, l1. split; [reflexivity|]. exists nd. split; [exact E|]. split; [exact C|]. split; [exact Hj|]. split; [exact Lp|]. rewrite app_length, !upd_length. cbn [length]. rewrite Nat.add_1_r, <- app_assoc. cbn [app].
        assert (U : forall (l1 l2 : heap Q) v w, (i < length l1)%nat -> upd (upd l1 i v ++ l2) i w = upd l1 i w ++ l2).
        { clear. induction i as [|i IH]; intros [|x l1] l2 v w H; cbn in H; try lia; cbn [upd app]; [reflexivity|]. rewrite IH by lia. reflexivity. }
        rewrite U by exact Li. reflexivity.
      + right. left. eexists _, e. split; [reflexivity|]. exists nd, (Some pt), (Some j). eexists. split; [exact E|]. split; [exact C|]. rewrite <- app_assoc. split; [reflexivity|]. intros x [<-|[<-|[]]]; cbn; auto.
    - right. left. eexists _, e. split; [reflexivity|]. exists nd, (Some pt), (Some j). eexists. split; [exact E|]. split; [exact C|]. split; [reflexivity|]. intros x [<-|[]]; cbn; auto.
  Qed.
  Lemma junk_nth h i h' : junk_rel h i h' -> exists nd nd', nth_error h i = Some nd /\ n_children nd = None /\ nth_error h' i = Some nd' /\ n_children nd' = None /\ n_parent nd' = n_parent nd /\ n_side nd' = n_side nd /\ n_k nd' = n_k nd /\ n_pot nd' = n_pot nd /\
    (length h <= length h')%nat /\ (forall k, (k < length h)%nat -> k <> i -> nth_error h' k = nth_error h k) /\
    (forall k x, (length h <= k)%nat -> nth_error h' k = Some x -> n_parent x = Some i /\ (n_side x <= 1)%nat /\ n_k x = n_k nd /\ n_children x = None).
  Proof.
    intros (nd & a & b & l & E & C & -> & Hl). exists nd, (set_plane nd a b). assert (Li : (i < length h)%nat) by (apply nth_error_Some; congruence).
    assert (N : forall k, (k < length h)%nat -> nth_error (upd h i (set_plane nd a b) ++ l) k = if Nat.eq_dec k i then Some (set_plane nd a b) else nth_error h k).
    { intros k Hk. rewrite nth_error_app1 by (rewrite upd_length; exact Hk). rewrite nth_error_upd. replace (i <? length h)%nat with true by (symmetry; apply Nat.ltb_lt; exact Li). reflexivity. }
    split; [exact E|]. split; [exact C|]. split; [rewrite N by exact Li; destruct (Nat.eq_dec i i); [reflexivity|lia]|]. split; [exact C|]. do 4 (split; [reflexivity|]). split; [rewrite app_length, upd_length; lia|]. split.
    - intros k Hk Hne. rewrite N by exact Hk. destruct (Nat.eq_dec k i); [contradiction|reflexivity].
    - intros k x Hk Ex. rewrite nth_error_app2 in Ex by (rewrite upd_length; exact Hk). apply nth_error_In in Ex. apply Hl, Ex.
  Qed.
  Lemma junk_wf K h i h' : wf K h -> junk_rel h i h' -> wf K h'.
  Proof.
    intros [Hne W] HJ. destruct (junk_nth _ _ _ HJ) as (nd & nd' & E & C & E' & C' & P' & S' & K' & _ & LL & OLD & NEW). assert (Li : (i < length h)%nat) by (apply nth_error_Some; congruence). split; [intros X; rewrite X in LL; cbn in LL; lia|].
    intros k kn Ek. destruct (Nat.lt_ge_cases k (length h)) as [Hk|Hk].
    - destruct (Nat.eq_dec k i) as [Hi|Hi].
      + rewrite Hi in Ek. rewrite E' in Ek. injection Ek as <-. destruct (W _ _ E) as (A1 & A2 & A3 & _). rewrite Hi. unfold node_wf. rewrite C', P', S', K'. auto.
      + rewrite (OLD k Hk Hi) in Ek. destruct (W _ _ Ek) as (A1 & A2 & A3 & A4). unfold node_wf. split; [exact A1|]. split; [exact A2|]. split; [exact A3|]. destruct (n_children kn) as [[a b]|]; [|exact I].
        destruct A4 as (B1 & B2 & (na & B3 & B4 & B5) & (nb & B6 & B7 & B8) & B9). split; [exact B1|]. split; [exact B2|].
        assert (Z : forall c nc, nth_error h c = Some nc -> exists nc', nth_error h' c = Some nc' /\ n_parent nc' = n_parent nc /\ n_side nc' = n_side nc).
        { intros c nc Ec. destruct (Nat.eq_dec c i) as [E0|E0]; [rewrite E0 in *; exists nd'; assert (nc = nd) by congruence; subst nc; auto|]. rewrite OLD by (try apply nth_error_Some; congruence). exists nc. auto. }
        split; [destruct (Z a na B3) as (na' & Z1 & Z2 & Z3); exists na'; rewrite Z2, Z3; auto|]. split; [destruct (Z b nb B6) as (nb' & Z1 & Z2 & Z3); exists nb'; rewrite Z2, Z3; auto|exact B9].
    - destruct (NEW k kn Hk Ek) as (X1 & X2 & X3 & X4). destruct (W _ _ E) as (A1 & _). unfold node_wf. rewrite X1, X3, X4. repeat split; try assumption. lia.
  Qed.
  Lemma junk_planes K h i h' : wf K h -> junk_rel h i h' -> forall k l, attached h k -> planes h k l -> planes h' k l.
  Proof.
    intros W HJ. destruct (junk_nth _ _ _ HJ) as (nd & nd' & E & C & E' & C' & P' & S' & K' & _ & LL & OLD & NEW).
    assert (M1 : forall c nc, nth_error h c = Some nc -> exists nc', nth_error h' c = Some nc' /\ n_parent nc' = n_parent nc /\ n_side nc' = n_side nc).
    { intros c nc Ec. destruct (Nat.eq_dec c i) as [E0|E0]; [rewrite E0 in *; exists nd'; assert (nc = nd) by congruence; subst nc; auto|]. rewrite OLD by (try apply nth_error_Some; congruence). exists nc. auto. }
    intros k. induction k as [k IH] using (well_founded_induction lt_wf). intros l Ha Hl. destruct (att_node K h k W Ha) as (kn & Ek & HP). inversion Hl as [i0 nd0 X1 X2 X3|i0 nd0 p pnd j0 pt0 l0 X1 X2 X3 X4 X5 X6 X7 X8].
    - destruct (M1 k kn Ek) as (nk' & Z1 & Z2 & _). apply (pl_root _ _ nk'); congruence.
    - destruct (att_parent K h k nd0 p W Ha X1 X2) as (pnd' & a & b & pt' & j' & Hp & Ep & Cp & Ept & Ej & _ & _ & Lp & _). destruct (M1 k kn Ek) as (nk' & Z1 & Z2 & Z3). assert (nd0 = kn) by congruence. replace nd0 with kn in *. rewrite <- Z3.
      assert (p <> i) by (intros Ei; rewrite Ei in Ep; congruence). apply (pl_step _ _ _ p pnd); try congruence; [|apply IH; assumption]. rewrite OLD by (try apply nth_error_Some; congruence). exact X3.
  Qed.
  Lemma junk_attached K h i h' : wf K h -> junk_rel h i h' -> forall k, attached h' k -> attached h k.
  Proof.
    intros W HJ. destruct (junk_nth _ _ _ HJ) as (nd & nd' & E & C & E' & C' & P' & S' & K' & _ & LL & OLD & NEW). intros k Hk. induction Hk as [|p pn a b k Hp IHp Ep Cp Hab]; [constructor|].
    destruct (Nat.lt_ge_cases p (length h)) as [Lp|Lp]; [|destruct (NEW p pn Lp Ep) as (_ & _ & _ & X); congruence]. destruct (Nat.eq_dec p i) as [Hi|Hi]; [rewrite Hi in Ep; congruence|]. rewrite (OLD p Lp Hi) in Ep. econstructor; eassumption.
  Qed.

  (** ** Histories *)
  Inductive op : Type := OSub (i : nat) (pp : ppoint Q) (j : nat) | OCut (i : nat).
  Definition step (c : cls Q) h (o : op) : heap Q := fst (match o with OSub i pp j => subdivide c h i pp j | OCut i => cut_subtree h i end).
  Definition run (c : cls Q) h (ops : list op) : heap Q := fold_left (step c) ops h.
  Lemma step_wf c K h o : wf K h -> wf K (step c h o).
  Proof.
    intros W. unfold step. destruct o as [i pp j|i].
    - destruct (subdivide_cases c h i pp j) as [[e ->]|[(h' & e & -> & HJ)|(h' & pt & pa & pb & -> & HS)]]; cbn [fst]; [exact W|apply (junk_wf K h i); assumption|eapply sub_wf; eassumption].
    - unfold cut_subtree. destruct (nth_error h i) as [nd|] eqn:E; cbn [fst]; [apply cut_wf; assumption|exact W].
  Qed.
  Lemma run_wf c K ops : forall h, wf K h -> wf K (run c h ops).
  Proof. induction ops as [|o ops IH]; intros h W; [exact W|]. apply IH, step_wf, W. Qed.
  Lemma create_wf k : wf k (create_tree (Q := Q) k).
  Proof. split; [discriminate|]. intros [|[|i]] nd E; try discriminate. injection E as <-. unfold node_wf. cbn. auto. Qed.

  (** ** Point location *)
  Inductive finds h (x : list Q) : nat -> nat -> Prop :=
  | fi_leaf : forall i nd, nth_error h i = Some nd -> n_children nd = None -> finds h x i i
  | fi_lo : forall i nd a b j pt r, nth_error h i = Some nd -> n_children nd = Some (a, b) -> n_idx nd = Some j -> n_point nd = Some pt -> kltb (nth j x 0) (nth j pt 0) = true -> finds h x a r -> finds h x i r
  | fi_hi : forall i nd a b j pt r, nth_error h i = Some nd -> n_children nd = Some (a, b) -> n_idx nd = Some j -> n_point nd = Some pt -> kltb (nth j x 0) (nth j pt 0) = false -> finds h x b r -> finds h x i r.
  Lemma find_finds K h x : wf K h -> length x = K -> forall fuel i, (i < length h)%nat -> (length h < fuel + i)%nat -> exists r, find_leaf_fuel fuel h i x = Ok r /\ finds h x i r.
  Proof.
    intros W Lx. induction fuel as [|fuel IH]; intros i Hi Hf; [lia|]. destruct (nth_error h i) as [nd|] eqn:E; [|apply nth_error_None in E; lia]. cbn [find_leaf_fuel]. rewrite (nth_get _ _ _ E). cbn [bind]. destruct (n_children nd) as [[a b]|] eqn:C.
    - destruct (proj2 W _ _ E) as (_ & _ & _ & X). rewrite C in X. destruct X as (La & Lb & (na & Ea & _) & (nb & Eb & _) & (pt & j & Ep & Ej & Lpt & Lj)). rewrite Ej, Ep. cbn [not_none bind]. rewrite (PermFacts.get_ok x j 0) by lia. cbn [bind]. rewrite (PermFacts.get_ok pt j 0) by lia. cbn [bind]. rewrite kltb_sub.
      assert (La' : (a < length h)%nat) by (apply nth_error_Some; congruence). assert (Lb' : (b < length h)%nat) by (apply nth_error_Some; congruence).
      destruct (kltb (nth j x 0) (nth j pt 0)) eqn:T.
      + destruct (IH a La' ltac:(lia)) as (r & Er & Hr). exists r. split; [exact Er|]. eapply fi_lo; eassumption.
      + destruct (IH b Lb' ltac:(lia)) as (r & Er & Hr). exists r. split; [exact Er|]. eapply fi_hi; eassumption.
    - exists i. split; [reflexivity|]. econstructor; eassumption.
  Qed.
  Lemma finds_fun h x i r r' : finds h x i r -> finds h x i r' -> r = r'.
  Proof. intros H. revert r'. induction H; intros r' H'; inversion H'; subst; try congruence; apply IHfinds; congruence. Qed.
  Lemma finds_region K h x i r : wf K h -> length x = K -> finds h x i r -> attached h i -> forall l, planes h i l -> forallb (side_ok x) l = true ->
    attached h r /\ (exists nd, nth_error h r = Some nd /\ n_children nd = None) /\ exists l', planes h r l' /\ forallb (side_ok x) l' = true.
  Proof.
    intros W Lx H. induction H as [i nd E C|i nd a b j pt r E C Ej Ep T Hr IH|i nd a b j pt r E C Ej Ep T Hr IH]; intros Ha l Hl HO.
    - split; [exact Ha|]. split; [exists nd; auto|]. exists l. auto.
    - destruct (proj2 W _ _ E) as (_ & _ & _ & X). rewrite C in X. destruct X as (La & Lb & (na & Ea & Pa & Sa) & (nb & Eb & Pb & Sb) & _).
      apply (IH (att_child h i nd a b a Ha E C (or_introl eq_refl)) ((n_side na, j, pt) :: l)); [econstructor; eassumption|]. cbn [forallb side_ok]. rewrite Sa. cbn [Nat.eqb]. rewrite HO, andb_true_r. apply kleb_spec, klt_le, kltb_spec, T.
    - destruct (proj2 W _ _ E) as (_ & _ & _ & X). rewrite C in X. destruct X as (La & Lb & (na & Ea & Pa & Sa) & (nb & Eb & Pb & Sb) & _).
      apply (IH (att_child h i nd a b b Ha E C (or_intror eq_refl)) ((n_side nb, j, pt) :: l)); [econstructor; eassumption|]. cbn [forallb side_ok]. rewrite Sb. cbn [Nat.eqb]. rewrite HO, andb_true_r. apply kleb_spec, kltb_false, T.
  Qed.
  Lemma space_eq K h i l x : wf K h -> planes h i l -> good K l -> length x = K -> in_node_space h i x = Ok (forallb (side_ok x) l).
  Proof. intros W Hl G Lx. unfold in_node_space. apply (space_planes K); try assumption; [apply (wf_older K), W|lia]. Qed.
  Lemma space_iff K h i x : wf K h -> attached h i -> length x = K -> exists l, planes h i l /\ good K l /\ in_node_space h i x = Ok (forallb (side_ok x) l).
  Proof. intros W Ha Lx. destruct (attached_planes K h i W Ha) as (l & Hl & G). exists l. split; [exact Hl|]. split; [exact G|]. apply (space_eq K); assumption. Qed.
  Lemma att_lt K h i : wf K h -> attached h i -> (i < length h)%nat.
  Proof. intros W Ha. destruct (att_node K h i W Ha) as (nd & E & _). apply nth_error_Some. congruence. Qed.
  Theorem find_leaf_ok K h i x : wf K h -> attached h i -> length x = K -> in_node_space h i x = Ok true ->
    exists r nd, find_leaf_containing_point h i x = Ok r /\ attached h r /\ nth_error h r = Some nd /\ is_leaf nd = true /\ in_node_space h r x = Ok true.
  Proof.
    intros W Ha Lx HS. destruct (space_iff K h i x W Ha Lx) as (l & Hl & G & E). rewrite E in HS. injection HS as HS. destruct (find_finds K h x W Lx (S (length h)) i (att_lt K h i W Ha) ltac:(lia)) as (r & Er & Hr).
    destruct (finds_region K h x i r W Lx Hr Ha l Hl HS) as (A1 & (nd & E1 & C1) & (l' & Hl' & O')). exists r, nd. split; [exact Er|]. split; [exact A1|]. split; [exact E1|]. split; [unfold is_leaf; rewrite C1; reflexivity|].
    destruct (space_iff K h r x W A1 Lx) as (l2 & Hl2 & _ & E2). rewrite E2. rewrite (planes_fun h r l2 l' Hl2 Hl'). rewrite O'. reflexivity.
  Qed.
  Lemma root_space K h x : wf K h -> in_node_space h 0 x = Ok true.
  Proof.
    intros W. destruct (att_node K h 0 W (att_root h)) as (nd & E & P). unfold in_node_space. cbn [in_node_space_fuel]. rewrite (nth_get _ _ _ E). cbn [bind]. rewrite (proj2 P eq_refl). reflexivity.
  Qed.
  (** [x] lies on the plane of a subdivided node of the tree *)
  Definition on_plane h (x : list Q) : Prop := exists p nd j pt, attached h p /\ nth_error h p = Some nd /\ is_leaf nd = false /\ n_idx nd = Some j /\ n_point nd = Some pt /\ nth j x 0 = nth j pt 0.
  Lemma follow K h x i : wf K h -> length x = K -> attached h i -> forall l, planes h i l -> forallb (side_ok x) l = true -> on_plane h x \/ forall r, finds h x i r -> finds h x 0 r.
  Proof.
    intros W Lx Ha. induction Ha as [|p nd a b i Hp IH E C Hab]; intros l Hl HO; [right; auto|].
    assert (Ai : attached h i) by (econstructor; eassumption). destruct (att_node K h i W Ai) as (ni & Ei & Pi).
    destruct (proj2 W _ _ E) as (_ & _ & _ & X). rewrite C in X. destruct X as (La & Lb & (na & Ea & Pa & Sa) & (nb & Eb & Pb & Sb) & (pt & j & Ep & Ej & Lpt & Lj)).
    assert (Pip : n_parent ni = Some p) by (destruct Hab as [Hk|Hk]; rewrite Hk in Ei; congruence). inversion Hl as [i0 nd0 X1 X2 X3|i0 nd0 p' pnd j0 pt0 l0 X1 X2 X3 X4 X5 X6 X7 X8]; [congruence|]. subst l. assert (nd0 = ni) by congruence. subst nd0. assert (p' = p) by congruence. subst p'. assert (pnd = nd) by congruence. subst pnd. assert (j0 = j) by congruence. subst j0. assert (pt0 = pt) by congruence. subst pt0.
    cbn [forallb] in HO. apply andb_prop in HO as [O1 O2]. destruct (IH l0 X6 O2) as [IH'|IH']; [left; exact IH'|]. destruct (kdec (nth j x 0) (nth j pt 0)) as [Eq|Ne].
    - left. exists p, nd, j, pt. repeat (split; [assumption || (unfold is_leaf; rewrite C; reflexivity)|]). exact Eq.
    - right. intros r Hr. apply IH'. cbn [side_ok] in O1. destruct Hab as [Hk|Hk].
      + assert (n_side ni = 0%nat) as S0 by (rewrite Hk in Ei; congruence). rewrite S0 in O1. cbn [Nat.eqb] in O1. rewrite Hk in Hr. apply kleb_spec in O1. refine (fi_lo h x p nd a b j pt r E C Ej Ep _ Hr). apply kltb_spec. destruct (kle_cases _ _ O1); [assumption|contradiction].
      + assert (n_side ni = 1%nat) as S1 by (rewrite Hk in Ei; congruence). rewrite S1 in O1. cbn [Nat.eqb] in O1. rewrite Hk in Hr. apply kleb_spec in O1. refine (fi_hi h x p nd a b j pt r E C Ej Ep _ Hr). apply kltb_false. exact O1.
  Qed.
  Theorem leaves_overlap K h x i i' ni ni' : wf K h -> length x = K -> attached h i -> attached h i' -> nth_error h i = Some ni -> nth_error h i' = Some ni' -> is_leaf ni = true -> is_leaf ni' = true ->
    in_node_space h i x = Ok true -> in_node_space h i' x = Ok true -> i = i' \/ on_plane h x.
  Proof.
    intros W Lx A1 A2 E1 E2 F1 F2 S1 S2. destruct (space_iff K h i x W A1 Lx) as (l & Hl & G & E). rewrite E in S1. injection S1 as S1. destruct (space_iff K h i' x W A2 Lx) as (l' & Hl' & G' & E'). rewrite E' in S2. injection S2 as S2.
    destruct (follow K h x i W Lx A1 l Hl S1) as [H|H]; [right; exact H|]. destruct (follow K h x i' W Lx A2 l' Hl' S2) as [H'|H']; [right; exact H'|]. left.
    unfold is_leaf in F1, F2. destruct (n_children ni) eqn:C1; [discriminate|]. destruct (n_children ni') eqn:C2; [discriminate|]. apply (finds_fun h x 0); [apply H|apply H']; econstructor; eassumption.
  Qed.

  (** ** Addresses *)
  Definition sides (l : list (nat * nat * list Q)) : list nat := map (fun e => fst (fst e)) l.
  Lemma address_planes h i l : parents_older h -> planes h i l -> forall fuel, (i < fuel)%nat -> address_fuel fuel h i = Ok (0%nat :: rev (sides l)).
  Proof.
    intros PO H. induction H as [i nd E P|i nd p pnd j pt l E P Ep Ej Ept Hl IH]; intros [|fuel] Hf; try lia; cbn [address_fuel]; rewrite (nth_get _ _ _ E); cbn [bind]; rewrite P; [reflexivity|]. pose proof (PO _ _ _ E P). rewrite IH by lia. reflexivity.
  Qed.
  Lemma depth_planes h i l : parents_older h -> planes h i l -> forall fuel, (i < fuel)%nat -> depth_fuel fuel h i = Ok (length l).
  Proof.
    intros PO H. induction H as [i nd E P|i nd p pnd j pt l E P Ep Ej Ept Hl IH]; intros [|fuel] Hf; try lia; cbn [depth_fuel]; rewrite (nth_get _ _ _ E); cbn [bind]; rewrite P; [reflexivity|]. pose proof (PO _ _ _ E P). rewrite IH by lia. cbn [bind length]. f_equal. lia.
  Qed.
  Lemma descendant_snoc h a c : forall i, get_descendant_by_address h i (a ++ [c]) = let* m := get_descendant_by_address h i a in get_descendant_by_address h m [c].
  Proof. induction a as [|x a IH]; intros i; [reflexivity|]. cbn [app]. cbn [get_descendant_by_address]. destruct (get h i) as [nd|]; [|reflexivity]. cbn [bind]. destruct (not_none (n_children nd)) as [ab|]; [|reflexivity]. cbn [bind]. destruct (get [fst ab; snd ab] x) as [ch|]; [|reflexivity]. cbn [bind]. apply IH. Qed.
  Lemma descend K h i : wf K h -> attached h i -> forall l, planes h i l -> get_descendant_by_address h 0 (rev (sides l)) = Ok i.
  Proof.
    intros W Ha. induction Ha as [|p nd a b i Hp IH E C Hab]; intros l Hl.
    - destruct (att_node K h 0 W (att_root h)) as (n0 & E0 & P0). inversion Hl as [i0 nd0 X1 X2 X3|i0 nd0 p' pnd j0 pt0 l0 X1 X2 X3 X4 X5 X6 X7 X8]; [reflexivity|]. exfalso. assert (nd0 = n0) by congruence. subst nd0. rewrite (proj2 P0 eq_refl) in X2. discriminate.
    - assert (Ai : attached h i) by (econstructor; eassumption). destruct (att_node K h i W Ai) as (ni & Ei & Pi).
      destruct (proj2 W _ _ E) as (_ & _ & _ & X). rewrite C in X. destruct X as (La & Lb & (na & Ea & Pa & Sa) & (nb & Eb & Pb & Sb) & _).
      assert (Pip : n_parent ni = Some p) by (destruct Hab as [Hk|Hk]; rewrite Hk in Ei; congruence). inversion Hl as [i0 nd0 X1 X2 X3|i0 nd0 p' pnd j0 pt0 l0 X1 X2 X3 X4 X5 X6 X7 X8]; [congruence|]. subst l. assert (nd0 = ni) by congruence. subst nd0. assert (p' = p) by congruence. subst p'.
      replace (rev (sides ((n_side ni, j0, pt0) :: l0))) with (rev (sides l0) ++ [n_side ni]) by reflexivity. rewrite descendant_snoc. rewrite (IH l0 X6). cbn [bind get_descendant_by_address]. rewrite (nth_get _ _ _ E). cbn [bind]. rewrite C. cbn [not_none bind fst snd]. destruct Hab as [Hk|Hk]; rewrite Hk in Ei |- *; [replace (n_side ni) with 0%nat by congruence|replace (n_side ni) with 1%nat by congruence]; reflexivity.
  Qed.
  Theorem address_ok K h i : wf K h -> attached h i -> exists a d, address h i = Ok a /\ depth h i = Ok d /\ length a = S d /\ get_node_by_address h 0 a = Ok i.
  Proof.
    intros W Ha. destruct (attached_planes K h i W Ha) as (l & Hl & _). pose proof (wf_older K h W) as PO. exists (0%nat :: rev (sides l)), (length l). unfold address, depth. rewrite (address_planes h i l PO Hl), (depth_planes h i l PO Hl) by lia. split; [reflexivity|]. split; [reflexivity|].
    assert (LL : length (rev (sides l)) = length l) by (unfold sides; rewrite rev_length, map_length; reflexivity). split; [cbn [length]; rewrite LL; reflexivity|]. unfold get_node_by_address. cbn [get nth_error bind Nat.eqb assert_ length tl]. rewrite LL. pose proof (descend K h i W Ha l Hl) as D.
    destruct l; [cbn in D; exact D|exact D].
  Qed.
  Theorem sibling_ok K h i : wf K h -> attached h i -> i <> 0%nat -> exists s p ni ns, sibling h i = Ok (Some s) /\ attached h s /\ s <> i /\ sibling h s = Ok (Some i) /\ nth_error h i = Some ni /\ nth_error h s = Some ns /\ n_parent ni = Some p /\ n_parent ns = Some p.
  Proof.
    intros W Ha Hi. destruct (att_node K h i W Ha) as (ni & Ei & Pi). destruct (n_parent ni) as [p|] eqn:P; [|exfalso; apply Hi, Pi; reflexivity].
    destruct (att_parent K h i ni p W Ha Ei P) as (pnd & a & b & pt & j & Hp & Ep & C & _ & _ & _ & _ & _ & HS).
    destruct (proj2 W _ _ Ep) as (_ & _ & _ & X). rewrite C in X. destruct X as (La & Lb & (na & Ea & Pa & Sa) & (nb & Eb & Pb & Sb) & _).
    assert (Hab : a <> b) by (intros E; rewrite E in Ea; congruence). unfold sibling. destruct HS as [[H S]|[H S]].
    - exists b, p, ni, nb. rewrite (nth_get _ _ _ Ei). cbn [bind]. rewrite P, (nth_get _ _ _ Ep). cbn [bind]. rewrite C, S. cbn [not_none bind Nat.eqb fst snd]. split; [reflexivity|]. split; [econstructor; [exact Hp|exact Ep|exact C|right; reflexivity]|]. split; [congruence|]. rewrite (nth_get _ _ _ Eb). cbn [bind]. rewrite Pb, (nth_get _ _ _ Ep). cbn [bind]. rewrite C, Sb. cbn [not_none bind Nat.eqb fst snd]. rewrite <- H. auto.
    - exists a, p, ni, na. rewrite (nth_get _ _ _ Ei). cbn [bind]. rewrite P, (nth_get _ _ _ Ep). cbn [bind]. rewrite C, S. cbn [not_none bind Nat.eqb fst snd]. split; [reflexivity|]. split; [econstructor; [exact Hp|exact Ep|exact C|left; reflexivity]|]. split; [congruence|]. rewrite (nth_get _ _ _ Ea). cbn [bind]. rewrite Pa, (nth_get _ _ _ Ep). cbn [bind]. rewrite C, Sa. cbn [not_none bind Nat.eqb fst snd]. rewrite <- H. auto.
  Qed.

  (** ** Boxes *)
  Lemma full_box K : box K (full (Q := Q) K).
  Proof. repeat split; try apply repeat_length; apply Forall_forall; intros x Hx; apply repeat_spec in Hx; rewrite Hx; discriminate. Qed.
  Lemma upd_num (l : list (xnum Q)) j v : Forall AabbFacts.num l -> AabbFacts.num v -> Forall AabbFacts.num (upd l j v).
  Proof. intros H Hv. revert j. induction H as [|a l Ha Hl IH]; intros [|j]; cbn [upd]; constructor; auto. Qed.
  Lemma clip_box K e (b : aabb Q) : box K b -> box K (clip e b).
  Proof. destruct e as [[s j] pt]. intros (L1 & L2 & N1 & N2). unfold clip. destruct (s =? 0)%nat; repeat split; cbn [fst snd]; rewrite ?upd_length; auto; apply upd_num; auto; discriminate. Qed.
  Lemma clips_box K l : box K (fold_right clip (full (Q := Q) K) l).
  Proof. induction l as [|e l IH]; cbn [fold_right]; [apply full_box|apply clip_box, IH]. Qed.
  Lemma aabb_eq K h i l : wf K h -> planes h i l -> good K l -> node_aabb h i = Ok (fold_right clip (full K) l).
  Proof. intros W Hl G. unfold node_aabb. apply aabb_planes; [apply (wf_older K), W|intros p nd E; apply (proj2 W _ _ E)|exact Hl|exact G|lia]. Qed.
  Lemma clip_inside K e l (x : list Q) : good K (e :: l) -> length x = K -> side_ok x e = true -> point_inside (fold_right clip (full K) l) (map Fin x) = Ok true -> point_inside (clip e (fold_right clip (full K) l)) (map Fin x) = Ok true.
  Proof.
    intros G Lx HS HI. assert (Lm : length (map (@Fin Q) x) = K) by (rewrite map_length; exact Lx). rewrite (inside_iff K) in HI by (try apply clips_box; assumption). apply (inside_iff K); [apply clip_box, clips_box|exact Lm|]. intros i Hi. specialize (HI i Hi). unfold within in *. destruct (clips_dim K l) as [D1 D2]. destruct e as [[s j] pt]. destruct (G s j pt (or_introl eq_refl)) as (_ & Hj & Lpt).
    set (B := fold_right clip (full K) l) in *. unfold clip. cbn [side_ok] in HS. destruct (s =? 0)%nat; cbn [fst snd].
    - split; [apply HI|]. destruct (Nat.eq_dec i j) as [E|E]; [|rewrite nth_upd_other by congruence; apply HI]. rewrite E, nth_upd_same by lia. rewrite nth_fin by lia. exact HS.
    - split; [|apply HI]. destruct (Nat.eq_dec i j) as [E|E]; [|rewrite nth_upd_other by congruence; apply HI]. rewrite E, nth_upd_same by lia. rewrite nth_fin by lia. exact HS.
  Qed.
  Lemma full_inside K (x : list Q) : length x = K -> point_inside (full (Q := Q) K) (map Fin x) = Ok true.
  Proof.
    intros Lx. apply (inside_iff K); [apply full_box|rewrite map_length; exact Lx|]. intros i Hi. unfold within. cbn [full fst snd]. rewrite nth_fin by lia. rewrite !(nth_indep _ NaN MInf) by (rewrite repeat_length; exact Hi). rewrite nth_repeat. rewrite (nth_indep _ MInf PInf) by (rewrite repeat_length; exact Hi). rewrite nth_repeat. split; reflexivity.
  Qed.
  Lemma clips_inside K l (x : list Q) : good K l -> length x = K -> forallb (side_ok x) l = true -> point_inside (fold_right clip (full K) l) (map Fin x) = Ok true.
  Proof.
    intros G Lx. induction l as [|e l IH]; intros HO; cbn [fold_right]; [apply full_inside, Lx|]. cbn [forallb] in HO. apply andb_prop in HO as [O1 O2]. apply clip_inside; try assumption. apply IH; [intros s j pt H; apply G; right; exact H|exact O2].
  Qed.
  Theorem node_aabb_contains K h i x : wf K h -> attached h i -> length x = K -> exists b, node_aabb h i = Ok b /\ (in_node_space h i x = Ok true -> point_inside b (map Fin x) = Ok true).
  Proof.
    intros W Ha Lx. destruct (space_iff K h i x W Ha Lx) as (l & Hl & G & E). exists (fold_right clip (full K) l). split; [apply aabb_eq; assumption|]. rewrite E. intros H. injection H as H. apply clips_inside; assumption.
  Qed.
  (** The plane of node [p] meets the box of [p]. *)
  Definition plane_in_box h (p : nat) : Prop := forall nd j pt b, nth_error h p = Some nd -> n_idx nd = Some j -> n_point nd = Some pt -> node_aabb h p = Ok b -> in_closed_range (Fin (nth j pt 0)) (nth j (fst b) NaN) (nth j (snd b) NaN) = true.
  Theorem node_aabb_exact K h i x : wf K h -> attached h i -> length x = K -> (forall p, attached h p -> (p < i)%nat -> plane_in_box h p) -> exists b, node_aabb h i = Ok b /\ (in_node_space h i x = Ok true <-> point_inside b (map Fin x) = Ok true).
  Proof.
    intros W Ha Lx HP. destruct (space_iff K h i x W Ha Lx) as (l & Hl & G & E). exists (fold_right clip (full K) l). split; [apply aabb_eq; assumption|]. rewrite E. split; [intros H; injection H as H; apply clips_inside; assumption|]. intros HI. f_equal. clear E.
    revert HI Ha HP. induction Hl as [i nd E P|i nd p pnd j pt l E P Ep Ej Ept Hl IH]; intros HI Ha HP; [reflexivity|]. cbn [fold_right] in HI. cbn [forallb]. assert (Gl : good K l) by (intros s' j' pt' H; apply G; right; exact H).
    destruct (att_parent K h i nd p W Ha E P) as (pnd' & a & b & pt' & j' & Hp & Ep' & C & Ept' & Ej' & _ & _ & Lp & _). pose proof (HP p Hp Lp pnd j pt _ Ep Ej Ept (aabb_eq K h p l W Hl Gl)) as PB. unfold in_closed_range in PB. apply andb_prop in PB as [PB1 PB2].
    destruct (G _ _ _ (or_introl eq_refl)) as (_ & Hj & Lpt). destruct (clips_dim K l) as [D1 D2]. assert (Lm : length (map (@Fin Q) x) = K) by (rewrite map_length; exact Lx). rewrite (inside_iff K) in HI by (try apply clip_box, clips_box; assumption).
    assert (IN : side_ok x (n_side nd, j, pt) = true /\ point_inside (fold_right clip (full K) l) (map Fin x) = Ok true).
    { set (B := fold_right clip (full K) l) in *. unfold within, clip in HI. cbn [side_ok]. destruct (n_side nd =? 0)%nat; cbn [fst snd] in HI.
      - pose proof (HI j Hj) as [_ H2]. rewrite nth_upd_same in H2 by lia. split; [rewrite nth_fin in H2 by lia; exact H2|]. apply (inside_iff K); [apply (clips_box K l)|exact Lm|]. intros k Hk. pose proof (HI k Hk) as [H3 H4]. split; [exact H3|]. destruct (Nat.eq_dec k j) as [Ek|Ek]; [rewrite Ek; apply (xleb_trans _ (Fin (nth j pt 0))); assumption|rewrite nth_upd_other in H4 by congruence; exact H4].
      - pose proof (HI j Hj) as [H2 _]. rewrite nth_upd_same in H2 by lia. split; [rewrite nth_fin in H2 by lia; exact H2|]. apply (inside_iff K); [apply (clips_box K l)|exact Lm|]. intros k Hk. pose proof (HI k Hk) as [H3 H4]. split; [|exact H4]. destruct (Nat.eq_dec k j) as [Ek|Ek]; [rewrite Ek; apply (xleb_trans _ (Fin (nth j pt 0))); assumption|rewrite nth_upd_other in H3 by congruence; exact H3]. }
    destruct IN as [I1 I2]. rewrite I1. cbn [andb]. apply IH; [exact Gl|exact I2|exact Hp|]. intros q Hq Lq. apply HP; [exact Hq|lia].
  Qed.
End KdProps.
