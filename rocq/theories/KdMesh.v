(** kd-trees over a simplicial mesh: the lists of potentially intersecting
    simplices, and [create_kd_tree]. *)
From Verif Require PermFacts.
From Verif Require Import Base MultiIndex MultiIndexFacts Fld FldInst PolyFacts Aabb AabbFacts KdTree KdFacts KdProps.
From Coq Require Import Field_theory Field.

Section KdMesh.
  Context {Q : ofld}.
  Add Field Kfield35 : (kth Q).
  Local Open Scope fld_scope.
  Implicit Types h : heap Q.

  (** [x] is a convex combination of the points [vs]. *)
  Definition in_hull (k : nat) (vs : list (list Q)) (x : list Q) : Prop :=
    exists w : list Q, length w = length vs /\ (forall i, (i < length vs)%nat -> kle 0 (nth i w 0)) /\
      ksum (seq 0 (length vs)) (fun i => nth i w 0) = 1 /\
      forall j, (j < k)%nat -> nth j x 0 = ksum (seq 0 (length vs)) (fun i => nth i w 0 * nth j (nth i vs []) 0).
  Lemma hull_le k vs x (f : Q) j : in_hull k vs x -> (j < k)%nat -> (forall v, In v vs -> kle f (nth j v 0)) -> kle f (nth j x 0).
  Proof.
    intros (w & Lw & Hw & S1 & HX) Hj HV. rewrite HX by exact Hj. assert (E : f = ksum (seq 0 (length vs)) (fun i => nth i w 0 * f)) by (rewrite ksum_scale_r, S1; ring). rewrite E at 1.
    apply ksum_le. intros i Hi. apply in_seq in Hi. apply kle_scale; [apply Hw; lia|]. apply HV, nth_In. lia.
  Qed.
  Lemma hull_ge k vs x (f : Q) j : in_hull k vs x -> (j < k)%nat -> (forall v, In v vs -> kle (nth j v 0) f) -> kle (nth j x 0) f.
  Proof.
    intros (w & Lw & Hw & S1 & HX) Hj HV. rewrite HX by exact Hj. assert (E : f = ksum (seq 0 (length vs)) (fun i => nth i w 0 * f)) by (rewrite ksum_scale_r, S1; ring). rewrite E.
    apply ksum_le. intros i Hi. apply in_seq in Hi. apply kle_scale; [apply Hw; lia|]. apply HV, nth_In. lia.
  Qed.
  Lemma fin_pnt k (v : list Q) : length v = k -> pnt k (map Fin v).
  Proof. intros L. split; [rewrite map_length; exact L|]. apply Forall_forall. intros y Hy. apply in_map_iff in Hy as (z & <- & _). discriminate. Qed.
  Lemma create_hull k vs : vs <> [] -> (forall v, In v vs -> length v = k) -> exists b, create (map (map Fin) vs) = Ok b /\ box k b /\ forall x, length x = k -> in_hull k vs x -> point_inside b (map Fin x) = Ok true.
  Proof.
    intros Hne HL. assert (HP : forall q, In q (map (map (@Fin Q)) vs) -> pnt k q) by (intros q Hq; apply in_map_iff in Hq as (v & <- & Hv); apply fin_pnt, HL, Hv).
    destruct (create_bounds k (map (map Fin) vs)) as (b & E & B & HB); [destruct vs; [contradiction|discriminate]|exact HP|]. exists b. split; [exact E|]. split; [exact B|]. intros x Lx HX. apply (inside_iff k); [exact B|rewrite map_length; exact Lx|]. intros j Hj. destruct (HB j Hj) as (W & (q1 & Q1 & E1) & (q2 & Q2 & E2)).
    unfold within. rewrite nth_fin by lia. apply in_map_iff in Q1 as (v1 & <- & V1). apply in_map_iff in Q2 as (v2 & <- & V2). rewrite nth_fin in E1 by (rewrite HL by exact V1; exact Hj). rewrite nth_fin in E2 by (rewrite HL by exact V2; exact Hj). rewrite E1, E2.
    assert (Z : forall v, In v vs -> kle (nth j v1 0) (nth j v 0) /\ kle (nth j v 0) (nth j v2 0)).
    { intros v Hv. destruct (W (map Fin v) (in_map _ _ _ Hv)) as [W1 W2]. rewrite E1 in W1. rewrite E2 in W2. rewrite nth_fin in W1, W2 by (rewrite HL by exact Hv; exact Hj). split; apply kleb_spec; assumption. }
    split; apply kleb_spec; [apply (hull_le k vs x)|apply (hull_ge k vs x)]; try assumption; intros v Hv; apply Z, Hv.
  Qed.

  Section Mesh.
    Variables (k : nat) (ss : list (list nat)) (vs : list (list Q)).
    Definition mesh_ok : Prop := vs <> [] /\ (forall v, In v vs -> length v = k) /\ forall s, In s ss -> s <> [] /\ forall j, In j s -> (j < length vs)%nat.
    (** The vertices of simplex number [s] *)
    Definition corners_of (s : nat) : list (list Q) := map (fun j => nth j vs []) (nth s ss []).
    Hypothesis M : mesh_ok.
    Lemma sv_ok s : (s < length ss)%nat -> simplex_vertices (nth s ss []) vs = Ok (corners_of s).
    Proof.
      intros Hs. destruct M as (Hne & HL & HS). unfold simplex_vertices. rewrite (PermFacts.get_ok vs 0%nat []) by (destruct vs; [contradiction|cbn; lia]). cbn [bind]. unfold corners_of. apply mapM_ok. intros j Hj. assert (Lj : (j < length vs)%nat) by (apply (HS (nth s ss [])); [apply nth_In, Hs|exact Hj]). rewrite (PermFacts.get_ok vs j []) by exact Lj. cbn [bind].
      rewrite !HL by (apply nth_In; destruct vs; [contradiction|cbn in *; lia]). rewrite Nat.eqb_refl. reflexivity.
    Qed.
    Lemma corners_spec s : (s < length ss)%nat -> corners_of s <> [] /\ forall v, In v (corners_of s) -> length v = k.
    Proof.
      intros Hs. destruct M as (Hne & HL & HS). destruct (HS (nth s ss []) (nth_In _ _ Hs)) as [N1 N2]. unfold corners_of. split; [destruct (nth s ss []); [contradiction|discriminate]|]. intros v Hv. apply in_map_iff in Hv as (j & <- & Hj). apply HL, nth_In, N2, Hj.
    Qed.
    (** The bounding box of simplex [s] meets the box cut out by [l]. *)
    Definition meets (b : aabb Q) (s : nat) : Prop := exists q eb, length q = k /\ point_inside b q = Ok true /\ create (map (map Fin) (corners_of s)) = Ok eb /\ point_inside eb q = Ok true.
    Lemma test_ok b s : box k b -> (s < length ss)%nat -> exists t,
      (let* simplex := get ss s in let* v := simplex_vertices simplex vs in let* eb := create (map (map Fin) v) in let* ib := intersection b eb in is_empty ib) = Ok t /\ (t = false <-> meets b s).
    Proof.
      intros B Hs. rewrite (PermFacts.get_ok ss s []) by exact Hs. cbn [bind]. rewrite sv_ok by exact Hs. cbn [bind]. destruct (corners_spec s Hs) as [C1 C2]. destruct (create_hull k (corners_of s) C1 C2) as (eb & E & BE & _). rewrite E. cbn [bind]. destruct (intersection_ok k b eb B BE) as (ib & EI & BI & HI). rewrite EI. cbn [bind]. destruct (is_empty_ok k ib BI) as (t & ET & _ & HT). exists t. split; [exact ET|]. rewrite HT. split.
      - intros (p & Lp & HP). apply HI in HP as [H1 H2]; [|exact Lp]. exists p, eb. auto.
      - intros (p & eb' & Lp & H1 & E' & H2). exists p. split; [exact Lp|]. apply HI; [exact Lp|]. split; [exact H1|]. congruence.
    Qed.
    Definition test (b : aabb Q) (s : nat) : bool :=
      match (let* simplex := get ss s in let* v := simplex_vertices simplex vs in let* eb := create (map (map Fin) v) in let* ib := intersection b eb in is_empty ib) with Ok t => negb t | Err _ => false end.
    Lemma test_meets b s : box k b -> (s < length ss)%nat -> test b s = true <-> meets b s.
    Proof. intros B Hs. destruct (test_ok b s B Hs) as (t & E & H). unfold test. rewrite E, <- H. destruct t; cbn; intuition congruence. Qed.
    Lemma filter_fold (f : list nat -> nat -> result (list nat)) (g : nat -> bool) (l : list nat) : (forall acc s, In s l -> f acc s = Ok (if g s then acc ++ [s] else acc)) -> forall acc, foldM f acc l = Ok (acc ++ filter g l).
    Proof.
      induction l as [|s l IH]; intros H acc; cbn [foldM filter]; [rewrite app_nil_r; reflexivity|]. rewrite H by (left; reflexivity). cbn [bind]. rewrite IH by (intros; apply H; right; assumption). destruct (g s); [rewrite <- app_assoc; reflexivity|reflexivity].
    Qed.
    Lemma pot_ok h i nd p pnd l (i0 : option (list nat)) : wf k h -> nth_error h i = Some nd -> n_parent nd = Some p -> nth_error h p = Some pnd -> planes h i l -> good k l -> (forall s, In s (n_pot pnd) -> (s < length ss)%nat) ->
      get_potentially_intersecting_simplices h i ss vs i0 = Ok (filter (test (fold_right clip (full k) l)) (n_pot pnd)).
    Proof.
      intros W E P Ep Hl G HP. unfold get_potentially_intersecting_simplices. rewrite (nth_get _ _ _ E). cbn [bind]. rewrite P, (aabb_eq k h i l W Hl G), (nth_get _ _ _ Ep). cbn [bind]. rewrite (filter_fold _ (test (fold_right clip (full k) l))); [reflexivity|]. intros acc s Hs.
      destruct (test_ok (fold_right clip (full k) l) s (clips_box k l) (HP s Hs)) as (t & ET & _). unfold test. rewrite ET.
      destruct (get ss s); cbn [bind] in *; [|discriminate]. destruct (simplex_vertices _ vs); cbn [bind] in *; [|discriminate]. destruct (create _); cbn [bind] in *; [|discriminate]. destruct (intersection _ _); cbn [bind] in *; [|discriminate]. rewrite ET. reflexivity.
    Qed.

    (** ** The invariant *)
    Variable int : list nat.
    Hypothesis HI : forall s, In s int -> (s < length ss)%nat.
    Definition minv h : Prop := wf k h /\ forall i nd l, attached h i -> nth_error h i = Some nd -> planes h i l ->
      (forall s, In s (n_pot nd) -> In s int) /\
      (i = 0%nat -> n_pot nd = int) /\
      (i <> 0%nat -> forall s, In s (n_pot nd) -> meets (fold_right clip (full k) l) s) /\
      (forall s x, In s int -> length x = k -> forallb (side_ok x) l = true -> in_hull k (corners_of s) x -> In s (n_pot nd)).
    Lemma root_heap k' i0 : fst (new_node (Mesh ss vs) [] None k' 0 i0) = [mkNode None 0 None None None k' (match i0 with None => seq 0 (length ss) | Some l => l end)] /\ snd (new_node (Mesh ss vs) [] None k' 0 i0) = Ok 0%nat.
    Proof. split; reflexivity. Qed.
    Lemma minv_root : minv [mkNode None 0 None None None k int].
    Proof.
      assert (W : wf k [mkNode (Q := Q) None 0 None None None k int]) by (split; [discriminate|]; intros [|[|i]] nd E; try discriminate; injection E as <-; unfold node_wf; cbn; auto). split; [exact W|]. intros i nd l Ha E Hl. destruct i as [|[|i]]; try discriminate. injection E as <-. cbn [n_pot]. split; [auto|]. split; [auto|]. split; [lia|]. auto.
    Qed.
    Lemma minv_att h i : minv h -> attached h i -> exists nd l, nth_error h i = Some nd /\ planes h i l /\ good k l /\ forall s, In s (n_pot nd) -> (s < length ss)%nat.
    Proof.
      intros [W V] Ha. destruct (att_node k h i W Ha) as (nd & E & _). destruct (attached_planes k h i W Ha) as (l & Hl & G). exists nd, l. split; [exact E|]. split; [exact Hl|]. split; [exact G|]. intros s Hs. apply HI, (proj1 (V i nd l Ha E Hl)), Hs.
    Qed.
    Lemma child_pot h i nd l pt j s pre : minv h -> attached h i -> nth_error h i = Some nd -> n_children nd = None -> planes h i l -> good k l -> (j < k)%nat -> length pt = k -> (s <= 1)%nat ->
      (forall x, In x pre -> n_parent x = Some i /\ (n_side x <= 1)%nat /\ n_k x = n_k nd /\ n_children x = None) ->
      get_potentially_intersecting_simplices ((upd h i (set_plane nd (Some pt) (Some j)) ++ pre) ++ [mkNode (Some i) s None None None (n_k nd) []]) (length (upd h i (set_plane nd (Some pt) (Some j)) ++ pre)) ss vs None = Ok (filter (test (clip (s, j, pt) (fold_right clip (full k) l))) (n_pot nd)).
    Proof.
      intros V Ha E C Hl G Hj Lpt Hs Hpre. pose proof (proj1 V) as W. set (nd1 := set_plane nd (Some pt) (Some j)). set (c := mkNode (Some i) s None None None (n_k nd) []). set (h1 := (upd h i nd1 ++ pre) ++ [c]).
      assert (J : junk_rel h i h1).
      { exists nd, (Some pt), (Some j), (pre ++ [c]). split; [exact E|]. split; [exact C|]. split; [unfold h1; rewrite app_assoc; reflexivity|]. intros x Hx. apply in_app_or in Hx as [Hx|[<-|[]]]; [apply Hpre, Hx|cbn; auto]. }
      assert (W1 : wf k h1) by (apply (junk_wf k h i); assumption). assert (Li : (i < length h)%nat) by (apply nth_error_Some; congruence).
      assert (E1 : nth_error h1 i = Some nd1).
      { unfold h1. rewrite <- app_assoc, nth_error_app1 by (rewrite upd_length; exact Li). rewrite nth_error_upd. destruct (Nat.eq_dec i i); [|lia]. replace (i <? length h)%nat with true by (symmetry; apply Nat.ltb_lt; exact Li). reflexivity. }
      assert (Ec : nth_error h1 (length (upd h i nd1 ++ pre)) = Some c) by (unfold h1; rewrite nth_error_app2 by lia; rewrite Nat.sub_diag; reflexivity).
      assert (Hl1 : planes h1 (length (upd h i nd1 ++ pre)) ((s, j, pt) :: l)).
      { refine (pl_step h1 _ c i nd1 j pt l Ec eq_refl E1 eq_refl eq_refl _). apply (junk_planes k h i); assumption. }
      rewrite (pot_ok h1 _ c i nd1 ((s, j, pt) :: l) None W1 Ec eq_refl E1 Hl1); [reflexivity| |].
      - intros s' j' pt' [H|H]; [injection H as <- <- <-; auto|apply G, H].
      - intros s' Hs'. destruct (minv_att h i V Ha) as (nd' & l' & E' & _ & _ & H). apply H. replace nd' with nd by congruence. exact Hs'.
    Qed.
    Lemma subdivide_mesh h i nd l pt j : minv h -> attached h i -> nth_error h i = Some nd -> n_children nd = None -> planes h i l -> good k l -> (j < k)%nat -> length pt = k ->
      exists h', subdivide (Mesh ss vs) h i (PVec pt) j = (h', Ok tt) /\
        sub_rel h i pt j (filter (test (clip (0%nat, j, pt) (fold_right clip (full k) l))) (n_pot nd)) (filter (test (clip (1%nat, j, pt) (fold_right clip (full k) l))) (n_pot nd)) h'.
    Proof.
      intros V Ha E C Hl G Hj Lpt. assert (Kn : n_k nd = k) by (apply (proj2 (proj1 V) _ _ E)). unfold subdivide. rewrite E. unfold is_leaf. rewrite C. cbn [negb]. rewrite Kn. replace (j <? k)%nat with true by (symmetry; apply Nat.ltb_lt, Hj). rewrite Lpt, Nat.eqb_refl. cbn [negb].
      pose proof (child_pot h i nd l pt j 0 [] V Ha E C Hl G Hj Lpt ltac:(lia) ltac:(intros x [])) as P0. rewrite app_nil_r, Kn in P0. cbn [new_node]. rewrite P0.
      set (pa := filter (test (clip (0%nat, j, pt) (fold_right clip (full k) l))) (n_pot nd)) in *.
      pose proof (child_pot h i nd l pt j 1 [mkNode (Some i) 0 None None None k pa] V Ha E C Hl G Hj Lpt ltac:(lia)) as P1. rewrite Kn in P1. specialize (P1 ltac:(intros x [<-|[]]; cbn; auto)). rewrite P1.
      set (pb := filter (test (clip (1%nat, j, pt) (fold_right clip (full k) l))) (n_pot nd)) in *. eexists. split; [reflexivity|]. exists nd. rewrite Kn. split; [exact E|]. split; [exact C|]. split; [exact Hj|]. split; [exact Lpt|]. assert (Li : (i < length h)%nat) by (apply nth_error_Some; congruence).
      rewrite app_length, !upd_length. cbn [length]. rewrite Nat.add_1_r, <- app_assoc. cbn [app].
      assert (U : forall (l1 l2 : heap Q) v w, (i < length l1)%nat -> upd (upd l1 i v ++ l2) i w = upd l1 i w ++ l2).
      { clear. induction i as [|i IH]; intros [|x l1] l2 v w H; cbn in H; try lia; cbn [upd app]; [reflexivity|]. rewrite IH by lia. reflexivity. }
      rewrite U by exact Li. reflexivity.
    Qed.
    Lemma sub_minv h i nd l pt j h' : minv h -> attached h i -> nth_error h i = Some nd -> planes h i l -> good k l -> (j < k)%nat -> length pt = k ->
      sub_rel h i pt j (filter (test (clip (0%nat, j, pt) (fold_right clip (full k) l))) (n_pot nd)) (filter (test (clip (1%nat, j, pt) (fold_right clip (full k) l))) (n_pot nd)) h' -> minv h'.
    Proof.
      intros V Ha E Hl G Hj Lpt HS. pose proof V as [W V']. pose proof (sub_wf k _ _ _ _ _ _ _ W HS) as W'. split; [exact W'|]. intros q qn lq Aq Eq Hlq. destruct (sub_old k _ _ _ _ _ _ _ W HS q Aq) as [[Aq0 PL]|(_ & Hq & PL)].
      - destruct (attached_planes k h q W Aq0) as (l0 & Hl0 & _). rewrite (planes_fun h' q lq l0 Hlq (PL _ Hl0)). pose proof (att_lt k h q W Aq0) as Lq. destruct (sub_nth _ _ _ _ _ _ _ q HS) as (nd' & E' & _ & Li & N). rewrite N in Eq. destruct (Nat.eq_dec q i) as [Hq|Hq].
        + injection Eq as <-. cbn [set_children set_plane n_pot]. rewrite Hq in *. apply V'; assumption.
        + destruct (Nat.eq_dec q (length h)); [lia|]. destruct (Nat.eq_dec q (S (length h))); [lia|]. apply V'; assumption.
      - destruct (sub_nth _ _ _ _ _ _ _ q HS) as (nd' & E' & _ & Li & N). rewrite N in Eq. specialize (PL l Hl). assert (q <> 0%nat /\ q <> i) as [Hq0 Hqi] by lia. destruct (Nat.eq_dec q i); [lia|].
        destruct (V' i nd l Ha E Hl) as (V1 & _ & _ & V3). assert (VL : forall s, In s (n_pot nd) -> (s < length ss)%nat) by (intros s Hs; apply HI, V1, Hs).
        assert (X : forall sd, q = (length h + sd)%nat -> (sd <= 1)%nat -> n_pot qn = filter (test (clip (sd, j, pt) (fold_right clip (full k) l))) (n_pot nd) -> (forall s, In s (n_pot qn) -> In s int) /\ (q = 0%nat -> n_pot qn = int) /\ (q <> 0%nat -> forall s, In s (n_pot qn) -> meets (fold_right clip (full k) lq) s) /\ (forall s x, In s int -> length x = k -> forallb (side_ok x) lq = true -> in_hull k (corners_of s) x -> In s (n_pot qn))).
        { intros sd Hsd Hs1 EP. replace (q - length h)%nat with sd in PL by lia. rewrite (planes_fun h' q lq _ Hlq PL). rewrite EP. cbn [fold_right]. assert (B : box k (clip (sd, j, pt) (fold_right clip (full k) l))) by apply clip_box, clips_box. split; [intros s Hs; apply filter_In in Hs as [Hs _]; apply V1, Hs|]. split; [lia|]. split; [intros _ s Hs; apply filter_In in Hs as [Hs T]; apply test_meets; [exact B|apply VL, Hs|exact T]|].
          intros s x Hs Lx HO HX. assert (G' : good k ((sd, j, pt) :: l)) by (intros s' j' pt' [H|H]; [injection H as <- <- <-; auto|apply G, H]). pose proof (clips_inside k ((sd, j, pt) :: l) x G' Lx HO) as CI. cbn [forallb] in HO. apply andb_prop in HO as [O1 O2]. apply filter_In. split; [apply (V3 s x); assumption|]. apply test_meets; [exact B|apply HI, Hs|].
          destruct (corners_spec s (HI s Hs)) as [C1 C2]. destruct (create_hull k (corners_of s) C1 C2) as (eb & EB & _ & HB). exists (map Fin x), eb. split; [rewrite map_length; exact Lx|]. split; [exact CI|]. split; [exact EB|apply HB; assumption]. }
        destruct (Nat.eq_dec q (length h)) as [H1|H1]; [apply (X 0%nat); [lia|lia|injection Eq as <-; reflexivity]|]. destruct (Nat.eq_dec q (S (length h))) as [H2|H2]; [apply (X 1%nat); [lia|lia|injection Eq as <-; reflexivity]|]. lia.
    Qed.
    Lemma subdivide_num c h i x j : (exists e, subdivide c h i (PNum x) j = (h, Err e)) \/ subdivide c h i (PNum x) j = subdivide c h i (PVec [x]) j.
    Proof.
      unfold subdivide. destruct (nth_error h i) as [nd|]; [|left; eexists; reflexivity]. destruct (is_leaf nd); cbn [negb]; [|left; eexists; reflexivity]. destruct (j <? n_k nd)%nat; cbn [negb]; [|left; eexists; reflexivity]. destruct (n_k nd =? 1)%nat eqn:E; [|left; eexists; reflexivity]. right. reflexivity.
    Qed.
    Lemma att_dec h i : wf k h -> attached h i \/ ~ attached h i.
    Proof.
      intros W. induction i as [i IH] using (well_founded_induction lt_wf). destruct (Nat.eq_dec i 0) as [->|Hi]; [left; constructor|]. destruct (nth_error h i) as [nd|] eqn:E; [|right; intros H; destruct (att_node k h i W H) as (? & ? & _); congruence].
      destruct (n_parent nd) as [p|] eqn:P; [|right; intros H; destruct (att_node k h i W H) as (nd' & E' & X); assert (nd' = nd) by congruence; subst nd'; apply Hi, X, P].
      assert (Lp : (p < i)%nat) by (apply (wf_older k h W _ _ _ E P)). destruct (IH p Lp) as [Hp|Hp]; [|right; intros H; destruct (att_parent k h i nd p W H E P) as (? & ? & ? & ? & ? & X & _); contradiction].
      destruct (att_node k h p W Hp) as (pn & Ep & _). destruct (n_children pn) as [[a b]|] eqn:C; [|right; intros H; destruct (att_parent k h i nd p W H E P) as (pn' & a & b & ? & ? & _ & X1 & X2 & _); congruence].
      destruct (Nat.eq_dec i a) as [Ha|Ha]; [left; econstructor; [exact Hp|exact Ep|exact C|auto]|]. destruct (Nat.eq_dec i b) as [Hb|Hb]; [left; econstructor; [exact Hp|exact Ep|exact C|auto]|].
      right. intros H. destruct (att_parent k h i nd p W H E P) as (pn' & a' & b' & ? & ? & _ & X1 & X2 & _ & _ & _ & _ & _ & X3). assert (pn' = pn) by congruence. subst pn'. rewrite C in X2. injection X2 as <- <-. destruct X3 as [[X3 _]|[X3 _]]; contradiction.
    Qed.
    Lemma same_minv h h' : minv h -> wf k h' -> (forall q, attached h' q -> attached h q /\ (forall l, planes h q l -> planes h' q l) /\ forall nd nd', nth_error h q = Some nd -> nth_error h' q = Some nd' -> n_pot nd' = n_pot nd) -> minv h'.
    Proof.
      intros [W V] W' H. split; [exact W'|]. intros q qn lq Aq Eq Hlq. destruct (H q Aq) as (A0 & PL & EP). destruct (attached_planes k h q W A0) as (l0 & Hl0 & _). rewrite (planes_fun h' q lq l0 Hlq (PL _ Hl0)). destruct (att_node k h q W A0) as (q0 & E0 & _). rewrite (EP q0 qn E0 Eq). apply V; assumption.
    Qed.
    Lemma step_minv h o : minv h -> minv (step (Mesh ss vs) h o).
    Proof.
      intros V. pose proof V as [W V']. unfold step. destruct o as [i pp j|i].
      - assert (XV : forall pt, minv (fst (subdivide (Mesh ss vs) h i (PVec pt) j))).
        { intros pt. destruct (subdivide_cases (Mesh ss vs) h i (PVec pt) j) as [[e ->]|[(h' & e & EE & HJ)|(h' & pt' & pa & pb & EE & HS)]]; [exact V| |].
          - rewrite EE. cbn [fst]. apply (same_minv h); [exact V|apply (junk_wf k h i); assumption|]. intros q Aq. pose proof (junk_attached k h i h' W HJ q Aq) as A0. split; [exact A0|]. split; [intros l Hl; apply (junk_planes k h i); assumption|]. intros n1 n2 E1 E2. destruct (junk_nth _ _ _ HJ) as (nd & nd' & E & _ & E' & _ & _ & _ & _ & P' & _ & OLD & _). destruct (Nat.eq_dec q i) as [Hq|Hq]; [rewrite Hq in *; congruence|]. rewrite OLD in E2 by (try apply (att_lt k h q W A0); exact Hq). congruence.
          - destruct (att_dec h i W) as [Ha|Ha].
            + destruct HS as (nd & E & C & Hj & Lpt & EH). assert (Kn : n_k nd = k) by (apply (W) in E; apply E).
              assert (Lpt0 : length pt = k).
              { unfold subdivide in EE. rewrite E in EE. unfold is_leaf in EE. rewrite C in EE. cbn [negb] in EE. rewrite Kn in EE. destruct (j <? k)%nat; cbn [negb] in EE; [|discriminate]. destruct (Nat.eqb_spec (length pt) k) as [Z|Z]; [exact Z|cbn [negb] in EE; discriminate]. }
              rewrite Kn in Hj. destruct (attached_planes k h i W Ha) as (l & Hl & G). destruct (subdivide_mesh h i nd l pt j V Ha E C Hl G Hj Lpt0) as (h2 & E2 & S2). rewrite E2. cbn [fst]. apply (sub_minv h i nd l pt j); assumption.
            + rewrite EE. cbn [fst]. apply (same_minv h); [exact V|eapply sub_wf; eassumption|]. intros q Aq. destruct (sub_old k _ _ _ _ _ _ _ W HS q Aq) as [[A0 PL]|(X & _)]; [|contradiction]. split; [exact A0|]. split; [exact PL|]. intros n1 n2 E1 E2. pose proof (att_lt k h q W A0) as Lq. destruct (sub_nth _ _ _ _ _ _ _ q HS) as (nd' & E' & _ & Li & N). rewrite N in E2. destruct (Nat.eq_dec q i) as [Hq|Hq]; [injection E2 as <-; cbn; rewrite Hq in E1; congruence|]. destruct (Nat.eq_dec q (length h)); [lia|]. destruct (Nat.eq_dec q (S (length h))); [lia|]. congruence. }
        destruct pp as [x|pt]; [|apply XV]. destruct (subdivide_num (Mesh ss vs) h i x j) as [[e ->]| ->]; [exact V|apply XV].
      - unfold cut_subtree. destruct (nth_error h i) as [nd|] eqn:E; cbn [fst]; [|exact V]. apply (same_minv h); [exact V|apply cut_wf; assumption|]. intros q Aq. destruct (cut_old k h i nd W E q Aq) as [A0 PL]. split; [exact A0|]. split; [exact PL|]. intros n1 n2 E1 E2. rewrite (cut_nth h i nd q E) in E2. destruct (Nat.eq_dec q i) as [Hq|Hq]; [injection E2 as <-; cbn; rewrite Hq in E1; congruence|congruence].
    Qed.
    Lemma run_minv ops : forall h, minv h -> minv (run (Mesh ss vs) h ops).
    Proof. induction ops as [|o ops IH]; intros h V; [exact V|]. apply IH, step_minv, V. Qed.

    (** ** [create_kd_tree] *)
    Variable pca : list (list Q) -> list Q.
    Hypothesis kpos : (0 < k)%nat.
    Hypothesis HA : forall points, points <> [] -> (forall p, In p points -> length p = k) -> length (pca points) = k.
    Variables (fixed : bool) (maxd : nat) (mil : option nat).
    Hypothesis HM : fixed = true \/ exists m, mil = Some m.
    Definition small (pot : list nat) : Prop := pot = [] \/ (fixed = false /\ exists m, mil = Some m /\ (length pot <= m)%nat).
    Lemma argmax_from_lt (l : list Q) : forall best bi i, (bi < i)%nat -> (argmax_from best bi i l < i + length l)%nat.
    Proof. induction l as [|x l IH]; intros best bi i H; cbn [argmax_from length]; [lia|]. destruct (kltb best x); [specialize (IH x i (S i))|specialize (IH best bi (S i))]; lia. Qed.
    Lemma argmax_ok (l : list Q) : l <> [] -> exists a, argmax l = Ok a /\ (a < length l)%nat.
    Proof. destruct l as [|x l]; [contradiction|]. intros _. eexists. split; [reflexivity|]. pose proof (argmax_from_lt l x 0%nat 1%nat ltac:(lia)). cbn [length]. lia. Qed.
    Lemma centroid_len s : (s < length ss)%nat -> length (centroid (corners_of s)) = k.
    Proof. intros Hs. destruct (corners_spec s Hs) as [C1 C2]. unfold centroid. rewrite map_length, seq_length. destruct (corners_of s) as [|v t]; [contradiction|]. apply C2. left. reflexivity. Qed.
    Lemma fn_ok h i nd l : minv h -> attached h i -> nth_error h i = Some nd -> n_children nd = None -> planes h i l -> good k l -> (length l <= maxd)%nat ->
      (subdivide_fn pca ss vs fixed maxd mil h i = (h, Ok tt) /\ (length l = maxd \/ small (n_pot nd))) \/
      (length l < maxd)%nat /\ exists h' pt j pa pb, subdivide_fn pca ss vs fixed maxd mil h i = (h', Ok tt) /\ sub_rel h i pt j pa pb h' /\ minv h'.
    Proof.
      intros V Ha E C Hl G Hd. unfold subdivide_fn. pose proof (proj1 V) as W. unfold depth. rewrite (depth_planes h i l (wf_older k h W) Hl) by lia. destruct (Nat.eqb_spec (length l) maxd) as [Ed|Ed]; [left; auto|]. rewrite E. destruct (Nat.eqb_spec (length (n_pot nd)) 0) as [E0|E0]; [left; split; [reflexivity|right; left; destruct (n_pot nd); [reflexivity|discriminate]]|].
      assert (S : (exists m, fixed = false /\ mil = Some m /\ (length (n_pot nd) <= m)%nat /\ (if fixed then Ok false else let* m := not_none mil in Ok (length (n_pot nd) <=? m)%nat) = Ok true) \/ (if fixed then Ok false else let* m := not_none mil in Ok (length (n_pot nd) <=? m)%nat) = Ok false).
      { destruct fixed; [right; reflexivity|]. destruct HM as [HM'|[m Hm]]; [discriminate|]. rewrite Hm. cbn [not_none bind]. destruct (Nat.leb_spec (length (n_pot nd)) m); [left; exists m; auto|right; reflexivity]. }
      destruct S as [(m & F1 & F2 & F3 & ->)| ->]; [left; split; [reflexivity|right; right; eauto]|]. right. split; [lia|].
      destruct (minv_att h i V Ha) as (nd' & l' & E' & _ & _ & VL). assert (nd' = nd) by congruence. subst nd'.
      rewrite (mapM_ok _ (fun s => centroid (corners_of s))) by (intros s Hs; rewrite (PermFacts.get_ok ss s []) by apply VL, Hs; cbn [bind]; rewrite sv_ok by apply VL, Hs; reflexivity). cbn [bind]. set (pts := map (fun s => centroid (corners_of s)) (n_pot nd)).
      assert (NE : pts <> []) by (unfold pts; destruct (n_pot nd); [contradiction|discriminate]). assert (LP : forall p, In p pts -> length p = k) by (intros p Hp; apply in_map_iff in Hp as (s & <- & Hs); apply centroid_len, VL, Hs).
      destruct (argmax_ok (map kabs (pca pts))) as (ax & -> & Lax); [intros X; apply (f_equal (@length _)) in X; rewrite map_length, HA in X by assumption; cbn in X; lia|]. cbn [bind]. rewrite map_length, HA in Lax by assumption.
      assert (LM : length (median pts) = k) by (unfold median; rewrite map_length, seq_length; destruct pts as [|p t]; [contradiction|apply LP; left; reflexivity]).
      destruct (subdivide_mesh h i nd l (median pts) ax V Ha E C Hl G Lax LM) as (h' & EE & HS). exists h', (median pts), ax. do 2 eexists. split; [exact EE|]. split; [exact HS|]. eapply sub_minv; eassumption.
    Qed.
    (** Only node [i] and new nodes differ between [h] and [h']. *)
    Definition frame h (i : nat) h' : Prop := (length h <= length h')%nat /\ (forall q, (q < length h)%nat -> q <> i -> nth_error h' q = nth_error h q) /\
      exists nd nd', nth_error h i = Some nd /\ nth_error h' i = Some nd' /\ n_children nd = None /\ n_parent nd' = n_parent nd /\ n_side nd' = n_side nd /\ n_pot nd' = n_pot nd.
    Lemma frame_att h i h' q : wf k h -> frame h i h' -> attached h q -> attached h' q.
    Proof.
      intros W (_ & OLD & nd & nd' & E & _ & C & _) Ha. induction Ha as [|p pn a b q Hp IH Ep Cp Hab]; [constructor|]. econstructor; [exact IH| |exact Cp|exact Hab]. rewrite OLD; [exact Ep|apply nth_error_Some; congruence|]. intros X. rewrite X in Ep. congruence.
    Qed.
    Lemma frame_planes h i h' q l : wf k h -> frame h i h' -> attached h q -> planes h q l -> planes h' q l.
    Proof.
      intros W (LE & OLD & nd & nd' & E & E' & C & P' & S' & _) Ha Hl. revert Ha. induction Hl as [q qn Eq P|q qn p pnd j pt l Eq P Ep Ej Ept Hl IH]; intros Ha.
      - destruct (Nat.eq_dec q i) as [Hq|Hq]; [rewrite Hq in *; apply (pl_root _ _ nd'); congruence|]. apply (pl_root _ _ qn); [rewrite OLD; [exact Eq|apply nth_error_Some; congruence|exact Hq]|exact P].
      - destruct (att_parent k h q qn p W Ha Eq P) as (pn & a & b & ? & ? & Hp & Ep' & Cp & _). assert (p <> i) by (intros X; rewrite X in Ep'; congruence). assert (Ep2 : nth_error h' p = Some pnd) by (rewrite OLD; [exact Ep|apply nth_error_Some; congruence|assumption]).
        destruct (Nat.eq_dec q i) as [Hq|Hq].
        + replace (n_side qn) with (n_side nd') by (rewrite Hq in Eq; congruence). rewrite Hq. apply (pl_step h' i nd' p pnd); try assumption; [rewrite Hq in Eq; congruence|]. apply IH, Hp.
        + apply (pl_step h' q qn p pnd); try assumption; [rewrite OLD; [exact Eq|apply nth_error_Some; congruence|exact Hq]|]. apply IH, Hp.
    Qed.
    Definition done h (q : nat) : Prop := attached h q /\ exists nd l, nth_error h q = Some nd /\ planes h q l /\ (length l <= maxd)%nat /\ (n_children nd = None -> length l = maxd \/ small (n_pot nd)).
    Lemma done_frame h i h' q : wf k h -> frame h i h' -> done h q -> q <> i -> done h' q.
    Proof.
      intros W F (Ha & nd & l & E & Hl & Hd & HC) Hq. split; [eapply frame_att; eassumption|]. exists nd, l. split; [|split; [eapply frame_planes; eassumption|auto]]. destruct F as (_ & OLD & _). rewrite OLD; [exact E|apply nth_error_Some; congruence|exact Hq].
    Qed.
    Lemma recurse_ok n : forall fuel h i nd l, (n < fuel)%nat -> minv h -> attached h i -> nth_error h i = Some nd -> n_children nd = None -> planes h i l -> (length l + n = maxd)%nat ->
      exists h', recurse fuel (subdivide_fn pca ss vs fixed maxd mil) h i = (h', Ok tt) /\ minv h' /\ frame h i h' /\ forall q, q = i \/ (length h <= q < length h')%nat -> done h' q.
    Proof.
      induction n as [n IH] using (well_founded_induction lt_wf). intros fuel h i nd l Hf V Ha E C Hl Hd. destruct fuel as [|fuel]; [lia|]. pose proof (proj1 V) as W. destruct (attached_planes k h i W Ha) as (l0 & Hl0 & G). rewrite (planes_fun h i l0 l Hl0 Hl) in G. clear l0 Hl0. cbn [recurse].
      destruct (fn_ok h i nd l V Ha E C Hl G ltac:(lia)) as [[ EF HS]|(Hlt & h1 & pt & j & pa & pb & EF & HS & V1)]; rewrite EF.
      - rewrite E, C. exists h. split; [reflexivity|]. split; [exact V|]. split; [split; [lia|]; split; [reflexivity|exists nd, nd; auto 10]|]. intros q [->|Hq]; [|lia]. split; [exact Ha|]. exists nd, l. repeat split; try assumption; lia || auto.
      - pose proof (proj1 V1) as W1. pose proof HS as (nd0 & E0 & _ & Hj & Lpt & EH). assert (nd0 = nd) by congruence. subst nd0. assert (Li : (i < length h)%nat) by (apply nth_error_Some; congruence). assert (LH : length h1 = S (S (length h))) by (rewrite EH, app_length, upd_length; cbn; lia).
        assert (N : forall q, nth_error h1 q = (if Nat.eq_dec q i then Some (set_children (set_plane nd (Some pt) (Some j)) (Some (length h, S (length h))))
          else if Nat.eq_dec q (length h) then Some (mkNode (Some i) 0 None None None (n_k nd) pa)
          else if Nat.eq_dec q (S (length h)) then Some (mkNode (Some i) 1 None None None (n_k nd) pb) else nth_error h q)).
        { intros q. destruct (sub_nth h i pt j pa pb h1 q HS) as (nd' & E' & _ & _ & H). replace nd' with nd in H by congruence. exact H. }
        assert (E1 : nth_error h1 i = Some (set_children (set_plane nd (Some pt) (Some j)) (Some (length h, S (length h))))) by (rewrite N; destruct (Nat.eq_dec i i); [reflexivity|lia]).
        assert (Ea : nth_error h1 (length h) = Some (mkNode (Some i) 0 None None None (n_k nd) pa)) by (rewrite N; destruct (Nat.eq_dec (length h) i); [lia|]; destruct (Nat.eq_dec (length h) (length h)); [reflexivity|lia]).
        assert (Eb : nth_error h1 (S (length h)) = Some (mkNode (Some i) 1 None None None (n_k nd) pb)) by (rewrite N; destruct (Nat.eq_dec (S (length h)) i); [lia|]; destruct (Nat.eq_dec (S (length h)) (length h)); [lia|]; destruct (Nat.eq_dec (S (length h)) (S (length h))); [reflexivity|lia]).
        rewrite E1. cbn [set_children n_children].
        assert (F1 : frame h i h1).
        { split; [lia|]. split; [intros q Hq Hne; rewrite N; destruct (Nat.eq_dec q i); [contradiction|]; destruct (Nat.eq_dec q (length h)); [lia|]; destruct (Nat.eq_dec q (S (length h))); [lia|reflexivity]|]. do 2 eexists. split; [exact E|]. split; [exact E1|]. cbn. auto. }
        assert (A1 : attached h1 i) by (exact (frame_att h i h1 i W F1 Ha)). assert (L1 : planes h1 i l) by (exact (frame_planes h i h1 i l W F1 Ha Hl)).
        assert (Aa : attached h1 (length h)) by (econstructor; [exact A1|exact E1|reflexivity|auto]). assert (Ab : attached h1 (S (length h))) by (econstructor; [exact A1|exact E1|reflexivity|auto]).
        assert (La : planes h1 (length h) ((0%nat, j, pt) :: l)) by (exact (pl_step h1 _ _ i _ j pt l Ea eq_refl E1 eq_refl eq_refl L1)). assert (Lb : planes h1 (S (length h)) ((1%nat, j, pt) :: l)) by (exact (pl_step h1 _ _ i _ j pt l Eb eq_refl E1 eq_refl eq_refl L1)).
        destruct (IH (n - 1)%nat ltac:(lia) fuel h1 (length h) _ _ ltac:(lia) V1 Aa Ea eq_refl La ltac:(cbn [length]; lia)) as (h2 & -> & V2 & F2 & D2). pose proof (proj1 V2) as W2.
        assert (Ab2 : attached h2 (S (length h))) by (exact (frame_att h1 _ h2 _ W1 F2 Ab)). assert (Lb2 : planes h2 (S (length h)) ((1%nat, j, pt) :: l)) by (exact (frame_planes h1 _ h2 _ _ W1 F2 Ab Lb)). assert (Eb2 : nth_error h2 (S (length h)) = Some (mkNode (Some i) 1 None None None (n_k nd) pb)) by (rewrite (proj1 (proj2 F2)) by lia; exact Eb).
        destruct (IH (n - 1)%nat ltac:(lia) fuel h2 (S (length h)) _ _ ltac:(lia) V2 Ab2 Eb2 eq_refl Lb2 ltac:(cbn [length]; lia)) as (h3 & -> & V3 & F3 & D3).
        assert (E3 : nth_error h3 i = Some (set_children (set_plane nd (Some pt) (Some j)) (Some (length h, S (length h))))) by (rewrite (proj1 (proj2 F3)) by (destruct F2 as [? _]; lia); rewrite (proj1 (proj2 F2)) by lia; exact E1).
        exists h3. split; [reflexivity|]. split; [exact V3|]. pose proof (proj1 F2) as LE2. pose proof (proj1 F3) as LE3. split.
        + split; [lia|]. split; [|do 2 eexists; split; [exact E|]; split; [exact E3|]; cbn; auto]. intros q Hq Hne. rewrite (proj1 (proj2 F3)) by lia. rewrite (proj1 (proj2 F2)) by lia. apply (proj1 (proj2 F1)); lia.
        + intros q [->|Hq].
          * split; [exact (frame_att h2 _ h3 _ W2 F3 (frame_att h1 _ h2 _ W1 F2 A1))|]. do 2 eexists. split; [exact E3|]. split; [exact (frame_planes h2 _ h3 _ _ W2 F3 (frame_att h1 _ h2 _ W1 F2 A1) (frame_planes h1 _ h2 _ _ W1 F2 A1 L1))|]. split; [lia|]. cbn. discriminate.
          * destruct (Nat.eq_dec q (S (length h))) as [Hb|Hb]; [apply D3; left; exact Hb|]. destruct (Nat.lt_ge_cases q (length h2)) as [H2|H2]; [|apply D3; right; lia]. apply (done_frame h2 (S (length h))); [exact W2|exact F3| |exact Hb]. apply D2. destruct (Nat.eq_dec q (length h)); [left; assumption|right; lia].
    Qed.
    Theorem create_kd_tree_ok fuel i0 : int = (match i0 with None => seq 0 (length ss) | Some l => l end) -> (maxd < fuel)%nat ->
      exists h', create_kd_tree pca ss vs fuel fixed maxd mil i0 = (h', Ok 0%nat) /\ minv h' /\ forall q, (q < length h')%nat -> done h' q.
    Proof.
      intros EI Hf. unfold create_kd_tree. destruct M as (Hne & HL & _). rewrite (PermFacts.get_ok vs 0%nat []) by (destruct vs; [contradiction|cbn; lia]). rewrite HL by (apply nth_In; destruct vs; [contradiction|cbn; lia]).
      cbn [new_node get_potentially_intersecting_simplices get nth_error app length bind n_parent]. rewrite <- EI. pose proof minv_root as V0. set (h0 := [mkNode None 0 None None None k int]) in *.
      destruct (recurse_ok maxd fuel h0 0%nat (mkNode None 0 None None None k int) [] Hf V0 (att_root h0) eq_refl eq_refl (pl_root h0 0%nat _ eq_refl eq_refl) eq_refl) as (h' & -> & V' & _ & D). exists h'. split; [reflexivity|]. split; [exact V'|]. intros q Hq. apply D. destruct q; [left; reflexivity|right; cbn [length h0]; unfold h0; cbn [length]; lia].
    Qed.
  End Mesh.
End KdMesh.
