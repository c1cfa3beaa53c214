(** Piecewise polynomials: building one from values on the simplices, and the
    operations. *)
From Verif Require PermFacts KdTree.
From Verif Require Import KdMesh Prop_LocalToGlobal.
From Verif Require Import Base MultiIndex MultiIndexFacts MultiCapFacts MultiIndexCache Fld FldInst CodeGen CodeGenFacts LinSolve Det Linalg VecFacts Simplicial SimplexGeo SimplexFacts SimplexMetric AffineFacts MultiCoef MultiCoefFacts LagrangeCache Unisolv Poly PolyFacts LagFacts PolyEval PolyOps PolyOpsB PolyDeriv PolyObj PolyPow PolyCalls IntegralCache Integrate IntFacts HasInt Bases BasesFacts BasesCalls BasesMore DerivFacts SubstFacts PolySimplex PolySimplexFacts PolySimplexCalls PolySimplexMul.
From Verif Require Import LocalToGlobal LocalToGlobalFacts LocalToGlobalSim LocalToGlobalProps FaceFacts FaceValues PiecewisePoly PiecewiseMap PiecewiseFacts.
From Coq Require Import Field_theory Field Permutation.

Lemma foldM_seq {S A} (f : S -> nat -> result S) (h : S -> A -> result S) l : (forall s k a, nth_error l k = Some a -> f s k = h s a) -> forall s, foldM f s (seq 0 (length l)) = foldM h s l.
Proof.
  revert f. induction l as [|a l IH]; intros f H s; [reflexivity|]. cbn [length seq foldM]. rewrite (H s 0%nat a eq_refl). destruct (h s a) as [t|e]; [|reflexivity]. cbn [bind].
  rewrite <- seq_shift. rewrite <- (IH (fun s k => f s (Datatypes.S k))) by (intros; apply H; assumption).
  enough (X : forall q s, foldM f s (map Datatypes.S q) = foldM (fun s k => f s (Datatypes.S k)) s q) by apply X. clear. induction q as [|k q IH]; intros s; [reflexivity|]. cbn [map foldM]. destruct (f s (Datatypes.S k)); [apply IH|reflexivity].
Qed.
Lemma foldM_combine_seq {S A} (f : S -> nat * A -> result S) (h : S -> A -> result S) l : (forall s k a, nth_error l k = Some a -> f s (k, a) = h s a) -> forall s, foldM f s (combine (seq 0 (length l)) l) = foldM h s l.
Proof.
  intros H s. enough (X : forall q k s, (forall i a, nth_error q i = Some a -> nth_error l (k + i) = Some a) -> foldM f s (combine (seq k (length q)) q) = foldM h s q).
  { apply X. intros i a E. exact E. }
  clear s. induction q as [|a q IH]; intros k s Hq; [reflexivity|]. cbn [length seq combine foldM]. rewrite (H s k a) by (rewrite <- (Hq 0%nat a eq_refl); f_equal; lia). destruct (h s a); [|reflexivity]. cbn [bind].
  apply IH. intros i b E. rewrite <- (Hq (Datatypes.S i) b E). f_equal. lia.
Qed.
Lemma foldM_ext_in {S A} (f g : S -> A -> result S) l : (forall s a, In a l -> f s a = g s a) -> forall s, foldM f s l = foldM g s l.
Proof. induction l as [|a l IH]; intros H s; [reflexivity|]. cbn [foldM]. rewrite H by (left; reflexivity). destruct (g s a); [|reflexivity]. cbn [bind]. apply IH. intros; apply H; right; assumption. Qed.

Section PWOps.
  Context {Q : ofld} (ksqrt : Q -> Q) (tol eps : Q) (veq : list (list Q) -> list (list Q) -> bool) (pca : list (list Q) -> list Q).
  Add Field Kfield63 : (kth Q).
  Local Open Scope fld_scope.
  Notation pt := SimplexGeo.pt.
  Notation spoly_of := (spoly_of ksqrt tol).
  Context (m : nat) (tris : list (list nat)) (verts : list (list Q)) (bs : option (list (list nat))) (keep : bool).
  Notation ntri := (length tris).
  Notation tri j := (nth j tris []).
  Hypothesis GM : good_mesh m tris verts bs.
  Notation corners := (corners_of tris verts).
  Notation pw_of := (pw_of ksqrt tol m tris verts bs keep).

  (** ** Common faces *)
  Lemma bary_weights (w : nat -> Q) l : l <> [] -> ksum l w = 1 -> bary_of (map w (tl l)) = map w l.
  Proof. destruct l as [|v l]; [contradiction|]. intros _ H. cbn [tl map]. unfold bary_of. f_equal. assert (E : ksum (map w l) (fun t => t) = ksum l w) by (rewrite ksum_map; reflexivity). rewrite E. rewrite ksum_cons in H. rewrite <- H. ring. Qed.
  Lemma bfn_vprod b r l nu (w : nat -> Q) : b <> Monomial -> NoDup l -> length l = (m + 1)%nat -> length nu = m -> (nsum nu <= r)%nat -> ksum l w = 1 ->
    bfn b m r nu (map w (tl l)) = bconst b r * vprod b r l nu w.
  Proof.
    intros Hb HN HL Hn Hr H1. assert (Hl : l <> []) by (destruct l; [cbn in HL; lia|discriminate]).
    rewrite bfn_pf; [|exact Hb|exact Hn|exact Hr|rewrite map_length; destruct l; [contradiction|cbn in HL |- *; lia]].
    rewrite bary_weights by assumption. rewrite pf_vertex by (assumption || lia). reflexivity.
  Qed.
  Lemma shared_ksum l l' (w : nat -> Q) (g : nat -> Q) : NoDup l -> NoDup l' -> (forall v, shared l l' v = false -> w v = 0) -> ksum l (fun v => w v * g v) = ksum l' (fun v => w v * g v).
  Proof.
    assert (H : forall a b, NoDup a -> NoDup b -> (forall v, shared a b v = false -> w v = 0) -> ksum a (fun v => w v * g v) = ksum (filter (shared a b) a) (fun v => w v * g v)).
    { intros a b _ _ Hw. rewrite ksum_filter. apply ksum_ext. intros v Hv. destruct (shared a b v) eqn:E; [reflexivity|]. rewrite (Hw v E). ring. }
    intros H1 H2 Hw. rewrite (H l l' H1 H2 Hw). rewrite (H l' l H2 H1) by (intros v Hv; apply Hw; rewrite shared_sym; exact Hv).
    apply ksum_perm. apply NoDup_Permutation; [apply NoDup_filter; assumption|apply NoDup_filter; assumption|]. intros v. rewrite !filter_In, !shared_spec. tauto.
  Qed.
  Definition agree (n : nat) (G : nat -> nat -> list Q -> Q) : Prop := forall j j' k w, (j < ntri)%nat -> (j' < ntri)%nat -> (k < n)%nat ->
    (forall v, shared (tri j) (tri j') v = false -> w v = 0) -> ksum (tri j) w = 1 -> G j k (map w (tl (tri j))) = G j' k (map w (tl (tri j'))).
  Lemma other_sum j j' (w : nat -> Q) : (j < ntri)%nat -> (j' < ntri)%nat -> (forall v, shared (tri j) (tri j') v = false -> w v = 0) -> ksum (tri j) w = 1 -> ksum (tri j') w = 1.
  Proof.
    intros Hj Hj' Hw H1. rewrite <- H1. rewrite (ksum_ext w (fun v => w v * 1) (tri j)) by (intros; ring). rewrite (ksum_ext w (fun v => w v * 1) (tri j')) by (intros; ring).
    symmetry. apply shared_ksum; [apply (tri_ok m tris verts bs GM j Hj)|apply (tri_ok m tris verts bs GM j' Hj')|exact Hw].
  Qed.

  Theorem fam_agree b n r p : pw_of b true n r p -> agree n (fval p).
  Proof.
    intros H j j' k w Hj Hj' Hk Hw H1. pose proof (other_sum j j' w Hj Hj' Hw H1) as H1'. destruct (tri_ok m tris verts bs GM j Hj) as [L N]. destruct (tri_ok m tris verts bs GM j' Hj') as [L' N'].
    unfold fval. rewrite (o_b H), (o_m H), (o_r H).
    pose proof (o_mon H) as Hb.
    rewrite (ksum_ext _ (fun nu => bconst b r * (nth k (coef p (j, nu)) 0 * vprod b r (tri j) nu w)) (all_mi m r)) by (intros nu Hnu; apply in_all_mi in Hnu as [M1 M2]; rewrite bfn_vprod by assumption; ring).
    rewrite (ksum_ext (fun nu => nth k (coef p (j', nu)) 0 * _) (fun nu => bconst b r * (nth k (coef p (j', nu)) 0 * vprod b r (tri j') nu w)) (all_mi m r)) by (intros nu Hnu; apply in_all_mi in Hnu as [M1 M2]; rewrite bfn_vprod by assumption; ring).
    rewrite !ksum_scale_l. f_equal.
    apply (face_values b m r (tri j) (tri j') (fun nu => nth k (coef p (j, nu)) 0) (fun nu => nth k (coef p (j', nu)) 0) w N N' L L'); [|exact Hw].
    intros nu nu' A1 A2 A3 A4 HS. f_equal. pose proof (o_map H) as G.
    assert (D1 : dom ntri m r (j, nu)) by (repeat split; assumption). assert (D2 : dom ntri m r (j', nu')) by (repeat split; assumption).
    destruct (g_val G _ D1) as (v & Ev & _). pose proof (g_same G eq_refl (gm_rep GM) _ _ v D1 D2 HS Ev) as Ev'.
    unfold coef. rewrite (tau_at_eq _ _ _ Ev), (tau_at_eq _ _ _ Ev'). reflexivity.
  Qed.

  (** ** Building from columns of coefficients for each simplex *)
  Definition arow (r : nat) (cols : list (list Q)) (nu : list nat) : list Q := map (fun c => cf m r c nu) cols.
  Lemma arow_nth r cols nu k : (k < length cols)%nat -> nth k (arow r cols nu) 0 = cf m r (nth k cols []) nu.
  Proof. intros H. unfold arow. rewrite (nth_indep _ 0 (cf m r [] nu)) by (rewrite map_length; exact H). rewrite (map_nth (fun c => cf m r c nu)). reflexivity. Qed.
  Lemma list_nth_eq (a c : list Q) n : length a = n -> length c = n -> (forall k, (k < n)%nat -> nth k a 0 = nth k c 0) -> a = c.
  Proof. intros H1 H2 H. apply (nth_ext a c 0 0); [lia|]. intros k Hk. apply H. lia. Qed.
  Definition full : Prop := bs = None \/ keep = true.
  Lemma point_of j x : (j < ntri)%nat -> length x = m -> affine_comb m (bary_of x) (corners j) (point m (corners j) x).
  Proof. intros Hj Hx. apply point_comb; [apply (corners_rows m tris verts bs GM j Hj)|exact Hx]. Qed.

  Theorem build_map b cont r n (cols : nat -> list (list Q)) (G : nat -> nat -> list Q -> Q) (S s : list nat) (f : tau_fn -> list (list Q) -> nat -> result (list (list Q))) :
    b <> Monomial -> (r < 20)%nat -> n <> 0%nat -> (cont = true -> (1 <= r)%nat) -> full ->
    (forall j, (j < ntri)%nat -> length (cols j) = n /\ forall c, In c (cols j) -> length c = get_dimension r m) ->
    (forall j k x, (j < ntri)%nat -> (k < n)%nat -> length x = m -> val b m r (nth k (cols j) []) x = G j k x) ->
    (cont = true -> agree n G) ->
    (forall j, In j S -> (j < ntri)%nat) -> (forall j, In j s -> (j < ntri)%nat) ->
    (forall j k x, (j < ntri)%nat -> (k < n)%nat -> length x = m -> ~ In j S \/ ~ In j s -> G j k x = 0) ->
    (forall tau N rows j, gmap cont m r tris bs keep tau N -> In j S -> f tau rows j = foldM (fun rows nu => store tau j rows (arow r (cols j) nu, nu)) rows (all_mi m r)) ->
    forall t, exists tau N rows, gmap cont m r tris bs keep tau N /\ foldM (f tau) (repeat (repeat 0 n) N) S = Ok rows /\
      exists p, new_pw ksqrt tol pca b cont rows tris verts r (Some tau) bs keep (Some s) (Some t) None = Ok p /\ pw_of b cont n r p /\ w_supp p = s /\ w_tree p = t /\
        forall j k x, (j < ntri)%nat -> (k < n)%nat -> length x = m -> fval p j k x = G j k x.
  Proof.
    intros Hb Hr Hn Hc HF HC HG HA HS Hs HZ Hf t. destruct (gmap_exists cont m r tris bs keep (gm_mesh GM) (gm_bs GM) Hc) as (tau & N & nonb & _ & GMap & _).
    pose (vals := fun j nu => arow r (cols j) nu).
    assert (LV : forall x, dom ntri m r x -> length (vals (fst x) (snd x)) = n) by (intros x Hx; unfold vals, arow; rewrite map_length; apply HC, Hx).
    assert (TV : forall x, dom ntri m r x -> exists v, tau_eq tau x v /\ (0 <= v < Z.of_nat N)%Z).
    { intros x Hx. destruct (g_val GMap x Hx) as (v & Ev & Hv). exists v. split; [exact Ev|]. pose proof (g_full GMap HF x v Hx Ev). lia. }
    assert (HGc : forall j k x, (j < ntri)%nat -> (k < n)%nat -> length x = m -> ksum (all_mi m r) (fun nu => nth k (vals j nu) 0 * bfn b m r nu x) = G j k x).
    { intros j k x Hj Hk Hx. destruct (HC j Hj) as [L1 L2]. rewrite <- (HG j k x Hj Hk Hx). rewrite val_bfn by (apply L2, nth_In; lia). apply ksum_ext. intros nu _. unfold vals. rewrite arow_nth by lia. reflexivity. }
    assert (VC : forall x y v, dom ntri m r x -> dom ntri m r y -> tau_eq tau x v -> tau_eq tau y v -> vals (fst x) (snd x) = vals (fst y) (snd y)).
    { intros x y v Hx Hy Ex Ey. destruct (g_eq GMap x y v Hx Hy) as [->|[Ec HW]]; auto; [apply (g_full GMap HF x v Hx Ex)|].
      specialize (Hc Ec). specialize (HA Ec). destruct x as [j nu], y as [j' nu']. cbn [fst snd] in *. destruct Hx as (Hj & X2 & X3), Hy as (Hj' & Y2 & Y3). cbn [fst snd] in *.
      destruct (tri_ok m tris verts bs GM j Hj) as [L ND]. destruct (tri_ok m tris verts bs GM j' Hj') as [L' ND'].
      apply (list_nth_eq _ _ n); [apply (LV (j, nu)); repeat split; assumption|apply (LV (j', nu')); repeat split; assumption|]. intros k Hk.
      apply (face_coeffs b m r (tri j) (tri j') (fun nu => nth k (vals j nu) 0) (fun nu => nth k (vals j' nu) 0)); auto; [lia|].
      intros w Hw H1. pose proof (other_sum j j' w Hj Hj' Hw H1) as H1'. pose proof (HA j j' k w Hj Hj' Hk Hw H1) as EG.
      rewrite <- !HGc in EG; auto; [|rewrite map_length; destruct (tri j'); cbn in L' |- *; lia|rewrite map_length; destruct (tri j); cbn in L |- *; lia].
      rewrite (ksum_ext _ (fun nu => bconst b r * (nth k (vals j nu) 0 * vprod b r (tri j) nu w)) (all_mi m r)) in EG by (intros mu Hmu; apply in_all_mi in Hmu as [M1 M2]; rewrite bfn_vprod by assumption; ring).
      rewrite (ksum_ext (fun nu => nth k (vals j' nu) 0 * _) (fun nu => bconst b r * (nth k (vals j' nu) 0 * vprod b r (tri j') nu w)) (all_mi m r)) in EG by (intros mu Hmu; apply in_all_mi in Hmu as [M1 M2]; rewrite bfn_vprod by assumption; ring).
      rewrite !ksum_scale_l in EG. apply (kmul_cancel (bconst b r)); [apply bconst_neq|exact EG]. }
    assert (VZ : forall x, dom ntri m r x -> ~ In (fst x) S \/ ~ In (fst x) s -> vals (fst x) (snd x) = repeat 0 n).
    { intros [j nu] (Hj & X2 & X3) Ho. cbn [fst snd] in *. destruct (HC j Hj) as [L1 L2]. apply (list_nth_eq _ _ n); [apply (LV (j, nu)); repeat split; assumption|apply repeat_length|]. intros k Hk. unfold vals. rewrite arow_nth by lia. rewrite nth_repeat.
      assert (E : nth k (cols j) [] = map (fun _ => 0) (all_mi m r)).
      { apply (val_unique b m r); [apply L2, nth_In; lia|apply map_all_mi_length|]. intros x Hx. rewrite (HG j k x Hj Hk Hx), (HZ j k x Hj Hk Hx Ho). rewrite val_bfn by apply map_all_mi_length. symmetry. apply ksum_zero. intros mu Hmu. apply in_all_mi in Hmu as [M1 M2]. rewrite (cf_map m r (fun _ => 0)) by assumption. ring. }
      rewrite E. apply (cf_map m r (fun _ => 0)); assumption. }
    destruct (store_all tau ntri m r N n TV vals (f tau) S) as (rows & E & LR & RR & HR).
    { intros D rows j Hj I. rewrite (Hf tau N rows j GMap Hj). destruct (sinv_inner tau ntri m r N n TV vals VC (fun rows nu => store tau j rows (arow r (cols j) nu, nu)) (fun nu => nu) j (all_mi m r)) with (D := D) (rows := rows) as (rows' & E & I'); auto.
      - intros nu Hnu. apply (dom_mi m tris); [apply HS; exact Hj|exact Hnu].
      - exists rows'. split; [exact E|]. eapply sinv_weak; [|exact I']. intros [i nu] [H|[H1 H2]]; [left; exact H|]. right. exists nu. cbn [fst] in H1. rewrite H1. split; [apply in_all_mi; apply H2|reflexivity]. }
    { exact LV. }
    { intros x Hx Ho. apply VZ; auto. }
    exists tau, N, rows. split; [exact GMap|]. split; [exact E|].
    assert (Hne : rows <> []).
    { destruct (TV (0%nat, repeat 0%nat m)) as (v & _ & Hv); [repeat split; cbn [fst snd]; [apply (ntri_pos m tris verts bs GM)|apply repeat_length|rewrite nsum_repeat0; lia]|]. intros ->. cbn [length] in LR. lia. }
    rewrite <- LR in GMap.
    destruct (new_core ksqrt tol pca m tris verts bs keep GM b cont rows r n tau (Some s) (Some t) None Hb Hr Hn Hc GMap Hne RR) as (s' & Es & HP).
    { right. exists s. split; [reflexivity|]. split; [exact Hs|]. intros x Hx Ho. unfold raw_row. destruct (TV x Hx) as (v & Ev & Hv). destruct (Z.eqb_spec (tau_at tau x) (-1)) as [E1|_]; [rewrite (tau_at_eq _ _ _ Ev) in E1; lia|]. unfold at_ in HR. rewrite (HR x Hx). apply VZ; auto. }
    { discriminate. }
    injection Es as <-. destruct (HP I) as (p & Ep & Op & Wr & Wt & Ws & Wtr). exists p. split; [exact Ep|]. split; [exact Op|]. split; [exact Ws|]. split; [exact Wtr|].
    intros j k x Hj Hk Hx. rewrite <- (HGc j k x Hj Hk Hx). unfold fval. rewrite (o_b Op), (o_m Op), (o_r Op).
    apply ksum_ext. intros nu Hnu. f_equal. f_equal. pose proof (dom_mi m tris j r nu Hj Hnu) as Dx. specialize (HR _ Dx). cbn [fst snd] in HR. rewrite <- HR. unfold coef, at_. rewrite Wt, Wr.
    destruct (TV _ Dx) as (v & Ev & Hv). rewrite (tau_at_eq _ _ _ Ev). destruct (Z.eqb_spec v (-1)); [lia|reflexivity].
  Qed.
  Theorem build b cont r n (cols : nat -> list (list Q)) (G : nat -> nat -> list Q -> Q) (S s : list nat) (f : tau_fn -> list (list Q) -> nat -> result (list (list Q))) :
    b <> Monomial -> (r < 20)%nat -> n <> 0%nat -> (cont = true -> (1 <= r)%nat) -> full ->
    (forall j, (j < ntri)%nat -> length (cols j) = n /\ forall c, In c (cols j) -> length c = get_dimension r m) ->
    (forall j k x, (j < ntri)%nat -> (k < n)%nat -> length x = m -> val b m r (nth k (cols j) []) x = G j k x) ->
    (cont = true -> agree n G) ->
    (forall j, In j S -> (j < ntri)%nat) -> (forall j, In j s -> (j < ntri)%nat) ->
    (forall j k x, (j < ntri)%nat -> (k < n)%nat -> length x = m -> ~ In j S \/ ~ In j s -> G j k x = 0) ->
    (forall tau rows j, In j S -> f tau rows j = foldM (fun rows nu => store tau j rows (arow r (cols j) nu, nu)) rows (all_mi m r)) ->
    forall t, exists tau N rows, gmap cont m r tris bs keep tau N /\ foldM (f tau) (repeat (repeat 0 n) N) S = Ok rows /\
      exists p, new_pw ksqrt tol pca b cont rows tris verts r (Some tau) bs keep (Some s) (Some t) None = Ok p /\ pw_of b cont n r p /\ w_supp p = s /\ w_tree p = t /\
        forall j k x, (j < ntri)%nat -> (k < n)%nat -> length x = m -> fval p j k x = G j k x.
  Proof. intros H1 H2 H3 H4 H5 H6 H7 H8 H9 H10 H11 H12. apply (build_map b cont r n cols G S s f H1 H2 H3 H4 H5 H6 H7 H8 H9 H10 H11). intros tau N rows j _. apply H12. Qed.
End PWOps.
