(** Piecewise polynomials: the constant polynomials and powers. *)
From Verif Require PermFacts KdTree.
From Verif Require Import KdMesh Prop_LocalToGlobal.
From Verif Require Import Base MultiIndex MultiIndexFacts MultiCapFacts MultiIndexCache Fld FldInst CodeGen CodeGenFacts LinSolve Det Linalg VecFacts Simplicial SimplexGeo SimplexFacts SimplexMetric AffineFacts MultiCoef MultiCoefFacts LagrangeCache Unisolv Poly PolyFacts LagFacts PolyEval PolyOps PolyOpsB PolyDeriv PolyObj PolyPow PolyCalls IntegralCache Integrate IntFacts HasInt Bases BasesFacts BasesCalls BasesMore DerivFacts SubstFacts PolySimplex PolySimplexFacts PolySimplexCalls PolySimplexMul.
From Verif Require Import LocalToGlobal LocalToGlobalFacts LocalToGlobalSim LocalToGlobalProps FaceFacts FaceValues PiecewisePoly PiecewiseMap PiecewiseFacts PiecewiseOps PiecewiseOps2.
From Coq Require Import Field_theory Field Permutation.

(** ** Counting the degrees of freedom of degree one *)
Lemma nsum_one_nth : forall w, nsum w = 1%nat -> exists i, i < length w /\ nth i w 0 = 1.
Proof.
  induction w as [|a w IH]; [discriminate|]. rewrite nsum_cons. intros H. destruct a as [|[|a]]; [|exists 0; cbn; lia|lia].
  destruct (IH H) as (i & Hi & Hn). exists (S i). cbn [length nth]. split; [lia|exact Hn].
Qed.
Lemma nsum_nth_le : forall w i, nth i w 0 <= nsum w.
Proof. induction w as [|a w IH]; intros [|i]; cbn [nth]; try lia; rewrite nsum_cons; [lia|]. specialize (IH i). lia. Qed.
Lemma nsum_one_other : forall w i i', nsum w = 1%nat -> nth i w 0 = 1 -> i' <> i -> nth i' w 0 = 0.
Proof.
  induction w as [|a w IH]; intros i i' H Hn Hi; [destruct i'; reflexivity|]. rewrite nsum_cons in H. destruct i as [|i], i' as [|i']; cbn [nth] in *; try contradiction.
  - pose proof (nsum_nth_le w i'). lia.
  - pose proof (nsum_nth_le w i). lia.
  - apply (IH i); try lia. pose proof (nsum_nth_le w i). lia.
Qed.
Lemma nsum_weights r nu : nsum nu <= r -> nsum (weights r nu) = r.
Proof. intros H. unfold weights. rewrite nsum_cons. lia. Qed.
Lemma weight_at tri nu v : NoDup tri -> length tri = length nu + 1 -> vertex_weight tri 1 nu v = 1 -> exists i, i < length tri /\ nth i tri 0 = v /\ nth i (weights 1 nu) 0 = 1.
Proof.
  intros HN HL HW. destruct (in_dec Nat.eq_dec v tri) as [Hi|Ho]; [|rewrite vertex_weight_out in HW by exact Ho; discriminate].
  apply In_nth with (d := 0) in Hi as (i & Hi & <-). exists i. rewrite vertex_weight_nth in HW by assumption. auto.
Qed.
Lemma weight_delta tri nu v u : NoDup tri -> length tri = length nu + 1 -> nsum nu <= 1 -> vertex_weight tri 1 nu v = 1 -> u <> v -> vertex_weight tri 1 nu u = 0.
Proof.
  intros HN HL HS HW Hu. destruct (weight_at tri nu v HN HL HW) as (i & Hi & Ei & Wi). destruct (in_dec Nat.eq_dec u tri) as [Hj|Ho]; [|apply vertex_weight_out; exact Ho].
  apply In_nth with (d := 0) in Hj as (j & Hj & <-). rewrite vertex_weight_nth by assumption. apply (nsum_one_other _ i); [apply nsum_weights; exact HS|exact Wi|congruence].
Qed.
Lemma nth_e_i n i : forall k, nth k (e_i n i) 0 = if (k =? i)%nat then (if (i <? n)%nat then 1 else 0) else 0.
Proof.
  revert i. induction n as [|n IH]; intros i k; cbn [e_i]; [destruct k, i; cbn; try destruct (k =? i); reflexivity|]. destruct i as [|i]; destruct k as [|k]; cbn [nth Nat.eqb]; try reflexivity.
  - apply nth_repeat.
  - rewrite IH. reflexivity.
Qed.
Lemma e_i_len n : forall i, length (e_i n i) = n.
Proof. induction n as [|n IH]; intros i; [reflexivity|]. cbn [e_i]. destruct i; cbn [length]; [rewrite repeat_length|rewrite IH]; reflexivity. Qed.
Lemma nsum_e_i_le n : forall i, nsum (e_i n i) <= 1.
Proof. induction n as [|n IH]; intros i; cbn [e_i]; [change (nsum []) with 0; lia|]. destruct i; rewrite nsum_cons; [rewrite nsum_repeat0; lia|]. specialize (IH i). lia. Qed.
Lemma vertex_mi n i : i <= n -> exists nu, length nu = n /\ nsum nu <= 1 /\ nth i (weights 1 nu) 0 = 1.
Proof.
  intros Hi. destruct i as [|i].
  - exists (repeat 0 n). rewrite repeat_length. unfold weights. cbn [nth]. rewrite nsum_repeat0. split; [reflexivity|lia].
  - exists (e_i n i). rewrite e_i_len. split; [reflexivity|]. split; [apply nsum_e_i_le|]. unfold weights. cbn [nth]. rewrite nth_e_i, Nat.eqb_refl. replace (i <? n) with true by (symmetry; apply Nat.ltb_lt; lia). reflexivity.
Qed.
Lemma forall2_exists {A B} (R : A -> B -> Prop) l : (forall a, In a l -> exists b, R a b) -> exists l', Forall2 R l l'.
Proof.
  induction l as [|a l IH]; intros H; [exists []; constructor|]. destruct (H a (or_introl eq_refl)) as (b & Hb). destruct IH as (l' & Hl); [intros c Hc; apply H; right; exact Hc|]. exists (b :: l'). constructor; assumption.
Qed.
Lemma forall2_len {A B} (R : A -> B -> Prop) l l' : Forall2 R l l' -> length l = length l'.
Proof. intros H. induction H; cbn [length]; congruence. Qed.
Lemma bijection_count (R : nat -> nat -> Prop) a b : (forall v, v < a -> exists i, i < b /\ R v i) -> (forall i, i < b -> exists v, v < a /\ R v i) ->
  (forall v i i', R v i -> R v i' -> i = i') -> (forall v v' i, R v i -> R v' i -> v = v') -> a = b.
Proof.
  intros HT HO HF HI. destruct (forall2_exists (fun v i => i < b /\ R v i) (seq 0 a)) as (l & Hl); [intros v Hv; apply HT; apply in_seq in Hv; lia|].
  assert (L : length l = a) by (apply forall2_len in Hl; rewrite seq_length in Hl; lia).
  assert (N : NoDup l).
  { generalize (seq_NoDup a 0). revert Hl. generalize (seq 0 a). clear L. intros s Hl. induction Hl as [|v i s l [_ Hv] Hs IH]; intros HN; constructor.
    - intros Hin. apply NoDup_cons_iff in HN as [HN _]. apply HN. clear -Hs Hin Hv HI. induction Hs as [|v' i' s l [_ Hv'] Hs IH]; [destruct Hin|]. destruct Hin as [->|Hin]; [left; apply (HI v' v i Hv' Hv)|right; apply IH; exact Hin].
    - apply IH. apply NoDup_cons_iff in HN. apply HN. }
  assert (I1 : incl l (seq 0 b)).
  { clear -Hl. induction Hl as [|v i s l [Hi _] Hs IH]; [intros x []|]. intros x [<-|Hx]; [apply in_seq; lia|apply IH; exact Hx]. }
  assert (I2 : incl (seq 0 b) l).
  { intros i Hi. apply in_seq in Hi. destruct (HO i ltac:(lia)) as (v & Hv & HR). assert (Hin : In v (seq 0 a)) by (apply in_seq; lia). clear -Hl Hin HR HF. induction Hl as [|v' i' s l [_ Hv'] Hs IH]; [destruct Hin|].
    destruct Hin as [->|Hin]; [left; apply (HF v i' i Hv' HR)|right; apply IH; exact Hin]. }
  apply NoDup_incl_length in I1; [|exact N]. apply NoDup_incl_length in I2; [|apply seq_NoDup]. rewrite seq_length in *. lia.
Qed.
Lemma count_vertices m tris bs keep tau N nv : mesh m tris -> no_repeated tris -> (bs = None \/ keep = true) -> gmap true m 1 tris bs keep tau N ->
  (forall t v, In t tris -> In v t -> v < nv) -> (forall v, v < nv -> exists t, In t tris /\ In v t) -> nv = N.
Proof.
  intros HM HR HF G HB HU.
  assert (HT : forall x, dom (length tris) m 1 x -> In (nth (fst x) tris []) tris /\ NoDup (nth (fst x) tris []) /\ length (nth (fst x) tris []) = length (snd x) + 1 /\ nsum (snd x) <= 1).
  { intros x (D1 & D2 & D3). assert (Hin : In (nth (fst x) tris []) tris) by (apply nth_In; exact D1). destruct (proj2 HM _ Hin) as [L1 L2]. rewrite D2. auto. }
  apply (bijection_count (fun v i => exists x, dom (length tris) m 1 x /\ vertex_weight (nth (fst x) tris []) 1 (snd x) v = 1 /\ tau_eq tau x (Z.of_nat i))).
  - intros v Hv. destruct (HU v Hv) as (t & Ht & Hvt). apply In_nth with (d := []) in Ht as (j & Hj & Ej). apply In_nth with (d := 0) in Hvt as (i & Hi & Ei).
    assert (Ht : In t tris) by (rewrite <- Ej; apply nth_In; exact Hj). destruct (proj2 HM t Ht) as [L1 L2]. destruct (vertex_mi m i ltac:(lia)) as (nu & N1 & N2 & N3).
    assert (D : dom (length tris) m 1 (j, nu)) by (split; [exact Hj|]; split; assumption). destruct (g_val G _ D) as (w & Ew & Hw). pose proof (g_full G HF _ w D Ew) as Hf. destruct Hw as [|Hw]; [contradiction|].
    exists (Z.to_nat w). split; [lia|]. exists (j, nu). split; [exact D|]. cbn [fst snd]. rewrite Ej. split; [rewrite <- Ei, vertex_weight_nth by (rewrite ?N1; assumption); exact N3|rewrite Z2Nat.id by lia; exact Ew].
  - intros i Hi. destruct (g_onto G (Z.of_nat i) ltac:(lia)) as (x & D & Ex). destruct (HT x D) as (T1 & T2 & T3 & T4). destruct (nsum_one_nth (weights 1 (snd x)) (nsum_weights 1 _ T4)) as (k & Hk & Wk).
    assert (Hk' : k < length (nth (fst x) tris [])) by (rewrite T3; unfold weights in Hk; cbn [length] in Hk; lia). exists (nth k (nth (fst x) tris []) 0). split; [apply (HB _ _ T1), nth_In; exact Hk'|]. exists x. split; [exact D|]. split; [|exact Ex]. rewrite vertex_weight_nth by assumption. exact Wk.
  - intros v i i' (x & Dx & Wx & Ex) (y & Dy & Wy & Ey). destruct (HT x Dx) as (_ & T2 & T3 & T4). destruct (HT y Dy) as (_ & U2 & U3 & U4).
    assert (SW : same_weights 1 (nth (fst x) tris []) (snd x) (nth (fst y) tris []) (snd y)).
    { intros u. destruct (Nat.eq_dec u v) as [->|Hu]; [congruence|]. rewrite (weight_delta _ _ v u T2 T3 T4 Wx Hu), (weight_delta _ _ v u U2 U3 U4 Wy Hu). reflexivity. }
    pose proof (g_same G eq_refl HR x y _ Dx Dy SW Ex) as E. pose proof (tau_eq_fun _ _ _ _ Ey E). lia.
  - intros v v' i (x & Dx & Wx & Ex) (y & Dy & Wy & Ey). destruct (HT x Dx) as (_ & T2 & T3 & T4). destruct (Nat.eq_dec v v') as [|Hne]; [assumption|exfalso].
    assert (Wv : vertex_weight (nth (fst x) tris []) 1 (snd x) v' = 1) by (destruct (g_eq G x y (Z.of_nat i) Dx Dy ltac:(lia) Ex Ey) as [->|[_ SW]]; [exact Wy|rewrite SW; exact Wy]).
    rewrite (weight_delta _ _ v v' T2 T3 T4 Wx) in Wv by congruence. discriminate.
Qed.

Section PWOps3.
  Context {Q : ofld} (ksqrt : Q -> Q) (tol eps : Q) (veq : list (list Q) -> list (list Q) -> bool) (pca : list (list Q) -> list Q).
  Add Field Kfield65 : (kth Q).
  Local Open Scope fld_scope.
  Notation pt := SimplexGeo.pt.
  Notation spoly_of := (spoly_of ksqrt tol).
  Context (m : nat) (tris : list (list nat)) (verts : list (list Q)) (bs : option (list (list nat))) (keep : bool).
  Notation ntri := (length tris).
  Notation tri j := (nth j tris []).
  Hypothesis GM : good_mesh m tris verts bs.
  Notation corners := (corners_of tris verts).
  Notation pw_of := (pw_of ksqrt tol m tris verts bs keep).
  Notation full := (full bs keep).
  Notation unit_of := (unit_of ksqrt tol m tris verts bs GM).
  Notation point_of := (point_of m tris verts bs GM).
  Notation tri_verts := (tri_verts m tris verts bs GM).

  (** Every vertex of the mesh belongs to a simplex *)
  Definition all_used : Prop := forall v, (v < length verts)%nat -> exists t, In t tris /\ In v t.
  Definition unit_cond (cont : bool) : Prop := if cont then full /\ all_used else bs = None /\ keep = false.
  Lemma unit_map cont : unit_cond cont -> exists tau nonb, generate_local_to_global_map cont tris (if cont then 1 else 0) bs keep = Ok (tau, Z.of_nat (unit_dim cont tris verts), nonb) /\
    gmap cont m (if cont then 1 else 0) tris bs keep tau (unit_dim cont tris verts) /\ (cont = false -> nonb = None).
  Proof.
    intros HU. destruct (gmap_exists cont m (if cont then 1 else 0)%nat tris bs keep (gm_mesh GM) (gm_bs GM)) as (tau & N & nonb & E & G & HN); [intros ->; lia|].
    assert (EN : unit_dim cont tris verts = N).
    { destruct cont; cbn [unit_cond unit_dim] in *.
      - destruct HU as [HF HU]. apply (count_vertices m tris bs keep tau N (length verts) (gm_mesh GM) (gm_rep GM) HF G); [|exact HU]. intros t v Ht Hv. destruct (gm_ok GM) as (_ & _ & HO). apply (HO t Ht). exact Hv.
      - destruct HU as [Eb Ek]. subst bs keep. destruct (C34_no_boundary m 0 tris (gm_mesh GM)) as (tau' & N' & E' & EN & _). rewrite E in E'. injection E' as _ E' _. rewrite Nat.add_0_r in EN. replace (binomial m 0) with 1%nat in EN by (destruct m; reflexivity). lia. }
    rewrite EN. exists tau, nonb. split; [exact E|]. split; [exact G|]. intros ->. apply HN. destruct HU as [_ ->]. reflexivity.
  Qed.
  Lemma new_none b cont rows r so to d tau nonb : generate_local_to_global_map cont tris r bs keep = Ok (tau, Z.of_nat (length rows), nonb) -> (cont = false -> nonb = None) ->
    new_pw ksqrt tol pca b cont rows tris verts r None bs keep so to d = new_pw ksqrt tol pca b cont rows tris verts r (Some tau) bs keep so to d.
  Proof.
    intros E HN. unfold new_pw. rewrite E. cbn [bind]. rewrite Z.eqb_refl. destruct cont; [reflexivity|]. rewrite (HN eq_refl). reflexivity.
  Qed.
  Lemma ntri0 : (0 < ntri)%nat.
  Proof. destruct (gm_mesh GM) as [H _]. destruct tris; [contradiction|cbn [length]; lia]. Qed.
  Lemma unit_dim_pos cont : (0 < unit_dim cont tris verts)%nat.
  Proof. destruct cont; cbn [unit_dim]; [|apply ntri0]. destruct (gm_ok GM) as (H & _). destruct verts; [contradiction|cbn [length]; lia]. Qed.
  Lemma const_coef b cont n r p c x : pw_of b cont n r p -> full -> (forall row, In row (w_rows p) -> row = repeat c n) -> dom ntri m r x -> coef p x = repeat c n.
  Proof.
    intros H HF Hc Hx. destruct (g_val (o_map H) x Hx) as (v & Ev & Hv). pose proof (g_full (o_map H) HF x v Hx Ev) as Hv1. destruct Hv as [|Hv]; [contradiction|]. unfold coef. rewrite (tau_at_eq _ _ _ Ev).
    destruct (Z.eqb_spec v (-1)); [contradiction|]. apply Hc. apply nth_In. lia.
  Qed.
  Lemma unit_full cont : unit_cond cont -> full.
  Proof. destruct cont; cbn [unit_cond]; intros [H1 H2]; [exact H1|left; exact H1]. Qed.

  Definition tree_made (to : option (KdTree.heap Q * nat)) (s : list nat) (p : pw Q) : Prop :=
    match to with Some t => w_tree p = t | None => exists h, w_tree p = (h, 0%nat) /\ minv m tris verts s h end.

  Theorem unit_ok b cont n to : b <> Monomial -> n <> 0%nat -> unit_cond cont -> (to = None -> pca_ok pca m) ->
    exists p, pw_unit ksqrt tol pca b cont tris verts n None bs keep to = Ok p /\ pw_of b cont n (if cont then 1 else 0) p /\ w_supp p = seq 0 ntri /\ tree_made to (seq 0 ntri) p /\
      forall j k x, (j < ntri)%nat -> (k < n)%nat -> length x = m -> fval p j k x = 1.
  Proof.
    intros Hb Hn HU HP. destruct (unit_map cont HU) as (tau & nonb & E & G & HN). unfold pw_unit. set (rows := repeat (repeat (1 : Q) n) (unit_dim cont tris verts)).
    assert (LR : length rows = unit_dim cont tris verts) by apply repeat_length. pose proof (unit_dim_pos cont) as HD. pose proof (unit_full cont HU) as HF.
    assert (HC : forall row, In row rows -> row = repeat 1 n) by (intros row Hr; apply repeat_spec in Hr; exact Hr).
    rewrite (new_none b cont rows (if cont then 1 else 0)%nat (Some (seq 0 ntri)) to None tau nonb) by (rewrite ?LR; assumption).
    rewrite <- LR in G, HD.
    destruct (new_core ksqrt tol pca m tris verts bs keep GM b cont rows (if cont then 1 else 0)%nat n tau (Some (seq 0 ntri)) to None Hb) as (s & Es & HPw); auto.
    - destruct cont; lia.
    - intros ->. lia.
    - intros E0. rewrite E0 in HD. cbn in HD. lia.
    - intros row Hr. rewrite (HC row Hr). apply repeat_length.
    - right. exists (seq 0 ntri). split; [reflexivity|]. split; [intros j Hj; apply in_seq in Hj; lia|]. intros x Hx Ho. exfalso. apply Ho, in_seq. destruct Hx as [Hx _]. lia.
    - injection Es as <-. destruct HPw as (p & Ep & Op & Wr & Wt & Ws & Wtr); [exact I|]. exists p. split; [exact Ep|]. split; [exact Op|]. split; [exact Ws|]. split; [exact Wtr|]. intros j k x Hj Hk Hx.
      unfold fval. rewrite (o_b Op), (o_m Op), (o_r Op). rewrite <- (one_column_val b (if cont then 1 else 0) m x Hx). rewrite val_bfn by apply one_column_length. apply ksum_ext. intros nu Hnu.
      rewrite (const_coef b cont n _ p 1 (j, nu) Op HF) by (rewrite ?Wr; first [exact HC|apply dom_mi; assumption]). rewrite (nth_indep _ 0 1) by (rewrite repeat_length; exact Hk). rewrite nth_repeat.
      apply in_all_mi in Hnu as [M1 M2]. destruct b; [contradiction| |]; unfold one_column; rewrite cf_ones by assumption; reflexivity.
  Qed.
  Theorem zero_ok b cont n to : b <> Monomial -> n <> 0%nat -> unit_cond cont -> (to = None -> pca_ok pca m) ->
    exists p, pw_zero ksqrt tol pca b cont tris verts n None bs keep to = Ok p /\ pw_of b cont n (if cont then 1 else 0) p /\ w_supp p = [] /\ tree_made to [] p /\
      forall j k x, (j < ntri)%nat -> fval p j k x = 0.
  Proof.
    intros Hb Hn HU HP. destruct (unit_map cont HU) as (tau & nonb & E & G & HN). unfold pw_zero. set (rows := repeat (repeat (0 : Q) n) (unit_dim cont tris verts)).
    assert (LR : length rows = unit_dim cont tris verts) by apply repeat_length. pose proof (unit_dim_pos cont) as HD.
    assert (HC : forall row, In row rows -> row = repeat 0 n) by (intros row Hr; apply repeat_spec in Hr; exact Hr).
    rewrite (new_none b cont rows (if cont then 1 else 0)%nat (Some []) to None tau nonb) by (rewrite ?LR; assumption).
    rewrite <- LR in G, HD. assert (Hne : rows <> []) by (intros E0; rewrite E0 in HD; cbn in HD; lia).
    destruct (new_core ksqrt tol pca m tris verts bs keep GM b cont rows (if cont then 1 else 0)%nat n tau (Some []) to None Hb) as (s & Es & HPw); auto.
    - destruct cont; lia.
    - intros ->. lia.
    - intros row Hr. rewrite (HC row Hr). apply repeat_length.
    - right. exists []. split; [reflexivity|]. split; [intros j []|]. intros x Hx _. apply HC. apply (raw_in m tris bs keep cont (if cont then 1 else 0)%nat); assumption.
    - injection Es as <-. destruct HPw as (p & Ep & Op & Wr & Wt & Ws & Wtr); [exact I|]. exists p. split; [exact Ep|]. split; [exact Op|]. split; [exact Ws|]. split; [exact Wtr|]. intros j k x Hj.
      apply (fval_off ksqrt tol m tris verts bs keep b cont n _ p j k x Op Hj). rewrite Ws. intros [].
  Qed.
  Theorem unit_like_ok b cont n r p : pw_of b cont n r p -> unit_cond cont -> exists p', unit_like ksqrt tol pca p = Ok p' /\ pw_of b cont 1 (if cont then 1 else 0) p' /\ w_supp p' = seq 0 ntri /\ w_tree p' = w_tree p /\
    forall j x, (j < ntri)%nat -> length x = m -> fval p' j 0 x = 1.
  Proof.
    intros H HU. unfold unit_like. rewrite (o_b H), (o_cont H), (o_tris H), (o_verts H), (o_bs H), (o_keep H). destruct (unit_ok b cont 1 (Some (w_tree p)) (o_mon H)) as (p' & E & Op & Ws & Wt & V); [lia|exact HU|discriminate|].
    exists p'. repeat (split; [assumption|]). intros j x Hj Hx. apply V; [exact Hj|lia|exact Hx].
  Qed.

  (** ** Powers *)
  Lemma pw_pow_step (p : pw Q) e : pw_pow ksqrt tol veq pca p (S (S e)) = (let* _ := assert_ (w_n p =? 1)%nat in let* q := pw_pow ksqrt tol veq pca p (S e) in pw_mul ksqrt tol veq pca p q).
  Proof. reflexivity. Qed.
  Theorem pow_ok b cont r p e : (forall w, veq w w = true) -> full -> pw_of b cont 1 r p -> (r * S e < 20)%nat ->
    exists p', pw_pow ksqrt tol veq pca p (S e) = Ok p' /\ pw_of b cont 1 (r * S e) p' /\ (forall j, In j (w_supp p') <-> In j (w_supp p)) /\ w_tree p' = w_tree p /\
      forall j x, (j < ntri)%nat -> length x = m -> fval p' j 0 x = kpow (fval p j 0 x) (S e).
  Proof.
    intros HV HF H. induction e as [|e IH]; intros Hr.
    - cbn [pw_pow]. rewrite (o_n H). cbn [Nat.eqb assert_ bind].
      destruct (renew_ok ksqrt tol pca m tris verts bs keep GM b cont 1 1 r p (w_rows p) (Some (w_supp p)) H (o_n0 H) eq_refl (o_rows H)) as (p' & E & Op & Wr & Wt & Ws & Wse & Wtr).
      + right. exists (w_supp p). split; [reflexivity|]. split; [auto|]. apply (o_off H).
      + apply (o_off H).
      + exists p'. rewrite (Wse _ eq_refl), Nat.mul_1_r. split; [exact E|]. split; [exact Op|]. split; [tauto|]. split; [exact Wtr|]. intros j x Hj Hx. cbn [kpow]. unfold fval, coef. rewrite (o_b Op), (o_m Op), (o_r Op), (o_b H), (o_m H), (o_r H), (o_n H), (o_n Op), Wr, Wt. ring.
    - rewrite pw_pow_step, (o_n H). cbn [Nat.eqb assert_ bind]. destruct IH as (q & Eq & Oq & Sq & Tq & Vq); [lia|]. rewrite Eq. cbn [bind].
      destruct (mul_ok ksqrt tol veq pca m tris verts bs keep GM b cont r b cont (r * S e) p q HV HF H Oq) as (p' & E & Op & Ws & Wt & V); auto; [lia|].
      exists p'. replace (r * S (S e))%nat with (r + r * S e)%nat by lia. split; [exact E|]. split; [exact Op|]. split; [intros j; rewrite Ws, Sq; tauto|]. split; [exact Wt|]. intros j x Hj Hx. rewrite V, Vq by assumption. reflexivity.
  Qed.
  Theorem pow0_ok b cont r p : pw_of b cont 1 r p -> unit_cond cont -> exists p', pw_pow ksqrt tol veq pca p 0 = Ok p' /\ pw_of b cont 1 (if cont then 1 else 0) p' /\ w_supp p' = seq 0 ntri /\ w_tree p' = w_tree p /\
    forall j x, (j < ntri)%nat -> length x = m -> fval p' j 0 x = 1.
  Proof. intros H HU. cbn [pw_pow]. rewrite (o_n H). cbn [Nat.eqb assert_ bind]. apply (unit_like_ok b cont 1 r p H HU). Qed.

  Notation fvals p j x := (map (fun k => fval p j k x) (seq 0 (w_n p))).
  Lemma first_nonzero_ok : forall e, nsum e <> 0%nat -> exists i, first_nonzero e = Some i /\ (i < length e)%nat /\ nth i e 0%nat <> 0%nat.
  Proof.
    induction e as [|a e IH]; intros H; [contradiction|]. rewrite nsum_cons in H. cbn [first_nonzero]. destruct a as [|a].
    - destruct (IH H) as (i & -> & Hi & Hn). exists (S i). cbn [length nth]. repeat split; [lia|exact Hn].
    - exists 0%nat. cbn [length nth]. repeat split; [lia|discriminate].
  Qed.
  Lemma fvals_polydeg b cont n r p j e : pw_of b cont n r p -> length e = n -> polydeg m (r * nsum e) (fun x => mpow (fvals p j x) e).
  Proof.
    intros H He. rewrite (o_n H). eapply polydeg_ext; [|apply (polydeg_mpow m r (map (fun k => fval p j k) (seq 0 n)) e)].
    - intros x _. cbn beta. rewrite map_map. reflexivity.
    - rewrite map_length, seq_length. congruence.
    - intros f Hf. apply in_map_iff in Hf as (k & <- & Hk). apply in_seq in Hk. apply (fval_polydeg ksqrt tol m tris verts bs keep b cont n r p j k H). lia.
  Qed.
  Theorem pow_mi_lagrange_ok cont n r p e : full -> pw_of Lagrange cont n r p -> length e = n -> n <> 1%nat -> (0 < r * nsum e < 20)%nat ->
    exists p', pw_pow_mi ksqrt tol veq pca p e = Ok p' /\ pw_of Lagrange cont 1 (r * nsum e) p' /\ w_supp p' = w_supp p /\ w_tree p' = w_tree p /\
      forall j x, (j < ntri)%nat -> length x = m -> fval p' j 0 x = mpow (fvals p j x) e.
  Proof.
    intros HF H He Hn [Hr0 Hr]. unfold pw_pow_mi. rewrite (o_b H). unfold pw_pow_mi_lagrange. rewrite (o_n H), He, Nat.eqb_refl. cbn [assert_ bind]. unfold norm. rewrite (o_r H). replace (r * nsum e =? 0)%nat with false by (symmetry; apply Nat.eqb_neq; lia).
    rewrite (o_cont H), (o_tris H), (o_bs H), (o_keep H), (o_m H), (o_b H), (o_verts H). set (R := (r * nsum e)%nat) in *.
    pose (G := fun (j k : nat) x => mpow (fvals p j x) e).
    pose (stp := fun (tau : tau_fn) (rows : list (list Q)) (j : nat) => let* vs := tri_vertices tris verts j in
        foldM (fun rows nu => let* x := generate_lagrange_point_simplex vs R nu in let* i := tau (Z.of_nat j) nu in let* u := pw_eval p j x in
          let* v := if (n =? 1)%nat then Err TypeError else power u e in row_set rows i [v]) rows (all_mi m R)).
    destruct (build ksqrt tol veq pca m tris verts bs keep GM Lagrange cont R 1 (fun j => [map (fun nu => G j 0%nat (generate_lagrange_point m R nu)) (all_mi m R)]) G (w_supp p) (w_supp p) stp) with (t := w_tree p) as (tau & N & rows & GMap & Er & p' & Ep & Op & Ws & Wt & V); auto.
    - discriminate.
    - intros j Hj. split; [reflexivity|]. intros c [<-|[]]. apply map_all_mi_length.
    - intros j k x Hj Hk Hx. replace k with 0%nat by lia. cbn [nth val]. apply (lval_interp m R (G j 0%nat)); [|exact Hx]. apply (fvals_polydeg Lagrange cont n r p j e H He).
    - intros Hc j j' k w Hj Hj' Hk Hw H1. unfold G. f_equal. apply map_ext_in. intros i Hi. apply in_seq in Hi. rewrite Hc in H. rewrite (o_n H) in Hi. apply (fam_agree ksqrt tol veq pca m tris verts bs keep GM Lagrange n r p H); auto; lia.
    - apply (o_supp H).
    - apply (o_supp H).
    - intros j k x Hj Hk Hx Ho. assert (Ho' : ~ In j (w_supp p)) by tauto. unfold G. destruct (first_nonzero_ok e) as (i & _ & Hi & Hne); [intros Z; unfold R in Hr0; rewrite Z in Hr0; lia|].
      rewrite (mpow_down _ e i) by (rewrite ?map_length, ?seq_length, ?(o_n H); auto). rewrite (o_n H), nth_mapseq' by lia. rewrite (fval_off ksqrt tol m tris verts bs keep Lagrange cont n r p j i x H Hj Ho'). ring.
    - intros tau rows j Hj. apply (o_supp H) in Hj. unfold stp. rewrite (tri_verts j Hj). cbn [bind]. apply foldM_ext_in. intros rows' nu Hnu. apply in_all_mi in Hnu as [M1 M2].
      destruct (unit_of j Hj) as (ab & phi & B & TU). rewrite (spoint ksqrt tol m (corners j) ab phi B TU nu R M1). cbn [bind].
      assert (LN : length (generate_lagrange_point (F := Q) m R nu) = m) by (apply lagrange_point_length; exact M1). pose proof (point_of j _ Hj LN) as PC.
      rewrite (eval_ok ksqrt tol m tris verts bs keep GM Lagrange cont n r p j _ _ H Hj PC). unfold store. cbn [fst snd]. destruct (tau (Z.of_nat j) nu) as [i|]; [|reflexivity]. cbn [bind].
      replace (n =? 1)%nat with false by (symmetry; apply Nat.eqb_neq; exact Hn). rewrite power_mpow by (rewrite map_length, seq_length; auto). cbn [bind]. unfold arow. cbn [map].
      rewrite (cf_map m R (fun nu => G j 0%nat (generate_lagrange_point m R nu))) by assumption. unfold G. rewrite (o_n H). reflexivity.
    - rewrite (g_gen GMap). cbn [bind]. rewrite generate_all_eq. cbn [bind]. rewrite Nat2Z.id. unfold stp in Er. cbn [repeat] in Er. rewrite Er. cbn [bind]. exists p'. rewrite Ws. repeat (split; [first [assumption|reflexivity]|]). intros j x Hj Hx. rewrite (V j 0%nat x Hj) by (lia || exact Hx). unfold G. rewrite (o_n H). reflexivity.
  Qed.
  Theorem pow_mi_bernstein_ok cont n r p : (forall w, veq w w = true) -> unit_cond cont -> pw_of Bernstein cont n r p -> n <> 1%nat -> forall f e, length e = n -> (nsum e < f)%nat -> (r * nsum e + (if cont then 1 else 0) < 20)%nat ->
    exists p', pw_pow_mi_bernstein ksqrt tol veq pca f p e = Ok p' /\ pw_of Bernstein cont 1 (r * nsum e + if cont then 1 else 0) p' /\ (nsum e <> 0%nat -> forall j, In j (w_supp p') <-> In j (w_supp p)) /\ (nsum e = 0%nat -> w_supp p' = seq 0 ntri) /\ w_tree p' = w_tree p /\
      forall j x, (j < ntri)%nat -> length x = m -> fval p' j 0 x = mpow (fvals p j x) e.
  Proof.
    intros HV HU H Hn. pose proof (unit_full cont HU) as HF. induction f as [|f IH]; intros e He Hf Hr; [lia|]. cbn [pw_pow_mi_bernstein]. rewrite (o_n H), He, Nat.eqb_refl. cbn [assert_ bind]. unfold norm. destruct (Nat.eqb_spec (nsum e) 0) as [E0|E0].
    - destruct (unit_like_ok Bernstein cont n r p H HU) as (p' & E & Op & Ws & Wt & V). exists p'. rewrite E0, Nat.mul_0_r, Nat.add_0_l. split; [exact E|]. split; [exact Op|]. split; [contradiction|]. split; [intros _; exact Ws|]. split; [exact Wt|]. intros j x Hj Hx. rewrite V by assumption.
      rewrite <- (nsum0_repeat e E0). rewrite He. symmetry. apply mpow_zero.
    - destruct (first_nonzero_ok e E0) as (i & -> & Hi & Hne). replace (n =? 1)%nat with false by (symmetry; apply Nat.eqb_neq; exact Hn).
      destruct (rows_op ksqrt tol pca m tris verts bs keep GM Bernstein cont n 1 r p (fun row => [nth i row 0]) (Some (w_supp p)) H) as (pi & Ei & Oi & _ & Ti & Vi); auto; [rewrite nth_repeat; reflexivity|].
      destruct (renew_ok ksqrt tol pca m tris verts bs keep GM Bernstein cont n 1 r p (map (fun row => [nth i row 0]) (w_rows p)) (Some (w_supp p)) H) as (pi' & Ei' & _ & _ & _ & _ & Si & _).
      { discriminate. }
      { apply map_length. }
      { intros row Hrow. apply in_map_iff in Hrow as (row0 & <- & _). reflexivity. }
      { right. exists (w_supp p). split; [reflexivity|]. split; [auto|]. intros x Hx Ho. rewrite (raw_row_map m tris bs keep cont r _ _ _ x (o_map H) (o_ne H) Hx), (o_off H x Hx Ho), nth_repeat. reflexivity. }
      { intros x Hx Ho. rewrite (raw_row_map m tris bs keep cont r _ _ _ x (o_map H) (o_ne H) Hx), (o_off H x Hx Ho), nth_repeat. reflexivity. }
      rewrite Ei in Ei'. injection Ei' as <-. specialize (Si _ eq_refl). rewrite Ei. cbn [bind]. rewrite unit_multiindex_eq by lia. cbn [bind]. rewrite mi_minus_unit by (auto; lia). cbn [bind].
      assert (ND : nsum e = S (nsum (down e i))) by (symmetry; apply down_sum; assumption).
      destruct (IH (down e i)) as (q & Eq & Oq & Sq & Sq0 & Tq & Vq); [rewrite down_length; exact He|lia|nia|]. rewrite Eq. cbn [bind].
      destruct (mul_ok ksqrt tol veq pca m tris verts bs keep GM Bernstein cont r Bernstein cont (r * nsum (down e i) + if cont then 1 else 0) pi q HV HF Oi Oq) as (p' & E & Op & Ws & Wt & V); auto; [nia|].
      exists p'. rewrite ND. replace (r * S (nsum (down e i)) + (if cont then 1 else 0))%nat with (r + (r * nsum (down e i) + if cont then 1 else 0))%nat by lia. split; [exact E|]. split; [exact Op|]. split.
      { intros _ j. rewrite Ws, Si. destruct (Nat.eq_dec (nsum (down e i)) 0) as [Z|Z]; [|rewrite (Sq Z); tauto]. rewrite (Sq0 Z), in_seq. split; [tauto|]. intros Hj. split; [exact Hj|]. pose proof (o_supp H j Hj). lia. }
      split; [discriminate|]. split; [congruence|]. intros j x Hj Hx. rewrite V, Vq by assumption. rewrite (mpow_down _ e i) by (rewrite ?map_length, ?seq_length, ?(o_n H); auto). rewrite (o_n H), nth_mapseq' by lia. f_equal. rewrite (Vi j 0%nat x Hj). unfold fval. rewrite (o_b H), (o_m H), (o_r H). reflexivity.
  Qed.
End PWOps3.
