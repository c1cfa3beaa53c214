(** Piecewise polynomials: restriction, degree elevation, sums, multiples and
    products. *)
From Verif Require PermFacts KdTree.
From Verif Require Import KdMesh Prop_LocalToGlobal.
From Verif Require Import Base MultiIndex MultiIndexFacts MultiCapFacts MultiIndexCache Fld FldInst CodeGen CodeGenFacts LinSolve Det Linalg VecFacts Simplicial SimplexGeo SimplexFacts SimplexMetric AffineFacts MultiCoef MultiCoefFacts LagrangeCache Unisolv Poly PolyFacts LagFacts PolyEval PolyOps PolyOpsB PolyDeriv PolyObj PolyPow PolyCalls IntegralCache Integrate IntFacts HasInt Bases BasesFacts BasesCalls BasesMore DerivFacts SubstFacts PolySimplex PolySimplexFacts PolySimplexCalls PolySimplexMul.
From Verif Require Import LocalToGlobal LocalToGlobalFacts LocalToGlobalSim LocalToGlobalProps FaceFacts FaceValues PiecewisePoly PiecewiseMap PiecewiseFacts PiecewiseOps.
From Coq Require Import Field_theory Field Permutation.

Section PWOps2.
  Context {Q : ofld} (ksqrt : Q -> Q) (tol eps : Q) (veq : list (list Q) -> list (list Q) -> bool) (pca : list (list Q) -> list Q).
  Add Field Kfield64 : (kth Q).
  Local Open Scope fld_scope.
  Notation pt := SimplexGeo.pt.
  Notation spoly_of := (spoly_of ksqrt tol).
  Context (m : nat) (tris : list (list nat)) (verts : list (list Q)) (bs : option (list (list nat))) (keep : bool).
  Notation ntri := (length tris).
  Notation tri j := (nth j tris []).
  Hypothesis GM : good_mesh m tris verts bs.
  Notation corners := (corners_of tris verts).
  Notation pw_of := (pw_of ksqrt tol m tris verts bs keep).
  Notation full := (full bs keep).
  Notation unit_of := (unit_of ksqrt tol m tris verts bs GM).
  Notation spoly_val := (spoly_val ksqrt tol m tris verts bs GM).
  Notation point_of := (point_of m tris verts bs GM).
  Notation tri_verts := (tri_verts m tris verts bs GM).

  Lemma fval_off b cont n r p j k x : pw_of b cont n r p -> (j < ntri)%nat -> ~ In j (w_supp p) -> fval p j k x = 0.
  Proof.
    intros H Hj Ho. unfold fval. rewrite (o_m H), (o_r H). apply ksum_zero. intros nu Hnu. rewrite (off_coef ksqrt tol m tris verts bs keep b cont n r p (j, nu) H (dom_mi m tris j r nu Hj Hnu) Ho). rewrite nth_repeat. ring.
  Qed.
  Definition ccols (p : pw Q) (j : nat) : list (list Q) := map (fun k => map (fun nu => nth k (coef p (j, nu)) 0) (all_mi (w_m p) (w_r p))) (seq 0 (w_n p)).
  Lemma nth_mapseq' {A} (g : nat -> A) n k d : (k < n)%nat -> nth k (map g (seq 0 n)) d = g k.
  Proof. intros H. rewrite (nth_indep _ d (g 0%nat)) by (rewrite map_length, seq_length; exact H). rewrite map_nth, seq_nth by exact H. reflexivity. Qed.
  Lemma ccols_ok b cont n r p j : pw_of b cont n r p -> length (ccols p j) = n /\ (forall c, In c (ccols p j) -> length c = get_dimension r m) /\
    forall k x, (k < n)%nat -> val b m r (nth k (ccols p j) []) x = fval p j k x.
  Proof.
    intros H. unfold ccols, fval. rewrite (o_b H), (o_m H), (o_r H), (o_n H). split; [rewrite map_length, seq_length; reflexivity|]. split.
    - intros c Hc. apply in_map_iff in Hc as (k & <- & _). apply map_all_mi_length.
    - intros k x Hk. rewrite nth_mapseq' by exact Hk. rewrite val_bfn by apply map_all_mi_length. apply ksum_ext. intros nu Hnu. apply in_all_mi in Hnu as [M1 M2]. rewrite cf_map by assumption. reflexivity.
  Qed.
  Lemma fval_polydeg b cont n r p j k : pw_of b cont n r p -> (k < n)%nat -> polydeg m r (fval p j k).
  Proof.
    intros H Hk. destruct (ccols_ok b cont n r p j H) as (C1 & C2 & C3). eapply polydeg_ext; [|apply (polydeg_val b m r (nth k (ccols p j) [])); apply C2, nth_In; lia]. intros x _. apply C3. exact Hk.
  Qed.
  (** a column is determined by its values *)
  Lemma sp_vals b j n r s x : (j < ntri)%nat -> length x = m -> spoly_of b (corners j) n r s -> sp_call s (pt (point m (corners j) x)) = Ok (map (fun c => val b m r c x) (sp_cols s)).
  Proof. intros Hj Hx Hs. destruct (spoly_val b j n r s Hj Hs) as (_ & _ & _ & _ & HV). apply HV. apply point_of; assumption. Qed.
  Lemma nth_map_val b r cols x k : (k < length cols)%nat -> nth k (map (fun c => val b m r c x) cols) (0 : Q) = val b m r (nth k cols []) x.
  Proof. intros H. rewrite (nth_indep _ 0 (val b m r [] x)) by (rewrite map_length; exact H). apply (map_nth (fun c => val b m r c x)). Qed.

  Theorem restrict_ok b cont n r p j : full -> pw_of b cont n r p -> (j < ntri)%nat -> exists s, pw_restrict ksqrt tol p j = Ok s /\ spoly_of b (corners j) n r s /\
    forall k x, (k < n)%nat -> length x = m -> val b m r (nth k (sp_cols s) []) x = fval p j k x.
  Proof.
    intros HF H Hj. unfold pw_restrict. rewrite (o_tris H), (o_verts H). replace (j <? ntri)%nat with true by (symmetry; apply Nat.ltb_lt; exact Hj). cbn [assert_ bind].
    rewrite (tri_verts j Hj). cbn [bind]. destruct (unit_of j Hj) as (ab & phi & B & TU). pose proof (o_mon H) as Hb. pose proof (o_r20 H) as Hr. pose proof (o_n0 H) as Hn.
    destruct (mem j (w_supp p)) eqn:M; cbn [negb].
    - rewrite (o_m H), (o_r H), generate_all_eq. cbn [bind].
      rewrite (mapM_ok _ (fun nu => coef p (j, nu))).
      2:{ intros nu Hnu. pose proof (dom_mi m tris j r nu Hj Hnu) as Dx. destruct (g_val (o_map H) _ Dx) as (v & Ev & Hv). pose proof (g_full (o_map H) HF _ v Dx Ev) as Hv1. destruct Hv as [|Hv]; [contradiction|].
          unfold coef. rewrite (tau_at_eq _ _ _ Ev). unfold tau_eq in Ev. cbn [fst snd] in Ev. rewrite Ev. cbn [bind]. rewrite row_at_ok by exact Hv. destruct (Z.eqb_spec v (-1)); [contradiction|reflexivity]. }
      cbn [bind]. rewrite (o_b H), (o_n H).
      assert (EC : cols_of_rows n (map (fun nu => coef p (j, nu)) (all_mi m r)) = ccols p j).
      { unfold cols_of_rows, ccols. rewrite (o_m H), (o_r H), (o_n H). apply map_ext. intros k. rewrite map_map. reflexivity. }
      rewrite EC. destruct (ccols_ok b cont n r p j H) as (C1 & C2 & C3).
      destruct (sc_new ksqrt tol m (corners j) ab phi B TU b (ccols p j) r Hb) as (s & Es & Hs & Cs); [destruct (ccols p j); [cbn in C1; congruence|discriminate]|exact C2|exact Hr|].
      exists s. split; [exact Es|]. rewrite C1 in Hs. split; [exact Hs|]. intros k x Hk Hx. rewrite Cs. apply C3. exact Hk.
    - apply mem_out in M. rewrite (o_b H), (o_r H), (o_n H). destruct (sc_zero ksqrt tol m (corners j) ab phi B TU b r n Hb Hn Hr) as (s & Es & Hs & Zs). exists s. split; [exact Es|]. split; [exact Hs|].
      intros k x Hk Hx. rewrite (fval_off b cont n r p j k x H Hj M). destruct (spoly_val b j n r s Hj Hs) as (L1 & _). rewrite <- nth_map_val by lia.
      pose proof (sp_vals b j n r s x Hj Hx Hs) as E. rewrite Zs in E by apply point_length. injection E as E. rewrite <- E. apply nth_repeat.
  Qed.

  (** ** Same map, new rows *)
  Lemma renew_ok b cont n n' r p rows so : pw_of b cont n r p -> n' <> 0%nat -> length rows = length (w_rows p) -> (forall row, In row rows -> length row = n') ->
    (so = None \/ exists s, so = Some s /\ (forall j, In j s -> In j (w_supp p)) /\ forall x, dom ntri m r x -> ~ In (fst x) s -> raw_row (w_tau p) rows x = repeat 0 n') ->
    (forall x, dom ntri m r x -> ~ In (fst x) (w_supp p) -> raw_row (w_tau p) rows x = repeat 0 n') ->
    exists p', renew ksqrt tol pca p rows so = Ok p' /\ pw_of b cont n' r p' /\ w_rows p' = rows /\ w_tau p' = w_tau p /\ (forall j, In j (w_supp p') -> In j (w_supp p)) /\ (forall s, so = Some s -> w_supp p' = s) /\ w_tree p' = w_tree p.
  Proof.
    intros H Hn HL HR HS HZ. unfold renew. rewrite (o_b H), (o_cont H), (o_tris H), (o_verts H), (o_r H), (o_bs H), (o_keep H).
    pose proof (o_map H) as G. rewrite <- HL in G. assert (Hne : rows <> []) by (pose proof (o_ne H) as Hne; destruct rows; [destruct (w_rows p); [contradiction|discriminate]|discriminate]).
    destruct (new_core ksqrt tol pca m tris verts bs keep GM b cont rows r n' (w_tau p) so (Some (w_tree p)) (Some (w_polys p)) (o_mon H) (o_r20 H) Hn (o_c H) G Hne HR) as (s & Es & HP).
    { destruct HS as [->|(s & -> & H1 & H2)]; [left; reflexivity|right; exists s]. split; [reflexivity|]. split; [intros j Hj; apply (o_supp H), H1, Hj|exact H2]. }
    { discriminate. }
    assert (HI : forall j, In j s -> In j (w_supp p)).
    { destruct HS as [->|(s0 & -> & H1 & H2)].
      - destruct (support_ok m tris bs keep cont r (w_tau p) rows G Hne) as (s0 & E0 & _ & H0). rewrite E0 in Es. injection Es as ->. intros j Hj. apply H0 in Hj as (Hj & nu & Hnu & Z).
        destruct (in_dec Nat.eq_dec j (w_supp p)) as [|Ho]; [assumption|]. exfalso. rewrite (HZ (j, nu) (dom_mi m tris j r nu Hj Hnu) Ho) in Z.
        assert (zero_row (repeat (0 : Q) n') = true) by (apply zero_row_spec; rewrite repeat_length; reflexivity). congruence.
      - injection Es as <-. exact H1. }
    destruct HP as (p' & Ep & Op & Wr & Wt & Ws & Wtr).
    { intros j Hj. apply (o_polys H). apply HI. exact Hj. }
    exists p'. rewrite Ws. split; [exact Ep|]. split; [exact Op|]. repeat (split; [assumption|]). split; [|assumption]. intros s0 E0. rewrite E0 in Es. injection Es as ->. reflexivity.
  Qed.
  Lemma raw_row_map cont r (g : list Q -> list Q) tau rows x : gmap cont m r tris bs keep tau (length rows) -> rows <> [] -> dom ntri m r x -> raw_row tau (map g rows) x = g (raw_row tau rows x).
  Proof.
    intros G Hne Hx. unfold raw_row. rewrite map_length. rewrite (nth_indep _ [] (g [])); [apply map_nth|]. rewrite map_length. destruct (Z.eqb_spec (tau_at tau x) (-1)) as [E|E].
    - destruct rows; [contradiction|cbn [length]; lia].
    - destruct (g_val G x Hx) as (v & Ev & Hv). rewrite (tau_at_eq _ _ _ Ev) in *. lia.
  Qed.
  Lemma coef_map b cont n r p b' cont' n' r' p' (g : list Q -> list Q) x : pw_of b cont n r p -> pw_of b' cont' n' r' p' -> w_tau p' = w_tau p -> w_rows p' = map g (w_rows p) -> g (repeat 0 n) = repeat 0 n' -> dom ntri m r x -> coef p' x = g (coef p x).
  Proof.
    intros H H' Ht Hrw Hg Hx. unfold coef. rewrite Ht, Hrw, (o_n H), (o_n H'). destruct (Z.eqb_spec (tau_at (w_tau p) x) (-1)) as [E|E]; [symmetry; exact Hg|].
    rewrite (nth_indep _ [] (g [])); [apply map_nth|]. rewrite map_length. destruct (g_val (o_map H) x Hx) as (v & Ev & Hv). rewrite (tau_at_eq _ _ _ Ev) in *. lia.
  Qed.
  (** the same function [g] on every row *)
  Lemma rows_op b cont n n' r p g so : pw_of b cont n r p -> n' <> 0%nat -> (forall row, length row = n -> length (g row) = n') -> g (repeat 0 n) = repeat 0 n' ->
    (so = None \/ so = Some (w_supp p) \/ (so = Some [] /\ forall row, length row = n -> g row = repeat 0 n')) ->
    exists p', renew ksqrt tol pca p (map g (w_rows p)) so = Ok p' /\ pw_of b cont n' r p' /\ (forall j, In j (w_supp p') -> In j (w_supp p)) /\ w_tree p' = w_tree p /\
      forall j k x, (j < ntri)%nat -> fval p' j k x = ksum (all_mi m r) (fun nu => nth k (g (coef p (j, nu))) 0 * bfn b m r nu x).
  Proof.
    intros H Hn HG Hg0 HS.
    assert (HZ : forall x, dom ntri m r x -> ~ In (fst x) (w_supp p) -> raw_row (w_tau p) (map g (w_rows p)) x = repeat 0 n').
    { intros x Hx Ho. rewrite (raw_row_map cont r g _ _ x (o_map H) (o_ne H) Hx). rewrite (o_off H x Hx Ho). exact Hg0. }
    destruct (renew_ok b cont n n' r p (map g (w_rows p)) so H Hn) as (p' & Ep & Op & Wr & Wt & Ws & _ & Wtr); auto.
    - apply map_length.
    - intros row Hrow. apply in_map_iff in Hrow as (row0 & <- & H0). apply HG, (o_rows H), H0.
    - destruct HS as [->|[->|[-> HZ0]]]; [left; reflexivity|right; exists (w_supp p); auto|right; exists []]. split; [reflexivity|]. split; [intros j []|]. intros x Hx _.
      rewrite (raw_row_map cont r g _ _ x (o_map H) (o_ne H) Hx). apply HZ0, (o_rows H). apply (raw_in m tris bs keep cont r); [apply (o_map H)|apply (o_ne H)|exact Hx].
    - exists p'. split; [exact Ep|]. split; [exact Op|]. split; [exact Ws|]. split; [exact Wtr|]. intros j k x Hj. unfold fval. rewrite (o_b Op), (o_m Op), (o_r Op). apply ksum_ext. intros nu Hnu.
      rewrite (coef_map b cont n r p b cont n' r p' g (j, nu) H Op Wt Wr Hg0 (dom_mi m tris j r nu Hj Hnu)). reflexivity.
  Qed.
  Lemma map_repeat {A B} (g : A -> B) a n : map g (repeat a n) = repeat (g a) n.
  Proof. induction n as [|n IH]; [reflexivity|]. cbn [repeat map]. rewrite IH. reflexivity. Qed.
  Lemma nth_map0 (g : Q -> Q) l k : g 0 = 0 -> nth k (map g l) 0 = g (nth k l 0).
  Proof. intros E. rewrite <- E at 1. apply map_nth. Qed.

  Theorem scale_ok b cont n r p c : pw_of b cont n r p -> exists p', pw_scale ksqrt tol pca p c = Ok p' /\ pw_of b cont n r p' /\ (forall j, In j (w_supp p') -> In j (w_supp p)) /\ w_tree p' = w_tree p /\
    forall j k x, (j < ntri)%nat -> fval p' j k x = fval p j k x * c.
  Proof.
    intros H. unfold pw_scale. destruct (rows_op b cont n n r p (map (fun v => v * c)) (Some (if kdec c 0 then [] else w_supp p)) H (o_n0 H)) as (p' & E & Op & Ws & Wt & V).
    - intros row Hr. rewrite map_length. exact Hr.
    - rewrite map_repeat. f_equal. ring.
    - destruct (kdec c 0) as [->|]; [right; right; split; [reflexivity|]|right; left; reflexivity]. intros row <-. rewrite <- (map_const_seq (0 : Q) (length row) 0). rewrite (map_nth_seq_eq row 0) at 1. rewrite map_map. apply map_ext. intros k. ring.
    - exists p'. repeat split; auto; try apply Op. intros j k x Hj. rewrite (V j k x Hj). unfold fval. rewrite (o_b H), (o_m H), (o_r H), <- ksum_scale_r. apply ksum_ext. intros nu _. rewrite (nth_map0 (fun v => v * c)) by ring. ring.
  Qed.
  Theorem truediv_ok b cont n r p c : pw_of b cont n r p -> exists p', pw_truediv ksqrt tol pca p c = Ok p' /\ pw_of b cont n r p' /\ (forall j, In j (w_supp p') -> In j (w_supp p)) /\ w_tree p' = w_tree p /\
    forall j k x, (j < ntri)%nat -> fval p' j k x = fval p j k x / c.
  Proof.
    intros H. unfold pw_truediv. assert (Z : (0 : Q) / c = 0) by (rewrite !(Fdiv_def (kth Q)); ring). destruct (rows_op b cont n n r p (map (fun v => v / c)) (Some (w_supp p)) H (o_n0 H)) as (p' & E & Op & Ws & Wt & V).
    - intros row Hr. rewrite map_length. exact Hr.
    - rewrite map_repeat. f_equal. exact Z.
    - right; left; reflexivity.
    - exists p'. repeat split; auto; try apply Op. intros j k x Hj. rewrite (V j k x Hj). unfold fval. rewrite (o_b H), (o_m H), (o_r H). rewrite (Fdiv_def (kth Q)), <- ksum_scale_r. apply ksum_ext. intros nu _. rewrite (nth_map0 (fun v => v / c)) by exact Z. rewrite (Fdiv_def (kth Q)). ring.
  Qed.
  Theorem outer_ok b cont r p c : pw_of b cont 1 r p -> c <> [] -> exists p', pw_outer ksqrt tol pca p c = Ok p' /\ pw_of b cont (length c) r p' /\ (forall j, In j (w_supp p') -> In j (w_supp p)) /\ w_tree p' = w_tree p /\
    forall j k x, (j < ntri)%nat -> fval p' j k x = fval p j 0 x * nth k c 0.
  Proof.
    intros H Hc. unfold pw_outer. rewrite (o_n H). cbn [Nat.eqb assert_ bind].
    destruct (rows_op b cont 1 (length c) r p (fun row => map (fun ck => nth 0 row 0 * ck) c) (Some (if zero_row c then [] else w_supp p)) H) as (p' & E & Op & Ws & Wt & V).
    - destruct c; [contradiction|discriminate].
    - intros row _. apply map_length.
    - cbn [repeat nth]. rewrite <- (map_const_seq (0 : Q) (length c) 0). rewrite (map_nth_seq_eq c 0) at 1. rewrite map_map. apply map_ext. intros k. ring.
    - destruct (zero_row c) eqn:Z; [right; right; split; [reflexivity|]|right; left; reflexivity]. apply zero_row_spec in Z. intros row _. rewrite Z at 1. rewrite map_repeat. f_equal. ring.
    - exists p'. repeat split; auto; try apply Op. intros j k x Hj. rewrite (V j k x Hj). unfold fval. rewrite (o_b H), (o_m H), (o_r H), <- ksum_scale_r. apply ksum_ext. intros nu _. rewrite (nth_map0 (fun ck => nth 0 (coef p (j, nu)) 0 * ck)) by ring. ring.
  Qed.
  Theorem getitem_ok b cont n r p i : pw_of b cont n r p -> (i < n)%nat -> exists p', pw_getitem ksqrt tol pca p i = Ok p' /\ pw_of b cont 1 r p' /\ (forall j, In j (w_supp p') -> In j (w_supp p)) /\ w_tree p' = w_tree p /\
    forall j x, (j < ntri)%nat -> fval p' j 0 x = fval p j i x.
  Proof.
    intros H Hi. unfold pw_getitem. rewrite (o_n H). replace (i <? n)%nat with true by (symmetry; apply Nat.ltb_lt; exact Hi). cbn [assert_ bind]. destruct (Nat.eqb_spec n 1) as [E1|E1].
    - assert (i = 0%nat) by lia. destruct (rows_op b cont n 1 r p (fun row => row) (Some (w_supp p)) H) as (p' & E & Op & Ws & Wt & V); auto.
      + intros row Hr. lia.
      + rewrite map_id in E. exists p'. repeat split; auto; try apply Op. intros j x Hj. rewrite (V j 0%nat x Hj). unfold fval. rewrite (o_b H), (o_m H), (o_r H). replace i with 0%nat by lia. reflexivity.
    - destruct (rows_op b cont n 1 r p (fun row => [nth i row 0]) None H) as (p' & E & Op & Ws & Wt & V); auto.
      + rewrite nth_repeat. reflexivity.
      + exists p'. repeat split; auto; try apply Op. intros j x Hj. rewrite (V j 0%nat x Hj). unfold fval. rewrite (o_b H), (o_m H), (o_r H). reflexivity.
  Qed.

  (** ** Degree elevation *)
  Lemma arow_row r (cols : list (list Q)) nu k : (forall c, In c cols -> length c = get_dimension r m) -> nth_error (all_mi m r) k = Some nu -> arow m r cols nu = row cols k.
  Proof.
    intros HL Hk. unfold arow, row. apply map_ext_in. intros c Hc. rewrite <- (map_cf m r c (HL c Hc)) at 2.
    assert (Lk : (k < length (all_mi m r))%nat) by (apply nth_error_Some; congruence). rewrite (nth_indep _ 0 (cf m r c [])) by (rewrite map_length; exact Lk). rewrite (map_nth (cf m r c)). rewrite (nth_error_nth _ _ _ Hk). reflexivity.
  Qed.
  Theorem elevate_ok b cont n r p s : full -> pw_of b cont n r p -> (r <= s < 20)%nat -> exists p', pw_elevate ksqrt tol pca p s = Ok p' /\ pw_of b cont n s p' /\ (forall j, In j (w_supp p') <-> In j (w_supp p)) /\ w_tree p' = w_tree p /\
    forall j k x, (j < ntri)%nat -> (k < n)%nat -> length x = m -> fval p' j k x = fval p j k x.
  Proof.
    intros HF H [Hrs Hs]. unfold pw_elevate. rewrite (o_r H). replace (r <=? s)%nat with true by (symmetry; apply Nat.leb_le; exact Hrs). cbn [assert_ bind].
    destruct (Nat.eqb_spec s r) as [->|Hne].
    { destruct (renew_ok b cont n n r p (w_rows p) (Some (w_supp p)) H (o_n0 H) eq_refl (o_rows H)) as (p' & E & Op & Wr & Wt & Ws & Wse & Wtr).
      - right. exists (w_supp p). split; [reflexivity|]. split; [auto|]. apply (o_off H).
      - apply (o_off H).
      - exists p'. rewrite (Wse _ eq_refl). repeat split; auto; try apply Op. intros j k x Hj _ _. unfold fval, coef. rewrite (o_b Op), (o_m Op), (o_r Op), (o_b H), (o_m H), (o_r H), (o_n H), (o_n Op), Wr, Wt. reflexivity. }
    rewrite (o_cont H), (o_tris H), (o_bs H), (o_keep H), (o_m H), (o_n H), (o_b H), (o_verts H).
    pose (T := fun j => let* q := pw_restrict ksqrt tol p j in sp_degree_elevate ksqrt tol q s). pose (cols := fun j => match T j with Ok t => sp_cols t | Err _ => [] end).
    assert (HT : forall j, (j < ntri)%nat -> exists q t, pw_restrict ksqrt tol p j = Ok q /\ sp_degree_elevate ksqrt tol q s = Ok t /\ cols j = sp_cols t /\ spoly_of b (corners j) n s t /\
       forall k x, (k < n)%nat -> length x = m -> val b m s (nth k (sp_cols t) []) x = fval p j k x).
    { intros j Hj. destruct (restrict_ok b cont n r p j HF H Hj) as (q & Eq & Hq & Vq). destruct (unit_of j Hj) as (ab & phi & B & TU). destruct (sc_elevate ksqrt tol m (corners j) ab phi B TU b n r s q Hq) as (t & Et & Ht & Vt); [lia|].
      exists q, t. split; [exact Eq|]. split; [exact Et|]. split; [unfold cols, T; rewrite Eq; cbn [bind]; rewrite Et; reflexivity|]. split; [exact Ht|]. intros k x Hk Hx. rewrite <- (Vq k x Hk Hx).
      destruct (Vt (point m (corners j) x) (point_length _ _ _)) as (u & U1 & U2). rewrite (sp_vals b j n r q x Hj Hx Hq) in U1. rewrite (sp_vals b j n s t x Hj Hx Ht) in U2.
      destruct (spoly_val b j n r q Hj Hq) as (L1 & _). destruct (spoly_val b j n s t Hj Ht) as (L2 & _). rewrite <- !nth_map_val by lia. congruence. }
    destruct (build ksqrt tol veq pca m tris verts bs keep GM b cont s n cols (fval p) (seq 0 ntri) (w_supp p)
      (fun tau rows j => let* q := pw_restrict ksqrt tol p j in let* q := sp_degree_elevate ksqrt tol q s in
        foldM (fun rows k => let* mi := get (all_mi m s) k in store tau j rows (sp_row q k, mi)) rows (seq 0 (length (hd [] (sp_cols q)))))) with (t := w_tree p) as (tau & N & rows & GMap & Er & p' & Ep & Op & Ws & Wt & V); auto.
    - apply (o_mon H).
    - apply (o_n0 H).
    - intros Hc. pose proof (o_c H Hc). lia.
    - intros j Hj. destruct (HT j Hj) as (q & t & _ & _ & -> & Ht & _). destruct (spoly_val b j n s t Hj Ht) as (L1 & L2 & _). auto.
    - intros j k x Hj Hk Hx. destruct (HT j Hj) as (q & t & _ & _ & -> & Ht & Vt). apply Vt; assumption.
    - intros ->. apply (fam_agree ksqrt tol veq pca m tris verts bs keep GM b n r p H).
    - intros j Hj. apply in_seq in Hj. lia.
    - apply (o_supp H).
    - intros j k x Hj Hk Hx [Ho|Ho]; [exfalso; apply Ho, in_seq; lia|]. apply (fval_off b cont n r p); assumption.
    - intros tau rows j Hj. apply in_seq in Hj. destruct (HT j) as (q & t & Eq & Et & Ec & Ht & _); [lia|]. rewrite Eq. cbn [bind]. rewrite Et. cbn [bind].
      destruct (spoly_val b j n s t ltac:(lia) Ht) as (L1 & L2 & _). assert (Hd : length (hd [] (sp_cols t)) = length (all_mi m s)).
      { rewrite <- dim_all_mi. pose proof (o_n0 H). destruct (sp_cols t) as [|c l]; [cbn in L1; lia|]. apply L2. left. reflexivity. }
      rewrite Hd. apply foldM_seq. intros rows' k nu Hk. unfold get. rewrite Hk. cbn [bind]. rewrite Ec. unfold sp_row. rewrite <- (arow_row s (sp_cols t) nu k L2 Hk). reflexivity.
    - rewrite (g_gen GMap). cbn [bind]. rewrite generate_all_eq. cbn [bind]. rewrite Nat2Z.id, Er. cbn [bind]. exists p'. rewrite Ws. repeat split; auto; apply Op.
  Qed.

  (** ** Sums *)
  Lemma same_maps cont r tau N tau' N' : gmap cont m r tris bs keep tau N -> gmap cont m r tris bs keep tau' N' -> tau = tau' /\ N = N'.
  Proof. intros G G'. pose proof (g_gen G) as E. rewrite (g_gen G') in E. injection E as -> E. split; [reflexivity|lia]. Qed.
  Lemma nat_rows_refl (a : list (list nat)) : (if nat_rows_dec a a then true else false) = true.
  Proof. destruct (nat_rows_dec a a); [reflexivity|contradiction]. Qed.
  Lemma rows_refl (a : list (list Q)) : (if rows_dec a a then true else false) = true.
  Proof. destruct (rows_dec a a); [reflexivity|contradiction]. Qed.
  Lemma same_mesh_ok b cont n r p b' cont' n' r' q : pw_of b cont n r p -> pw_of b' cont' n' r' q -> same_mesh p q = Ok tt.
  Proof.
    intros H H'. unfold same_mesh. rewrite (o_tris H), (o_tris H'), (o_verts H), (o_verts H'), nat_rows_refl, rows_refl. cbn [assert_ bind]. rewrite (o_bs H), (o_bs H'). destruct bs; [rewrite nat_rows_refl|]; reflexivity.
  Qed.
  Lemma check_ok b cont n r p cont' r' q : pw_of b cont n r p -> pw_of b cont' n r' q -> pw_check p q = Ok tt.
  Proof.
    intros H H'. unfold pw_check. rewrite (o_m H), (o_m H'), (o_n H), (o_n H'), (o_b H), (o_b H'), !Nat.eqb_refl. replace (basis_eqb b b) with true by (destruct b; reflexivity). cbn [assert_ bind]. apply (same_mesh_ok b cont n r p b cont' n r' q H H').
  Qed.
  Definition zip (op : Q -> Q -> Q) (a c : list Q) : list Q := map (fun v => op (fst v) (snd v)) (combine a c).
  Lemma zip_length op a c n : length a = n -> length c = n -> length (zip op a c) = n.
  Proof. intros H1 H2. unfold zip. rewrite map_length, combine_length. lia. Qed.
  Lemma zip_nth op a c k : length a = length c -> op 0 0 = 0 -> nth k (zip op a c) 0 = op (nth k a 0) (nth k c 0).
  Proof.
    intros H E. unfold zip. rewrite <- E at 1. rewrite (map_nth (fun v => op (fst v) (snd v)) (combine a c) (0, 0)). rewrite combine_nth by exact H. reflexivity.
  Qed.
  Lemma zip_rows op n rows rows' i : (forall row, In row rows -> length row = n) -> (forall row, In row rows' -> length row = n) -> length rows = length rows' -> (i < length rows)%nat ->
    nth i (map (fun ab => map (fun v => op (fst v) (snd v)) (combine (fst ab) (snd ab))) (combine rows rows')) [] = zip op (nth i rows []) (nth i rows' []).
  Proof.
    intros _ _ HL Hi. rewrite (nth_indep _ [] (zip op [] [])) by (rewrite map_length, combine_length; lia).
    change (zip op [] []) with ((fun ab : list Q * list Q => zip op (fst ab) (snd ab)) ([], [])); rewrite (map_nth (fun ab : list Q * list Q => zip op (fst ab) (snd ab)) (combine rows rows') ([], [])). rewrite combine_nth by exact HL. reflexivity.
  Qed.
  Theorem same_degree_ok op b cont n r p q : op 0 0 = 0 -> pw_of b cont n r p -> pw_of b cont n r q -> (forall j, In j (w_supp q) -> In j (w_supp p)) ->
    (forall a c d, op a c * d = op (a * d) (c * d)) -> (forall (A : Type) (l : list A) f g, ksum l (fun a => op (f a) (g a)) = op (ksum l f) (ksum l g)) ->
    exists p', pw_same_degree ksqrt tol pca op p q = Ok p' /\ pw_of b cont n r p' /\ (forall j, In j (w_supp p') -> In j (w_supp p)) /\ w_tree p' = w_tree p /\
      forall j k x, (j < ntri)%nat -> fval p' j k x = op (fval p j k x) (fval q j k x).
  Proof.
    intros Hop H H' HSub Hd Hsum. unfold pw_same_degree. rewrite (check_ok b cont n r p cont r q H H'). cbn [bind].
    destruct (same_maps cont r _ _ _ _ (o_map H) (o_map H')) as [Et EN]. rewrite EN, Nat.eqb_refl.
    set (rows := map (fun ab => map (fun v => op (fst v) (snd v)) (combine (fst ab) (snd ab))) (combine (w_rows p) (w_rows q))).
    assert (LR : length rows = length (w_rows p)) by (unfold rows; rewrite map_length, combine_length; lia).
    assert (HR : forall i, (i < length (w_rows p))%nat -> nth i rows [] = zip op (nth i (w_rows p) []) (nth i (w_rows q) [])) by (intros i Hi; apply (zip_rows op n); [apply (o_rows H)|apply (o_rows H')|exact EN|exact Hi]).
    assert (RI : forall i, (i < length (w_rows p))%nat -> length (nth i (w_rows p) []) = n /\ length (nth i (w_rows q) []) = n) by (intros i Hi; split; [apply (o_rows H)|apply (o_rows H')]; apply nth_In; lia).
    assert (RW : forall x, dom ntri m r x -> raw_row (w_tau p) rows x = zip op (raw_row (w_tau p) (w_rows p) x) (raw_row (w_tau q) (w_rows q) x)).
    { intros x Hx. unfold raw_row. rewrite LR, <- Et, <- EN. apply HR. destruct (Z.eqb_spec (tau_at (w_tau p) x) (-1)) as [E|E].
      - pose proof (o_ne H). destruct (w_rows p); [contradiction|cbn [length]; lia].
      - destruct (g_val (o_map H) x Hx) as (v & Ev & Hv). rewrite (tau_at_eq _ _ _ Ev) in *. lia. }
    destruct (renew_ok b cont n n r p rows None H (o_n0 H) LR) as (p' & Ep & Op & Wr & Wt & Ws & _ & Wtr); auto.
    - intros row Hrow. apply In_nth with (d := []) in Hrow as (i & Hi & <-). rewrite HR by lia. apply zip_length; apply RI; lia.
    - intros x Hx Ho. rewrite (RW x Hx), (o_off H x Hx Ho), (o_off H' x Hx) by (intros Hin; apply Ho, HSub, Hin).
      apply (list_nth_eq _ _ n); [apply zip_length; apply repeat_length|apply repeat_length|]. intros k _. rewrite zip_nth by (rewrite ?repeat_length; auto). rewrite !nth_repeat. exact Hop.
    - exists p'. repeat split; auto; try apply Op. intros j k x Hj. unfold fval. rewrite (o_b Op), (o_m Op), (o_r Op), (o_b H), (o_m H), (o_r H), (o_b H'), (o_m H'), (o_r H'). rewrite <- Hsum. apply ksum_ext. intros nu Hnu. rewrite <- Hd. f_equal.
      pose proof (dom_mi m tris j r nu Hj Hnu) as Dx. rewrite <- zip_nth; [|rewrite (coef_length ksqrt tol m tris verts bs keep b cont n r p _ H Dx); symmetry; apply (coef_length ksqrt tol m tris verts bs keep b cont n r q _ H' Dx)|exact Hop]. f_equal.
      unfold coef. rewrite Wt, Wr, <- Et, (o_n Op), (o_n H), (o_n H'). destruct (Z.eqb_spec (tau_at (w_tau p) (j, nu)) (-1)) as [E|E].
      + symmetry. apply (list_nth_eq _ _ n); [apply zip_length; apply repeat_length|apply repeat_length|]. intros i _. rewrite zip_nth by (rewrite ?repeat_length; auto). rewrite !nth_repeat. exact Hop.
      + apply HR. destruct (g_val (o_map H) _ Dx) as (v & Ev & Hv). rewrite (tau_at_eq _ _ _ Ev) in *. lia.
  Qed.
  Theorem linear_op_ok op b cont n r s p q : op 0 0 = 0 -> pw_of b cont n r p -> pw_of b cont n s q -> (forall j, In j (w_supp q) -> In j (w_supp p)) -> (r = s \/ full) ->
    (forall a c d, op a c * d = op (a * d) (c * d)) -> (forall (A : Type) (l : list A) f g, ksum l (fun a => op (f a) (g a)) = op (ksum l f) (ksum l g)) ->
    exists p', pw_linear_op ksqrt tol pca op p q = Ok p' /\ pw_of b cont n (Nat.max r s) p' /\ (forall j, In j (w_supp p') -> In j (w_supp p)) /\ w_tree p' = w_tree p /\
      forall j k x, (j < ntri)%nat -> (k < n)%nat -> length x = m -> fval p' j k x = op (fval p j k x) (fval q j k x).
  Proof.
    intros Hop H H' HSub HF Hd Hsum. unfold pw_linear_op. rewrite (check_ok b cont n r p cont s q H H'). cbn [bind]. rewrite (o_r H), (o_r H'). destruct (Nat.eqb_spec r s) as [->|Hne].
    - destruct (same_degree_ok op b cont n s p q Hop H H' HSub Hd Hsum) as (p' & E & Op & Ws & Wt & V). exists p'. rewrite Nat.max_id. repeat split; auto; apply Op.
    - destruct HF as [|HF]; [contradiction|]. destruct (Nat.ltb_spec s r) as [Hlt|Hle].
      + destruct (elevate_ok b cont n s q r HF H') as (q' & Eq & Oq & Sq & Tq & Vq); [pose proof (o_r20 H); lia|]. rewrite Eq. cbn [bind].
        destruct (same_degree_ok op b cont n r p q' Hop H Oq) as (p' & E & Op & Ws & Wt & V); auto; [intros j Hj; apply HSub, Sq, Hj|]. exists p'. rewrite Nat.max_l by lia. repeat split; auto; try apply Op. intros j k x Hj Hk Hx. rewrite V, Vq by assumption. reflexivity.
      + destruct (elevate_ok b cont n r p s HF H) as (q' & Eq & Oq & Sq & Tq & Vq); [pose proof (o_r20 H'); lia|]. rewrite Eq. cbn [bind].
        destruct (same_degree_ok op b cont n s q' q Hop Oq H') as (p' & E & Op & Ws & Wt & V); auto; [intros j Hj; apply Sq, HSub, Hj|]. exists p'. rewrite Nat.max_r by lia. split; [exact E|]. split; [exact Op|]. split; [intros j Hj; apply Sq, Ws, Hj|]. split; [congruence|]. intros j k x Hj Hk Hx. rewrite V, Vq by assumption. reflexivity.
  Qed.

  (** ** Products *)
  Theorem mul_ok b cont r b' cont' s p q : (forall w, veq w w = true) -> full -> pw_of b cont 1 r p -> pw_of b' cont' 1 s q -> (b <> Lagrange -> b' = b) -> (cont = true -> cont' = true) -> (r + s < 20)%nat ->
    exists p', pw_mul ksqrt tol veq pca p q = Ok p' /\ pw_of b cont 1 (r + s) p' /\ (forall j, In j (w_supp p') <-> In j (w_supp p) /\ In j (w_supp q)) /\ w_tree p' = w_tree p /\
      forall j x, (j < ntri)%nat -> length x = m -> fval p' j 0 x = fval p j 0 x * fval q j 0 x.
  Proof.
    intros HV HF H H' Hbb Hcc Hrs. unfold pw_mul. rewrite (o_m H), (o_m H'), Nat.eqb_refl. cbn [assert_ bind]. rewrite (same_mesh_ok b cont 1 r p b' cont' 1 s q H H'). cbn [bind].
    rewrite (o_keep H), (o_keep H'), eqb_reflx. cbn [assert_ bind]. rewrite (o_n H), (o_n H'). cbn [Nat.eqb assert_ bind]. rewrite (o_r H), (o_r H'), (o_cont H), (o_tris H), (o_bs H), (o_verts H), (o_b H).
    set (S := filter (fun j => mem j (w_supp q)) (w_supp p)).
    assert (HS : forall j, In j S <-> In j (w_supp p) /\ In j (w_supp q)) by (intros j; unfold S; rewrite filter_In, mem_in; reflexivity).
    pose (G := fun (j k : nat) (x : list Q) => fval p j 0 x * fval q j 0 x).
    pose (stp := fun (tau : tau_fn) (rows : list (list Q)) (j : nat) => match b with
        | Lagrange => let* vs := tri_vertices tris verts j in
          foldM (fun rows nu => let* x := generate_lagrange_point_simplex vs (r + s) nu in let* u := pw_eval p j x in let* v := pw_eval q j x in store tau j rows ([nth 0 u 0 * nth 0 v 0], nu)) rows (all_mi m (r + s))
        | _ => let* pj := pw_restrict ksqrt tol p j in let* qj := pw_restrict ksqrt tol q j in let* t := sp_mul ksqrt tol veq pj qj in
          foldM (fun rows knu => let* c := get (hd [] (sp_cols t)) (fst knu) in store tau j rows ([c], snd knu)) rows (combine (seq 0 (length (all_mi m (r + s)))) (all_mi m (r + s)))
        end).
    assert (A : exists cols : nat -> list (list Q), (forall j, (j < ntri)%nat -> length (cols j) = 1%nat /\ forall c, In c (cols j) -> length c = get_dimension (r + s) m) /\
      (forall j x, (j < ntri)%nat -> length x = m -> val b m (r + s) (nth 0 (cols j) []) x = G j 0%nat x) /\
      forall tau rows j, In j S -> stp tau rows j = foldM (fun rows nu => store tau j rows (arow m (r + s) (cols j) nu, nu)) rows (all_mi m (r + s))).
    { assert (Db : {b = Lagrange} + {b <> Lagrange}) by (destruct b; (left; reflexivity) || (right; discriminate)). destruct Db as [Eb|Eb].
      - exists (fun j => [map (fun nu => G j 0%nat (generate_lagrange_point m (r + s) nu)) (all_mi m (r + s))]). split; [|split].
        + intros j Hj. split; [reflexivity|]. intros c [<-|[]]. apply map_all_mi_length.
        + intros j x Hj Hx. rewrite Eb. cbn [nth val]. apply lval_interp; [|exact Hx]. unfold G. apply (polydeg_mul m r s); [apply (fval_polydeg b cont 1 r p j 0 H); lia|apply (fval_polydeg b' cont' 1 s q j 0 H'); lia].
        + intros tau rows j Hj. apply HS in Hj as [Hj _]. apply (o_supp H) in Hj. unfold stp. rewrite Eb. rewrite (tri_verts j Hj). cbn [bind]. apply foldM_ext_in. intros rows' nu Hnu. apply in_all_mi in Hnu as [M1 M2].
          destruct (unit_of j Hj) as (ab & phi & B & TU). rewrite (spoint ksqrt tol m (corners j) ab phi B TU nu (r + s) M1). cbn [bind].
          assert (LN : length (generate_lagrange_point (F := Q) m (r + s) nu) = m) by (apply lagrange_point_length; exact M1). pose proof (point_of j _ Hj LN) as PC.
          rewrite (eval_ok ksqrt tol m tris verts bs keep GM b cont 1 r p j _ _ H Hj PC), (eval_ok ksqrt tol m tris verts bs keep GM b' cont' 1 s q j _ _ H' Hj PC). cbn [bind seq map nth].
          unfold arow. cbn [map]. rewrite (cf_map m (r + s) (fun nu => G j 0%nat (generate_lagrange_point m (r + s) nu))) by assumption. reflexivity.
      - assert (b' = b) by auto. subst b'. pose (T := fun j => let* pj := pw_restrict ksqrt tol p j in let* qj := pw_restrict ksqrt tol q j in sp_mul ksqrt tol veq pj qj).
        assert (HT : forall j, (j < ntri)%nat -> exists pj qj t, pw_restrict ksqrt tol p j = Ok pj /\ pw_restrict ksqrt tol q j = Ok qj /\ sp_mul ksqrt tol veq pj qj = Ok t /\ spoly_of b (corners j) 1 (r + s) t /\
           forall x, length x = m -> val b m (r + s) (nth 0 (sp_cols t) []) x = G j 0%nat x).
        { intros j Hj. destruct (restrict_ok b cont 1 r p j HF H Hj) as (pj & Ep & Hp & Vp). destruct (restrict_ok b cont' 1 s q j HF H' Hj) as (qj & Eq & Hq & Vq). destruct (unit_of j Hj) as (ab & phi & B & TU).
          destruct (sc_mul ksqrt tol veq m (corners j) ab phi B TU b b (corners j) r s pj qj HV (gm_simplex GM j Hj) Hp Hq) as (t & Et & Ht & Vt); [auto|lia|].
          exists pj, qj, t. repeat split; auto; try apply Ht. intros x Hx. destruct (Vt (point m (corners j) x) (point_length _ _ _)) as (u & v & U1 & U2 & U3).
          rewrite (sp_vals b j 1 r pj x Hj Hx Hp) in U1. rewrite (sp_vals b j 1 s qj x Hj Hx Hq) in U2. rewrite (sp_vals b j 1 (r + s) t x Hj Hx Ht) in U3.
          destruct (spoly_val b j 1 r pj Hj Hp) as (L1 & _). destruct (spoly_val b j 1 s qj Hj Hq) as (L2 & _). destruct (spoly_val b j 1 (r + s) t Hj Ht) as (L3 & _).
          unfold G. rewrite <- (Vp 0%nat x), <- (Vq 0%nat x) by (lia || exact Hx). rewrite <- !nth_map_val by lia. injection U1 as ->. injection U2 as ->. injection U3 as ->. reflexivity. }
        exists (fun j => match T j with Ok t => sp_cols t | Err _ => [] end). split; [|split].
        + intros j Hj. destruct (HT j Hj) as (pj & qj & t & Ep & Eq & Et & Ht & _). unfold T. rewrite Ep. cbn [bind]. rewrite Eq. cbn [bind]. rewrite Et. destruct (spoly_val b j 1 (r + s) t Hj Ht) as (L1 & L2 & _). auto.
        + intros j x Hj Hx. destruct (HT j Hj) as (pj & qj & t & Ep & Eq & Et & Ht & Vt). unfold T. rewrite Ep. cbn [bind]. rewrite Eq. cbn [bind]. rewrite Et. apply Vt. exact Hx.
        + intros tau rows j Hj. apply HS in Hj as [Hj _]. apply (o_supp H) in Hj. destruct (HT j Hj) as (pj & qj & t & Ep & Eq & Et & Ht & Vt). unfold stp, T. rewrite Ep. cbn [bind]. rewrite Eq. cbn [bind]. rewrite Et. cbn [bind].
          destruct (spoly_val b j 1 (r + s) t Hj Ht) as (L1 & L2 & _). destruct b; [| |contradiction]; (apply foldM_combine_seq; intros rows' k nu Hk; cbn [fst snd]; rewrite (arow_row (r + s) (sp_cols t) nu k L2 Hk);
            destruct (sp_cols t) as [|c [|c' l]]; try discriminate; unfold row; cbn [hd map]; rewrite (get_of_nth c k 0) by (rewrite (L2 c (or_introl eq_refl)), dim_all_mi; apply nth_error_Some; congruence); reflexivity). }
    destruct A as (cols & C1 & C2 & C3).
    destruct (build ksqrt tol veq pca m tris verts bs keep GM b cont (r + s) 1 cols G S S stp) with (t := w_tree p) as (tau & N & rows & GMap & Er & p' & Ep & Op & Ws & Wt & V); auto.
    - apply (o_mon H).
    - intros Hc. pose proof (o_c H Hc). lia.
    - intros j k x Hj Hk Hx. replace k with 0%nat by lia. apply C2; assumption.
    - intros Hc j j' k w Hj Hj' Hk Hw H1. unfold G. rewrite Hc in H. rewrite (Hcc Hc) in H'. f_equal.
      + apply (fam_agree ksqrt tol veq pca m tris verts bs keep GM b 1 r p H j j' 0%nat w); auto.
      + apply (fam_agree ksqrt tol veq pca m tris verts bs keep GM b' 1 s q H' j j' 0%nat w); auto.
    - intros j Hj. apply HS in Hj as [Hj _]. apply (o_supp H). exact Hj.
    - intros j Hj. apply HS in Hj as [Hj _]. apply (o_supp H). exact Hj.
    - intros j k x Hj Hk Hx Ho. unfold G. assert (Ho' : ~ In j S) by tauto. rewrite HS in Ho'. destruct (in_dec Nat.eq_dec j (w_supp p)) as [H1|H1].
      + rewrite (fval_off b' cont' 1 s q j 0%nat x H' Hj) by tauto. ring.
      + rewrite (fval_off b cont 1 r p j 0%nat x H Hj) by tauto. ring.
    - rewrite (g_gen GMap). cbn [bind]. rewrite generate_all_eq. cbn [bind]. rewrite Nat2Z.id. unfold stp in Er. cbn [repeat] in Er. rewrite Er. cbn [bind]. exists p'. rewrite Ws. repeat split; auto; try apply Op; try (apply HS; assumption).
      intros j x Hj Hx. rewrite (V j 0%nat x Hj) by (lia || exact Hx). reflexivity.
  Qed.
End PWOps2.
