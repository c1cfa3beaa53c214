(** Piecewise polynomials: the invariant of the objects, construction and
    evaluation. *)
From Verif Require PermFacts KdTree.
From Verif Require Import KdMesh Prop_LocalToGlobal.
From Verif Require Import Base MultiIndex MultiIndexFacts MultiCapFacts MultiIndexCache Fld FldInst CodeGen CodeGenFacts LinSolve Det Linalg VecFacts Simplicial SimplexGeo SimplexFacts SimplexMetric AffineFacts MultiCoef MultiCoefFacts LagrangeCache Unisolv Poly PolyFacts LagFacts PolyEval PolyOps PolyOpsB PolyDeriv PolyObj PolyPow PolyCalls IntegralCache Integrate IntFacts HasInt Bases BasesFacts BasesCalls BasesMore DerivFacts SubstFacts PolySimplex PolySimplexFacts PolySimplexCalls PolySimplexMul.
From Verif Require Import LocalToGlobal LocalToGlobalFacts LocalToGlobalSim LocalToGlobalProps FaceFacts FaceValues PiecewisePoly PiecewiseMap.
From Coq Require Import Field_theory Field.

Lemma get_of_nth {A} (l : list A) i d : (i < length l)%nat -> get l i = Ok (nth i l d).
Proof. intros H. unfold get. rewrite (nth_error_nth' l d H). reflexivity. Qed.
Lemma mem_in j l : mem j l = true <-> In j l.
Proof. unfold mem. rewrite existsb_exists. split; [intros (x & Hx & E); apply Nat.eqb_eq in E; subst x; exact Hx|intros H; exists j; split; [exact H|apply Nat.eqb_refl]]. Qed.
Lemma mem_out j l : mem j l = false <-> ~ In j l.
Proof. rewrite <- mem_in. destruct (mem j l); split; try discriminate; try reflexivity; intros H; exfalso; apply H; reflexivity. Qed.

Section PW.
  Context {Q : ofld} (ksqrt : Q -> Q) (tol eps : Q) (veq : list (list Q) -> list (list Q) -> bool) (pca : list (list Q) -> list Q).
  Add Field Kfield62 : (kth Q).
  Local Open Scope fld_scope.
  Notation pt := SimplexGeo.pt.
  Notation spoly_of := (spoly_of ksqrt tol).
  Context (m : nat) (tris : list (list nat)) (verts : list (list Q)) (bs : option (list (list nat))) (keep : bool).
  Notation ntri := (length tris).
  Notation tri j := (nth j tris []).

  (** A simplicial mesh in the [m]-dimensional space: different simplices have
      different vertex sets, and every simplex is nondegenerate. *)
  Record good_mesh : Prop := mkGood {
    gm_mesh : mesh m tris;
    gm_ok : mesh_ok m tris verts;
    gm_simplex : forall j, (j < ntri)%nat -> simplex m (corners_of tris verts j);
    gm_rep : no_repeated tris;
    gm_bs : proper_simplices (bs_list bs) }.
  Hypothesis GM : good_mesh.
  Notation corners := (corners_of tris verts).

  Lemma ntri_pos : (0 < ntri)%nat.
  Proof. pose proof (proj1 (gm_mesh GM)) as H. destruct tris; [contradiction|cbn; lia]. Qed.
  Lemma m_neq : m <> 0%nat.
  Proof. apply (gm_simplex GM 0 ntri_pos). Qed.
  Lemma tri_ok j : (j < ntri)%nat -> length (tri j) = (m + 1)%nat /\ NoDup (tri j).
  Proof. apply mesh_nth, (gm_mesh GM). Qed.
  Lemma tri_verts j : (j < ntri)%nat -> tri_vertices tris verts j = Ok (corners j).
  Proof. intros H. unfold tri_vertices. rewrite (get_of_nth tris j [] H). cbn [bind]. apply (sv_ok m tris verts (gm_ok GM) j H). Qed.
  Lemma vert0 : exists v0, get verts 0 = Ok v0 /\ length v0 = m.
  Proof.
    destruct (gm_ok GM) as (H1 & H2 & _). destruct verts as [|v l]; [contradiction|]. exists v. split; [reflexivity|]. apply H2. left. reflexivity.
  Qed.
  Lemma unit_of j : (j < ntri)%nat -> exists ab phi B, to_unit ksqrt tol m (corners j) ab phi B.
  Proof. intros H. apply to_unit_exists, (gm_simplex GM j H). Qed.
  Lemma local_coords j y : (j < ntri)%nat -> length y = m -> exists x, length x = m /\ affine_comb m (bary_of x) (corners j) y.
  Proof. intros H Hy. destruct (unit_of j H) as (ab & phi & B & TU). exists (coords m (corners j) B y). split; [apply coords_length|]. apply (tu_coords _ _ _ _ _ _ _ TU y Hy). Qed.
  Lemma corners_rows j : (j < ntri)%nat -> rows_of (S m) m (corners j).
  Proof. intros H. apply (gm_simplex GM j H). Qed.
  Lemma comb_lengths j x y : (j < ntri)%nat -> affine_comb m (bary_of x) (corners j) y -> length x = m /\ length y = m.
  Proof. intros H (L & Ly & _). rewrite (proj1 (corners_rows j H)) in L. unfold bary_of in L. cbn [length] in L. split; [lia|exact Ly]. Qed.

  (** ** Polynomials on one simplex *)
  Lemma spoly_val b j k r s : (j < ntri)%nat -> spoly_of b (corners j) k r s ->
    length (sp_cols s) = k /\ (forall c, In c (sp_cols s) -> length c = get_dimension r m) /\ b <> Monomial /\ (r < 20)%nat /\
    forall x y, affine_comb m (bary_of x) (corners j) y -> sp_call s (pt y) = Ok (map (fun c => val b m r c x) (sp_cols s)).
  Proof.
    intros Hj Hs. destruct (unit_of j Hj) as (ab & phi & B & TU). destruct (of_lift ksqrt tol m (corners j) ab phi B TU b k r s Hs) as (u & -> & Hb & Hu).
    destruct (poly_of_valid b m k r u Hu) as (Vu & Ub & Um & Uk & Ur). unfold sp_cols, lift. cbn [sp_u].
    split; [exact Uk|]. split; [intros c Hc; rewrite <- Ur, <- Um; apply Vu; exact Hc|]. split; [exact Hb|]. split; [rewrite <- Ur; apply Vu; pose proof m_neq; lia|].
    intros x y HC. destruct (comb_lengths j x y Hj HC) as [Lx Ly]. pose proof (tu_comb _ _ _ _ _ _ _ TU x y HC) as EX.
    change (mkSpoly (corners j) u ab phi) with (lift (corners j) ab phi u). rewrite (call_lift ksqrt tol m (corners j) ab phi B TU b k r u y Hu Ly), <- EX.
    rewrite (proj1 (call_pv b m k r u x Hu Lx)). unfold pv. rewrite Ub, Um, Ur. reflexivity.
  Qed.
  Lemma basis_val b j r nu s : (j < ntri)%nat -> b <> Monomial -> length nu = m -> (nsum nu <= r < 20)%nat -> sp_basis_fn ksqrt tol b nu r (corners j) = Ok s ->
    forall x y, affine_comb m (bary_of x) (corners j) y -> sp_call s (pt y) = Ok [bfn b m r nu x].
  Proof.
    intros Hj Hb Hn Hr Es x y HC. destruct (unit_of j Hj) as (ab & phi & B & TU). destruct (sc_basis_fn ksqrt tol m (corners j) ab phi B TU b nu r Hb Hn) as (p & u & Ep & Hp & Eu & HX); [exact Hr|].
    rewrite Es in Ep. injection Ep as <-. rewrite (HX x y HC). destruct (comb_lengths j x y Hj HC) as [Lx Ly].
    destruct (basis_fn_ok (F := Q) b nu r (proj1 Hr) (fun _ => proj2 Hr)) as (u' & Eu' & (Vu & Ub & Uc & Ur & Um)). rewrite Eu in Eu'. injection Eu' as <-.
    rewrite call_ok by (assumption || (rewrite Um; lia)). unfold pv. rewrite Ub, Uc, Ur, Um, Hn. reflexivity.
  Qed.

  (** ** Coefficients *)
  Definition coef (p : pw Q) (x : local) : list Q := if (tau_at (w_tau p) x =? -1)%Z then repeat 0 (w_n p) else nth (Z.to_nat (tau_at (w_tau p) x)) (w_rows p) [].
  Definition fval (p : pw Q) (j k : nat) (x : list Q) : Q := ksum (all_mi (w_m p) (w_r p)) (fun nu => nth k (coef p (j, nu)) 0 * bfn (w_b p) (w_m p) (w_r p) nu x).

  (** What the constructor reads when it looks for the support: a dropped
      function reads the last row. *)
  Definition raw_row (tau : tau_fn) (rows : list (list Q)) (x : local) : list Q := nth (if (tau_at tau x =? -1)%Z then length rows - 1 else Z.to_nat (tau_at tau x)) rows [].
  Record pw_of (b : basis) (cont : bool) (n r : nat) (p : pw Q) : Prop := mkPwOf {
    o_b : w_b p = b;
    o_cont : w_cont p = cont;
    o_tris : w_tris p = tris;
    o_verts : w_verts p = verts;
    o_r : w_r p = r;
    o_n : w_n p = n;
    o_m : w_m p = m;
    o_bs : w_bs p = bs;
    o_keep : w_keep p = keep;
    o_mon : b <> Monomial;
    o_r20 : (r < 20)%nat;
    o_n0 : n <> 0%nat;
    o_c : cont = true -> (1 <= r)%nat;
    o_map : gmap cont m r tris bs keep (w_tau p) (length (w_rows p));
    o_ne : w_rows p <> [];
    o_rows : forall row, In row (w_rows p) -> length row = n;
    o_supp : forall j, In j (w_supp p) -> (j < ntri)%nat;
    o_off : forall x, dom ntri m r x -> ~ In (fst x) (w_supp p) -> raw_row (w_tau p) (w_rows p) x = repeat 0 n;
    o_polys : forall j, In j (w_supp p) -> exists ps, dfind j (w_polys p) = Some ps /\ sp_basis_all ksqrt tol b r (corners j) = Ok ps }.

  Lemma coef_length b cont n r p x : pw_of b cont n r p -> dom ntri m r x -> length (coef p x) = n.
  Proof.
    intros H Hx. unfold coef. destruct (Z.eqb_spec (tau_at (w_tau p) x) (-1)) as [E|E]; [rewrite repeat_length; apply H|].
    destruct (g_val (o_map _ _ _ _ _ H) x Hx) as (v & Ev & Hv). rewrite (tau_at_eq _ _ _ Ev) in *. destruct Hv as [|Hv]; [contradiction|]. apply (o_rows _ _ _ _ _ H), nth_In. lia.
  Qed.
  Lemma dom_mi j r nu : (j < ntri)%nat -> In nu (all_mi m r) -> dom ntri m r (j, nu).
  Proof. intros Hj H. apply in_all_mi in H as [H1 H2]. repeat split; assumption. Qed.

  Lemma map_nth_seq_eq {A} (l : list A) d : l = map (fun i => nth i l d) (seq 0 (length l)).
  Proof. induction l as [|a l IH]; [reflexivity|]. cbn [length seq map nth]. f_equal. rewrite <- seq_shift, map_map. exact IH. Qed.
  Lemma combine_seq_sum {A} (l : list A) (g : A -> Q) s : ksum (combine (seq s (length l)) l) (fun a => g (snd a)) = ksum l g.
  Proof. revert s. induction l as [|a l IH]; intros s; [reflexivity|]. cbn [length seq combine]. rewrite !ksum_cons, IH. reflexivity. Qed.
  Lemma combine_seq_nth {A} (l : list A) k a s : In (k, a) (combine (seq s (length l)) l) -> (s <= k)%nat /\ nth_error l (k - s) = Some a.
  Proof.
    revert s. induction l as [|b l IH]; intros s; [intros []|]. cbn [length seq combine]. intros [E|H].
    - injection E as -> ->. split; [lia|]. rewrite Nat.sub_diag. reflexivity.
    - apply IH in H as [H1 H2]. split; [lia|]. replace (k - s)%nat with (S (k - S s)) by lia. exact H2.
  Qed.

  (** ** The constructor *)
  Lemma raw_at cont r tau rows x : gmap cont m r tris bs keep tau (length rows) -> rows <> [] -> dom ntri m r x ->
    exists v, tau_eq tau x v /\ row_at rows v = Ok (raw_row tau rows x).
  Proof.
    intros G Hne Hx. destruct (g_val G x Hx) as (v & Ev & Hv). exists v. split; [exact Ev|]. unfold raw_row. rewrite (tau_at_eq _ _ _ Ev).
    destruct Hv as [->|Hv].
    - cbn [Z.eqb Pos.eqb]. unfold row_at, np_index. destruct rows as [|a l]; [contradiction|]. cbn [Z.leb Z.compare].
      replace (0 <=? Z.of_nat (length (a :: l)) + -1)%Z with true by (symmetry; apply Z.leb_le; cbn [length]; lia). cbn [bind].
      replace (Z.to_nat (Z.of_nat (length (a :: l)) + -1)) with (length (a :: l) - 1)%nat by (cbn [length]; lia). apply get_of_nth. cbn [length]. lia.
    - rewrite row_at_ok by exact Hv. destruct (Z.eqb_spec v (-1)); [lia|reflexivity].
  Qed.
  Lemma raw_in cont r tau rows x : gmap cont m r tris bs keep tau (length rows) -> rows <> [] -> dom ntri m r x -> In (raw_row tau rows x) rows.
  Proof.
    intros G Hne Hx. unfold raw_row. apply nth_In. destruct (Z.eqb_spec (tau_at tau x) (-1)) as [E|E].
    - destruct rows; [contradiction|cbn [length]; lia].
    - destruct (g_val G x Hx) as (v & Ev & Hv). rewrite (tau_at_eq _ _ _ Ev) in *. lia.
  Qed.
  Lemma any_nonzero_ok cont r tau rows j : gmap cont m r tris bs keep tau (length rows) -> rows <> [] -> (j < ntri)%nat -> forall l, (forall nu, In nu l -> In nu (all_mi m r)) ->
    exists b, any_nonzero tau rows j l = Ok b /\ (b = true <-> exists nu, In nu l /\ zero_row (raw_row tau rows (j, nu)) = false).
  Proof.
    intros G Hne Hj. induction l as [|nu l IH]; intros Hl.
    - exists false. split; [reflexivity|]. split; [discriminate|]. intros (nu & [] & _).
    - destruct IH as (b & Eb & Hb); [intros mu H; apply Hl; right; exact H|]. cbn [any_nonzero]. destruct (raw_at cont r tau rows (j, nu) G Hne) as (v & Ev & Er); [apply dom_mi; [exact Hj|apply Hl; left; reflexivity]|].
      unfold tau_eq in Ev. cbn [fst snd] in Ev. rewrite Ev. cbn [bind]. rewrite Er. cbn [bind]. destruct (zero_row (raw_row tau rows (j, nu))) eqn:Z.
      + exists b. split; [exact Eb|]. rewrite Hb. split; [intros (mu & H & E); exists mu; split; [right; exact H|exact E]|]. intros (mu & [<-|H] & E); [congruence|exists mu; auto].
      + exists true. split; [reflexivity|]. split; [|reflexivity]. intros _. exists nu. split; [left; reflexivity|exact Z].
  Qed.
  Lemma support_ok cont r tau rows : gmap cont m r tris bs keep tau (length rows) -> rows <> [] ->
    exists s, support_of tau rows ntri (all_mi m r) = Ok s /\ NoDup s /\ forall j, In j s <-> (j < ntri)%nat /\ exists nu, In nu (all_mi m r) /\ zero_row (raw_row tau rows (j, nu)) = false.
  Proof.
    intros G Hne. unfold support_of.
    assert (H : forall l s, (forall j, In j l -> (j < ntri)%nat) -> NoDup (s ++ l) -> exists s', foldM (fun s j => let* b := any_nonzero tau rows j (all_mi m r) in Ok (if b then s ++ [j] else s)) s l = Ok s' /\
       NoDup s' /\ forall j, In j s' <-> In j s \/ (In j l /\ exists nu, In nu (all_mi m r) /\ zero_row (raw_row tau rows (j, nu)) = false)).
    { induction l as [|j l IH]; intros s Hl HN.
      - exists s. rewrite app_nil_r in HN. split; [reflexivity|]. split; [exact HN|]. intros j. split; [auto|]. intros [H|[[] _]]. exact H.
      - cbn [foldM]. destruct (any_nonzero_ok cont r tau rows j G Hne (Hl j (or_introl eq_refl)) (all_mi m r) (fun nu H => H)) as (b & Eb & Hb). rewrite Eb. cbn [bind].
        destruct (IH (if b then s ++ [j] else s)) as (s' & Es & Ns & Hs).
        + intros i Hi. apply Hl. right. exact Hi.
        + destruct b; [rewrite <- app_assoc; exact HN|]. apply NoDup_remove_1 in HN. exact HN.
        + exists s'. split; [exact Es|]. split; [exact Ns|]. intros i. rewrite Hs. destruct b.
          * rewrite in_app_iff. cbn [In]. split; [intros [[H|[<-|[]]]|[H H']]; [auto|right; split; [auto|apply Hb; reflexivity]|auto]|]. intros [H|[[<-|H] H']]; auto.
          * cbn [In]. split; [intros [P|[P P']]; auto|]. intros [P|[[P|P] P']]; [auto| |auto]. subst i. apply Hb in P'. discriminate. }
    destruct (H (seq 0 ntri) []) as (s & Es & Ns & Hs); [intros j Hj; apply in_seq in Hj; lia|apply seq_NoDup|]. exists s. split; [exact Es|]. split; [exact Ns|].
    intros j. rewrite Hs, in_seq. split; [intros [[]|[H1 H2]]; split; [lia|exact H2]|]. intros [H1 H2]. right. split; [lia|exact H2].
  Qed.
  Lemma zero_row_spec (v : list Q) : zero_row v = true <-> v = repeat 0 (length v).
  Proof.
    unfold zero_row. induction v as [|a v IH]; [split; reflexivity|]. cbn [forallb length repeat]. destruct (kdec a 0) as [->|Hn]; cbn [andb].
    - rewrite IH. split; [intros <-; reflexivity|intros H; injection H as H; exact H].
    - split; [discriminate|]. intros H. injection H as H _. contradiction.
  Qed.

  Lemma basis_all_ok b r j : (j < ntri)%nat -> b <> Monomial -> (r < 20)%nat -> exists ps, sp_basis_all ksqrt tol b r (corners j) = Ok ps.
  Proof.
    intros Hj Hb Hr. destruct (unit_of j Hj) as (ab & phi & B & TU). destruct (sc_basis_all ksqrt tol m (corners j) ab phi B TU b r _ Hb Hr (generate_all_eq m r)) as (ps & E & _). exists ps. exact E.
  Qed.
  Definition polys_arg (b : basis) (r : nat) (d : option (list (nat * list (spoly Q)))) (s : list nat) : Prop :=
    match d with None => True | Some d => forall j, In j s -> exists ps, dfind j d = Some ps /\ sp_basis_all ksqrt tol b r (corners j) = Ok ps end.
  Lemma fill_ok b r d s : b <> Monomial -> (r < 20)%nat -> (forall j, In j s -> (j < ntri)%nat) -> polys_arg b r d s ->
    exists d', fill_polys ksqrt tol b r tris verts d s = Ok d' /\ forall j, In j s -> exists ps, dfind j d' = Some ps /\ sp_basis_all ksqrt tol b r (corners j) = Ok ps.
  Proof.
    intros Hb Hr Hs Hd. unfold fill_polys.
    assert (H1 : forall j, In j s -> exists ps, (let* ps := match d with Some d => dget d j | None => let* vs := tri_vertices tris verts j in sp_basis_all ksqrt tol b r vs end in Ok (j, ps)) = Ok (j, ps) /\ sp_basis_all ksqrt tol b r (corners j) = Ok ps).
    { intros j Hj. destruct d as [d|].
      - destruct (Hd j Hj) as (ps & E1 & E2). exists ps. unfold dget. rewrite E1. cbn [bind]. auto.
      - rewrite (tri_verts j (Hs j Hj)). cbn [bind]. destruct (basis_all_ok b r j (Hs j Hj) Hb Hr) as (ps & E). exists ps. rewrite E. cbn [bind]. auto. }
    clear Hs Hd. induction s as [|j s IH].
    - exists []. split; [reflexivity|]. intros j [].
    - cbn [mapM]. destruct (H1 j (or_introl eq_refl)) as (ps & E1 & E2). rewrite E1. cbn [bind]. destruct IH as (d' & E & H); [intros i Hi; apply H1; right; exact Hi|]. rewrite E. cbn [bind].
      exists ((j, ps) :: d'). split; [reflexivity|]. intros i [<-|Hi]; cbn [dfind]; [rewrite Nat.eqb_refl; eauto|]. destruct (Nat.eqb_spec i j) as [->|_]; [eauto|apply H; exact Hi].
  Qed.

  Definition pca_ok : Prop := forall points, points <> [] -> (forall p, In p points -> length p = m) -> length (pca points) = m.
  Lemma tree_built s : pca_ok -> (forall j, In j s -> (j < ntri)%nat) -> exists h, KdTree.create_kd_tree pca tris verts 11 false 10 (Some 5%nat) (Some s) = (h, Ok 0%nat) /\ minv m tris verts s h.
  Proof.
    intros HP Hs. destruct (create_kd_tree_ok m tris verts (gm_ok GM) s Hs pca ltac:(pose proof m_neq; lia) HP false 10 (Some 5%nat) ltac:(right; eauto) 11 (Some s) eq_refl ltac:(lia)) as (h & E & I & _).
    exists h. split; [exact E|exact I].
  Qed.

  Lemma gm_simplex_m : forall rows : list (list Q), rows <> [] -> exists row0, get rows 0 = Ok row0 /\ In row0 rows.
  Proof. intros [|a l] H; [contradiction|]. exists a. split; [reflexivity|left; reflexivity]. Qed.

  Lemma new_core b cont rows r n tau so to d : b <> Monomial -> (r < 20)%nat -> n <> 0%nat -> (cont = true -> (1 <= r)%nat) ->
    gmap cont m r tris bs keep tau (length rows) -> rows <> [] -> (forall row, In row rows -> length row = n) ->
    (so = None \/ exists s, so = Some s /\ (forall j, In j s -> (j < ntri)%nat) /\ forall x, dom ntri m r x -> ~ In (fst x) s -> raw_row tau rows x = repeat 0 n) ->
    (to = None -> pca_ok) ->
    exists s, (match so with Some s0 => Ok s0 | None => support_of tau rows ntri (all_mi m r) end) = Ok s /\
      (polys_arg b r d s -> exists p, new_pw ksqrt tol pca b cont rows tris verts r (Some tau) bs keep so to d = Ok p /\ pw_of b cont n r p /\ w_rows p = rows /\ w_tau p = tau /\ w_supp p = s /\
        match to with Some t => w_tree p = t | None => exists h, w_tree p = (h, 0%nat) /\ minv m tris verts s h end).
  Proof.
    intros Hb Hr Hn Hc G Hne HR HS HT.
    assert (S : exists s, (match so with Some s0 => Ok s0 | None => support_of tau rows ntri (all_mi m r) end) = Ok s /\ (forall j, In j s -> (j < ntri)%nat) /\
       forall x, dom ntri m r x -> ~ In (fst x) s -> raw_row tau rows x = repeat 0 n).
    { destruct HS as [->|(s & -> & H1 & H2)]; [|exists s; auto].
      destruct (support_ok cont r tau rows G Hne) as (s & E & _ & Hs). exists s. split; [exact E|]. split; [intros j Hj; apply Hs in Hj; apply Hj|].
      intros x Hx Hout. destruct (zero_row (raw_row tau rows x)) eqn:Zr.
      - apply zero_row_spec in Zr. rewrite Zr. f_equal. apply HR, (raw_in cont r tau rows x G Hne Hx).
      - exfalso. apply Hout, Hs. destruct x as [j nu]. destruct Hx as (X1 & X2 & X3). split; [exact X1|]. exists nu. split; [apply in_all_mi; split; assumption|exact Zr]. }
    destruct S as (s & Es & Hs & Hz). exists s. split; [exact Es|]. intros HD.
    destruct (fill_ok b r d s Hb Hr Hs HD) as (d' & Ed & Hd').
    assert (T : exists t, (match to with Some t => Ok t | None => let '(h, res) := KdTree.create_kd_tree pca tris verts 11 false 10 (Some 5%nat) (Some s) in let* root := res in Ok (h, root) end) = Ok t /\
       match to with Some t0 => t = t0 | None => exists h, t = (h, 0%nat) /\ minv m tris verts s h end).
    { destruct to as [t|]; [exists t; auto|]. destruct (tree_built s (HT eq_refl) Hs) as (h & E & I). rewrite E. cbn [bind]. exists (h, 0%nat). split; [reflexivity|]. exists h. auto. }
    destruct T as (t & Et & Ht). destruct (gm_simplex_m rows Hne) as (row0 & E0 & H0). destruct vert0 as (v0 & Ev0 & Lv0).
    unfold new_pw. cbn [bind]. rewrite E0. cbn [bind]. rewrite Ev0. cbn [bind]. rewrite Lv0, generate_all_eq. cbn [bind]. rewrite Es. cbn [bind]. rewrite Et. cbn [bind]. rewrite Ed. cbn [bind].
    eexists. split; [reflexivity|]. split; [|cbn [w_rows w_tau w_supp w_tree]; repeat split; destruct to; exact Ht].
    constructor; cbn [w_b w_cont w_rows w_tris w_verts w_r w_n w_m w_tau w_bs w_keep w_supp w_tree w_polys]; auto.
  Qed.

  Lemma off_coef b cont n r p x : pw_of b cont n r p -> dom ntri m r x -> ~ In (fst x) (w_supp p) -> coef p x = repeat 0 n.
  Proof.
    intros H Hx Ho. pose proof (o_off _ _ _ _ _ H x Hx Ho) as E. unfold coef, raw_row in *. destruct (Z.eqb_spec (tau_at (w_tau p) x) (-1)); [rewrite (o_n _ _ _ _ _ H); reflexivity|exact E].
  Qed.

  (** ** Evaluation *)
  Lemma eval_ok b cont n r p j x y : pw_of b cont n r p -> (j < ntri)%nat -> affine_comb m (bary_of x) (corners j) y ->
    pw_eval p j (pt y) = Ok (map (fun k => fval p j k x) (seq 0 n)).
  Proof.
    intros H Hj HC. unfold pw_eval. destruct (comb_lengths j x y Hj HC) as [Lx Ly].
    assert (E : forall (g : nat -> Q), (forall k, (k < n)%nat -> g k = 0) -> repeat 0 n = map g (seq 0 n)).
    { intros g Hg. rewrite <- (map_const_seq (0 : Q) n 0). apply map_ext_in. intros k Hk. symmetry. apply Hg. apply in_seq in Hk. lia. }
    destruct (mem j (w_supp p)) eqn:M; cbn [negb].
    - apply mem_in in M. rewrite (o_m _ _ _ _ _ H), (o_r _ _ _ _ _ H), generate_all_eq. cbn [bind].
      destruct (o_polys _ _ _ _ _ H j M) as (ps & Eps & EB). destruct (unit_of j Hj) as (ab & phi & B & TU).
      destruct (sc_basis_all ksqrt tol m (corners j) ab phi B TU b r _ (o_mon _ _ _ _ _ H) (o_r20 _ _ _ _ _ H) (generate_all_eq m r)) as (ps' & EB' & LP & HP). rewrite EB in EB'. injection EB' as <-.
      unfold fval. rewrite (o_b _ _ _ _ _ H), (o_m _ _ _ _ _ H), (o_r _ _ _ _ _ H), (o_n _ _ _ _ _ H).
      match goal with |- foldM ?f _ _ = _ => set (stp := f) end.
      assert (Hstp : forall g k nu, nth_error (all_mi m r) k = Some nu -> stp (map g (seq 0 n)) (k, nu) = Ok (map (fun i => g i + nth i (coef p (j, nu)) 0 * bfn b m r nu x) (seq 0 n))).
      { intros g k nu Hk. unfold stp. cbn [fst snd].
        assert (Hx : dom ntri m r (j, nu)) by (apply dom_mi; [exact Hj|apply nth_error_In in Hk; exact Hk]).
        destruct (g_val (o_map _ _ _ _ _ H) (j, nu) Hx) as (v & Ev & Hv). pose proof (tau_at_eq _ _ _ Ev) as Ea. unfold tau_eq in Ev. cbn [fst snd] in Ev. rewrite Ev. cbn [bind].
        destruct (Z.eqb_spec v (-1)) as [->|Hv1].
        + f_equal. apply map_ext. intros i. unfold coef. rewrite Ea. cbn [Z.eqb Pos.eqb]. rewrite nth_repeat. ring.
        + destruct Hv as [|Hv]; [contradiction|]. rewrite row_at_ok by exact Hv. cbn [bind]. unfold dget. rewrite Eps. cbn [bind].
          destruct (HP k nu Hk) as (s & Es & Bs). unfold get. rewrite Es. cbn [bind]. destruct Hx as (X1 & X2 & X3). cbn [snd] in X2, X3.
          pose proof (basis_val b j r nu s Hj (o_mon _ _ _ _ _ H) X2 (conj X3 (o_r20 _ _ _ _ _ H)) Bs x y HC) as Cs. unfold sp_call1. rewrite Cs. cbn [bind nth_error get].
          assert (Ec : coef p (j, nu) = nth (Z.to_nat v) (w_rows p) []) by (unfold coef; rewrite Ea; destruct (Z.eqb_spec v (-1)); [contradiction|reflexivity]).
          assert (Lc : length (coef p (j, nu)) = n) by (apply (coef_length b cont n r p (j, nu) H); repeat split; assumption).
          f_equal. rewrite <- Ec. rewrite (map_nth_seq_eq (coef p (j, nu)) 0) at 1. rewrite Lc. clear. generalize (seq 0 n). intros l. induction l as [|i l IH]; [reflexivity|]. cbn [map combine]. rewrite IH. reflexivity. }
      clearbody stp.
      assert (G : forall l acc (g : nat -> Q), (forall a, In a l -> nth_error (all_mi m r) (fst a) = Some (snd a)) -> acc = map g (seq 0 n) ->
        foldM stp acc l = Ok (map (fun k => g k + ksum l (fun a => nth k (coef p (j, snd a)) 0 * bfn b m r (snd a) x)) (seq 0 n))).
      { induction l as [|[k nu] l IH]; intros acc g Hl ->.
        - cbn [foldM]. f_equal. apply map_ext. intros k. rewrite ksum_nil. ring.
        - cbn [foldM]. rewrite (Hstp g k nu (Hl (k, nu) (or_introl eq_refl))). cbn [bind]. rewrite (IH _ _ (fun a Ha => Hl a (or_intror Ha)) eq_refl).
          f_equal. apply map_ext. intros i. rewrite ksum_cons. cbn [fst snd]. ring. }
      rewrite (G _ (repeat 0 n) (fun _ => 0)).
      + f_equal. apply map_ext. intros k. rewrite (combine_seq_sum (all_mi m r) (fun nu => nth k (coef p (j, nu)) 0 * bfn b m r nu x)). ring.
      + intros [k nu] Ha. apply combine_seq_nth in Ha as [_ Ha]. rewrite Nat.sub_0_r in Ha. exact Ha.
      + apply E. reflexivity.
    - rewrite (o_n _ _ _ _ _ H). f_equal. apply E. intros k Hk. unfold fval. rewrite (o_m _ _ _ _ _ H), (o_r _ _ _ _ _ H). apply ksum_zero. intros nu Hnu.
      rewrite (off_coef _ _ _ _ _ (j, nu) H (dom_mi j r nu Hj Hnu)) by (cbn [fst]; apply mem_out; exact M). rewrite nth_repeat. ring.
  Qed.
End PW.
Arguments o_b {Q ksqrt tol m tris verts bs keep b cont n r p} _.
Arguments o_cont {Q ksqrt tol m tris verts bs keep b cont n r p} _.
Arguments o_tris {Q ksqrt tol m tris verts bs keep b cont n r p} _.
Arguments o_verts {Q ksqrt tol m tris verts bs keep b cont n r p} _.
Arguments o_r {Q ksqrt tol m tris verts bs keep b cont n r p} _.
Arguments o_n {Q ksqrt tol m tris verts bs keep b cont n r p} _.
Arguments o_m {Q ksqrt tol m tris verts bs keep b cont n r p} _.
Arguments o_bs {Q ksqrt tol m tris verts bs keep b cont n r p} _.
Arguments o_keep {Q ksqrt tol m tris verts bs keep b cont n r p} _.
Arguments o_mon {Q ksqrt tol m tris verts bs keep b cont n r p} _.
Arguments o_r20 {Q ksqrt tol m tris verts bs keep b cont n r p} _.
Arguments o_n0 {Q ksqrt tol m tris verts bs keep b cont n r p} _.
Arguments o_c {Q ksqrt tol m tris verts bs keep b cont n r p} _.
Arguments o_map {Q ksqrt tol m tris verts bs keep b cont n r p} _.
Arguments o_ne {Q ksqrt tol m tris verts bs keep b cont n r p} _.
Arguments o_rows {Q ksqrt tol m tris verts bs keep b cont n r p} _.
Arguments o_supp {Q ksqrt tol m tris verts bs keep b cont n r p} _.
Arguments o_off {Q ksqrt tol m tris verts bs keep b cont n r p} _.
Arguments o_polys {Q ksqrt tol m tris verts bs keep b cont n r p} _.
Arguments gm_mesh {Q m tris verts bs} _.
Arguments gm_ok {Q m tris verts bs} _.
Arguments gm_simplex {Q m tris verts bs} _.
Arguments gm_rep {Q m tris verts bs} _.
Arguments gm_bs {Q m tris verts bs} _.
