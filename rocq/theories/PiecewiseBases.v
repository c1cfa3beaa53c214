(** Piecewise polynomials: bases and dual bases. *)
From Verif Require PermFacts KdTree.
From Verif Require Import KdFacts KdProps KdMesh Prop_LocalToGlobal.
From Verif Require Import Base MultiIndex MultiIndexFacts MultiCapFacts MultiIndexCache Fld FldInst CodeGen CodeGenFacts LinSolve Det Linalg VecFacts Simplicial SimplexGeo SimplexFacts SimplexMetric SimplexInside AffineFacts MultiCoef MultiCoefFacts LagrangeCache Unisolv Poly PolyFacts LagFacts PolyEval PolyOps PolyOpsB PolyDeriv PolyObj PolyPow PolyCalls IntegralCache Integrate IntFacts HasInt Bases BasesFacts BasesCalls BasesMore DerivFacts SubstFacts PolySimplex PolySimplexFacts PolySimplexCalls PolySimplexMul PolySimplexInt.
From Verif Require Import LocalToGlobal LocalToGlobalFacts LocalToGlobalSim LocalToGlobalProps FaceFacts FaceValues PiecewisePoly PiecewiseMap PiecewiseFacts PiecewiseOps PiecewiseOps2 PiecewiseOps3 PiecewiseCall PiecewiseWeak.
From Coq Require Import Field_theory Field Permutation.

Section PWBases.
  Context {Q : ofld} (ksqrt : Q -> Q) (tol eps : Q) (veq : list (list Q) -> list (list Q) -> bool) (pca : list (list Q) -> list Q).
  Add Field Kfield68 : (kth Q).
  Local Open Scope fld_scope.
  Notation pt := SimplexGeo.pt.
  Notation spoly_of := (spoly_of ksqrt tol).
  Context (m : nat) (tris : list (list nat)) (verts : list (list Q)) (bs : option (list (list nat))) (keep : bool).
  Notation ntri := (length tris).
  Hypothesis GM : good_mesh m tris verts bs.
  Notation corners := (corners_of tris verts).
  Notation pw_of := (pw_of ksqrt tol m tris verts bs keep).
  Notation unit_of := (unit_of ksqrt tol m tris verts bs GM).
  Notation spoly_val := (spoly_val ksqrt tol m tris verts bs GM).
  Notation point_of := (point_of m tris verts bs GM).
  Notation tri_verts := (tri_verts m tris verts bs GM).

  (** the map the function is given, or generates *)
  Definition map_is cont r (map : option (tau_fn * Z)) tau N : Prop := gmap cont m r tris bs keep tau N /\ (map = None \/ map = Some (tau, Z.of_nat N)).
  Lemma map_arg_ok cont r map tau N : map_is cont r map tau N -> map_arg cont tris r map bs keep = Ok (tau, Z.of_nat N).
  Proof. intros [G [->| ->]]; [apply (g_gen G)|reflexivity]. Qed.
  Definition unit_rows (N i : nat) : list (list Q) := upd (repeat [0] N) i [1].
  Theorem basis_fn_ok b cont r i map tau N to d : b <> Monomial -> (r < 20)%nat -> (cont = true -> (1 <= r)%nat) -> map_is cont r map tau N -> (i < N)%nat -> (to = None -> pca_ok pca m) ->
    (d = None \/ exists dd, d = Some dd /\ forall j, (j < ntri)%nat -> exists ps, dfind j dd = Some ps /\ sp_basis_all ksqrt tol b r (corners j) = Ok ps) ->
    exists p, pw_basis_fn ksqrt tol pca b cont tris verts r i map bs keep to d = Ok p /\ pw_of b cont 1 r p /\ w_rows p = unit_rows N i /\ w_tau p = tau /\ tree_made m tris verts to (w_supp p) p.
  Proof.
    intros Hb Hr Hc HM Hi HP HD. unfold pw_basis_fn. rewrite (map_arg_ok cont r map tau N HM). cbn [bind fst snd]. rewrite Nat2Z.id. unfold set. rewrite repeat_length. replace (i <? N)%nat with true by (symmetry; apply Nat.ltb_lt; exact Hi). cbn [bind].
    fold (unit_rows N i). assert (L : length (unit_rows N i) = N) by (unfold unit_rows; rewrite upd_length; apply repeat_length). destruct HM as [G _]. rewrite <- L in G.
    assert (HR : forall row, In row (unit_rows N i) -> length row = 1%nat).
    { intros row Hrow. apply In_nth with (d := []) in Hrow as (k & Hk & <-). unfold unit_rows in *. rewrite upd_length, repeat_length in Hk. destruct (Nat.eq_dec k i) as [->|Hne]; [rewrite nth_upd_same by (rewrite repeat_length; exact Hi); reflexivity|]. rewrite nth_upd_other by congruence. rewrite (nth_indep _ [] [0]) by (rewrite repeat_length; exact Hk). rewrite nth_repeat. reflexivity. }
    destruct (new_core ksqrt tol pca m tris verts bs keep GM b cont (unit_rows N i) r 1 tau None to d Hb Hr) as (s & Es & HPw); auto.
    - intros E. rewrite E in L. cbn in L. lia.
    - destruct HPw as (p & Ep & Op & Wr & Wt & Ws & Wtr).
      + destruct HD as [->|(dd & -> & HD)]; [exact I|]. cbn [polys_arg]. assert (Hne : unit_rows N i <> []) by (intros E; rewrite E in L; cbn in L; lia). intros j Hj. apply HD. destruct (support_ok m tris bs keep cont r tau (unit_rows N i) G Hne) as (s0 & E0 & _ & H0). rewrite E0 in Es. injection Es as ->. apply H0 in Hj. apply Hj.
      + exists p. rewrite Ws. repeat (split; [assumption|]). exact Wtr.
  Qed.
  Lemma dfind_map (f : nat -> list (spoly Q)) l j : In j l -> dfind j (map (fun j => (j, f j)) l) = Some (f j).
  Proof. induction l as [|a l IH]; intros Hj; [destruct Hj|]. cbn [map dfind]. destruct (Nat.eqb_spec j a) as [->|Hne]; [reflexivity|]. apply IH. destruct Hj as [->|Hj]; [contradiction|exact Hj]. Qed.
  Theorem basis_ok b cont r map tau N to : b <> Monomial -> (r < 20)%nat -> (cont = true -> (1 <= r)%nat) -> map_is cont r map tau N -> (to = None -> pca_ok pca m) ->
    exists ps, pw_basis ksqrt tol pca b cont tris verts r map bs keep to = Ok ps /\ length ps = N /\
      forall i, (i < N)%nat -> exists p, nth_error ps i = Some p /\ pw_of b cont 1 r p /\ w_rows p = unit_rows N i /\ w_tau p = tau /\ tree_made m tris verts to (w_supp p) p.
  Proof.
    intros Hb Hr Hc HM HP. unfold pw_basis. rewrite (map_arg_ok cont r map tau N HM). cbn [bind fst snd]. rewrite Nat2Z.id.
    pose (B := fun j => match sp_basis_all ksqrt tol b r (corners j) with Ok ps => ps | Err _ => [] end).
    assert (HB : forall j, (j < ntri)%nat -> sp_basis_all ksqrt tol b r (corners j) = Ok (B j)).
    { intros j Hj. destruct (unit_of j Hj) as (ab & phi & BB & TU). destruct (sc_basis_all ksqrt tol m (corners j) ab phi BB TU b r (all_mi m r) Hb Hr (generate_all_eq m r)) as (ps & E & _). unfold B. rewrite E. reflexivity. }
    rewrite (mapM_ok _ (fun j => (j, B j))) by (intros j Hj; apply in_seq in Hj; rewrite (tri_verts j) by lia; cbn [bind]; rewrite (HB j) by lia; reflexivity). cbn [bind].
    set (dd := List.map (fun j => (j, B j)) (seq 0 ntri)).
    assert (HN : forall i, (i < N)%nat -> exists p, pw_basis_fn ksqrt tol pca b cont tris verts r i (Some (tau, Z.of_nat N)) bs keep to (Some dd) = Ok p /\ pw_of b cont 1 r p /\ w_rows p = unit_rows N i /\ w_tau p = tau /\ tree_made m tris verts to (w_supp p) p).
    { intros i Hi. apply basis_fn_ok; auto; [split; [apply HM|right; reflexivity]|]. right. exists dd. split; [reflexivity|]. intros j Hj. exists (B j). split; [|apply HB; exact Hj]. apply (dfind_map B). apply in_seq. lia. }
    destruct (forall2_exists (fun i p => pw_basis_fn ksqrt tol pca b cont tris verts r i (Some (tau, Z.of_nat N)) bs keep to (Some dd) = Ok p) (seq 0 N)) as (ps & Hps); [intros i Hi; apply in_seq in Hi; destruct (HN i) as (p & E & _); [lia|exists p; exact E]|].
    exists ps. split.
    { clear HN. revert Hps. generalize (seq 0 N). intros l Hps. induction Hps as [|i p l ps E Hps IH]; [reflexivity|]. cbn [mapM]. rewrite E. cbn [bind]. rewrite IH. reflexivity. }
    split; [apply forall2_len in Hps; rewrite seq_length in Hps; congruence|].
    intros i Hi. destruct (HN i Hi) as (p & E & HPp). exists p. split; [|exact HPp]. assert (HS : nth_error (seq 0 N) i = Some i) by (rewrite (nth_error_nth' _ 0%nat) by (rewrite seq_length; exact Hi); rewrite seq_nth by exact Hi; reflexivity).
    clear -Hps HS E. revert HS. generalize i at 1 3. revert Hps. generalize (seq 0 N). intros l Hps. induction Hps as [|a q l ps Ea Hps IH]; intros k HS; [destruct k; discriminate|]. destruct k as [|k]; cbn [nth_error] in *; [injection HS as ->; congruence|apply IH; exact HS].
  Qed.

  (** the expansion in the basis *)
  Lemma unit_rows_nth N i v : (i < N)%nat -> (v < N)%nat -> nth v (unit_rows N i) [] = [if Nat.eq_dec v i then 1 else 0].
  Proof.
    intros Hi Hv. unfold unit_rows. destruct (Nat.eq_dec v i) as [->|Hne]; [apply nth_upd_same; rewrite repeat_length; exact Hi|]. rewrite nth_upd_other by congruence. rewrite (nth_indep _ [] [0]) by (rewrite repeat_length; exact Hv). apply nth_repeat.
  Qed.
  Theorem expansion b cont n r p N (E : nat -> pw Q) j k x : pw_of b cont n r p -> N = length (w_rows p) -> (forall i, (i < N)%nat -> pw_of b cont 1 r (E i) /\ w_rows (E i) = unit_rows N i /\ w_tau (E i) = w_tau p) -> (j < ntri)%nat ->
    fval p j k x = ksum (seq 0 N) (fun i => nth k (nth i (w_rows p) []) 0 * fval (E i) j 0 x).
  Proof.
    intros H EN HE Hj. unfold fval at 1. rewrite (o_b H), (o_m H), (o_r H).
    transitivity (ksum (seq 0 N) (fun i => ksum (all_mi m r) (fun nu => nth k (nth i (w_rows p) []) 0 * (nth 0 (coef (E i) (j, nu)) 0 * bfn b m r nu x)))).
    2:{ apply ksum_ext. intros i Hi. apply in_seq in Hi. destruct (HE i) as (H1 & _ & _); [lia|]. unfold fval. rewrite (o_b H1), (o_m H1), (o_r H1). apply ksum_scale_l. }
    rewrite ksum_swap. apply ksum_ext. intros nu Hnu. pose proof (dom_mi m tris j r nu Hj Hnu) as Dx. destruct (g_val (o_map H) _ Dx) as (v & Ev & Hv).
    assert (EC : forall i, (i < N)%nat -> nth 0 (coef (E i) (j, nu)) 0 = if Z.eq_dec v (Z.of_nat i) then 1 else 0).
    { intros i Hi. destruct (HE i Hi) as (H1 & H2 & H3). unfold coef. rewrite H3, (tau_at_eq _ _ _ Ev), (o_n H1). destruct (Z.eqb_spec v (-1)) as [->|Hne]; [destruct (Z.eq_dec (-1) (Z.of_nat i)); [lia|reflexivity]|]. destruct Hv as [|Hv]; [contradiction|].
      rewrite H2, unit_rows_nth by lia. cbn [nth]. destruct (Nat.eq_dec (Z.to_nat v) i), (Z.eq_dec v (Z.of_nat i)); try reflexivity; lia. }
    rewrite (ksum_ext _ (fun i => if Z.eq_dec v (Z.of_nat i) then nth k (nth i (w_rows p) []) 0 * bfn b m r nu x else 0)) by (intros i Hi; apply in_seq in Hi; rewrite EC by lia; destruct (Z.eq_dec v (Z.of_nat i)); ring).
    unfold coef. rewrite (tau_at_eq _ _ _ Ev), (o_n H). destruct (Z.eqb_spec v (-1)) as [->|Hne].
    - rewrite nth_repeat. rewrite ksum_zero; [ring|]. intros i _. destruct (Z.eq_dec (-1) (Z.of_nat i)); [lia|reflexivity].
    - destruct Hv as [|Hv]; [contradiction|]. rewrite (ksum_ext _ (fun i => if Nat.eq_dec i (Z.to_nat v) then nth k (nth i (w_rows p) []) 0 * bfn b m r nu x else 0)) by (intros i _; destruct (Z.eq_dec v (Z.of_nat i)), (Nat.eq_dec i (Z.to_nat v)); try reflexivity; lia).
      symmetry. apply (ksum_delta Nat.eq_dec (fun i => nth k (nth i (w_rows p) []) 0 * bfn b m r nu x)); [apply seq_NoDup|apply in_seq; lia].
  Qed.

  (** ** Dual bases *)
  Lemma restrict_raw b cont n r p j : pw_of b cont n r p -> (j < ntri)%nat -> exists s, pw_restrict ksqrt tol p j = Ok s /\ spoly_of b (corners j) n r s /\
    forall k, (k < n)%nat -> nth k (sp_cols s) [] = map (fun nu => nth k (raw_row (w_tau p) (w_rows p) (j, nu)) 0) (all_mi m r).
  Proof.
    intros H Hj. unfold pw_restrict. rewrite (o_tris H), (o_verts H). replace (j <? ntri)%nat with true by (symmetry; apply Nat.ltb_lt; exact Hj). cbn [assert_ bind].
    rewrite (tri_verts j Hj). cbn [bind]. destruct (unit_of j Hj) as (ab & phi & B & TU). pose proof (o_mon H) as Hb. pose proof (o_r20 H) as Hr. pose proof (o_n0 H) as Hn.
    destruct (mem j (w_supp p)) eqn:M; cbn [negb].
    - rewrite (o_m H), (o_r H), generate_all_eq. cbn [bind].
      rewrite (mapM_ok _ (fun nu => raw_row (w_tau p) (w_rows p) (j, nu))).
      2:{ intros nu Hnu. pose proof (dom_mi m tris j r nu Hj Hnu) as Dx. destruct (raw_at m tris bs keep cont r (w_tau p) (w_rows p) (j, nu) (o_map H) (o_ne H) Dx) as (v & Ev & Rv). unfold tau_eq in Ev. cbn [fst snd] in Ev. rewrite Ev. cbn [bind]. exact Rv. }
      cbn [bind]. rewrite (o_b H), (o_n H).
      set (cols := cols_of_rows n (map (fun nu => raw_row (w_tau p) (w_rows p) (j, nu)) (all_mi m r))).
      assert (EC : cols = map (fun k => map (fun nu => nth k (raw_row (w_tau p) (w_rows p) (j, nu)) 0) (all_mi m r)) (seq 0 n)) by (unfold cols, cols_of_rows; apply map_ext; intros k; rewrite map_map; reflexivity).
      destruct (sc_new ksqrt tol m (corners j) ab phi B TU b cols r Hb) as (s & Es & Hs & Cs).
      + rewrite EC. destruct n; [contradiction|discriminate].
      + intros c Hc. rewrite EC in Hc. apply in_map_iff in Hc as (k & <- & _). apply map_all_mi_length.
      + exact Hr.
      + exists s. split; [exact Es|]. assert (LC : length cols = n) by (rewrite EC, map_length, seq_length; reflexivity). rewrite LC in Hs. split; [exact Hs|]. intros k Hk. rewrite Cs, EC. rewrite nth_mapseq' by exact Hk. reflexivity.
    - apply mem_out in M. rewrite (o_b H), (o_r H), (o_n H). destruct (sc_zero ksqrt tol m (corners j) ab phi B TU b r n Hb Hn Hr) as (s & Es & Hs & Zs). exists s. split; [exact Es|]. split; [exact Hs|].
      intros k Hk. destruct (spoly_val b j n r s Hj Hs) as (L1 & L2 & _). apply (val_unique b m r); [apply L2, nth_In; lia|apply map_all_mi_length|]. intros x Hx. rewrite <- nth_map_val by lia.
      pose proof (sp_vals ksqrt tol m tris verts bs GM b j n r s x Hj Hx Hs) as E. rewrite Zs in E by apply point_length. injection E as E. rewrite <- E, nth_repeat. rewrite val_bfn by apply map_all_mi_length. symmetry. apply ksum_zero. intros nu Hnu. pose proof (dom_mi m tris j r nu Hj Hnu) as Dx.
      apply in_all_mi in Hnu as [M1 M2]. rewrite (cf_map m r (fun nu => nth k (raw_row (w_tau p) (w_rows p) (j, nu)) 0)) by assumption. rewrite (o_off H (j, nu) Dx M), nth_repeat. ring.
  Qed.
  Context (pick : list (nat * list nat) -> nat * list nat).
  Hypothesis PICK : forall s, s <> [] -> In (pick s) s.
  Lemma local_of_ok cont r tau N i : (cont = true -> (1 <= r)%nat) -> gmap cont m r tris bs keep tau N -> (i < N)%nat ->
    exists x, local_of pick cont tris verts r (tau, Z.of_nat N) i = Ok x /\ dom ntri m r x /\ tau_eq tau x (Z.of_nat i).
  Proof.
    intros Hc G Hi. unfold local_of. destruct (vert0 m tris verts bs GM) as (v0 & -> & Lv). cbn [bind fst snd]. rewrite Lv. pose proof (g_gen G) as EG. unfold gen_map in EG. destruct cont.
    - destruct (C53_preimage true m r tris bs keep (gm_mesh GM) (gm_bs GM) Hc) as (tau' & N' & nonb & pre & E & E2 & HP). rewrite E in EG. cbn [bind fst] in EG. injection EG as -> ->. rewrite E2. cbn [bind].
      destruct (HP [Z.of_nat i]) as (s & Es & _ & Hs); [intros z [<-|[]]; lia|]. rewrite Es. cbn [bind]. destruct (g_onto G (Z.of_nat i)) as (x & Dx & Ex); [lia|]. assert (Hin : In x s) by (apply Hs; split; [exact Dx|exists (Z.of_nat i); split; [left; reflexivity|exact Ex]]).
      destruct s as [|a s]; [destruct Hin|]. cbn [length Nat.ltb Nat.leb assert_ bind]. exists (pick (a :: s)). split; [reflexivity|]. destruct (proj1 (Hs (pick (a :: s))) (PICK (a :: s) ltac:(discriminate))) as [D (z & [<-|[]] & Ez)]. split; assumption.
    - destruct (C35_inverse m r tris bs keep (gm_mesh GM) (gm_bs GM)) as (tau' & N' & nonb & inv & E & E2 & _ & HI & _). rewrite E in EG. cbn [bind fst] in EG. injection EG as -> ->. rewrite E2. cbn [bind]. destruct (HI (Z.of_nat i)) as (x & Ex & Dx & Tx); [lia|]. exists x. auto.
  Qed.
  Lemma raw_at_nat cont n r b p x i : pw_of b cont n r p -> tau_eq (w_tau p) x (Z.of_nat i) -> raw_row (w_tau p) (w_rows p) x = nth i (w_rows p) [].
  Proof. intros H Ex. unfold raw_row. rewrite (tau_at_eq _ _ _ Ex). destruct (Z.eqb_spec (Z.of_nat i) (-1)); [lia|]. rewrite Nat2Z.id. reflexivity. Qed.
  Theorem dual_fn_ok b cont r map tau N i : b <> Monomial -> (cont = true -> (1 <= r)%nat) -> map_is cont r map tau N -> (i < N)%nat -> exists f, dual_pw_basis_fn ksqrt tol veq pick b cont tris verts r i map bs keep = Ok f /\
    forall n p, pw_of b cont n r p -> (b = Bernstein -> n = 1%nat /\ (forall w, veq w w = true) /\ (forall j, (j < ntri)%nat -> klt (0 : Q) (det m (edge (corners j)))) /\ (2 * r < 20)%nat) -> f p = Ok (nth i (w_rows p) []).
  Proof.
    intros Hb Hc HM Hi. unfold dual_pw_basis_fn. rewrite (map_arg_ok cont r map tau N HM). cbn [bind]. destruct HM as [G _]. destruct (local_of_ok cont r tau N i Hc G Hi) as ([j nu] & -> & Dx & Ex). cbn [bind fst snd]. pose proof Dx as (Hj & M1 & M2). cbn [fst snd] in Hj, M1, M2. rewrite (tri_verts j Hj). cbn [bind].
    destruct (unit_of j Hj) as (ab & phi & B & TU). destruct b; [contradiction| |].
    - eexists. split; [reflexivity|]. intros n p H HBB. destruct (HBB eq_refl) as (-> & HV & HP & H2). cbn beta. destruct (same_maps m tris bs keep cont r _ _ _ _ (o_map H) G) as [Et EN]. rewrite <- Et in Ex.
      destruct (restrict_raw Bernstein cont 1 r p j H Hj) as (s & -> & Hs & Cs). cbn [bind]. destruct (spoly_val Bernstein j 1 r s Hj Hs) as (L1 & _). destruct (sp_cols s) as [|c [|c' t]] eqn:ES; try discriminate.
      rewrite (dual_simplex_ok ksqrt tol veq m (corners j) ab phi B TU nu r s c HV (HP j Hj) M1 M2 H2 Hs ES). f_equal. specialize (Cs 0%nat ltac:(lia)). cbn [nth] in Cs. rewrite Cs. rewrite (cf_map m r (fun nu => nth 0 (raw_row (w_tau p) (w_rows p) (j, nu)) 0)) by assumption. rewrite (raw_at_nat cont 1 r Bernstein p _ i H Ex).
      assert (LR : length (nth i (w_rows p) []) = 1%nat) by (apply (o_rows H), nth_In; lia). destruct (nth i (w_rows p) []) as [|a [|a' t]]; try discriminate. reflexivity.
    - rewrite (spoint ksqrt tol m (corners j) ab phi B TU nu r M1). cbn [bind]. eexists. split; [reflexivity|]. intros n p H _. cbn beta. destruct (same_maps m tris bs keep cont r _ _ _ _ (o_map H) G) as [Et EN]. rewrite <- Et in Ex.
      assert (LN : length (generate_lagrange_point (F := Q) m r nu) = m) by (apply lagrange_point_length; exact M1). rewrite (eval_ok ksqrt tol m tris verts bs keep GM Lagrange cont n r p j _ _ H Hj (point_of j _ Hj LN)). f_equal.
      apply (list_nth_eq _ _ n); [rewrite map_length, seq_length; reflexivity|apply (o_rows H), nth_In; lia|]. intros k Hk. rewrite nth_mapseq' by exact Hk. destruct (ccols_ok ksqrt tol m tris verts bs keep Lagrange cont n r p j H) as (C1 & C2 & C3). rewrite <- (C3 k _ Hk). cbn [val]. rewrite lval_nodal by (auto; apply C2, nth_In; lia).
      unfold ccols. rewrite (o_m H), (o_r H), (o_n H), nth_mapseq' by exact Hk. rewrite (cf_map m r (fun nu => nth k (coef p (j, nu)) 0)) by assumption. unfold coef. rewrite (tau_at_eq _ _ _ Ex). destruct (Z.eqb_spec (Z.of_nat i) (-1)); [lia|]. rewrite Nat2Z.id. reflexivity.
  Qed.
  Theorem dual_ok b cont r map tau N : b <> Monomial -> (cont = true -> (1 <= r)%nat) -> map_is cont r map tau N -> exists fs, dual_pw_basis ksqrt tol veq pick b cont tris verts r map bs keep = Ok fs /\ length fs = N /\
    forall i, (i < N)%nat -> exists f, nth_error fs i = Some f /\
    forall n p, pw_of b cont n r p -> (b = Bernstein -> n = 1%nat /\ (forall w, veq w w = true) /\ (forall j, (j < ntri)%nat -> klt (0 : Q) (det m (edge (corners j)))) /\ (2 * r < 20)%nat) -> f p = Ok (nth i (w_rows p) []).
  Proof.
    intros Hb Hc HM. unfold dual_pw_basis. rewrite (map_arg_ok cont r map tau N HM). cbn [bind snd]. rewrite Nat2Z.id. assert (HM' : map_is cont r (Some (tau, Z.of_nat N)) tau N) by (split; [apply HM|right; reflexivity]).
    pose (P := fun i (f : pw Q -> result (list Q)) => dual_pw_basis_fn ksqrt tol veq pick b cont tris verts r i (Some (tau, Z.of_nat N)) bs keep = Ok f /\
      forall n p, pw_of b cont n r p -> (b = Bernstein -> n = 1%nat /\ (forall w, veq w w = true) /\ (forall j, (j < ntri)%nat -> klt (0 : Q) (det m (edge (corners j)))) /\ (2 * r < 20)%nat) -> f p = Ok (nth i (w_rows p) [])).
    destruct (forall2_exists P (seq 0 N)) as (fs & Hfs); [intros i Hi; apply in_seq in Hi; apply (dual_fn_ok b cont r (Some (tau, Z.of_nat N)) tau N i); auto; lia|].
    exists fs. split.
    { revert Hfs. generalize (seq 0 N). intros l Hfs. induction Hfs as [|i p l ps [E _] Hps IH]; [reflexivity|]. cbn [mapM]. rewrite E. cbn [bind]. rewrite IH. reflexivity. }
    split; [apply forall2_len in Hfs; rewrite seq_length in Hfs; congruence|].
    intros i Hi. assert (HS : nth_error (seq 0 N) i = Some i) by (rewrite (nth_error_nth' _ 0%nat) by (rewrite seq_length; exact Hi); rewrite seq_nth by exact Hi; reflexivity).
    assert (HE : exists f, nth_error fs i = Some f /\ P i f).
    { clear -Hfs HS. revert HS. generalize i at 1 3. revert Hfs. generalize (seq 0 N). intros l Hps. induction Hps as [|a q l ps Ea Hps IH]; intros k HS; [destruct k; discriminate|]. destruct k as [|k]; cbn [nth_error] in *; [injection HS as ->; exists q; auto|apply IH; exact HS]. }
    destruct HE as (f & E1 & _ & E2). exists f. split; [exact E1|exact E2].
  Qed.
End PWBases.
