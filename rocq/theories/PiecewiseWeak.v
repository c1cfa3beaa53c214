(** Piecewise polynomials: the weak partial derivative. *)
From Verif Require PermFacts KdTree.
From Verif Require Import KdFacts KdProps KdMesh Prop_LocalToGlobal.
From Verif Require Import Base MultiIndex MultiIndexFacts MultiCapFacts MultiIndexCache Fld FldInst CodeGen CodeGenFacts LinSolve Det Linalg VecFacts Simplicial SimplexGeo SimplexFacts SimplexMetric SimplexInside AffineFacts MultiCoef MultiCoefFacts LagrangeCache Unisolv Poly PolyFacts LagFacts PolyEval PolyOps PolyOpsB PolyDeriv PolyObj PolyPow PolyCalls IntegralCache Integrate IntFacts HasInt Bases BasesFacts BasesCalls BasesMore DerivFacts SubstFacts PolySimplex PolySimplexFacts PolySimplexCalls PolySimplexMul PolySimplexInt.
From Verif Require Import LocalToGlobal LocalToGlobalFacts LocalToGlobalSim LocalToGlobalProps FaceFacts FaceValues PiecewisePoly PiecewiseMap PiecewiseFacts PiecewiseOps PiecewiseOps2 PiecewiseOps3 PiecewiseCall.
From Coq Require Import Field_theory Field Permutation.

Section PWWeak.
  Context {Q : ofld} (ksqrt : Q -> Q) (tol eps : Q) (veq : list (list Q) -> list (list Q) -> bool) (pca : list (list Q) -> list Q).
  Add Field Kfield67 : (kth Q).
  Local Open Scope fld_scope.
  Notation pt := SimplexGeo.pt.
  Notation spoly_of := (spoly_of ksqrt tol).
  Context (m : nat) (tris : list (list nat)) (verts : list (list Q)) (bs : option (list (list nat))) (keep : bool).
  Notation ntri := (length tris).
  Hypothesis GM : good_mesh m tris verts bs.
  Notation corners := (corners_of tris verts).
  Notation pw_of := (pw_of ksqrt tol m tris verts bs keep).
  Notation full := (full bs keep).
  Notation unit_of := (unit_of ksqrt tol m tris verts bs GM).
  Notation spoly_val := (spoly_val ksqrt tol m tris verts bs GM).
  Notation point_of := (point_of m tris verts bs GM).
  Notation tri_verts := (tri_verts m tris verts bs GM).
  Notation sp_vals := (sp_vals ksqrt tol m tris verts bs GM).

  (** component [k] of [p] on simplex [j] *)
  Definition ecomp (p : pw Q) (j k : nat) (y : list Q) : Q := match pw_eval p j (pt y) with Ok v => nth k v 0 | Err _ => 0 end.
  Lemma ecomp_restrict b cont n r p j k y s : full -> pw_of b cont n r p -> (j < ntri)%nat -> (k < n)%nat -> length y = m -> pw_restrict ksqrt tol p j = Ok s -> ecomp p j k y = scomponent s k y.
  Proof.
    intros HF H Hj Hk Hy Es. destruct (restrict_ok ksqrt tol m tris verts bs keep GM b cont n r p j HF H Hj) as (s' & E' & Hs & Vs). rewrite Es in E'. injection E' as <-.
    destruct (eval_at ksqrt tol m tris verts bs keep GM j y Hj Hy) as (x & Hx & HC & HE). unfold ecomp, scomponent. rewrite (HE _ _ _ _ _ H). destruct (spoly_val b j n r s Hj Hs) as (L1 & _ & _ & _ & HV). rewrite (HV x y HC). rewrite nth_mapseq', nth_map_val by lia. symmetry. apply Vs; assumption.
  Qed.
  Lemma scomp_val b j n r s k x : (j < ntri)%nat -> length x = m -> spoly_of b (corners j) n r s -> (k < n)%nat -> scomponent s k (point m (corners j) x) = val b m r (nth k (sp_cols s) []) x.
  Proof. intros Hj Hx Hs Hk. unfold scomponent. rewrite (sp_vals b j n r s x Hj Hx Hs). destruct (spoly_val b j n r s Hj Hs) as (L1 & _). apply nth_map_val. lia. Qed.
  Lemma deriv_col b j n r s d k s' d' k' : (j < ntri)%nat -> spoly_of b (corners j) n (r - 1) d -> spoly_of b (corners j) 1 (r - 1) d' -> (k < n)%nat -> k' = 0%nat ->
    (forall y, length y = m -> exists i, is_pderiv (scomponent s k) i y (scomponent d k y) /\ is_pderiv (scomponent s' k') i y (scomponent d' k' y)) ->
    (forall y, length y = m -> scomponent s k y = scomponent s' k' y) -> nth k (sp_cols d) [] = nth 0 (sp_cols d') [].
  Proof.
    intros Hj Hd Hd' Hk -> HD HE. destruct (spoly_val b j n _ d Hj Hd) as (L1 & L2 & _). destruct (spoly_val b j 1 _ d' Hj Hd') as (L1' & L2' & _).
    apply (val_unique b m (r - 1)); [apply L2, nth_In; lia|apply L2', nth_In; lia|]. intros x Hx. rewrite <- (scomp_val b j n (r - 1) d k x), <- (scomp_val b j 1 (r - 1) d' 0 x) by (assumption || lia).
    destruct (HD (point m (corners j) x) (point_length _ _ _)) as (i & D1 & D2). apply (pderiv_unique (scomponent s k) i (point m (corners j) x)); [exact D1|]. apply (pderiv_ext (scomponent s' 0%nat) _ i _ _ _ m (point_length _ _ _)) with (3 := D2); [|reflexivity]. intros y Hy. symmetry. apply HE. exact Hy.
  Qed.
  Lemma counted_fold {St} (f : St -> list nat -> result St) (g : St * nat -> list nat -> result (St * nat)) mis :
    (forall st l nu, nth_error mis l = Some nu -> g (st, l) nu = (let* st' := f st nu in Ok (st', S l))) ->
    forall l pre st, mis = pre ++ l -> (let* r := foldM g (st, length pre) l in Ok (fst r)) = foldM f st l.
  Proof.
    intros Hg. induction l as [|nu l IH]; intros pre st Em; [reflexivity|]. cbn [foldM]. rewrite (Hg st (length pre) nu) by (rewrite Em, nth_error_app2, Nat.sub_diag by lia; reflexivity).
    destruct (f st nu) as [st'|e]; [|reflexivity]. cbn [bind]. rewrite <- (IH (pre ++ [nu]) st') by (rewrite <- app_assoc; exact Em). rewrite app_length. cbn [length]. rewrite Nat.add_1_r. reflexivity.
  Qed.

  Theorem weak_ok b cont n r p i : (forall w, veq w w = true) -> full -> pw_of b cont n r p -> (i < m)%nat -> (b = Bernstein -> (forall j, (j < ntri)%nat -> klt (0 : Q) (det m (edge (corners j)))) /\ (2 * (r - 1) < 20)%nat) ->
    exists d, weak_partial_derivative ksqrt tol veq pca p i = Ok d /\ pw_of b false n (r - 1) d /\ w_supp d = w_supp p /\ w_tree d = w_tree p /\
      forall j k y, (j < ntri)%nat -> (k < n)%nat -> length y = m -> is_pderiv (ecomp p j k) i y (ecomp d j k y).
  Proof.
    intros HV HF H Hi HB. unfold weak_partial_derivative. rewrite (o_r H), (o_tris H), (o_bs H), (o_keep H), (o_m H), (o_n H), (o_b H), (o_verts H). set (s := (r - 1)%nat).
    pose (T := fun j => let* pj := pw_restrict ksqrt tol p j in sp_partial_derivative ksqrt tol veq pj i). pose (cols := fun j => match T j with Ok d => sp_cols d | Err _ => [] end). pose (G := fun j k x => val b m s (nth k (cols j) []) x).
    assert (HT : forall j, (j < ntri)%nat -> exists pj d, pw_restrict ksqrt tol p j = Ok pj /\ spoly_of b (corners j) n r pj /\ sp_partial_derivative ksqrt tol veq pj i = Ok d /\ spoly_of b (corners j) n s d /\ cols j = sp_cols d /\
       forall k y, (k < n)%nat -> length y = m -> is_pderiv (scomponent pj k) i y (scomponent d k y)).
    { intros j Hj. destruct (restrict_ok ksqrt tol m tris verts bs keep GM b cont n r p j HF H Hj) as (pj & Ep & Hp & _). destruct (unit_of j Hj) as (ab & phi & B & TU). destruct (sc_pderiv ksqrt tol veq m (corners j) ab phi B TU b n r pj i HV Hp Hi) as (d & Ed & Hd & Vd).
      exists pj, d. repeat (split; [assumption|]). split; [unfold cols, T; rewrite Ep; cbn [bind]; rewrite Ed; reflexivity|]. intros k y Hk Hy. apply Vd; assumption. }
    pose (stp := fun (tau : tau_fn) (rows : list (list Q)) (j : nat) =>
      let* pj := pw_restrict ksqrt tol p j in
      let* vs := tri_vertices tris verts j in
      match b with
      | Lagrange =>
        foldM (fun rows nu =>
          let* k := tau (Z.of_nat j) nu in
          if (k =? -1)%Z then Ok rows
          else
            let* x := generate_lagrange_point_simplex vs s nu in
            let* d := sp_partial_derivative ksqrt tol veq pj i in
            let* v := sp_call d x in
            row_set rows k v) rows (all_mi m s)
      | _ =>
        let* st := foldM (fun st nu =>
          let '(rows, l) := st in
          let* k := tau (Z.of_nat j) nu in
          if (k =? -1)%Z then Ok st
          else
            let* mu := get (all_mi m s) l in
            let* v := (if (n =? 1)%nat then
                         let* d := sp_partial_derivative ksqrt tol veq pj i in
                         let* v := dual_bernstein_basis_fn_simplex ksqrt tol veq mu s vs d in
                         Ok [nth 0 v 0]
                       else
                         mapM (fun n =>
                           let* pn := sp_getitem ksqrt tol pj n in
                           let* d := sp_partial_derivative ksqrt tol veq pn i in
                           let* v := dual_bernstein_basis_fn_simplex ksqrt tol veq mu s vs d in
                           Ok (nth 0 v 0)) (seq 0 n)) in
            let* rows := row_set rows k v in
            Ok (rows, S l)) (rows, O) (all_mi m s) in
        Ok (fst st)
      end).
    destruct (build_map ksqrt tol veq pca m tris verts bs keep GM b false s n cols G (seq 0 ntri) (w_supp p) stp) with (t := w_tree p) as (tau & N & rows & GMap & Er & d & Ep & Op & Ws & Wt & V); auto.
    - apply (o_mon H).
    - pose proof (o_r20 H). unfold s. lia.
    - apply (o_n0 H).
    - discriminate.
    - intros j Hj. destruct (HT j Hj) as (pj & d & _ & _ & _ & Hd & -> & _). destruct (spoly_val b j n s d Hj Hd) as (L1 & L2 & _). auto.
    - discriminate.
    - intros j Hj. apply in_seq in Hj. lia.
    - apply (o_supp H).
    - intros j k x Hj Hk Hx [Ho|Ho]; [exfalso; apply Ho, in_seq; lia|]. destruct (HT j Hj) as (pj & d & Epj & Hpj & Ed & Hd & Ec & Vd). unfold G. rewrite Ec. rewrite <- (scomp_val b j n s d k x) by assumption.
      apply (pderiv_unique (scomponent pj k) i (point m (corners j) x)); [apply Vd; [exact Hk|apply point_length]|]. apply (pderiv_ext (fun _ => 0) _ i _ 0 0 m (point_length _ _ _)); [|reflexivity|apply (dat_const 0)].
      intros y Hy. rewrite <- (ecomp_restrict b cont n r p j k y pj HF H Hj Hk Hy Epj). unfold ecomp. rewrite (eval_off ksqrt tol m tris verts bs keep b cont n r p j _ H Ho). rewrite nth_repeat. reflexivity.
    - intros tau N rows j GMap Hj. apply in_seq in Hj. destruct (HT j) as (pj & d & Epj & Hpj & Ed & Hd & Ec & Vd); [lia|]. unfold stp. rewrite Epj. cbn [bind]. rewrite (tri_verts j) by lia. cbn [bind]. destruct (unit_of j) as (ab & phi & B & TU); [lia|].
      destruct (spoly_val b j n s d) as (L1 & L2 & _ & _ & _); [lia|exact Hd|].
      assert (TAU : forall nu, In nu (all_mi m s) -> exists v, tau (Z.of_nat j) nu = Ok v /\ (v =? -1)%Z = false).
      { intros nu Hnu. assert (Dx : dom ntri m s (j, nu)) by (apply (dom_mi m tris); [lia|exact Hnu]). destruct (g_val GMap _ Dx) as (v & Ev & _). pose proof (g_full GMap HF _ v Dx Ev). exists v. split; [exact Ev|apply Z.eqb_neq; assumption]. }
      destruct b eqn:Eb; [destruct (o_mon H); reflexivity| |].
      + destruct (HB eq_refl) as [HP H2]. match goal with |- bind (foldM ?g _ _) _ = _ => refine (counted_fold (fun rows nu => store tau j rows (arow m s (cols j) nu, nu)) g (all_mi m s) _ (all_mi m s) [] rows eq_refl) end.
        intros st l nu Hl. assert (Hnu : In nu (all_mi m s)) by (apply nth_error_In in Hl; exact Hl). destruct (TAU nu Hnu) as (v & Ev & Nv). unfold store. cbn [fst snd]. rewrite Ev. cbn [bind]. rewrite Nv. unfold get. rewrite Hl. cbn [bind]. apply in_all_mi in Hnu as [M1 M2].
        rewrite Ec. destruct (Nat.eqb_spec n 1) as [E1|E1].
        * rewrite Ed. cbn [bind]. rewrite E1 in Hd, L1. destruct (sp_cols d) as [|c [|c' t]] eqn:ES; try discriminate. rewrite (dual_simplex_ok ksqrt tol veq m (corners j) ab phi B TU nu s d c HV) by (auto; apply HP; lia). reflexivity.
        * rewrite (mapM_ok _ (fun k => cf m s (nth k (sp_cols d) []) nu)).
          { cbn [bind]. unfold arow. replace (map (fun c => cf m s c nu) (sp_cols d)) with (map (fun k => cf m s (nth k (sp_cols d) []) nu) (seq 0 n)); [reflexivity|]. transitivity (map (fun c => cf m s c nu) (map (fun k => nth k (sp_cols d) []) (seq 0 (length (sp_cols d))))); [rewrite map_map, L1; reflexivity|f_equal; symmetry; apply map_nth_seq_eq]. }
          intros k Hk. apply in_seq in Hk. destruct (sc_getitem ksqrt tol m (corners j) ab phi B TU Bernstein n r pj k Hpj) as (pn & En & Hn & Vn); [lia|]. rewrite En. cbn [bind]. destruct (sc_pderiv ksqrt tol veq m (corners j) ab phi B TU Bernstein 1 r pn i HV Hn Hi) as (dn & Edn & Hdn & Vdn). rewrite Edn. cbn [bind].
          destruct (spoly_val Bernstein j 1 s dn) as (K1 & K2 & _); [lia|exact Hdn|].
          assert (EC : nth k (sp_cols d) [] = nth 0 (sp_cols dn) []).
          { apply (deriv_col Bernstein j n r pj d k pn dn 0%nat); auto; try lia.
            - intros y Hy. exists i. split; [apply Vd; [lia|exact Hy]|apply Vdn; [exact Hy|lia]].
            - intros y Hy. destruct (Vn y Hy) as (u & U1 & U2 & U3). unfold scomponent. rewrite U1, U3. reflexivity. }
          rewrite EC. destruct (sp_cols dn) as [|c [|c' t]] eqn:ES; try discriminate. rewrite (dual_simplex_ok ksqrt tol veq m (corners j) ab phi B TU nu s dn c HV) by (auto; apply HP; lia). reflexivity.
      + apply foldM_ext_in. intros rows' nu Hnu. destruct (TAU nu Hnu) as (v & Ev & Nv). unfold store. cbn [fst snd]. rewrite Ev. cbn [bind]. rewrite Nv. apply in_all_mi in Hnu as [M1 M2]. rewrite (spoint ksqrt tol m (corners j) ab phi B TU nu s M1). cbn [bind]. rewrite Ed. cbn [bind].
        rewrite (sp_vals Lagrange j n s d) by (lia || assumption || (apply lagrange_point_length; exact M1)). cbn [bind]. f_equal. unfold arow. rewrite Ec. apply map_ext_in. intros c Hc. cbn [val]. apply lval_nodal; auto.
    - exists d. rewrite (g_gen GMap). cbn [bind]. rewrite generate_all_eq. cbn [bind]. rewrite Nat2Z.id. unfold stp in Er. rewrite Er. cbn [bind]. repeat (split; [assumption|]). intros j k y Hj Hk Hy.
      destruct (HT j Hj) as (pj & dj & Epj & Hpj & Ed & Hd & Ec & Vd). apply (pderiv_ext (scomponent pj k) _ i y (scomponent dj k y) _ m Hy); [intros z Hz; symmetry; apply (ecomp_restrict b cont n r p j k z pj HF H Hj Hk Hz Epj)| |apply Vd; assumption].
      destruct (eval_at ksqrt tol m tris verts bs keep GM j y Hj Hy) as (x & Hx & HC & HE). unfold ecomp. rewrite (HE _ _ _ _ _ Op). rewrite nth_mapseq' by exact Hk. rewrite (V j k x Hj Hk Hx). unfold G. rewrite Ec. unfold scomponent. destruct (spoly_val b j n s dj Hj Hd) as (L1 & _ & _ & _ & HV'). rewrite (HV' x y HC). apply nth_map_val. lia.
  Qed.
End PWWeak.
