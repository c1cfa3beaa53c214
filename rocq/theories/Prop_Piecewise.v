(** Properties C50, C68-C71: piecewise polynomials
    (piecewise_polynomial/piecewise_polynomial.py and the four classes).

    [good_mesh m tris verts bs]: the simplices have [m+1] different vertices
    among [verts], points of [m]-dimensional space, are not degenerate, and no
    two have the same vertices; the boundary simplices in [bs] have different
    vertices.  [pw_of ... b cont n r p]: [p] is a well formed object of the
    class given by [b] and [cont], with values in dimension [n], of degree [r]
    (what the constructor returns, [C50_constructor]).  [full bs keep]: every
    local index is a degree of freedom (no boundary simplices are given, or
    their degrees of freedom are kept). *)
From Coq Require Import Reals Lra Qcanon QArith.
From Verif Require PermFacts KdTree.
From Verif Require Import KdFacts KdProps KdMesh Prop_LocalToGlobal.
From Verif Require Import Base MultiIndex MultiIndexFacts MultiCapFacts MultiIndexCache Fld FldInst ExNum CodeGen CodeGenFacts LinSolve Det Linalg VecFacts Simplicial SimplexGeo SimplexFacts SimplexMetric SimplexInside AffineFacts MultiCoef MultiCoefFacts LagrangeCache Unisolv Poly PolyFacts LagFacts PolyEval PolyOps PolyOpsB PolyDeriv PolyObj PolyPow PolyCalls IntegralCache Integrate IntFacts HasInt Bases BasesFacts BasesCalls BasesMore DerivFacts SubstFacts PolySimplex PolySimplexFacts PolySimplexCalls PolySimplexMul PolySimplexInt.
From Verif Require Import LocalToGlobal LocalToGlobalFacts LocalToGlobalSim LocalToGlobalProps FaceFacts FaceValues PiecewisePoly PiecewiseMap PiecewiseFacts PiecewiseOps PiecewiseOps2 PiecewiseOps3 PiecewiseCall PiecewiseWeak PiecewiseBases PiecewiseFix Prop_PolySimplex.
Close Scope Q_scope. Close Scope Qc_scope. Close Scope R_scope.
Local Open Scope nat_scope.
Notation pt := SimplexGeo.pt.

(** the tree [p] is evaluated with still serves [t] *)
Definition keeps_tree {Q : ofld} m tris (verts : list (list Q)) (p t : pw Q) : Prop := forall int, tree_knows m tris verts p int -> tree_knows m tris verts t int.
Lemma keeps_tree_sub {Q : ofld} m tris (verts : list (list Q)) p t : w_tree t = w_tree p -> (forall j, In j (w_supp t) -> In j (w_supp p)) -> keeps_tree m tris verts p t.
Proof. intros E H int (h & E1 & E2 & E3 & E4). exists h. split; [congruence|]. split; [exact E2|]. split; [exact E3|]. auto. Qed.
Lemma map_combine {A B C} (f : A -> B) (g : A -> C) {D} (h : B -> C -> D) l : map (fun a => h (f a) (g a)) l = map (fun ab => h (fst ab) (snd ab)) (combine (map f l) (map g l)).
Proof. induction l as [|a l IH]; [reflexivity|]. cbn [map combine fst snd]. rewrite IH. reflexivity. Qed.

(** ** C50 *)
(** The constructor, and the value on a simplex: the combination of the basis
    polynomials of the simplex with the coefficients the map assigns to them. *)
Theorem C50_constructor : forall (Q : ofld) (ksqrt : Q -> Q) (tol : Q) (veq : list (list Q) -> list (list Q) -> bool) (pca : list (list Q) -> list Q) m tris (verts : list (list Q)) bs keep b cont rows r n tau nonb, good_mesh m tris verts bs -> b <> Monomial -> r < 20 -> n <> 0 -> (cont = true -> 1 <= r) ->
  generate_local_to_global_map cont tris r bs keep = Ok (tau, Z.of_nat (length rows), nonb) -> rows <> [] -> (forall row, In row rows -> length row = n) ->
  (forall points, points <> [] -> (forall p, In p points -> length p = m) -> length (pca points) = m) ->
  exists p, new_pw ksqrt tol pca b cont rows tris verts r (Some tau) bs keep None None None = Ok p /\ pw_of ksqrt tol m tris verts bs keep b cont n r p /\ w_rows p = rows /\ w_tau p = tau /\ tree_knows m tris verts p (w_supp p).
Proof.
  intros Q ksqrt tol veq pca m tris verts bs keep b cont rows r n tau nonb GM Hb Hr Hn Hc HG Hne HR HP. destruct (gmap_exists cont m r tris bs keep (gm_mesh GM) (gm_bs GM) Hc) as (tau' & N & nonb' & E & G & _). rewrite HG in E. injection E as <- EN <-. replace N with (length rows) in G by lia.
  destruct (new_core ksqrt tol pca m tris verts bs keep GM b cont rows r n tau None None None Hb Hr Hn Hc G Hne HR (or_introl eq_refl) (fun _ => HP)) as (s & Es & HPw). destruct (HPw I) as (p & Ep & Op & Wr & Wt & Ws & h & Wh & Wi).
  exists p. split; [exact Ep|]. split; [exact Op|]. split; [exact Wr|]. split; [exact Wt|]. exists h. rewrite Ws. split; [exact Wh|]. split; [exact Wi|]. split; [|auto]. rewrite <- Ws. apply (o_supp Op).
Qed.
Print Assumptions C50_constructor.
(** Without the argument [tau] the map is generated. *)
Theorem C50_constructor_default : forall (Q : ofld) (ksqrt : Q -> Q) (tol : Q) (veq : list (list Q) -> list (list Q) -> bool) (pca : list (list Q) -> list Q) m tris (verts : list (list Q)) bs keep b cont rows r tau N nonb so to d, good_mesh m tris verts bs -> (cont = true -> 1 <= r) ->
  generate_local_to_global_map cont tris r bs keep = Ok (tau, N, nonb) -> cont = true \/ keep = false ->
  new_pw ksqrt tol pca b cont rows tris verts r None bs keep so to d = if (N =? Z.of_nat (length rows))%Z then new_pw ksqrt tol pca b cont rows tris verts r (Some tau) bs keep so to d else Err AssertionError.
Proof.
  intros Q ksqrt tol veq pca m tris verts bs keep b cont rows r tau N nonb so to d GM Hc HG HK. destruct (gmap_exists cont m r tris bs keep (gm_mesh GM) (gm_bs GM) Hc) as (tau' & N' & nonb' & E & _ & HN). pose proof HG as HG'. rewrite E in HG'. injection HG' as _ EN ->.
  assert (Z : cont = false -> nonb = None) by (intros ->; apply HN; destruct HK as [|HK]; [discriminate|exact HK]). destruct (Z.eqb_spec N (Z.of_nat (length rows))) as [->|Hne].
  - apply (new_none ksqrt tol pca tris verts bs keep b cont rows r so to d tau nonb HG Z).
  - unfold new_pw. rewrite HG. cbn [bind]. apply Z.eqb_neq in Hne. rewrite Hne. destruct cont; [reflexivity|]. rewrite (Z eq_refl). reflexivity.
Qed.
Print Assumptions C50_constructor_default.
(** ... which fails for the discontinuous classes when the boundary degrees of
    freedom are kept: three values are returned where two are expected. *)
Theorem C50_constructor_default_refuted : forall (Q : ofld) (ksqrt : Q -> Q) (tol : Q) (veq : list (list Q) -> list (list Q) -> bool) (pca : list (list Q) -> list Q) m tris (verts : list (list Q)) bs keep b rows r so to d, good_mesh m tris verts bs -> keep = true ->
  new_pw ksqrt tol pca b false rows tris verts r None bs keep so to d = Err ValueError.
Proof.
  intros Q ksqrt tol veq pca m tris verts bs keep b rows r so to d GM HK. destruct (gmap_exists false m r tris bs keep (gm_mesh GM) (gm_bs GM) ltac:(discriminate)) as (tau' & N' & nonb' & E & _ & HN). unfold new_pw. rewrite E. cbn [bind]. destruct nonb' as [z|]; [reflexivity|]. rewrite (proj1 HN eq_refl) in HK. discriminate.
Qed.
Print Assumptions C50_constructor_default_refuted.
Theorem C50_evaluate : forall (Q : ofld) (ksqrt : Q -> Q) (tol : Q) (veq : list (list Q) -> list (list Q) -> bool) (pca : list (list Q) -> list Q) m tris (verts : list (list Q)) bs keep b cont n r p j y, good_mesh m tris verts bs -> pw_of ksqrt tol m tris verts bs keep b cont n r p -> j < length tris -> length y = m ->
  exists mis ps vs, generate_all m r = Ok mis /\ sp_basis_all ksqrt tol b r (map (fun v => nth v verts []) (nth j tris [])) = Ok ps /\ mapM (fun q => sp_call1 q (pt y)) ps = Ok vs /\ length vs = length mis /\
    pw_eval p j (pt y) = Ok (map (fun k => ksum (combine mis vs) (fun t => kmul (match w_tau p (Z.of_nat j) (fst t) with
      | Ok i => if (i <? 0)%Z then k0 else nth k (nth (Z.to_nat i) (w_rows p) []) k0 | Err _ => k0 end) (snd t))) (seq 0 n)).
Proof.
  intros Q ksqrt tol veq pca m tris verts bs keep b cont n r p j y GM H Hj Hy. destruct (eval_at ksqrt tol m tris verts bs keep GM j y Hj Hy) as (x & Hx & HC & HE). destruct (unit_of ksqrt tol m tris verts bs GM j Hj) as (ab & phi & B & TU).
  destruct (sc_basis_all ksqrt tol m _ ab phi B TU b r (all_mi m r) (o_mon H) (o_r20 H) (generate_all_eq m r)) as (ps & Eps & Lps & Hps).
  exists (all_mi m r), ps, (map (fun nu => bfn b m r nu x) (all_mi m r)). split; [apply generate_all_eq|]. split; [exact Eps|]. split.
  { assert (A : forall l ps, length ps = length l -> (forall i nu, nth_error l i = Some nu -> exists q, nth_error ps i = Some q /\ sp_call1 q (pt y) = Ok (bfn b m r nu x)) -> mapM (fun q => sp_call1 q (pt y)) ps = Ok (map (fun nu => bfn b m r nu x) l)).
    { clear. induction l as [|nu l IH]; intros [|q ps] HL HN; try discriminate; [reflexivity|]. destruct (HN 0 nu eq_refl) as (q' & E1 & E2). injection E1 as <-. cbn [mapM]. rewrite E2. cbn [bind]. rewrite (IH ps); [reflexivity|cbn in HL; lia|]. intros i mu Hi. apply (HN (S i) mu Hi). }
    apply A; [exact Lps|]. intros i nu Hi. destruct (Hps i nu Hi) as (q & E1 & E2). exists q. split; [exact E1|]. assert (Hnu : In nu (all_mi m r)) by (apply nth_error_In in Hi; exact Hi). apply in_all_mi in Hnu as [M1 M2].
    pose proof (basis_val ksqrt tol m tris verts bs GM b j r nu q Hj (o_mon H) M1 (conj M2 (o_r20 H)) E2 x y HC) as V. apply (call1_of q (pt y) _ V eq_refl). }
  split; [apply map_length|]. rewrite (HE _ _ _ _ _ H). f_equal. apply map_ext. intros k. unfold fval. rewrite (o_b H), (o_m H), (o_r H).
  assert (A : forall (l : list (list nat)) (f : list nat -> Q) (g : list nat * Q -> Q), ksum (combine l (map f l)) g = ksum l (fun nu => g (nu, f nu))) by (clear; induction l as [|a l IH]; intros f g; [reflexivity|]; cbn [map combine]; rewrite !ksum_cons, IH; reflexivity).
  rewrite A. apply ksum_ext. intros nu Hnu. cbn [fst snd]. f_equal. pose proof (dom_mi m tris j r nu Hj Hnu) as Dx. destruct (g_val (o_map H) _ Dx) as (v & Ev & Hv). unfold coef. rewrite (tau_at_eq _ _ _ Ev). unfold tau_eq in Ev. cbn [fst snd] in Ev. rewrite Ev, (o_n H).
  destruct (Z.eqb_spec v (-1)) as [->|Hne]; [apply nth_repeat|]. destruct Hv as [|Hv]; [contradiction|]. destruct (Z.ltb_spec v 0); [lia|reflexivity].
Qed.
Print Assumptions C50_evaluate.
(** restrict_to_simplex *)
Theorem C50_restrict : forall (Q : ofld) (ksqrt : Q -> Q) (tol : Q) (veq : list (list Q) -> list (list Q) -> bool) (pca : list (list Q) -> list Q) m tris (verts : list (list Q)) bs keep b cont n r p j, good_mesh m tris verts bs -> full bs keep -> pw_of ksqrt tol m tris verts bs keep b cont n r p -> j < length tris ->
  exists s, pw_restrict ksqrt tol p j = Ok s /\ spoly_of ksqrt tol b (map (fun v => nth v verts []) (nth j tris [])) n r s /\ forall y, length y = m -> sp_call s (pt y) = pw_eval p j (pt y).
Proof.
  intros Q ksqrt tol veq pca m tris verts bs keep b cont n r p j GM HF H Hj. destruct (restrict_ok ksqrt tol m tris verts bs keep GM b cont n r p j HF H Hj) as (s & Es & Hs & Vs). exists s. split; [exact Es|]. split; [exact Hs|]. intros y Hy.
  destruct (eval_at ksqrt tol m tris verts bs keep GM j y Hj Hy) as (x & Hx & HC & HE). rewrite (HE _ _ _ _ _ H). destruct (spoly_val ksqrt tol m tris verts bs GM b j n r s Hj Hs) as (L1 & _ & _ & _ & HV). rewrite (HV x y HC). f_equal.
  rewrite (map_nth_seq_eq (sp_cols s) []) at 1. rewrite map_map, L1. apply map_ext_in. intros k Hk. apply in_seq in Hk. apply Vs; [lia|exact Hx].
Qed.
Print Assumptions C50_restrict.
(** Sums and differences.  The support of the second operand must be contained
    in that of the first. *)
Theorem C50_add : forall (Q : ofld) (ksqrt : Q -> Q) (tol : Q) (veq : list (list Q) -> list (list Q) -> bool) (pca : list (list Q) -> list Q) m tris (verts : list (list Q)) bs keep b cont n r s p q, good_mesh m tris verts bs -> pw_of ksqrt tol m tris verts bs keep b cont n r p -> pw_of ksqrt tol m tris verts bs keep b cont n s q -> (forall j, In j (w_supp q) -> In j (w_supp p)) -> r = s \/ full bs keep ->
  exists t, pw_add ksqrt tol pca p q = Ok t /\ pw_of ksqrt tol m tris verts bs keep b cont n (Nat.max r s) t /\ keeps_tree m tris verts p t /\
    forall j y, j < length tris -> length y = m -> exists u v, pw_eval p j (pt y) = Ok u /\ pw_eval q j (pt y) = Ok v /\ length u = n /\ length v = n /\ pw_eval t j (pt y) = Ok (map (fun ab => kadd (fst ab) (snd ab)) (combine u v)).
Proof.
  intros Q ksqrt tol veq pca m tris verts bs keep b cont n r s p q GM H H' HS HF. destruct (linear_op_ok ksqrt tol veq pca m tris verts bs keep GM kadd b cont n r s p q) as (t & Et & Ot & Ws & Wt & V); auto; [apply add00|apply add_mul|intros A l f g; apply ksum_plus|].
  exists t. split; [exact Et|]. split; [exact Ot|]. split; [apply keeps_tree_sub; assumption|]. intros j y Hj Hy. destruct (eval_at ksqrt tol m tris verts bs keep GM j y Hj Hy) as (x & Hx & HC & HE). eexists. eexists. split; [apply (HE _ _ _ _ _ H)|]. split; [apply (HE _ _ _ _ _ H')|]. rewrite !map_length, !seq_length. split; [reflexivity|]. split; [reflexivity|].
  rewrite (HE _ _ _ _ _ Ot), <- map_combine. f_equal. apply map_ext_in. intros k Hk. apply in_seq in Hk. apply V; auto; lia.
Qed.
Print Assumptions C50_add.
Theorem C50_sub : forall (Q : ofld) (ksqrt : Q -> Q) (tol : Q) (veq : list (list Q) -> list (list Q) -> bool) (pca : list (list Q) -> list Q) m tris (verts : list (list Q)) bs keep b cont n r s p q, good_mesh m tris verts bs -> pw_of ksqrt tol m tris verts bs keep b cont n r p -> pw_of ksqrt tol m tris verts bs keep b cont n s q -> (forall j, In j (w_supp q) -> In j (w_supp p)) -> r = s \/ full bs keep ->
  exists t, pw_sub ksqrt tol pca p q = Ok t /\ pw_of ksqrt tol m tris verts bs keep b cont n (Nat.max r s) t /\ keeps_tree m tris verts p t /\
    forall j y, j < length tris -> length y = m -> exists u v, pw_eval p j (pt y) = Ok u /\ pw_eval q j (pt y) = Ok v /\ length u = n /\ length v = n /\ pw_eval t j (pt y) = Ok (map (fun ab => ksub (fst ab) (snd ab)) (combine u v)).
Proof.
  intros Q ksqrt tol veq pca m tris verts bs keep b cont n r s p q GM H H' HS HF. destruct (linear_op_ok ksqrt tol veq pca m tris verts bs keep GM ksub b cont n r s p q) as (t & Et & Ot & Ws & Wt & V); auto; [apply sub00|apply sub_mul|intros A l f g; apply ksum_minus|].
  exists t. split; [exact Et|]. split; [exact Ot|]. split; [apply keeps_tree_sub; assumption|]. intros j y Hj Hy. destruct (eval_at ksqrt tol m tris verts bs keep GM j y Hj Hy) as (x & Hx & HC & HE). eexists. eexists. split; [apply (HE _ _ _ _ _ H)|]. split; [apply (HE _ _ _ _ _ H')|]. rewrite !map_length, !seq_length. split; [reflexivity|]. split; [reflexivity|].
  rewrite (HE _ _ _ _ _ Ot), <- map_combine. f_equal. apply map_ext_in. intros k Hk. apply in_seq in Hk. apply V; auto; lia.
Qed.
Print Assumptions C50_sub.
(** Constant multiples, quotients, outer products and components. *)
Theorem C50_scale : forall (Q : ofld) (ksqrt : Q -> Q) (tol : Q) (veq : list (list Q) -> list (list Q) -> bool) (pca : list (list Q) -> list Q) m tris (verts : list (list Q)) bs keep b cont n r p c, good_mesh m tris verts bs -> pw_of ksqrt tol m tris verts bs keep b cont n r p ->
  exists t, pw_scale ksqrt tol pca p c = Ok t /\ pw_of ksqrt tol m tris verts bs keep b cont n r t /\ keeps_tree m tris verts p t /\
    forall j y, j < length tris -> length y = m -> exists u, pw_eval p j (pt y) = Ok u /\ length u = n /\ pw_eval t j (pt y) = Ok (map (fun a => kmul a c) u).
Proof.
  intros Q ksqrt tol veq pca m tris verts bs keep b cont n r p c GM H. destruct (scale_ok ksqrt tol pca m tris verts bs keep GM b cont n r p c H) as (t & Et & Ot & Ws & Wt & V).
  exists t. split; [exact Et|]. split; [exact Ot|]. split; [apply keeps_tree_sub; assumption|]. intros j y Hj Hy. destruct (eval_at ksqrt tol m tris verts bs keep GM j y Hj Hy) as (x & Hx & HC & HE). eexists. split; [apply (HE _ _ _ _ _ H)|]. rewrite map_length, seq_length. split; [reflexivity|].
  rewrite (HE _ _ _ _ _ Ot), map_map. f_equal. apply map_ext_in. intros k Hk. apply V. exact Hj.
Qed.
Print Assumptions C50_scale.
Theorem C50_truediv : forall (Q : ofld) (ksqrt : Q -> Q) (tol : Q) (veq : list (list Q) -> list (list Q) -> bool) (pca : list (list Q) -> list Q) m tris (verts : list (list Q)) bs keep b cont n r p c, good_mesh m tris verts bs -> pw_of ksqrt tol m tris verts bs keep b cont n r p -> c <> k0 ->
  exists t, pw_truediv ksqrt tol pca p c = Ok t /\ pw_of ksqrt tol m tris verts bs keep b cont n r t /\ keeps_tree m tris verts p t /\
    forall j y, j < length tris -> length y = m -> exists u, pw_eval t j (pt y) = Ok u /\ length u = n /\ pw_eval p j (pt y) = Ok (map (fun a => kmul a c) u).
Proof.
  intros Q ksqrt tol veq pca m tris verts bs keep b cont n r p c GM H Hc. destruct (truediv_ok ksqrt tol pca m tris verts bs keep GM b cont n r p c H) as (t & Et & Ot & Ws & Wt & V).
  exists t. split; [exact Et|]. split; [exact Ot|]. split; [apply keeps_tree_sub; assumption|]. intros j y Hj Hy. destruct (eval_at ksqrt tol m tris verts bs keep GM j y Hj Hy) as (x & Hx & HC & HE). eexists. split; [apply (HE _ _ _ _ _ Ot)|]. rewrite map_length, seq_length. split; [reflexivity|].
  rewrite (HE _ _ _ _ _ H), map_map. f_equal. apply map_ext_in. intros k Hk. rewrite V by exact Hj. symmetry. apply div_mul. exact Hc.
Qed.
Print Assumptions C50_truediv.
Theorem C50_outer : forall (Q : ofld) (ksqrt : Q -> Q) (tol : Q) (veq : list (list Q) -> list (list Q) -> bool) (pca : list (list Q) -> list Q) m tris (verts : list (list Q)) bs keep b cont r p c, good_mesh m tris verts bs -> pw_of ksqrt tol m tris verts bs keep b cont 1 r p -> c <> [] ->
  exists t, pw_outer ksqrt tol pca p c = Ok t /\ pw_of ksqrt tol m tris verts bs keep b cont (length c) r t /\ keeps_tree m tris verts p t /\
    forall j y, j < length tris -> length y = m -> exists u, pw_eval p j (pt y) = Ok [u] /\ pw_eval t j (pt y) = Ok (map (fun a => kmul u a) c).
Proof.
  intros Q ksqrt tol veq pca m tris verts bs keep b cont r p c GM H Hc. destruct (outer_ok ksqrt tol pca m tris verts bs keep GM b cont r p c H Hc) as (t & Et & Ot & Ws & Wt & V).
  exists t. split; [exact Et|]. split; [exact Ot|]. split; [apply keeps_tree_sub; assumption|]. intros j y Hj Hy. destruct (eval_at ksqrt tol m tris verts bs keep GM j y Hj Hy) as (x & Hx & HC & HE). eexists. split; [apply (HE _ _ _ _ _ H)|].
  rewrite (HE _ _ _ _ _ Ot). rewrite (map_nth_seq_eq c k0) at 2. rewrite map_map. f_equal. apply map_ext_in. intros k Hk. apply V. exact Hj.
Qed.
Print Assumptions C50_outer.
Theorem C50_getitem : forall (Q : ofld) (ksqrt : Q -> Q) (tol : Q) (veq : list (list Q) -> list (list Q) -> bool) (pca : list (list Q) -> list Q) m tris (verts : list (list Q)) bs keep b cont n r p i, good_mesh m tris verts bs -> pw_of ksqrt tol m tris verts bs keep b cont n r p -> i < n ->
  exists t, pw_getitem ksqrt tol pca p i = Ok t /\ pw_of ksqrt tol m tris verts bs keep b cont 1 r t /\ keeps_tree m tris verts p t /\
    forall j y, j < length tris -> length y = m -> exists u, pw_eval p j (pt y) = Ok u /\ length u = n /\ pw_eval t j (pt y) = Ok [nth i u k0].
Proof.
  intros Q ksqrt tol veq pca m tris verts bs keep b cont n r p i GM H Hi. destruct (PiecewiseOps2.getitem_ok ksqrt tol pca m tris verts bs keep GM b cont n r p i H Hi) as (t & Et & Ot & Ws & Wt & V).
  exists t. split; [exact Et|]. split; [exact Ot|]. split; [apply keeps_tree_sub; assumption|]. intros j y Hj Hy. destruct (eval_at ksqrt tol m tris verts bs keep GM j y Hj Hy) as (x & Hx & HC & HE). eexists. split; [apply (HE _ _ _ _ _ H)|]. rewrite map_length, seq_length. split; [reflexivity|].
  rewrite (HE _ _ _ _ _ Ot), nth_map_seq by exact Hi. cbn [seq map]. rewrite V by exact Hj. reflexivity.
Qed.
Print Assumptions C50_getitem.
(** Degree elevation. *)
Theorem C50_elevate : forall (Q : ofld) (ksqrt : Q -> Q) (tol : Q) (veq : list (list Q) -> list (list Q) -> bool) (pca : list (list Q) -> list Q) m tris (verts : list (list Q)) bs keep b cont n r p s, good_mesh m tris verts bs -> full bs keep -> pw_of ksqrt tol m tris verts bs keep b cont n r p -> r <= s < 20 ->
  exists t, pw_elevate ksqrt tol pca p s = Ok t /\ pw_of ksqrt tol m tris verts bs keep b cont n s t /\ keeps_tree m tris verts p t /\
    forall j y, j < length tris -> length y = m -> pw_eval t j (pt y) = pw_eval p j (pt y).
Proof.
  intros Q ksqrt tol veq pca m tris verts bs keep b cont n r p s GM HF H Hs. destruct (elevate_ok ksqrt tol veq pca m tris verts bs keep GM b cont n r p s HF H Hs) as (t & Et & Ot & Ws & Wt & V).
  exists t. split; [exact Et|]. split; [exact Ot|]. split; [apply keeps_tree_sub; [exact Wt|apply Ws]|]. intros j y Hj Hy. destruct (eval_at ksqrt tol m tris verts bs keep GM j y Hj Hy) as (x & Hx & HC & HE).
  rewrite (HE _ _ _ _ _ H), (HE _ _ _ _ _ Ot). f_equal. apply map_ext_in. intros k Hk. apply in_seq in Hk. apply V; auto; lia.
Qed.
Print Assumptions C50_elevate.
(** Products and powers. *)
Theorem C50_mul : forall (Q : ofld) (ksqrt : Q -> Q) (tol : Q) (veq : list (list Q) -> list (list Q) -> bool) (pca : list (list Q) -> list Q) m tris (verts : list (list Q)) bs keep b cont r b' cont' s p q, good_mesh m tris verts bs -> (forall w, veq w w = true) -> full bs keep -> pw_of ksqrt tol m tris verts bs keep b cont 1 r p -> pw_of ksqrt tol m tris verts bs keep b' cont' 1 s q ->
  (b <> Lagrange -> b' = b) -> (cont = true -> cont' = true) -> r + s < 20 ->
  exists t, pw_mul ksqrt tol veq pca p q = Ok t /\ pw_of ksqrt tol m tris verts bs keep b cont 1 (r + s) t /\ keeps_tree m tris verts p t /\
    forall j y, j < length tris -> length y = m -> exists u v, pw_eval p j (pt y) = Ok [u] /\ pw_eval q j (pt y) = Ok [v] /\ pw_eval t j (pt y) = Ok [kmul u v].
Proof.
  intros Q ksqrt tol veq pca m tris verts bs keep b cont r b' cont' s p q GM HV HF H H' Hb Hc Hr. destruct (PiecewiseOps2.mul_ok ksqrt tol veq pca m tris verts bs keep GM b cont r b' cont' s p q HV HF H H' Hb Hc Hr) as (t & Et & Ot & Ws & Wt & V).
  exists t. split; [exact Et|]. split; [exact Ot|]. split; [apply keeps_tree_sub; [exact Wt|intros j Hj; apply Ws; exact Hj]|]. intros j y Hj Hy. destruct (eval_at ksqrt tol m tris verts bs keep GM j y Hj Hy) as (x & Hx & HC & HE). eexists. eexists. split; [apply (HE _ _ _ _ _ H)|]. split; [apply (HE _ _ _ _ _ H')|].
  rewrite (HE _ _ _ _ _ Ot). cbn [seq map]. rewrite V by assumption. reflexivity.
Qed.
Print Assumptions C50_mul.
Theorem C50_pow : forall (Q : ofld) (ksqrt : Q -> Q) (tol : Q) (veq : list (list Q) -> list (list Q) -> bool) (pca : list (list Q) -> list Q) m tris (verts : list (list Q)) bs keep b cont r p e, good_mesh m tris verts bs -> (forall w, veq w w = true) -> full bs keep -> pw_of ksqrt tol m tris verts bs keep b cont 1 r p -> e <> 0 -> r * e < 20 ->
  exists t, pw_pow ksqrt tol veq pca p e = Ok t /\ pw_of ksqrt tol m tris verts bs keep b cont 1 (r * e) t /\ keeps_tree m tris verts p t /\
    forall j y, j < length tris -> length y = m -> exists u, pw_eval p j (pt y) = Ok [u] /\ pw_eval t j (pt y) = Ok [kpow u e].
Proof.
  intros Q ksqrt tol veq pca m tris verts bs keep b cont r p e GM HV HF H He Hr. destruct e as [|e]; [contradiction|]. destruct (PiecewiseOps3.pow_ok ksqrt tol veq pca m tris verts bs keep GM b cont r p e HV HF H Hr) as (t & Et & Ot & Ws & Wt & V).
  exists t. split; [exact Et|]. split; [exact Ot|]. split; [apply keeps_tree_sub; [exact Wt|intros j Hj; apply Ws; exact Hj]|]. intros j y Hj Hy. destruct (eval_at ksqrt tol m tris verts bs keep GM j y Hj Hy) as (x & Hx & HC & HE). eexists. split; [apply (HE _ _ _ _ _ H)|].
  rewrite (HE _ _ _ _ _ Ot). cbn [seq map]. rewrite V by assumption. reflexivity.
Qed.
Print Assumptions C50_pow.
(** The power 0: the unit polynomial, on every simplex. *)
Theorem C50_pow_zero : forall (Q : ofld) (ksqrt : Q -> Q) (tol : Q) (veq : list (list Q) -> list (list Q) -> bool) (pca : list (list Q) -> list Q) m tris (verts : list (list Q)) bs keep b cont r p, good_mesh m tris verts bs -> unit_cond tris verts bs keep cont -> pw_of ksqrt tol m tris verts bs keep b cont 1 r p ->
  exists t, pw_pow ksqrt tol veq pca p 0 = Ok t /\ pw_of ksqrt tol m tris verts bs keep b cont 1 (if cont then 1 else 0) t /\ forall j y, j < length tris -> length y = m -> pw_eval t j (pt y) = Ok [k1].
Proof.
  intros Q ksqrt tol veq pca m tris verts bs keep b cont r p GM HU H. destruct (pow0_ok ksqrt tol veq pca m tris verts bs keep GM b cont r p H HU) as (t & Et & Ot & Ws & Wt & V).
  exists t. split; [exact Et|]. split; [exact Ot|]. intros j y Hj Hy. destruct (eval_at ksqrt tol m tris verts bs keep GM j y Hj Hy) as (x & Hx & HC & HE). rewrite (HE _ _ _ _ _ Ot). cbn [seq map]. rewrite V by assumption. reflexivity.
Qed.
Print Assumptions C50_pow_zero.
(** Powers by a multi-index [e], for values in dimension [n > 1]. *)
Theorem C50_pow_multi_index_lagrange : forall (Q : ofld) (ksqrt : Q -> Q) (tol : Q) (veq : list (list Q) -> list (list Q) -> bool) (pca : list (list Q) -> list Q) m tris (verts : list (list Q)) bs keep cont n r p e, good_mesh m tris verts bs -> full bs keep -> pw_of ksqrt tol m tris verts bs keep Lagrange cont n r p -> length e = n -> n <> 1 -> 0 < r * nsum e < 20 ->
  exists t, pw_pow_mi ksqrt tol veq pca p e = Ok t /\ pw_of ksqrt tol m tris verts bs keep Lagrange cont 1 (r * nsum e) t /\ keeps_tree m tris verts p t /\
    forall j y, j < length tris -> length y = m -> exists u, pw_eval p j (pt y) = Ok u /\ length u = n /\ pw_eval t j (pt y) = Ok [mpow u e].
Proof.
  intros Q ksqrt tol veq pca m tris verts bs keep cont n r p e GM HF H He Hn Hr. destruct (pow_mi_lagrange_ok ksqrt tol veq pca m tris verts bs keep GM cont n r p e HF H He Hn Hr) as (t & Et & Ot & Ws & Wt & V).
  exists t. split; [exact Et|]. split; [exact Ot|]. split; [apply keeps_tree_sub; [exact Wt|intros j Hj; rewrite <- Ws; exact Hj]|]. intros j y Hj Hy. destruct (eval_at ksqrt tol m tris verts bs keep GM j y Hj Hy) as (x & Hx & HC & HE). eexists. split; [apply (HE _ _ _ _ _ H)|]. rewrite map_length, seq_length. split; [reflexivity|].
  rewrite (HE _ _ _ _ _ Ot). cbn [seq map]. rewrite V by assumption. rewrite (o_n H). reflexivity.
Qed.
Print Assumptions C50_pow_multi_index_lagrange.
Theorem C50_pow_multi_index_bernstein : forall (Q : ofld) (ksqrt : Q -> Q) (tol : Q) (veq : list (list Q) -> list (list Q) -> bool) (pca : list (list Q) -> list Q) m tris (verts : list (list Q)) bs keep cont n r p e, good_mesh m tris verts bs -> (forall w, veq w w = true) -> unit_cond tris verts bs keep cont -> pw_of ksqrt tol m tris verts bs keep Bernstein cont n r p -> length e = n -> n <> 1 -> nsum e <> 0 -> r * nsum e + (if cont then 1 else 0) < 20 ->
  exists t, pw_pow_mi ksqrt tol veq pca p e = Ok t /\ pw_of ksqrt tol m tris verts bs keep Bernstein cont 1 (r * nsum e + if cont then 1 else 0) t /\ keeps_tree m tris verts p t /\
    forall j y, j < length tris -> length y = m -> exists u, pw_eval p j (pt y) = Ok u /\ length u = n /\ pw_eval t j (pt y) = Ok [mpow u e].
Proof.
  intros Q ksqrt tol veq pca m tris verts bs keep cont n r p e GM HV HU H He Hn Hz Hr. destruct (pow_mi_bernstein_ok ksqrt tol veq pca m tris verts bs keep GM cont n r p HV HU H Hn (S (nsum e)) e He ltac:(lia) Hr) as (t & Et & Ot & Ws & _ & Wt & V).
  exists t. split; [unfold pw_pow_mi; rewrite (o_b H); exact Et|]. split; [exact Ot|]. split; [apply keeps_tree_sub; [exact Wt|intros j Hj; apply (Ws Hz); exact Hj]|]. intros j y Hj Hy. destruct (eval_at ksqrt tol m tris verts bs keep GM j y Hj Hy) as (x & Hx & HC & HE). eexists. split; [apply (HE _ _ _ _ _ H)|]. rewrite map_length, seq_length. split; [reflexivity|].
  rewrite (HE _ _ _ _ _ Ot). cbn [seq map]. rewrite V by assumption. rewrite (o_n H). reflexivity.
Qed.
Print Assumptions C50_pow_multi_index_bernstein.
(** zero_piecewise_polynomial and unit_piecewise_polynomial *)
Theorem C50_zero_unit : forall (Q : ofld) (ksqrt : Q -> Q) (tol : Q) (veq : list (list Q) -> list (list Q) -> bool) (pca : list (list Q) -> list Q) m tris (verts : list (list Q)) bs keep b cont n, good_mesh m tris verts bs -> b <> Monomial -> n <> 0 -> unit_cond tris verts bs keep cont ->
  (forall points, points <> [] -> (forall p, In p points -> length p = m) -> length (pca points) = m) ->
  exists z e, pw_zero ksqrt tol pca b cont tris verts n None bs keep None = Ok z /\ pw_unit ksqrt tol pca b cont tris verts n None bs keep None = Ok e /\
    pw_of ksqrt tol m tris verts bs keep b cont n (if cont then 1 else 0) z /\ pw_of ksqrt tol m tris verts bs keep b cont n (if cont then 1 else 0) e /\ tree_knows m tris verts z [] /\ tree_knows m tris verts e (seq 0 (length tris)) /\
    forall j y, j < length tris -> length y = m -> pw_eval z j (pt y) = Ok (repeat k0 n) /\ pw_eval e j (pt y) = Ok (repeat k1 n).
Proof.
  intros Q ksqrt tol veq pca m tris verts bs keep b cont n GM Hb Hn HU HP. destruct (zero_ok ksqrt tol pca m tris verts bs keep GM b cont n None Hb Hn HU (fun _ => HP)) as (z & Ez & Oz & Sz & Tz & Vz). destruct (unit_ok ksqrt tol pca m tris verts bs keep GM b cont n None Hb Hn HU (fun _ => HP)) as (e & Ee & Oe & Se & Te & Ve).
  exists z, e. split; [exact Ez|]. split; [exact Ee|]. split; [exact Oz|]. split; [exact Oe|]. split; [|split].
  - destruct Tz as (h & T1 & T2). exists h. split; [exact T1|]. split; [exact T2|]. split; [intros j []|]. rewrite Sz. auto.
  - destruct Te as (h & T1 & T2). exists h. split; [exact T1|]. split; [exact T2|]. split; [intros j Hj; apply in_seq in Hj; lia|]. rewrite Se. auto.
  - intros j y Hj Hy. destruct (eval_at ksqrt tol m tris verts bs keep GM j y Hj Hy) as (x & Hx & HC & HE). rewrite (HE _ _ _ _ _ Oz), (HE _ _ _ _ _ Oe). split; f_equal.
    + rewrite <- (map_const_seq k0 n 0). apply map_ext_in. intros k Hk. apply Vz. exact Hj.
    + rewrite <- (map_const_seq k1 n 0). apply map_ext_in. intros k Hk. apply in_seq in Hk. apply Ve; auto; lia.
Qed.
Print Assumptions C50_zero_unit.

(** ** C68: evaluation at a point *)
(** [p(y)] is the value on a simplex that contains [y], and 0 when no simplex of
    the tree does. *)
Theorem C68_call : forall (Q : ofld) (ksqrt : Q -> Q) (tol : Q) (veq : list (list Q) -> list (list Q) -> bool) (pca : list (list Q) -> list Q) m tris (verts : list (list Q)) bs keep eps b cont n r p int y, good_mesh m tris verts bs -> pw_of ksqrt tol m tris verts bs keep b cont n r p -> tree_knows m tris verts p int -> (forall j, In j int -> positive tris verts j) -> length y = m ->
  (exists j, In j int /\ inside_tri m tris verts j y /\ pw_call ksqrt eps p y = pw_eval p j (pt y)) \/ ((forall j, In j int -> ~ inside_tri m tris verts j y) /\ pw_call ksqrt eps p y = Ok (repeat k0 n)).
Proof. intros Q ksqrt tol veq pca m tris verts bs keep eps b cont n r p int y GM H HT HP Hy. exact (call_ok ksqrt tol eps m tris verts bs keep GM b cont n r p int y H HT HP Hy). Qed.
Print Assumptions C68_call.
Theorem C68_single : forall (Q : ofld) (ksqrt : Q -> Q) (tol : Q) (veq : list (list Q) -> list (list Q) -> bool) (pca : list (list Q) -> list Q) m tris (verts : list (list Q)) bs keep eps b cont n r p int y j, good_mesh m tris verts bs -> pw_of ksqrt tol m tris verts bs keep b cont n r p -> tree_knows m tris verts p int -> (forall j, In j int -> positive tris verts j) -> length y = m ->
  j < length tris -> inside_tri m tris verts j y -> (forall j', j' < length tris -> inside_tri m tris verts j' y -> j' = j) -> pw_call ksqrt eps p y = pw_eval p j (pt y).
Proof. intros Q ksqrt tol veq pca m tris verts bs keep eps b cont n r p int y j GM H HT HP Hy Hj HI HU. exact (call_single ksqrt tol eps m tris verts bs keep GM b cont n r p int y j H HT HP Hy Hj HI HU). Qed.
Print Assumptions C68_single.
Theorem C68_outside : forall (Q : ofld) (ksqrt : Q -> Q) (tol : Q) (veq : list (list Q) -> list (list Q) -> bool) (pca : list (list Q) -> list Q) m tris (verts : list (list Q)) bs keep eps b cont n r p int y, good_mesh m tris verts bs -> pw_of ksqrt tol m tris verts bs keep b cont n r p -> tree_knows m tris verts p int -> (forall j, In j int -> positive tris verts j) -> length y = m ->
  (forall j, j < length tris -> ~ inside_tri m tris verts j y) -> pw_call ksqrt eps p y = Ok (repeat k0 n).
Proof. intros Q ksqrt tol veq pca m tris verts bs keep eps b cont n r p int y GM H HT HP Hy HO. exact (call_outside ksqrt tol eps m tris verts bs keep GM b cont n r p int y H HT HP Hy HO). Qed.
Print Assumptions C68_outside.

(** ** C69: continuity *)
(** At a point spanned by the vertices two simplices share, a continuous
    piecewise polynomial has the same value on both. *)
Theorem C69_shared_values : forall (Q : ofld) (ksqrt : Q -> Q) (tol : Q) (veq : list (list Q) -> list (list Q) -> bool) (pca : list (list Q) -> list Q) m tris (verts : list (list Q)) bs keep b n r p j j' y w, good_mesh m tris verts bs -> pw_of ksqrt tol m tris verts bs keep b true n r p -> j < length tris -> j' < length tris -> length y = m ->
  (forall v, ~ (In v (nth j tris []) /\ In v (nth j' tris [])) -> w v = k0) -> ksum (nth j tris []) w = k1 -> (forall i, i < m -> nth i y k0 = ksum (nth j tris []) (fun v => kmul (w v) (nth i (nth v verts []) k0))) ->
  pw_eval p j (pt y) = pw_eval p j' (pt y).
Proof. intros Q ksqrt tol veq pca m tris verts bs keep b n r p j j' y w GM H Hj Hj' Hy W1 W2 W3. apply (eval_common ksqrt tol k0 veq pca m tris verts bs keep GM b n r p j j' y H Hj Hj'). exists w. auto. Qed.
Print Assumptions C69_shared_values.
(** On a mesh whose simplices meet in shared faces, [p(y)] is the value on any
    simplex that contains [y]. *)
Theorem C69_call : forall (Q : ofld) (ksqrt : Q -> Q) (tol : Q) (veq : list (list Q) -> list (list Q) -> bool) (pca : list (list Q) -> list Q) m tris (verts : list (list Q)) bs keep eps b n r p int j y, good_mesh m tris verts bs -> pw_of ksqrt tol m tris verts bs keep b true n r p -> tree_knows m tris verts p int -> (forall j, In j int -> positive tris verts j) ->
  conforming m tris verts -> j < length tris -> inside_tri m tris verts j y -> pw_call ksqrt eps p y = pw_eval p j (pt y).
Proof. intros Q ksqrt tol veq pca m tris verts bs keep eps b n r p int j y GM H HT HP HC Hj HI. exact (call_continuous ksqrt tol eps veq pca m tris verts bs keep GM b n r p int j y H HT HP HC Hj HI). Qed.
Print Assumptions C69_call.

(** ** C70: weak partial derivatives *)
Theorem C70_weak_derivative : forall (Q : ofld) (ksqrt : Q -> Q) (tol : Q) (veq : list (list Q) -> list (list Q) -> bool) (pca : list (list Q) -> list Q) m tris (verts : list (list Q)) bs keep b cont n r p i, good_mesh m tris verts bs -> (forall w, veq w w = true) -> full bs keep -> pw_of ksqrt tol m tris verts bs keep b cont n r p -> i < m ->
  (b = Bernstein -> (forall j, j < length tris -> klt (k0 : Q) (det m (edge (map (fun v => nth v verts []) (nth j tris []))))) /\ 2 * (r - 1) < 20) ->
  exists d, weak_partial_derivative ksqrt tol veq pca p i = Ok d /\ pw_of ksqrt tol m tris verts bs keep b false n (r - 1) d /\ keeps_tree m tris verts p d /\
    forall j k y, j < length tris -> k < n -> length y = m -> is_pderiv (ecomp p j k) i y (ecomp d j k y).
Proof.
  intros Q ksqrt tol veq pca m tris verts bs keep b cont n r p i GM HV HF H Hi HB. destruct (weak_ok ksqrt tol veq pca m tris verts bs keep GM b cont n r p i HV HF H Hi HB) as (d & Ed & Od & Ws & Wt & V). exists d. split; [exact Ed|]. split; [exact Od|]. split; [apply keeps_tree_sub; [exact Wt|intros j Hj; rewrite <- Ws; exact Hj]|]. exact V.
Qed.
Print Assumptions C70_weak_derivative.

(** ** C71: bases and dual bases *)
Lemma map_of {Q : ofld} m tris (verts : list (list Q)) bs keep cont r map tau N nonb : good_mesh m tris verts bs -> (cont = true -> 1 <= r) -> generate_local_to_global_map cont tris r bs keep = Ok (tau, Z.of_nat N, nonb) -> map = None \/ map = Some (tau, Z.of_nat N) -> map_is m tris bs keep cont r map tau N.
Proof. intros GM Hc HG HM. destruct (gmap_exists cont m r tris bs keep (gm_mesh GM) (gm_bs GM) Hc) as (tau' & N' & nonb' & E & G & _). rewrite HG in E. injection E as <- EN <-. replace N' with N in G by lia. split; assumption. Qed.
(** Every piecewise polynomial is the combination of the basis functions with
    its coefficients. *)
Theorem C71_basis : forall (Q : ofld) (ksqrt : Q -> Q) (tol : Q) (veq : list (list Q) -> list (list Q) -> bool) (pca : list (list Q) -> list Q) m tris (verts : list (list Q)) bs keep b cont r map tau N nonb, good_mesh m tris verts bs -> b <> Monomial -> r < 20 -> (cont = true -> 1 <= r) ->
  generate_local_to_global_map cont tris r bs keep = Ok (tau, Z.of_nat N, nonb) -> map = None \/ map = Some (tau, Z.of_nat N) ->
  (forall points, points <> [] -> (forall p, In p points -> length p = m) -> length (pca points) = m) ->
  exists es, pw_basis ksqrt tol pca b cont tris verts r map bs keep None = Ok es /\ length es = N /\
    (forall e, In e es -> pw_of ksqrt tol m tris verts bs keep b cont 1 r e /\ tree_knows m tris verts e (w_supp e)) /\
    forall n p, pw_of ksqrt tol m tris verts bs keep b cont n r p -> length (w_rows p) = N /\
      forall j y, j < length tris -> length y = m -> exists vs, mapM (fun e => pw_eval e j (pt y)) es = Ok (List.map (fun v => [v]) vs) /\ length vs = N /\
        pw_eval p j (pt y) = Ok (List.map (fun k => ksum (combine (w_rows p) vs) (fun cv => kmul (nth k (fst cv) k0) (snd cv))) (seq 0 n)).
Proof.
  intros Q ksqrt tol veq pca m tris verts bs keep b cont r map tau N nonb GM Hb Hr Hc HG HM HP. pose proof (map_of m tris verts bs keep cont r map tau N nonb GM Hc HG HM) as MI. destruct (basis_ok ksqrt tol pca m tris verts bs keep GM b cont r map tau N None Hb Hr Hc MI (fun _ => HP)) as (es & Ees & Les & Hes).
  exists es. split; [exact Ees|]. split; [exact Les|]. split.
  { intros e He. apply (In_nth_error) in He as (i & Hi). assert (i < N) as Hin by (rewrite <- Les; apply nth_error_Some; congruence). destruct (Hes i Hin) as (e' & E1 & O1 & _ & _ & h & T1 & T2). rewrite Hi in E1. injection E1 as <-. split; [exact O1|]. exists h. split; [exact T1|]. split; [exact T2|]. split; [|auto]. apply (o_supp O1). }
  intros n p H. assert (EN : length (w_rows p) = N /\ w_tau p = tau). { destruct (same_maps m tris bs keep cont r (w_tau p) (length (w_rows p)) tau N (o_map H) (proj1 MI)) as [S1 S2]. auto. } destruct EN as [EN ET]. split; [exact EN|].
  intros j y Hj Hy. destruct (eval_at ksqrt tol m tris verts bs keep GM j y Hj Hy) as (x & Hx & HC & HE).
  destruct es as [|e0 es'].
  { cbn [length] in Les. exfalso. apply (o_ne H). destruct (w_rows p); [reflexivity|cbn in EN; lia]. }
  set (E := fun i => nth i (e0 :: es') e0). assert (HEi : forall i, i < N -> pw_of ksqrt tol m tris verts bs keep b cont 1 r (E i) /\ w_rows (E i) = unit_rows N i /\ w_tau (E i) = w_tau p).
  { intros i Hi. destruct (Hes i Hi) as (e & E1 & O1 & R1 & T1 & _). unfold E. rewrite (nth_error_nth _ _ e0 E1). rewrite ET. auto. }
  exists (List.map (fun i => fval (E i) j 0 x) (seq 0 N)). split.
  { rewrite (map_nth_seq_eq (e0 :: es') e0) at 1. rewrite Les. rewrite map_map. apply mapM_map_ok. intros i Hi. apply in_seq in Hi. destruct (HEi i ltac:(lia)) as (O1 & _). fold (E i). rewrite (HE _ _ _ _ _ O1). reflexivity. }
  rewrite map_length, seq_length. split; [reflexivity|]. rewrite (HE _ _ _ _ _ H). f_equal. apply map_ext. intros k.
  rewrite (expansion ksqrt tol m tris verts bs keep b cont n r p N E j k x H (eq_sym EN) HEi Hj).
  assert (A : forall (l : list (list Q)) (f : nat -> Q) (g : list Q * Q -> Q), ksum (combine l (List.map f (seq 0 (length l)))) g = ksum (seq 0 (length l)) (fun i => g (nth i l [], f i))).
  { clear. intros l f g. rewrite (map_nth_seq_eq l []) at 1. induction (seq 0 (length l)) as [|i s IH]; [reflexivity|]. cbn [List.map combine]. rewrite !ksum_cons, IH. reflexivity. }
  rewrite <- EN, A. reflexivity.
Qed.
Print Assumptions C71_basis.
(** The dual basis functions return the coefficients; so they are dual to the
    basis functions. *)
Theorem C71_dual : forall (Q : ofld) (ksqrt : Q -> Q) (tol : Q) (veq : list (list Q) -> list (list Q) -> bool) (pca : list (list Q) -> list Q) m tris (verts : list (list Q)) bs keep pick b cont r map tau N nonb, good_mesh m tris verts bs -> b <> Monomial -> (cont = true -> 1 <= r) -> (forall s, s <> [] -> In (pick s) s) ->
  generate_local_to_global_map cont tris r bs keep = Ok (tau, Z.of_nat N, nonb) -> map = None \/ map = Some (tau, Z.of_nat N) ->
  exists fs, dual_pw_basis ksqrt tol veq pick b cont tris verts r map bs keep = Ok fs /\ length fs = N /\
    forall n p, pw_of ksqrt tol m tris verts bs keep b cont n r p -> (b = Bernstein -> n = 1 /\ (forall w, veq w w = true) /\ (forall j, j < length tris -> klt (k0 : Q) (det m (edge (List.map (fun v => nth v verts []) (nth j tris []))))) /\ 2 * r < 20) ->
      mapM (fun f => f p) fs = Ok (w_rows p).
Proof.
  intros Q ksqrt tol veq pca m tris verts bs keep pick b cont r map tau N nonb GM Hb Hc HP HG HM. pose proof (map_of m tris verts bs keep cont r map tau N nonb GM Hc HG HM) as MI. destruct (dual_ok ksqrt tol veq m tris verts bs keep GM pick HP b cont r map tau N Hb Hc MI) as (fs & Efs & Lfs & Hfs).
  exists fs. split; [exact Efs|]. split; [exact Lfs|]. intros n p H HB. assert (EN : length (w_rows p) = N) by (destruct (same_maps m tris bs keep cont r (w_tau p) (length (w_rows p)) tau N (o_map H) (proj1 MI)) as [S1 S2]; auto).
  rewrite (map_nth_seq_eq (w_rows p) []), EN, <- Lfs. destruct fs as [|f0 fs']; [reflexivity|]. rewrite (map_nth_seq_eq (f0 :: fs') f0) at 1. apply mapM_map_ok. intros i Hi. apply in_seq in Hi. destruct (Hfs i ltac:(lia)) as (f & E1 & E2). rewrite (nth_error_nth _ _ f0 E1). apply (E2 n p H HB).
Qed.
Print Assumptions C71_dual.
Theorem C71_biorthogonal : forall (Q : ofld) (ksqrt : Q -> Q) (tol : Q) (veq : list (list Q) -> list (list Q) -> bool) (pca : list (list Q) -> list Q) m tris (verts : list (list Q)) bs keep pick b cont r map tau N nonb, good_mesh m tris verts bs -> b <> Monomial -> r < 20 -> (cont = true -> 1 <= r) -> (forall s, s <> [] -> In (pick s) s) -> (forall w, veq w w = true) ->
  generate_local_to_global_map cont tris r bs keep = Ok (tau, Z.of_nat N, nonb) -> map = None \/ map = Some (tau, Z.of_nat N) ->
  (forall points, points <> [] -> (forall p, In p points -> length p = m) -> length (pca points) = m) ->
  (b = Bernstein -> (forall j, j < length tris -> klt (k0 : Q) (det m (edge (List.map (fun v => nth v verts []) (nth j tris []))))) /\ 2 * r < 20) ->
  exists es fs, pw_basis ksqrt tol pca b cont tris verts r map bs keep None = Ok es /\ dual_pw_basis ksqrt tol veq pick b cont tris verts r map bs keep = Ok fs /\ length es = N /\ length fs = N /\
    forall i i' e f, nth_error es i = Some e -> nth_error fs i' = Some f -> f e = Ok [if Nat.eq_dec i' i then k1 else k0].
Proof.
  intros Q ksqrt tol veq pca m tris verts bs keep pick b cont r map tau N nonb GM Hb Hr Hc HP HV HG HM HPC HB. pose proof (map_of m tris verts bs keep cont r map tau N nonb GM Hc HG HM) as MI.
  destruct (basis_ok ksqrt tol pca m tris verts bs keep GM b cont r map tau N None Hb Hr Hc MI (fun _ => HPC)) as (es & Ees & Les & Hes). destruct (dual_ok ksqrt tol veq m tris verts bs keep GM pick HP b cont r map tau N Hb Hc MI) as (fs & Efs & Lfs & Hfs).
  exists es, fs. split; [exact Ees|]. split; [exact Efs|]. split; [exact Les|]. split; [exact Lfs|]. intros i i' e f Hi Hi'. assert (i < N) as Li by (rewrite <- Les; apply nth_error_Some; congruence). assert (i' < N) as Li' by (rewrite <- Lfs; apply nth_error_Some; congruence).
  destruct (Hes i Li) as (e' & E1 & O1 & R1 & _). rewrite Hi in E1. injection E1 as <-. destruct (Hfs i' Li') as (f' & F1 & F2). rewrite Hi' in F1. injection F1 as <-. rewrite (F2 1 e O1).
  - rewrite R1, unit_rows_nth by assumption. reflexivity.
  - intros Eb. destruct (HB Eb) as [B1 B2]. auto.
Qed.
Print Assumptions C71_biorthogonal.

(** ** Examples and findings *)
Definition sqm : list (list QcF) := square (Q := QcO).
Definition pca1 : list (list QcF) -> list QcF := fun _ => [rat 1 1; rat 0 1].
Definition ints (l : list Z) : list (list QcF) := map (fun z => [rat z 1]) l.
Definition mk b cont rows r bs keep := new_pw (Q := QcO) qsqrt (rat 0 1) pca1 b cont rows two_tri sqm r None bs keep None None None.
Definition ev (p : result (pw QcO)) j (a b : QcF) : list Q := qres (let* p := p in pw_eval p j (pt [a; b])).
Definition ca (p : result (pw QcO)) (a b : QcF) : list Q := qres (let* p := p in pw_call (Q := QcO) qsqrt (rat 0 1) p [a; b]).
Definition raised {A} (r : result A) : option err := match r with Ok _ => None | Err e => Some e end.
Lemma sq_mesh bs : bs = None \/ bs = Some [[1; 2]] -> good_mesh (Q := QcO) 2 two_tri sqm bs.
Proof.
  intros Hbs. split.
  - exact (proj1 C34_mesh).
  - split; [discriminate|]. split; [intros v [<-|[<-|[<-|[<-|[]]]]]; reflexivity|]. intros s [<-|[<-|[]]]; (split; [discriminate|]); intros j; cbn; intuition lia.
  - intros [|[|j]] Hj; [| |cbn in Hj; lia]; (split; [discriminate|]; split; [split; [reflexivity|]; intros r [<-|[<-|[<-|[]]]]; reflexivity|]; apply (affine_independent_det 2); [discriminate|reflexivity|intros E; apply (f_equal (fun v : Qc => this v)) in E; vm_compute in E; discriminate E]).
  - exact C37_ex1.
  - destruct Hbs as [->| ->]; [intros b []|exact (proj2 C34_mesh)].
Qed.
Lemma num_of cont N : match generate_local_to_global_map cont two_tri 1 None false with Ok (_, n, _) => (n =? N)%Z | Err _ => false end = true -> exists tau nonb, generate_local_to_global_map cont two_tri 1 None false = Ok (tau, N, nonb).
Proof. destruct (generate_local_to_global_map cont two_tri 1 None false) as [[[tau n] nonb]|e]; [|discriminate]. intros H. apply Z.eqb_eq in H. subst n. eauto. Qed.
(** A continuous and a discontinuous piecewise polynomial: objects of the shape
    the theorems speak about, with their values. *)
Definition pc := mk Lagrange true (ints [1; 2; 3; 5]%Z) 1 None false.
Definition pd := mk Lagrange false (ints [1; 2; 3; 5; 7; 11]%Z) 1 None false.
Example C50_ex : exists p q, pc = Ok p /\ pd = Ok q /\ pw_of (Q := QcO) qsqrt (rat 0 1) 2 two_tri sqm None false Lagrange true 1 1 p /\ pw_of (Q := QcO) qsqrt (rat 0 1) 2 two_tri sqm None false Lagrange false 1 1 q /\
  tree_knows (Q := QcO) 2 two_tri sqm p (w_supp p) /\ (forall j, In j (w_supp p) -> positive (Q := QcO) two_tri sqm j) /\ w_supp p = [0; 1] /\ full None false /\ unit_cond (Q := QcO) two_tri sqm None false true.
Proof.
  assert (G : forall cont rows tau nonb, length rows <> 0 -> (forall row, In row rows -> length row = 1) -> generate_local_to_global_map cont two_tri 1 None false = Ok (tau, Z.of_nat (length rows), nonb) ->
    exists p, mk Lagrange cont rows 1 None false = Ok p /\ pw_of (Q := QcO) qsqrt (rat 0 1) 2 two_tri sqm None false Lagrange cont 1 1 p /\ tree_knows (Q := QcO) 2 two_tri sqm p (w_supp p)).
  { intros cont rows tau nonb Hr HR HG. destruct (C50_constructor QcO qsqrt (rat 0 1) veq_all pca1 2 two_tri sqm None false Lagrange cont rows 1 1 tau nonb (sq_mesh None (or_introl eq_refl))) as (p & E & H & _ & _ & T); try (discriminate || lia || auto); [intros ->; apply Hr; reflexivity|].
    exists p. split; [|auto]. unfold mk. rewrite (C50_constructor_default QcO qsqrt (rat 0 1) veq_all pca1 2 two_tri sqm None false Lagrange cont rows 1 tau _ nonb None None None (sq_mesh None (or_introl eq_refl)) ltac:(lia) HG (or_intror eq_refl)), Z.eqb_refl. exact E. }
  assert (GC : exists tau nonb, generate_local_to_global_map true two_tri 1 None false = Ok (tau, 4%Z, nonb)) by (apply num_of; vm_compute; reflexivity). assert (GD : exists tau nonb, generate_local_to_global_map false two_tri 1 None false = Ok (tau, 6%Z, nonb)) by (apply num_of; vm_compute; reflexivity).
  destruct GC as (tau & nonb & GC). destruct GD as (tau' & nonb' & GD). destruct (G true (ints [1; 2; 3; 5]%Z) tau nonb) as (p & E1 & H1 & T1); [discriminate|intros row [<-|[<-|[<-|[<-|[]]]]]; reflexivity|exact GC|].
  destruct (G false (ints [1; 2; 3; 5; 7; 11]%Z) tau' nonb') as (q & E2 & H2 & _); [discriminate|intros row [<-|[<-|[<-|[<-|[<-|[<-|[]]]]]]]; reflexivity|exact GD|].
  exists p, q. split; [exact E1|]. split; [exact E2|]. split; [exact H1|]. split; [exact H2|]. split; [exact T1|].
  assert (S : match pc with Ok p => w_supp p = [0; 1] | Err _ => False end) by (vm_compute; reflexivity). unfold pc in S. rewrite E1 in S. split.
  { rewrite S. intros j [<-|[<-|[]]]; vm_compute; reflexivity. }
  split; [exact S|]. split; [left; reflexivity|]. split; [left; reflexivity|]. intros v Hv. destruct v as [|[|[|[|v]]]]; [exists [0; 1; 2]|exists [0; 1; 2]|exists [0; 1; 2]|exists [1; 3; 2]|cbn in Hv; lia]; cbn; auto 6.
Qed.
Example C50_ex_values : ev pc 0 (rat 1 2) (rat 1 4) = [2%Q] /\ ev pd 1 (rat 1 1) (rat 0 1) = [5%Q] /\
  ev (let* p := pc in pw_mul (Q := QcO) qsqrt (rat 0 1) veq_all pca1 p p) 1 (rat 1 1) (rat 1 1) = [25%Q] /\
  ev (let* p := pc in pw_pow (Q := QcO) qsqrt (rat 0 1) veq_all pca1 p 3) 0 (rat 1 1) (rat 0 1) = [8%Q] /\
  ev (let* p := pd in let* t := pw_mul (Q := QcO) qsqrt (rat 0 1) veq_all pca1 p p in pw_sub (Q := QcO) qsqrt (rat 0 1) pca1 p t) 0 (rat 0 1) (rat 1 1) = [(-6)%Q].
Proof. vm_compute. auto. Qed.
Example C68_ex : ca pc (rat 1 2) (rat 1 2) = [(5 # 2)%Q] /\ ca pc (rat 3 4) (rat 3 4) = [(15 # 4)%Q] /\ ca pc (rat 2 1) (rat 0 1) = [0%Q].
Proof. vm_compute. auto. Qed.
Example C69_ex : conforming (Q := QcO) 2 two_tri sqm.
Proof. exact square_conforming. Qed.
Example C70_ex : ev (let* p := pc in weak_partial_derivative (Q := QcO) qsqrt (rat 0 1) veq_all pca1 p 0) 0 (rat 1 4) (rat 1 4) = [1%Q] /\ ev (let* p := pc in weak_partial_derivative (Q := QcO) qsqrt (rat 0 1) veq_all pca1 p 0) 1 (rat 3 4) (rat 3 4) = [2%Q].
Proof. vm_compute. auto. Qed.
Definition pick1 : list (nat * list nat) -> nat * list nat := fun s => hd (0, []) s.
Example C71_ex : (forall s, s <> [] -> In (pick1 s) s) /\ exists es fs, pw_basis (Q := QcO) qsqrt (rat 0 1) pca1 Lagrange true two_tri sqm 1 None None false None = Ok es /\ dual_pw_basis (Q := QcO) qsqrt (rat 0 1) veq_all pick1 Lagrange true two_tri sqm 1 None None false = Ok fs /\ length es = 4 /\ length fs = 4.
Proof.
  assert (HP : forall s, s <> [] -> In (pick1 s) s) by (intros [|x s] H; [contradiction|left; reflexivity]). split; [exact HP|]. assert (GC : exists tau nonb, generate_local_to_global_map true two_tri 1 None false = Ok (tau, Z.of_nat 4, nonb)) by (apply num_of; vm_compute; reflexivity). destruct GC as (tau & nonb & GC).
  destruct (C71_basis QcO qsqrt (rat 0 1) veq_all pca1 2 two_tri sqm None false Lagrange true 1 None tau 4 nonb (sq_mesh None (or_introl eq_refl))) as (es & E1 & L1 & _); [discriminate|lia|lia|exact GC|auto|reflexivity|].
  destruct (C71_dual QcO qsqrt (rat 0 1) veq_all pca1 2 two_tri sqm None false pick1 Lagrange true 1 None tau 4 nonb (sq_mesh None (or_introl eq_refl))) as (fs & E2 & L2 & _); [discriminate|lia|exact HP|exact GC|auto|]. exists es, fs. auto.
Qed.

(** Findings.  With boundary simplices whose degrees of freedom are dropped, the
    index -1 is used to index the array of coefficients: the restriction to a
    simplex differs from the polynomial evaluated there, and so do degree
    elevation, products and weak derivatives. *)
Definition pb := mk Lagrange true (ints [1; 2]%Z) 1 (Some [[1; 2]]) false.
Theorem C50_restrict_refuted : exists (verts : list (list QcF)) tris bs rows j y, good_mesh (Q := QcO) 2 tris verts bs /\
  let p := new_pw (Q := QcO) qsqrt (rat 0 1) pca1 Lagrange true rows tris verts 1 None bs false None None None in
  qres (let* p := p in pw_eval p j (pt y)) = [0%Q] /\ qres (let* p := p in let* s := pw_restrict (Q := QcO) qsqrt (rat 0 1) p j in sp_call s (pt y)) = [2%Q].
Proof. exists sqm, two_tri, (Some [[1; 2]]), (ints [1; 2]%Z), 0, [rat 1 1; rat 0 1]. split; [exact (sq_mesh _ (or_intror eq_refl))|]. vm_compute. auto. Qed.
Print Assumptions C50_restrict_refuted.
Theorem C50_elevate_refuted : exists (verts : list (list QcF)) tris bs rows j y, good_mesh (Q := QcO) 2 tris verts bs /\
  let p := new_pw (Q := QcO) qsqrt (rat 0 1) pca1 Lagrange true rows tris verts 1 None bs false None None None in
  qres (let* p := p in pw_eval p j (pt y)) = [(1 # 2)%Q] /\ qres (let* p := p in let* t := pw_elevate (Q := QcO) qsqrt (rat 0 1) pca1 p 2 in pw_eval t j (pt y)) = [(3 # 2)%Q].
Proof. exists sqm, two_tri, (Some [[1; 2]]), (ints [1; 2]%Z), 0, [rat 1 2; rat 0 1]. split; [exact (sq_mesh _ (or_intror eq_refl))|]. vm_compute. auto. Qed.
Print Assumptions C50_elevate_refuted.
Theorem C50_mul_refuted : exists (verts : list (list QcF)) tris bs rows j y u v, good_mesh (Q := QcO) 2 tris verts bs /\
  let p := new_pw (Q := QcO) qsqrt (rat 0 1) pca1 Lagrange true rows tris verts 1 None bs false None None None in
  qres (let* p := p in pw_eval p j (pt y)) = [u] /\ qres (let* p := p in let* t := pw_mul (Q := QcO) qsqrt (rat 0 1) veq_all pca1 p p in pw_eval t j (pt y)) = [v] /\ ~ (v == u * u)%Q.
Proof. exists sqm, two_tri, (Some [[1; 2]]), (ints [1; 2]%Z), 1, [rat 1 2; rat 1 1], 1%Q, 0%Q. split; [exact (sq_mesh _ (or_intror eq_refl))|]. split; [vm_compute; reflexivity|]. split; [vm_compute; reflexivity|]. intros E. vm_compute in E. discriminate E. Qed.
Print Assumptions C50_mul_refuted.
(** The function is [1 - x - y] on the first simplex; the x-derivative returned is 1. *)
Theorem C70_weak_derivative_refuted : exists (verts : list (list QcF)) tris bs rows, good_mesh (Q := QcO) 2 tris verts bs /\
  let p := new_pw (Q := QcO) qsqrt (rat 0 1) pca1 Lagrange true rows tris verts 1 None bs false None None None in
  qres (let* p := p in pw_eval p 0 (pt [rat 0 1; rat 0 1])) = [1%Q] /\ qres (let* p := p in pw_eval p 0 (pt [rat 1 1; rat 0 1])) = [0%Q] /\
  qres (let* p := p in let* d := weak_partial_derivative (Q := QcO) qsqrt (rat 0 1) veq_all pca1 p 0 in pw_eval d 0 (pt [rat 0 1; rat 0 1])) = [1%Q].
Proof. exists sqm, two_tri, (Some [[1; 2]]), (ints [1; 2]%Z). split; [exact (sq_mesh _ (or_intror eq_refl))|]. vm_compute. auto. Qed.
Print Assumptions C70_weak_derivative_refuted.
(** A sum whose second operand has a simplex in its support the first does not
    have raises a KeyError. *)
Theorem C50_add_refuted : exists (verts : list (list QcF)) tris rows rows', good_mesh (Q := QcO) 2 tris verts None /\
  let p := new_pw (Q := QcO) qsqrt (rat 0 1) pca1 Lagrange false rows tris verts 1 None None false None None None in
  let q := new_pw (Q := QcO) qsqrt (rat 0 1) pca1 Lagrange false rows' tris verts 1 None None false None None None in
  raised p = None /\ raised q = None /\ raised (let* p := p in let* q := q in pw_add (Q := QcO) qsqrt (rat 0 1) pca1 p q) = Some KeyError.
Proof. exists sqm, two_tri, (ints [1; 0; 0; 0; 0; 0]%Z), (ints [0; 0; 0; 0; 0; 1]%Z). split; [exact (sq_mesh _ (or_introl eq_refl))|]. vm_compute. auto. Qed.
Print Assumptions C50_add_refuted.
(** The product of a continuous and a discontinuous piecewise polynomial is not
    their product: it is made continuous. *)
Theorem C50_mul_mixed_refuted : exists (verts : list (list QcF)) tris rows rows' y, good_mesh (Q := QcO) 2 tris verts None /\
  let p := new_pw (Q := QcO) qsqrt (rat 0 1) pca1 Lagrange true rows tris verts 1 None None false None None None in
  let q := new_pw (Q := QcO) qsqrt (rat 0 1) pca1 Lagrange false rows' tris verts 1 None None false None None None in
  qres (let* p := p in pw_eval p 0 (pt y)) = [2%Q] /\ qres (let* q := q in pw_eval q 0 (pt y)) = [2%Q] /\ qres (let* p := p in let* q := q in let* t := pw_mul (Q := QcO) qsqrt (rat 0 1) veq_all pca1 p q in pw_eval t 0 (pt y)) = [10%Q].
Proof. exists sqm, two_tri, (ints [1; 2; 3; 5]%Z), (ints [1; 2; 3; 5; 7; 11]%Z), [rat 1 1; rat 0 1]. split; [exact (sq_mesh _ (or_introl eq_refl))|]. vm_compute. auto. Qed.
Print Assumptions C50_mul_mixed_refuted.
(** Powers by a multi-index of a scalar valued piecewise polynomial fail, and the
    power of a Lagrange piecewise polynomial of degree 0 is the unit. *)
Theorem C50_pow_multi_index_refuted : good_mesh (Q := QcO) 2 two_tri sqm None /\
  raised (let* p := mk Lagrange true (ints [1; 2; 3; 5]%Z) 1 None false in pw_pow_mi (Q := QcO) qsqrt (rat 0 1) veq_all pca1 p [2]) = Some TypeError /\
  raised (let* p := mk Bernstein true (ints [1; 2; 3; 5]%Z) 1 None false in pw_pow_mi (Q := QcO) qsqrt (rat 0 1) veq_all pca1 p [2]) = Some IndexError /\
  exists rows, ev (mk Lagrange false rows 0 None false) 0 (rat 1 4) (rat 1 4) = [2%Q; 3%Q] /\ ev (let* p := mk Lagrange false rows 0 None false in pw_pow_mi (Q := QcO) qsqrt (rat 0 1) veq_all pca1 p [1; 2]) 0 (rat 1 4) (rat 1 4) = [1%Q].
Proof. split; [exact (sq_mesh _ (or_introl eq_refl))|]. split; [vm_compute; reflexivity|]. split; [vm_compute; reflexivity|]. exists [[rat 2 1; rat 3 1]; [rat 4 1; rat 5 1]]. vm_compute. auto. Qed.
Print Assumptions C50_pow_multi_index_refuted.
(** The unit polynomial cannot be created when boundary simplices are given, or
    when a vertex belongs to no simplex. *)
Theorem C50_unit_refuted : good_mesh (Q := QcO) 2 two_tri sqm (Some [[1; 2]]) /\
  raised (pw_unit (Q := QcO) qsqrt (rat 0 1) pca1 Lagrange true two_tri sqm 1 None (Some [[1; 2]]) false None) = Some AssertionError /\
  raised (pw_unit (Q := QcO) qsqrt (rat 0 1) pca1 Lagrange false two_tri sqm 1 None (Some [[1; 2]]) true None) = Some ValueError /\
  raised (pw_unit (Q := QcO) qsqrt (rat 0 1) pca1 Lagrange true two_tri (sqm ++ [[rat 5 1; rat 5 1]]) 1 None None false None) = Some AssertionError.
Proof. split; [exact (sq_mesh _ (or_intror eq_refl))|]. vm_compute. auto. Qed.
Print Assumptions C50_unit_refuted.
(** [p ** 0] is 1 on every simplex but the call operator, which uses the tree of
    [p], returns 0 outside the support of [p]. *)
Theorem C68_pow_zero_refuted : exists (verts : list (list QcF)) tris rows y, good_mesh (Q := QcO) 2 tris verts None /\ inside_tri (Q := QcO) 2 tris verts 1 y /\
  let t := let* p := new_pw (Q := QcO) qsqrt (rat 0 1) pca1 Lagrange false rows tris verts 1 None None false None None None in pw_pow (Q := QcO) qsqrt (rat 0 1) veq_all pca1 p 0 in
  qres (let* t := t in pw_eval t 1 (pt y)) = [1%Q] /\ qres (let* t := t in pw_call (Q := QcO) qsqrt (rat 0 1) t y) = [0%Q].
Proof.
  exists sqm, two_tri, (ints [1; 0; 0; 0; 0; 0]%Z), [rat 3 4; rat 3 4]. split; [exact (sq_mesh _ (or_introl eq_refl))|]. split; [|vm_compute; auto].
  exists [rat 1 4; rat 1 2; rat 1 4]. split.
  - split; [reflexivity|]. split; [reflexivity|]. split; [apply Qc_is_canon; reflexivity|]. intros [|[|j]] Hj; [apply Qc_is_canon; reflexivity|apply Qc_is_canon; reflexivity|lia].
  - intros x [<-|[<-|[<-|[]]]]; apply kleb_spec; vm_compute; reflexivity.
Qed.
Print Assumptions C68_pow_zero_refuted.
(** In a negatively oriented simplex the call operator returns 0. *)
Theorem C68_orientation_refuted : exists (verts : list (list QcF)) tris rows y, good_mesh (Q := QcO) 2 tris verts None /\ inside_tri (Q := QcO) 2 tris verts 0 y /\
  let p := new_pw (Q := QcO) qsqrt (rat 0 1) pca1 Lagrange true rows tris verts 1 None None false None None None in
  qres (let* p := p in pw_eval p 0 (pt y)) = [(7 # 4)%Q] /\ qres (let* p := p in pw_call (Q := QcO) qsqrt (rat 0 1) p y) = [0%Q].
Proof.
  exists sqm, [[0; 2; 1]], (ints [1; 2; 3]%Z), [rat 1 4; rat 1 4]. split; [|split; [|vm_compute; auto]].
  - split.
    + split; [discriminate|]. intros t [<-|[]]. split; [reflexivity|]. repeat constructor; cbn; intuition lia.
    + split; [discriminate|]. split; [intros v [<-|[<-|[<-|[<-|[]]]]]; reflexivity|]. intros s [<-|[]]. split; [discriminate|]. intros j; cbn; intuition lia.
    + intros [|j] Hj; [|cbn in Hj; lia]. split; [discriminate|]. split; [split; [reflexivity|]; intros r [<-|[<-|[<-|[]]]]; reflexivity|]. apply (affine_independent_det 2); [discriminate|reflexivity|intros E; apply (f_equal (fun v : Qc => this v)) in E; vm_compute in E; discriminate E].
    + intros [|i] [|j] Hi Hj _; cbn in Hi, Hj; [reflexivity|lia|lia|lia].
    + intros b [].
  - exists [rat 1 2; rat 1 4; rat 1 4]. split.
    + split; [reflexivity|]. split; [reflexivity|]. split; [apply Qc_is_canon; reflexivity|]. intros [|[|j]] Hj; [apply Qc_is_canon; reflexivity|apply Qc_is_canon; reflexivity|lia].
    + intros x [<-|[<-|[<-|[]]]]; apply kleb_spec; vm_compute; reflexivity.
Qed.
Print Assumptions C68_orientation_refuted.
