(** Piecewise polynomials: evaluation at a point and continuity. *)
From Verif Require PermFacts KdTree.
From Verif Require Import KdFacts KdProps KdMesh Prop_LocalToGlobal.
From Verif Require Import Base MultiIndex MultiIndexFacts MultiCapFacts MultiIndexCache Fld FldInst CodeGen CodeGenFacts LinSolve Det Linalg VecFacts Simplicial SimplexGeo SimplexFacts SimplexMetric SimplexInside AffineFacts MultiCoef MultiCoefFacts LagrangeCache Unisolv Poly PolyFacts LagFacts PolyEval PolyOps PolyOpsB PolyDeriv PolyObj PolyPow PolyCalls IntegralCache Integrate IntFacts HasInt Bases BasesFacts BasesCalls BasesMore DerivFacts SubstFacts PolySimplex PolySimplexFacts PolySimplexCalls PolySimplexMul.
From Verif Require Import LocalToGlobal LocalToGlobalFacts LocalToGlobalSim LocalToGlobalProps FaceFacts FaceValues PiecewisePoly PiecewiseMap PiecewiseFacts PiecewiseOps PiecewiseOps2 PiecewiseOps3.
From Coq Require Import Field_theory Field Permutation.

Section PWCall.
  Context {Q : ofld} (ksqrt : Q -> Q) (tol eps : Q) (veq : list (list Q) -> list (list Q) -> bool) (pca : list (list Q) -> list Q).
  Add Field Kfield66 : (kth Q).
  Local Open Scope fld_scope.
  Notation pt := SimplexGeo.pt.
  Notation spoly_of := (spoly_of ksqrt tol).
  Context (m : nat) (tris : list (list nat)) (verts : list (list Q)) (bs : option (list (list nat))) (keep : bool).
  Notation ntri := (length tris).
  Notation tri j := (nth j tris []).
  Hypothesis GM : good_mesh m tris verts bs.
  Notation corners := (corners_of tris verts).
  Notation pw_of := (pw_of ksqrt tol m tris verts bs keep).
  Notation tri_verts := (tri_verts m tris verts bs GM).

  (** [y] lies in simplex [j] *)
  Definition inside_tri (j : nat) (y : list Q) : Prop := exists c, affine_comb m c (corners j) y /\ forall x, In x c -> kle 0 x.
  Lemma eval_at j y : (j < ntri)%nat -> length y = m -> exists x, length x = m /\ affine_comb m (bary_of x) (corners j) y /\
    forall b cont n r p, pw_of b cont n r p -> pw_eval p j (pt y) = Ok (map (fun k => fval p j k x) (seq 0 n)).
  Proof.
    intros Hj Hy. destruct (PiecewiseFacts.local_coords ksqrt tol m tris verts bs GM j y Hj Hy) as (x & Hx & HC). exists x. split; [exact Hx|]. split; [exact HC|]. intros b cont n r p H. apply (eval_ok ksqrt tol m tris verts bs keep GM b cont n r p j x y H Hj HC).
  Qed.
  Lemma inside_hull j y : inside_tri j y -> in_hull m (corners j) y.
  Proof.
    intros (c & (C1 & C2 & C3 & C4) & HP). exists c. split; [exact C1|]. split; [intros i Hi; apply HP, nth_In; lia|]. split; [|exact C4]. rewrite <- C3. rewrite <- C1. symmetry. etransitivity; [|apply (ksum_map (fun i => nth i c 0) (fun x => x) (seq 0 (length c)))]. f_equal. apply map_nth_seq_eq.
  Qed.

  (** The tree of [p] knows every simplex of the support *)
  Definition tree_knows (p : pw Q) (int : list nat) : Prop := exists h, w_tree p = (h, 0%nat) /\ minv m tris verts int h /\ (forall j, In j int -> (j < ntri)%nat) /\ forall j, In j (w_supp p) -> In j int.

  Definition positive (j : nat) : Prop := orientation (corners j) = Ok 1%Z.
  Lemma first_inside_ok y l : length y = m -> (forall j, In j l -> (j < ntri)%nat /\ positive j) ->
    (exists j, In j l /\ inside_tri j y /\ first_inside ksqrt eps tris verts y l = Ok (Some j)) \/ (first_inside ksqrt eps tris verts y l = Ok None /\ forall j, In j l -> ~ inside_tri j y).
  Proof.
    intros Hy. induction l as [|j l IH]; intros Hl; [right; split; [reflexivity|intros j []]|]. destruct (Hl j (or_introl eq_refl)) as [Hj Hp]. cbn [first_inside]. rewrite (tri_verts j Hj). cbn [bind].
    destruct (gm_simplex GM j Hj) as (S0 & S1 & S2). destruct (inside_positive ksqrt eps m (corners j) y S0 S1 S2 Hp Hy) as (I1 & _ & I3). destruct (I3 true) as (bb & Eb). rewrite Eb in *. cbn [bind]. destruct bb.
    - left. exists j. split; [left; reflexivity|]. split; [apply I1; reflexivity|reflexivity].
    - assert (Hn : ~ inside_tri j y) by (intros Hin; apply I1 in Hin; discriminate). destruct IH as [(j' & H1 & H2 & H3)|[H1 H2]]; [intros j' Hj'; apply Hl; right; exact Hj'| |].
      + left. exists j'. split; [right; exact H1|]. split; assumption.
      + right. split; [exact H1|]. intros j' [<-|Hj']; [exact Hn|apply H2; exact Hj'].
  Qed.
  Theorem call_ok b cont n r p int y : pw_of b cont n r p -> tree_knows p int -> (forall j, In j int -> positive j) -> length y = m ->
    (exists j, In j int /\ inside_tri j y /\ pw_call ksqrt eps p y = pw_eval p j (pt y)) \/ ((forall j, In j int -> ~ inside_tri j y) /\ pw_call ksqrt eps p y = Ok (repeat 0 n)).
  Proof.
    intros H (h & Eh & [W V] & HI & HS) HP Hy. unfold pw_call. rewrite Eh. destruct (find_leaf_ok m h 0 y W (att_root h) Hy (root_space m h y W)) as (rr & nd & E1 & E2 & E3 & E4 & E5). rewrite E1. cbn [bind]. unfold get. rewrite E3. cbn [bind].
    destruct (space_iff m h rr y W E2 Hy) as (l & Hl & _ & EE). rewrite EE in E5. injection E5 as HSd. destruct (V rr nd l E2 E3 Hl) as (V1 & _ & _ & V4). rewrite (o_tris H), (o_verts H).
    destruct (first_inside_ok y (KdTree.n_pot nd) Hy) as [(j & J1 & J2 & J3)|[J1 J2]].
    - intros j Hj. split; [apply HI, V1, Hj|apply HP, V1, Hj].
    - left. exists j. split; [apply V1; exact J1|]. split; [exact J2|]. rewrite J3. reflexivity.
    - right. split; [|rewrite J1; cbn [bind]; rewrite (o_n H); reflexivity]. intros j Hj Hin. apply (J2 j); [|exact Hin]. apply (V4 j y Hj Hy HSd). apply inside_hull. exact Hin.
  Qed.
  Lemma eval_off b cont n r p j y : pw_of b cont n r p -> ~ In j (w_supp p) -> pw_eval p j y = Ok (repeat 0 n).
  Proof. intros H Ho. unfold pw_eval. replace (mem j (w_supp p)) with false by (symmetry; apply mem_out; exact Ho). rewrite (o_n H). reflexivity. Qed.
  (** a point of one simplex only *)
  Theorem call_single b cont n r p int y j : pw_of b cont n r p -> tree_knows p int -> (forall j, In j int -> positive j) -> length y = m -> (j < ntri)%nat -> inside_tri j y ->
    (forall j', (j' < ntri)%nat -> inside_tri j' y -> j' = j) -> pw_call ksqrt eps p y = pw_eval p j (pt y).
  Proof.
    intros H HT HP Hy Hj Hin HU. destruct HT as (h & Eh & HM & HI & HS). destruct (call_ok b cont n r p int y H (ex_intro _ h (conj Eh (conj HM (conj HI HS)))) HP Hy) as [(j' & J1 & J2 & J3)|[J1 J2]].
    - rewrite J3, (HU j' (HI j' J1) J2). reflexivity.
    - rewrite J2. symmetry. apply (eval_off b cont n r p j _ H). intros Hs. apply (J1 j); [apply HS; exact Hs|exact Hin].
  Qed.
  Theorem call_outside b cont n r p int y : pw_of b cont n r p -> tree_knows p int -> (forall j, In j int -> positive j) -> length y = m -> (forall j, (j < ntri)%nat -> ~ inside_tri j y) -> pw_call ksqrt eps p y = Ok (repeat 0 n).
  Proof.
    intros H HT HP Hy HO. pose proof HT as (h & _ & _ & HI & _). destruct (call_ok b cont n r p int y H HT HP Hy) as [(j' & J1 & J2 & J3)|[J1 J2]]; [|exact J2]. destruct (HO j' (HI j' J1) J2).
  Qed.

  (** ** Continuity *)
  (** [y] is an affine combination of the vertices [j] and [j'] share *)
  Definition common (j j' : nat) (y : list Q) : Prop := exists w : nat -> Q,
    (forall v, ~ (In v (tri j) /\ In v (tri j')) -> w v = 0) /\ ksum (tri j) w = 1 /\ length y = m /\ forall i, (i < m)%nat -> nth i y 0 = ksum (tri j) (fun v => w v * nth i (nth v verts []) 0).
  Lemma weights_comb j w y : (j < ntri)%nat -> ksum (tri j) w = 1 -> length y = m -> (forall i, (i < m)%nat -> nth i y 0 = ksum (tri j) (fun v => w v * nth i (nth v verts []) 0)) -> affine_comb m (bary_of (map w (tl (tri j)))) (corners j) y.
  Proof.
    intros Hj H1 Hy HW. assert (Eb : bary_of (map w (tl (tri j))) = map w (tri j)).
    { apply bary_weights; [|exact H1]. destruct (gm_mesh GM) as [_ HM]. destruct (HM (tri j)) as [L _]; [apply nth_In; exact Hj|]. intros E. rewrite E in L. cbn in L. lia. }
    rewrite Eb. split; [unfold corners_of; rewrite !map_length; reflexivity|]. split; [exact Hy|]. split; [rewrite (ksum_map w (fun t => t) (tri j)); exact H1|].
    intros i Hi. rewrite (HW i Hi). unfold corners_of. rewrite map_length. rewrite (map_nth_seq_eq (tri j) 0%nat) at 1. rewrite ksum_map. apply ksum_ext. intros k Hk. apply in_seq in Hk. unfold ent.
    rewrite (nth_indep (map w (tri j)) 0 (w 0%nat)) by (rewrite map_length; lia). rewrite (map_nth w). rewrite (nth_indep (map (fun v => nth v verts []) (tri j)) [] (nth 0 verts [])) by (rewrite map_length; lia). rewrite (map_nth (fun v => nth v verts [])). reflexivity.
  Qed.
  Theorem eval_common b n r p j j' y : pw_of b true n r p -> (j < ntri)%nat -> (j' < ntri)%nat -> common j j' y -> pw_eval p j (pt y) = pw_eval p j' (pt y).
  Proof.
    intros H Hj Hj' (w & W1 & W2 & W3 & W4).
    assert (SH : forall v, shared (tri j) (tri j') v = false -> w v = 0) by (intros v Hv; apply W1; intros Hb; apply shared_spec in Hb; congruence).
    assert (SH' : forall v, shared (tri j') (tri j) v = false -> w v = 0) by (intros v Hv; apply SH; rewrite shared_sym; exact Hv).
    destruct (proj2 (gm_mesh GM) (tri j) (nth_In _ _ Hj)) as [_ N1]. destruct (proj2 (gm_mesh GM) (tri j') (nth_In _ _ Hj')) as [_ N2].
    assert (ES : forall f : nat -> Q, ksum (tri j) (fun v => w v * f v) = ksum (tri j') (fun v => w v * f v)).
    { intros f. apply shared_ksum; auto. }
    rewrite (eval_ok ksqrt tol m tris verts bs keep GM b true n r p j (map w (tl (tri j))) y H Hj) by (apply weights_comb; assumption).
    rewrite (eval_ok ksqrt tol m tris verts bs keep GM b true n r p j' (map w (tl (tri j'))) y H Hj').
    2:{ apply weights_comb; auto.
        - rewrite <- W2. rewrite (ksum_ext w (fun v => w v * 1) (tri j')) by (intros; ring). rewrite <- ES. apply ksum_ext. intros; ring.
        - intros i Hi. rewrite (W4 i Hi). apply ES. }
    f_equal. apply map_ext_in. intros k Hk. apply in_seq in Hk. apply (fam_agree ksqrt tol veq pca m tris verts bs keep GM b n r p H); auto; lia.
  Qed.
  (** two simplices of the mesh meet in a common face *)
  Definition conforming : Prop := forall j j' y, (j < ntri)%nat -> (j' < ntri)%nat -> inside_tri j y -> inside_tri j' y -> common j j' y.
  Theorem call_continuous b n r p int j y : pw_of b true n r p -> tree_knows p int -> (forall j, In j int -> positive j) -> conforming -> (j < ntri)%nat -> inside_tri j y -> pw_call ksqrt eps p y = pw_eval p j (pt y).
  Proof.
    intros H HT HP HC Hj Hin. assert (Hy : length y = m) by (destruct Hin as (c & (_ & Hy & _) & _); exact Hy). pose proof HT as (h & Eh & HM & HI & HS). destruct (call_ok b true n r p int y H HT HP Hy) as [(j' & J1 & J2 & J3)|[J1 J2]].
    - rewrite J3. apply (eval_common b n r p j' j y H (HI j' J1) Hj). apply HC; auto.
    - rewrite J2. symmetry. apply (eval_off b true n r p j _ H). intros Hs. apply (J1 j); [apply HS; exact Hs|exact Hin].
  Qed.
End PWCall.
