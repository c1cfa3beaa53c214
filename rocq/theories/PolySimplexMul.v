(** Products, powers, bases and nodal values of polynomials on a simplex. *)
From Verif Require PermFacts.
From Verif Require Import Base MultiIndex MultiIndexFacts MultiCapFacts MultiIndexCache Fld FldInst CodeGen CodeGenFacts LinSolve Det Linalg VecFacts Simplicial SimplexGeo SimplexFacts SimplexMetric AffineFacts MultiCoef MultiCoefFacts LagrangeCache Unisolv Poly PolyFacts LagFacts PolyEval PolyOps PolyOpsB PolyDeriv PolyObj PolyPow PolyCalls IntegralCache Integrate IntFacts HasInt Bases BasesFacts BasesCalls BasesMore DerivFacts SubstFacts PolySimplex PolySimplexFacts PolySimplexCalls.
From Coq Require Import Field_theory Field.

Section SMul.
  Context {Q : ofld} (ksqrt : Q -> Q) (tol : Q) (veq : list (list Q) -> list (list Q) -> bool).
  Add Field Kfield56 : (kth Q).
  Local Open Scope fld_scope.
  Notation pt := SimplexGeo.pt.
  Notation spoly_of := (spoly_of ksqrt tol).

  Lemma affine_comb_unique m (c : list Q) vs y z : affine_comb m c vs y -> affine_comb m c vs z -> y = z.
  Proof. intros (_ & L1 & _ & H1) (_ & L2 & _ & H2). apply (vec_ext y z m L1 L2). intros j Hj. rewrite (H1 j Hj), (H2 j Hj). reflexivity. Qed.
  Lemma lagrange_points_length n r x : In x (map (generate_lagrange_point (F := Q) n r) (all_mi n r)) -> length x = n.
  Proof. intros Hx. apply in_map_iff in Hx as (mu & <- & Hmu). apply in_all_mi in Hmu as [M1 _]. apply lagrange_point_length. exact M1. Qed.
  Lemma call1_of (p : spoly Q) x v : sp_call p x = Ok v -> length v = 1%nat -> sp_call1 p x = Ok (nth 0 v 0).
  Proof. intros E H. unfold sp_call1. rewrite E. cbn [bind]. destruct v; [discriminate|reflexivity]. Qed.

  Lemma mapM_map_ok {A C D} (f : C -> result D) (h : A -> C) (g : A -> D) l : (forall a, In a l -> f (h a) = Ok (g a)) -> mapM f (map h l) = Ok (map g l).
  Proof. induction l as [|a l IH]; intros H; [reflexivity|]. cbn [map mapM]. rewrite (H a (or_introl eq_refl)), IH by (intros; apply H; right; assumption). reflexivity. Qed.

  Section One.
    Context (n : nat) (vs : list (list Q)) (ab : arr Q * arr Q) (phi : arr Q -> result (arr Q)) (B : nat -> nat -> Q) (TU : to_unit ksqrt tol n vs ab phi B).
    Notation X := (coords n vs B).
    Notation L := (lift vs ab phi).
    Notation P := (point n vs).
    Let Hn : n <> 0%nat := tu_n _ _ _ _ _ _ _ TU.
    Let Hrows : rows_of (S n) n vs := tu_rows _ _ _ _ _ _ _ TU.

    Lemma dim_vs : dimension vs = n. Proof. unfold dimension. destruct Hrows as [E _]. rewrite E. lia. Qed.
    Lemma map_from : exists psi, affine_map_from_unit vs = Ok psi /\ forall x, length x = n -> psi (pt x) = Ok (pt (P x)).
    Proof.
      destruct (from_unit_map n n vs Hn (le_n _) Hrows) as (psi & E & HP). exists psi. split; [exact E|]. intros x Lx. destruct (HP x Lx) as (y & Ey & Hy). rewrite Ey. f_equal. f_equal. apply (affine_comb_unique n (bary_of x) vs); [exact Hy|]. apply point_comb; assumption.
    Qed.
    Lemma spoint mu r : length mu = n -> generate_lagrange_point_simplex vs r mu = Ok (pt (P (generate_lagrange_point n r mu))).
    Proof. intros E. unfold generate_lagrange_point_simplex. rewrite dim_vs. destruct map_from as (psi & -> & HP). cbn [bind]. apply HP, lagrange_point_length, E. Qed.
    Lemma spoints r : generate_lagrange_points_simplex vs r = Ok (map (fun mu => pt (P (generate_lagrange_point n r mu))) (all_mi n r)).
    Proof.
      unfold generate_lagrange_points_simplex. destruct map_from as (psi & -> & HP). cbn [bind]. destruct (hd_vs _ _ _ _ _ _ _ TU) as (v0 & rest & E & L0). rewrite E at 1. rewrite L0, lagrange_points_eq. cbn [bind]. rewrite (mapM_ok _ (fun x => pt (P x))) by (intros x Hx; apply HP, (lagrange_points_length n r), Hx).
      rewrite map_map. reflexivity.
    Qed.
    Theorem sc_points r pts i x : generate_lagrange_points_simplex vs r = Ok pts -> nth_error pts i = Some x ->
      exists mu c y, nth_error (all_mi n r) i = Some mu /\ c = generate_lagrange_point n r mu /\ x = pt y /\ affine_comb n (bary_of c) vs y.
    Proof.
      intros E Hi. rewrite spoints in E. injection E as <-. rewrite nth_error_map in Hi. destruct (nth_error (all_mi n r) i) as [mu|] eqn:Em; [|discriminate]. injection Hi as <-. exists mu, (generate_lagrange_point n r mu), (P (generate_lagrange_point n r mu)). repeat (split; [reflexivity|]). apply nth_error_In, in_all_mi in Em as [M1 _]. apply point_comb; [exact Hrows|]. apply lagrange_point_length, M1.
    Qed.
    Theorem sc_nodal k r p pts i x : spoly_of Lagrange vs k r p -> generate_lagrange_points_simplex vs r = Ok pts -> nth_error pts i = Some x ->
      sp_call p x = Ok (map (fun c => nth i c 0) (sp_cols p)).
    Proof.
      intros Hp E Hi. destruct (of_lift _ _ _ _ _ _ _ TU _ _ _ _ Hp) as (u & -> & Hb & Hu). rewrite spoints in E. injection E as <-. rewrite nth_error_map in Hi. destruct (nth_error (all_mi n r) i) as [mu|] eqn:Em; [|discriminate]. injection Hi as <-. pose proof (nth_error_In _ _ Em) as Hmu. apply in_all_mi in Hmu as [M1 _].
      rewrite (call_lift _ _ _ _ _ _ _ TU _ _ _ _ _ Hu) by apply point_length. rewrite (coords_point _ _ _ _ _ _ _ TU) by (apply lagrange_point_length, M1).
      apply (lagrange_nodal n k r u (map (generate_lagrange_point n r) (all_mi n r)) i _ Hu); [apply lagrange_points_eq|]. apply (map_nth_error (generate_lagrange_point n r)). exact Em.
    Qed.
    (** The Lagrange polynomial through the values of a polynomial function *)
    Lemma interpolant s f : polydeg n s f -> (s < 20)%nat -> exists t, new_spoly ksqrt tol Lagrange [map (fun mu => f (P (generate_lagrange_point n s mu))) (all_mi n s)] vs (Some s) = Ok (L t) /\
      poly_of Lagrange n 1 s t /\ forall y, length y = n -> call t (X y) = Ok [f y].
    Proof.
      intros Hf Hs. set (c := map _ _). destruct (new_poly_ok Lagrange [c] s n) as (t & Et & Vt & T1 & T2 & T3 & T4); [apply rect1, map_all_mi_length|intros _; exact Hs|]. exists t. rewrite (new_spoly_eq _ _ _ _ _ _ _ TU), Et. split; [reflexivity|].
      assert (Ht : poly_of Lagrange n 1 s t) by (apply poly_of_intro; try assumption; rewrite T2; reflexivity). split; [exact Ht|]. intros y Ly. destruct (call_pv _ _ _ _ _ (X y) Ht (coords_length _ _ _ _)) as [-> _]. f_equal. unfold pv. rewrite T1, T2, T3, T4. cbn [map val]. f_equal. unfold c.
      rewrite (lval_interp n s (fun x => f (P x)) (X y)); [|clear Ht T1 T2 T3 T4 Et Vt t c|apply coords_length].
      - f_equal. apply (affine_comb_unique n (bary_of (X y)) vs); [|exact (tu_coords _ _ _ _ _ _ _ TU y Ly)]. apply point_comb; [exact Hrows|apply coords_length].
      - pose (gs := map (fun j (x : list Q) => ent vs 0 j + ksum (seq 0 n) (fun i => edge vs i j * nth i x 0)) (seq 0 n)). apply (polydeg_ext n s (fun x => f (map (fun g => g x) gs))); [intros x Lx; unfold gs; rewrite map_map; reflexivity|].
        apply polydeg_subst with (k := n); [exact Hf| |unfold gs; rewrite map_length, seq_length; reflexivity]. apply Forall_forall. intros g Hg. apply in_map_iff in Hg as (j & <- & _). apply polydeg_affine.
    Qed.
    Lemma scomp_polydeg b k r u j : poly_of b n k r u -> (j < k)%nat -> polydeg n r (fun y => nth j (pv u (X y)) 0).
    Proof.
      intros Hu Hj. pose proof (poly_of_valid _ _ _ _ _ Hu) as (Vu & U1 & U2 & U3 & U4). apply (polydeg_pull n vs B r (fun x => nth j (pv u x) 0)). rewrite <- U2, <- U4. apply pv_polydeg; [exact Vu|congruence].
    Qed.

    Theorem sc_unit b r k : b <> Monomial -> k <> 0%nat -> (r < 20)%nat -> exists p, sp_unit ksqrt tol b vs r k = Ok p /\ spoly_of b vs k r p /\ forall y, length y = n -> sp_call p (pt y) = Ok (repeat 1 k).
    Proof.
      intros Hb Hk Hr. destruct (calls_unit (F := Q) b r n k Hk (fun _ => Hr)) as (z & Ez & Hz & HV). exists (L z). split.
      - destruct (hd_vs _ _ _ _ _ _ _ TU) as (v0 & rest & E & L0). unfold sp_unit. rewrite E at 1. rewrite L0, (new_spoly_eq _ _ _ _ _ _ _ TU). unfold unit_polynomial in Ez. destruct b; [contradiction| |]; rewrite Ez; reflexivity.
      - split; [apply (lift_of _ _ _ _ _ _ _ TU); assumption|]. intros y Ly. rewrite (call_lift _ _ _ _ _ _ _ TU _ _ _ _ _ Hz Ly). apply HV, coords_length.
    Qed.
    (** ** Products *)
    Section Two.
      Context (vs2 : list (list Q)) (ab2 : arr Q * arr Q) (phi2 : arr Q -> result (arr Q)) (B2 : nat -> nat -> Q) (TU2 : to_unit ksqrt tol n vs2 ab2 phi2 B2).
      (** The second factor of a Lagrange polynomial can live on another simplex. *)
      Lemma mul_lagrange b2 r s u v : poly_of Lagrange n 1 r u -> poly_of b2 n 1 s v -> (r + s < 20)%nat ->
        exists t, sp_mul ksqrt tol veq (L u) (lift vs2 ab2 phi2 v) = Ok (L t) /\ poly_of Lagrange n 1 (r + s) t /\
          forall y, length y = n -> exists a c, call u (X y) = Ok [a] /\ call v (coords n vs2 B2 y) = Ok [c] /\ call t (X y) = Ok [a * c].
      Proof.
        intros Hu Hw Hs. pose proof (poly_of_valid _ _ _ _ _ Hu) as (Vu & U1 & U2 & U3 & U4). pose proof (poly_of_valid _ _ _ _ _ Hw) as (Vv & V1 & V2 & V3 & V4).
        pose (fu := fun y => nth 0 (pv u (X y)) 0). pose (fv := fun y => nth 0 (pv v (coords n vs2 B2 y)) 0).
        assert (Du : polydeg n r fu) by (apply (scomp_polydeg Lagrange 1 r u 0 Hu); lia).
        assert (Dv : polydeg n s fv) by (apply (polydeg_pull n vs2 B2 s (fun x => nth 0 (pv v x) 0)); rewrite <- V2, <- V4; apply pv_polydeg; [exact Vv|lia]).
        destruct (interpolant (r + s) (fun y => fu y * fv y) (polydeg_mul n r s fu fv Du Dv) Hs) as (t & Et & Ht & HV). exists t.
        assert (Cu : forall y, length y = n -> call u (X y) = Ok [fu y]) by (intros y Ly; destruct (call_scalar _ _ _ _ (X y) Hu (coords_length _ _ _ _)) as (a & E1 & ->); unfold fu; rewrite E1; reflexivity).
        assert (Cv : forall y, length y = n -> call v (coords n vs2 B2 y) = Ok [fv y]) by (intros y Ly; destruct (call_scalar _ _ _ _ (coords n vs2 B2 y) Hw (coords_length _ _ _ _)) as (a & E1 & ->); unfold fv; rewrite E1; reflexivity).
        split; [|split; [exact Ht|]].
        - unfold sp_mul. change (sp_basis (L u)) with (p_basis u). change (sp_m (L u)) with (p_m u). change (sp_m (lift vs2 ab2 phi2 v)) with (p_m v). change (sp_n (L u)) with (length (p_cols u)). change (sp_n (lift vs2 ab2 phi2 v)) with (length (p_cols v)). change (sp_r (L u)) with (p_r u). change (sp_r (lift vs2 ab2 phi2 v)) with (p_r v). change (sp_vs (L u)) with vs.
          rewrite U1, U2, V2, U3, V3, U4, V4, !Nat.eqb_refl. cbn [assert_ bind]. rewrite spoints. cbn [bind]. rewrite (mapM_map_ok _ _ (fun mu => fu (P (generate_lagrange_point n (r + s) mu)) * fv (P (generate_lagrange_point n (r + s) mu)))); [exact Et|]. intros mu Hmu. apply in_all_mi in Hmu as [M1 _].
          rewrite (call1_of (L u) (pt (P (generate_lagrange_point n (r + s) mu))) [fu (P (generate_lagrange_point n (r + s) mu))]) by first [reflexivity|rewrite (call_lift _ _ _ _ _ _ _ TU _ _ _ _ _ Hu) by apply point_length; apply Cu, point_length].
          rewrite (call1_of (lift vs2 ab2 phi2 v) (pt (P (generate_lagrange_point n (r + s) mu))) [fv (P (generate_lagrange_point n (r + s) mu))]) by first [reflexivity|rewrite (call_lift _ _ _ _ _ _ _ TU2 _ _ _ _ _ Hw) by apply point_length; apply Cv, point_length]. reflexivity.
        - intros y Ly. exists (fu y), (fv y). split; [apply Cu, Ly|]. split; [apply Cv, Ly|]. apply HV, Ly.
      Qed.
    End Two.
    Theorem sc_mul b b2 vs2 r s p q : (forall w, veq w w = true) -> simplex n vs2 -> spoly_of b vs 1 r p -> spoly_of b2 vs2 1 s q -> (b <> Lagrange -> b2 = b /\ vs2 = vs) -> (r + s < 20)%nat ->
      exists t, sp_mul ksqrt tol veq p q = Ok t /\ spoly_of b vs 1 (r + s) t /\
        forall y, length y = n -> exists u v, sp_call p (pt y) = Ok [u] /\ sp_call q (pt y) = Ok [v] /\ sp_call t (pt y) = Ok [u * v].
    Proof.
      intros Hv HS Hp Hq Hb Hs. destruct (of_lift _ _ _ _ _ _ _ TU _ _ _ _ Hp) as (u & -> & Hm & Hu). destruct (basis_eqb b Lagrange) eqn:EL.
      - assert (b = Lagrange) as -> by (destruct b; try discriminate; reflexivity). destruct (to_unit_exists ksqrt tol n vs2 HS) as (ab2 & phi2 & B2 & TU2). destruct (of_lift _ _ _ _ _ _ _ TU2 _ _ _ _ Hq) as (v & -> & Hm2 & Hw).
        destruct (mul_lagrange vs2 ab2 phi2 B2 TU2 b2 r s u v Hu Hw Hs) as (t & Et & Ht & HV). exists (L t). split; [exact Et|]. split; [apply (lift_of _ _ _ _ _ _ _ TU); assumption|]. intros y Ly.
        rewrite (call_lift _ _ _ _ _ _ _ TU _ _ _ _ _ Hu Ly), (call_lift _ _ _ _ _ _ _ TU2 _ _ _ _ _ Hw Ly), (call_lift _ _ _ _ _ _ _ TU _ _ _ _ _ Ht Ly). apply HV, Ly.
      - destruct Hb as [E1 E2]; [intros ->; discriminate|]. rewrite E1, E2 in Hq. clear E1 E2 HS vs2 b2. destruct (of_lift _ _ _ _ _ _ _ TU _ _ _ _ Hq) as (v & -> & _ & Hw).
        pose proof (poly_of_valid _ _ _ _ _ Hu) as (Vu & U1 & U2 & U3 & U4). pose proof (poly_of_valid _ _ _ _ _ Hw) as (Vv & V1 & V2 & V3 & V4).
        destruct (calls_mul b b n r s u v Hu Hw (fun _ => eq_refl) (fun _ => Hs)) as (t & Et & Ht & HV). pose proof (poly_of_valid _ _ _ _ _ Ht) as (Vt & T1 & T2 & T3 & T4). exists (L t). split; [|split; [apply (lift_of _ _ _ _ _ _ _ TU); assumption|]].
        + assert (ER : new_spoly ksqrt tol b (p_cols t) vs (Some (r + s)%nat) = Ok (L t)) by exact (renew _ _ _ _ _ _ _ TU t b (p_cols t) (r + s) Vt T2 T1 eq_refl T4).
          unfold sp_mul. unfold same_sbasis. change (sp_basis (L u)) with (p_basis u). change (sp_basis (L v)) with (p_basis v). change (sp_vs (L u)) with vs. change (sp_vs (L v)) with vs. change (sp_n (L u)) with (length (p_cols u)). change (sp_n (L v)) with (length (p_cols v)). change (sp_u (L u)) with u. change (sp_u (L v)) with v. change (sp_r (L u)) with (p_r u). change (sp_r (L v)) with (p_r v).
          rewrite U1, V1, U3, V3, U4, V4, Hv. destruct b; [contradiction| |discriminate]. cbn [basis_eqb andb assert_ bind Nat.eqb]. rewrite Et. cbn [bind]. exact ER.
        + intros y Ly. rewrite (call_lift _ _ _ _ _ _ _ TU _ _ _ _ _ Hu Ly), (call_lift _ _ _ _ _ _ _ TU _ _ _ _ _ Hw Ly), (call_lift _ _ _ _ _ _ _ TU _ _ _ _ _ Ht Ly). apply HV, coords_length.
    Qed.
    Lemma pow_lagrange r u e : poly_of Lagrange n 1 r u -> (r * S e < 20)%nat ->
      exists t, sp_pow_lagrange ksqrt tol veq (L u) (S e) = Ok (L t) /\ poly_of Lagrange n 1 (r * S e) t /\ forall y, length y = n -> exists a, call u (X y) = Ok [a] /\ call t (X y) = Ok [kpow a (S e)].
    Proof.
      intros Hu. pose proof (poly_of_valid _ _ _ _ _ Hu) as (Vu & U1 & U2 & U3 & U4). induction e as [|e IH]; intros He.
      - exists u. replace (r * 1)%nat with r by lia. split; [|split; [exact Hu|]].
        + unfold sp_pow_lagrange. change (sp_n (L u)) with (length (p_cols u)). rewrite U3. cbn [Nat.eqb assert_ bind]. exact (renew _ _ _ _ _ _ _ TU u Lagrange (p_cols u) (p_r u) Vu U2 U1 eq_refl eq_refl).
        + intros y Ly. destruct (call_scalar _ _ _ _ (X y) Hu (coords_length _ _ _ _)) as (a & _ & E). exists a. rewrite E. split; [reflexivity|]. f_equal. f_equal. cbn [kpow]. ring.
      - destruct IH as (w & Ew & Hw & HVw); [lia|]. destruct (mul_lagrange vs ab phi B TU Lagrange r (r * S e) u w Hu Hw ltac:(lia)) as (t & Et & Ht & HV). exists t. split; [|split].
        + change (sp_pow_lagrange ksqrt tol veq (L u) (S (S e))) with (let* _ := assert_ (sp_n (L u) =? 1)%nat in let* q := sp_pow_lagrange ksqrt tol veq (L u) (S e) in sp_mul ksqrt tol veq (L u) q). change (sp_n (L u)) with (length (p_cols u)). rewrite U3. cbn [Nat.eqb assert_ bind]. rewrite Ew. exact Et.
        + replace (r * S (S e))%nat with (r + r * S e)%nat by lia. exact Ht.
        + intros y Ly. destruct (HV y Ly) as (a & c & E1 & E2 & E3). destruct (HVw y Ly) as (a' & E4 & E5). exists a. split; [exact E1|]. rewrite E1 in E4. injection E4 as <-. rewrite E2 in E5. injection E5 as ->. rewrite E3. reflexivity.
    Qed.
    Theorem sc_pow b r p e : spoly_of b vs 1 r p -> (r * e < 20)%nat ->
      exists t, sp_pow ksqrt tol veq p e = Ok t /\ spoly_of b vs 1 (if basis_eqb b Lagrange && (e =? 0)%nat then 1 else r * e) t /\
        forall y, length y = n -> exists u, sp_call p (pt y) = Ok [u] /\ sp_call t (pt y) = Ok [kpow u e].
    Proof.
      intros Hp He. destruct (of_lift _ _ _ _ _ _ _ TU _ _ _ _ Hp) as (u & -> & Hm & Hu). pose proof (poly_of_valid _ _ _ _ _ Hu) as (Vu & U1 & U2 & U3 & U4). unfold sp_pow. change (sp_basis (L u)) with (p_basis u). rewrite U1. destruct b; [contradiction| |]; cbn [basis_eqb andb].
      - destruct (calls_pow Bernstein n r u e Hu (fun _ => He)) as (t & Et & Ht & HV). pose proof (poly_of_valid _ _ _ _ _ Ht) as (Vt & T1 & T2 & T3 & T4). exists (L t). change (sp_u (L u)) with u. change (sp_r (L u)) with (p_r u). rewrite Et, U4. cbn [bind]. split; [exact (renew _ _ _ _ _ _ _ TU t Bernstein (p_cols t) (r * e) Vt T2 T1 eq_refl T4)|].
        split; [apply (lift_of _ _ _ _ _ _ _ TU); assumption|]. intros y Ly. rewrite (call_lift _ _ _ _ _ _ _ TU _ _ _ _ _ Hu Ly), (call_lift _ _ _ _ _ _ _ TU _ _ _ _ _ Ht Ly). apply HV, coords_length.
      - destruct e as [|e]; cbn [Nat.eqb].
        + destruct (sc_unit Lagrange 1 1 Hm ltac:(lia) ltac:(lia)) as (t & Et & Ht & HV). exists t. split; [|split; [exact Ht|]].
          * unfold sp_pow_lagrange. change (sp_n (L u)) with (length (p_cols u)). rewrite U3. exact Et.
          * intros y Ly. destruct (call_scalar _ _ _ _ (X y) Hu (coords_length _ _ _ _)) as (a & _ & E). exists a. rewrite (call_lift _ _ _ _ _ _ _ TU _ _ _ _ _ Hu Ly). split; [exact E|]. rewrite (HV y Ly). reflexivity.
        + destruct (pow_lagrange r u e Hu He) as (t & Et & Ht & HV). exists (L t). split; [exact Et|]. split; [apply (lift_of _ _ _ _ _ _ _ TU); assumption|]. intros y Ly. rewrite (call_lift _ _ _ _ _ _ _ TU _ _ _ _ _ Hu Ly), (call_lift _ _ _ _ _ _ _ TU _ _ _ _ _ Ht Ly). apply HV, Ly.
    Qed.
    Lemma fold_degree u e l : valid u -> p_m u = n -> (forall i, In i l -> (i < length e)%nat) -> length e = length (p_cols u) -> forall s,
      foldM (fun r i => let* pi := sp_getitem ksqrt tol (L u) i in let* ei := get e i in Ok (r + sp_r pi * ei)%nat) s l = Ok (s + p_r u * nsum (map (fun i => nth i e 0%nat) l))%nat.
    Proof.
      intros Vu Um Hl Le. induction l as [|i l IH]; intros s; [cbn [foldM map nsum fold_right]; f_equal; lia|]. cbn [foldM map]. rewrite (lift_getitem _ _ _ _ _ _ _ TU u i Um). destruct (getitem_ok u i Vu ltac:(rewrite <- Le; apply Hl; left; reflexivity)) as (t & Et & T1 & T2 & T3 & T4 & _). rewrite Et. cbn [bind].
      rewrite (PermFacts.get_ok _ _ 0%nat) by (apply Hl; left; reflexivity). cbn [bind]. change (sp_r (L t)) with (p_r t). rewrite T4, IH by (intros; apply Hl; right; assumption). rewrite nsum_cons. f_equal. lia.
    Qed.
    Theorem sc_pow_mi b k r p e : spoly_of b vs k r p -> length e = k -> k <> 1%nat -> (r * list_sum e < 20)%nat ->
      exists t, sp_pow_mi ksqrt tol p e = Ok t /\ spoly_of b vs 1 (r * list_sum e) t /\
        forall y, length y = n -> exists u, sp_call p (pt y) = Ok u /\ length u = k /\ sp_call t (pt y) = Ok [mpow u e].
    Proof.
      intros Hp Le Hk He. destruct (of_lift _ _ _ _ _ _ _ TU _ _ _ _ Hp) as (u & -> & Hm & Hu). pose proof (poly_of_valid _ _ _ _ _ Hu) as (Vu & U1 & U2 & U3 & U4). change (list_sum e) with (nsum e) in *. unfold sp_pow_mi. change (sp_basis (L u)) with (p_basis u). rewrite U1. destruct b; [contradiction| |].
      - destruct (pow_mi_ok u e Vu ltac:(congruence) ltac:(intros _; congruence) ltac:(intros _; rewrite U4; exact He)) as (t & Et & T1 & T2 & T3 & T4 & T5 & T6). rewrite U4 in T5. exists (L t). change (sp_u (L u)) with u. rewrite Et. cbn [bind].
        rewrite (fold_degree u e (seq 0 (length e)) Vu U2 ltac:(intros i Hi; apply in_seq in Hi; lia) ltac:(congruence)). cbn [bind]. rewrite Nat.add_0_l, U4. assert (Es : map (fun i => nth i e 0%nat) (seq 0 (length e)) = e) by (clear; apply (nth_ext _ _ 0%nat 0%nat); [rewrite map_length, seq_length; reflexivity|]; intros i Hi; rewrite map_length, seq_length in Hi; rewrite (nth_mapseq (fun i => nth i e 0%nat)) by exact Hi; reflexivity). rewrite Es.
        assert (Ht : poly_of Bernstein n 1 (r * nsum e) t) by (apply poly_of_intro; congruence). split; [exact (renew _ _ _ _ _ _ _ TU t Bernstein (p_cols t) (r * nsum e) T1 ltac:(congruence) ltac:(congruence) eq_refl T5)|]. split; [apply (lift_of _ _ _ _ _ _ _ TU); assumption|].
        intros y Ly. rewrite (call_lift _ _ _ _ _ _ _ TU _ _ _ _ _ Hu Ly), (call_lift _ _ _ _ _ _ _ TU _ _ _ _ _ Ht Ly). destruct (call_pv _ _ _ _ _ (X y) Hu (coords_length _ _ _ _)) as [-> Lu]. destruct (call_pv _ _ _ _ _ (X y) Ht (coords_length _ _ _ _)) as [-> _]. exists (pv u (X y)). split; [reflexivity|]. split; [exact Lu|]. f_equal. apply T6. rewrite coords_length. symmetry. exact U2.
      - change (sp_n (L u)) with (length (p_cols u)). change (sp_r (L u)) with (p_r u). change (sp_vs (L u)) with vs. rewrite U3, U4, Le, Nat.eqb_refl. cbn [assert_ bind]. unfold norm. rewrite spoints. cbn [bind]. destruct (Nat.eqb_spec k 1) as [|_]; [contradiction|].
        pose (f := fun y => mpow (pv u (X y)) e).
        assert (Df : polydeg n (r * nsum e) f).
        { apply (polydeg_ext n _ (fun y => mpow (map (fun g => g y) (map (fun j y => nth j (pv u (X y)) 0) (seq 0 k))) e)).
          - intros y Ly. unfold f. f_equal. rewrite map_map. rewrite (pv_list u), U3. apply map_ext_in. intros j Hj. rewrite <- U3. rewrite <- pv_list. reflexivity.
          - apply polydeg_mpow; [rewrite map_length, seq_length; symmetry; exact Le|]. intros g Hg. apply in_map_iff in Hg as (j & <- & Hj). apply in_seq in Hj. apply (scomp_polydeg Lagrange k r u j Hu). lia. }
        destruct (interpolant (r * nsum e) f Df He) as (t & Et & Ht & HV). exists (L t). split; [|split; [apply (lift_of _ _ _ _ _ _ _ TU); assumption|]].
        + rewrite (mapM_map_ok _ _ (fun mu => f (P (generate_lagrange_point n (r * nsum e) mu)))); [exact Et|]. intros mu Hmu. rewrite (lift_call _ _ _ _ _ _ _ TU u) by (assumption || apply point_length). cbn [bind]. apply power_mpow. rewrite pv_length. congruence.
        + intros y Ly. rewrite (call_lift _ _ _ _ _ _ _ TU _ _ _ _ _ Hu Ly), (call_lift _ _ _ _ _ _ _ TU _ _ _ _ _ Ht Ly). destruct (call_pv _ _ _ _ _ (X y) Hu (coords_length _ _ _ _)) as [-> Lu]. exists (pv u (X y)). split; [reflexivity|]. split; [exact Lu|]. apply HV, Ly.
    Qed.

    (** ** Bases *)
    Lemma lift_basis_fn b nu r : length nu = n -> sp_basis_fn ksqrt tol b nu r vs = let* u := basis_fn b nu r in Ok (L u).
    Proof. intros E. unfold sp_basis_fn, basis_fn. rewrite E. destruct (get_index nu r); [|reflexivity]. cbn [bind]. destruct (set _ _ _); [|reflexivity]. cbn [bind]. apply (new_spoly_eq _ _ _ _ _ _ _ TU). Qed.
    Lemma lift_vector_basis_fn b nu r i k : length nu = n -> sp_vector_basis_fn ksqrt tol b nu r i vs k = let* u := vector_valued_basis_fn b nu r i k in Ok (L u).
    Proof.
      intros E. unfold sp_vector_basis_fn, vector_valued_basis_fn. destruct (k =? 1)%nat.
      - destruct (assert_ (i =? 0)%nat); [|reflexivity]. cbn [bind]. apply lift_basis_fn, E.
      - destruct (assert_ (i <? k)%nat); [|reflexivity]. cbn [bind]. rewrite E. destruct (get_index nu r); [|reflexivity]. cbn [bind]. destruct (set _ _ _); [|reflexivity]. cbn [bind]. apply (new_spoly_eq _ _ _ _ _ _ _ TU).
    Qed.
    Theorem sc_basis_fn b nu r : b <> Monomial -> length nu = n -> (list_sum nu <= r < 20)%nat ->
      exists p u, sp_basis_fn ksqrt tol b nu r vs = Ok p /\ spoly_of b vs 1 r p /\ basis_fn b nu r = Ok u /\
        forall x y, affine_comb n (bary_of x) vs y -> sp_call p (pt y) = call u x.
    Proof.
      intros Hb E Hr. destruct (basis_fn_ok (F := Q) b nu r (proj1 Hr) (fun _ => proj2 Hr)) as (u & Eu & (Vu & U1 & U2 & U3 & U4)). rewrite lift_basis_fn by exact E. rewrite Eu. exists (L u), u. split; [reflexivity|]. assert (Hu : poly_of b n 1 r u) by (apply poly_of_intro; [exact Vu|exact U1|congruence|rewrite U2; reflexivity|exact U3]). split; [apply (lift_of _ _ _ _ _ _ _ TU); assumption|]. split; [reflexivity|].
      intros x y Hc. rewrite (call_lift _ _ _ _ _ _ _ TU _ _ _ _ _ Hu) by apply Hc. rewrite <- (tu_comb _ _ _ _ _ _ _ TU x y Hc). reflexivity.
    Qed.
    Theorem sc_dual_lagrange nu mu r p : length nu = n -> length mu = n -> (list_sum nu <= r)%nat -> (list_sum mu <= r)%nat -> sp_basis_fn ksqrt tol Lagrange nu r vs = Ok p ->
      dual_lagrange_basis_fn_simplex mu r vs p = Ok [if mi_dec mu nu then 1 else 0].
    Proof.
      intros E E' Hnu Hmu Hp. rewrite lift_basis_fn in Hp by exact E. destruct (basis_fn Lagrange nu r) as [u|] eqn:Eu; [|discriminate]. injection Hp as <-. pose proof (dual_lagrange_basis nu mu r u ltac:(congruence) Hnu Hmu Eu) as H. unfold dual_lagrange_basis_fn in H.
      unfold dual_lagrange_basis_fn_simplex. rewrite spoint by exact E'. cbn [bind].
      assert (Hu : exists k s, poly_of Lagrange n k s u).
      { unfold basis_fn in Eu. destruct (get_index nu r); [|discriminate]. cbn [bind] in Eu. destruct (set _ _ _) as [c|]; [|discriminate]. cbn [bind] in Eu. destruct (new_poly_shape _ _ _ _ _ Eu) as [S1 S2]. exists (target_dimension u), (degree u). split; [exists (length c), Lagrange, [c], (Some r), (length nu); split; [apply rect1; reflexivity|exact Eu]|]. repeat split; try assumption. unfold domain_dimension. congruence. }
      destruct Hu as (k & s & Hu). rewrite (call_lift _ _ _ _ _ _ _ TU _ _ _ _ _ Hu) by apply point_length. rewrite (coords_point _ _ _ _ _ _ _ TU) by (apply lagrange_point_length; exact E'). rewrite E' in H. exact H.
    Qed.
    Theorem sc_vector_basis_fn b nu r i k : b <> Monomial -> length nu = n -> (list_sum nu <= r < 20)%nat -> (i < k)%nat ->
      exists p q, sp_basis_fn ksqrt tol b nu r vs = Ok p /\ sp_vector_basis_fn ksqrt tol b nu r i vs k = Ok q /\ spoly_of b vs k r q /\
        forall y, length y = n -> exists v, sp_call p (pt y) = Ok [v] /\ sp_call q (pt y) = Ok (upd (repeat 0 k) i v).
    Proof.
      intros Hb E Hr Hi. destruct (sc_basis_fn b nu r Hb E Hr) as (p & u & Ep & Hp & Eu & HV). destruct (Nat.eq_dec k 1) as [K|K].
      - rewrite K in *. assert (i = 0)%nat as -> by lia. exists p, p. split; [exact Ep|]. split; [exact Ep|]. split; [exact Hp|]. intros y Ly. destruct (sc_total _ _ _ _ _ _ _ TU _ _ _ _ y Hp Ly) as ([|v [|? ?]] & E1 & E2); try discriminate. exists v. rewrite E1. split; reflexivity.
      - destruct (vector_valued_fn_ok (F := Q) b nu r i k K Hi (proj1 Hr) (fun _ => proj2 Hr)) as (u' & w & Eu' & Ew & Hw & HVw). assert (u' = u) as -> by (destruct b; [contradiction| |]; cbn [polynomial_basis_fn] in Eu'; congruence).
        assert (Ew' : vector_valued_basis_fn b nu r i k = Ok w) by (destruct b; [contradiction| |]; exact Ew). exists p, (L w). split; [exact Ep|]. rewrite lift_vector_basis_fn by exact E. rewrite Ew'. split; [reflexivity|].
        rewrite lift_basis_fn, Eu in Ep by exact E. injection Ep as <-. destruct (of_lift _ _ _ _ _ _ _ TU _ _ _ _ Hp) as (u' & Ep & _ & Hu). injection Ep as <-. pose proof Hu as (_ & _ & _ & _ & Du). rewrite E, Du in Hw. split; [apply (lift_of _ _ _ _ _ _ _ TU); assumption|].
        intros y Ly. rewrite (call_lift _ _ _ _ _ _ _ TU _ _ _ _ _ Hu Ly), (call_lift _ _ _ _ _ _ _ TU _ _ _ _ _ Hw Ly). apply HVw. rewrite E. apply coords_length.
    Qed.
    Theorem sc_basis_all b r mis : b <> Monomial -> (r < 20)%nat -> generate_all n r = Ok mis ->
      exists ps, sp_basis_all ksqrt tol b r vs = Ok ps /\ length ps = length mis /\ forall j nu, nth_error mis j = Some nu -> exists p, nth_error ps j = Some p /\ sp_basis_fn ksqrt tol b nu r vs = Ok p.
    Proof.
      intros Hb Hr Hm. unfold sp_basis_all. rewrite dim_vs, Hm. cbn [bind]. rewrite generate_all_eq in Hm. injection Hm as <-. destruct (mapM_exists (fun mi => sp_basis_fn ksqrt tol b mi r vs) (fun _ _ => True) (all_mi n r)) as (ps & E & _).
      - intros nu Hnu. apply in_all_mi in Hnu as [N1 N2]. destruct (sc_basis_fn b nu r Hb N1 (conj N2 Hr)) as (p & _ & Ep & _). exists p. auto.
      - exists ps. split; [exact E|]. split; [apply (mapM_length _ _ _ E)|]. intros j nu Hj. destruct (mapM_nth _ _ _ _ _ E Hj) as (p & E1 & E2). exists p. auto.
    Qed.
    Theorem sc_vector_basis b r k il mis : b <> Monomial -> (r < 20)%nat -> generate_all n r = Ok mis ->
      exists ps, sp_vector_basis ksqrt tol b r vs k il = Ok ps /\ length ps = (k * length mis)%nat /\
        forall i j nu, (i < k)%nat -> nth_error mis j = Some nu -> exists q, nth_error ps (if il then j * k + i else i * length mis + j)%nat = Some q /\ sp_vector_basis_fn ksqrt tol b nu r i vs k = Ok q.
    Proof.
      intros Hb Hr Hmis. unfold sp_vector_basis. rewrite dim_vs, Hmis. cbn [bind]. rewrite generate_all_eq in Hmis. injection Hmis as <-.
      assert (HV : forall nu i, In nu (all_mi n r) -> (i < k)%nat -> exists q, sp_vector_basis_fn ksqrt tol b nu r i vs k = Ok q).
      { intros nu i Hnu Hi. apply in_all_mi in Hnu as [N1 N2]. destruct (sc_vector_basis_fn b nu r i k Hb N1 (conj N2 Hr) Hi) as (p & q & _ & E & _). exists q. exact E. }
      destruct il.
      - destruct (mapM_exists (fun mi_i => sp_vector_basis_fn ksqrt tol b (fst mi_i) r (snd mi_i) vs k) (fun _ _ => True) (list_prod (all_mi n r) (seq 0 k))) as (ps & E & _).
        + intros [nu i] H. apply in_prod_iff in H as [H1 H2]. apply in_seq in H2. destruct (HV nu i H1 ltac:(lia)) as [q Eq]. exists q. auto.
        + exists ps. split; [exact E|]. split; [rewrite (mapM_length _ _ _ E), prod_length, seq_length; lia|]. intros i j nu Hi Hj. assert (Lj : (j < length (all_mi n r))%nat) by (apply nth_error_Some; congruence).
          pose proof (list_prod_nth (all_mi n r) (seq 0 k) j i [] 0%nat Lj ltac:(rewrite seq_length; exact Hi)) as HN. rewrite seq_length, seq_nth in HN by exact Hi. rewrite (nth_error_nth _ _ _ Hj) in HN. destruct (mapM_nth _ _ _ _ _ E HN) as (q & E1 & E2). exists q. auto.
      - destruct (mapM_exists (fun i_mi => sp_vector_basis_fn ksqrt tol b (snd i_mi) r (fst i_mi) vs k) (fun _ _ => True) (list_prod (seq 0 k) (all_mi n r))) as (ps & E & _).
        + intros [i nu] H. apply in_prod_iff in H as [H2 H1]. apply in_seq in H2. destruct (HV nu i H1 ltac:(lia)) as [q Eq]. exists q. auto.
        + exists ps. split; [exact E|]. split; [rewrite (mapM_length _ _ _ E), prod_length, seq_length; lia|]. intros i j nu Hi Hj. assert (Lj : (j < length (all_mi n r))%nat) by (apply nth_error_Some; congruence).
          pose proof (list_prod_nth (seq 0 k) (all_mi n r) i j 0%nat [] ltac:(rewrite seq_length; exact Hi) Lj) as HN. rewrite seq_nth in HN by exact Hi. rewrite (nth_error_nth _ _ _ Hj) in HN. destruct (mapM_nth _ _ _ _ _ E HN) as (q & E1 & E2). exists q. auto.
    Qed.
    (** ** Bernstein polynomials *)
    Theorem sc_bernstein k r p mis c y : spoly_of Bernstein vs k r p -> generate_all n r = Ok mis -> affine_comb n c vs y ->
      sp_call p (pt y) = Ok (map (fun a => ksum (combine a mis) (fun ca => fst ca *
        (kofnat (fact r) / (kofnat (fold_right Nat.mul 1%nat (map fact (snd ca))) * kofnat (fact (r - list_sum (snd ca)))) * (kpow (nth 0 c 0) (r - list_sum (snd ca)) * mpow (tl c) (snd ca))))) (sp_cols p)).
    Proof.
      intros Hp Hm Hc. destruct (of_lift _ _ _ _ _ _ _ TU _ _ _ _ Hp) as (u & -> & Hb & Hu). destruct c as [|c0 x]; [destruct Hc as (E & _); destruct Hrows as [E' _]; rewrite E' in E; discriminate|]. cbn [nth tl].
      pose proof Hc as (Lc & Ly & Sc & _). rewrite ksum_cons in Sc. assert (E0 : 1 - ksum x (fun t => t) = c0) by (rewrite <- Sc; ring). assert (Hc' : affine_comb n (bary_of x) vs y) by (unfold bary_of; rewrite E0; exact Hc).
      rewrite (call_lift _ _ _ _ _ _ _ TU _ _ _ _ _ Hu Ly). rewrite <- (tu_comb _ _ _ _ _ _ _ TU x y Hc'). assert (Lx : length x = n) by (destruct Hrows as [E' _]; rewrite E' in Lc; cbn [length] in Lc; lia).
      rewrite (bernstein_evaluation n k r u x mis Hu Lx Hm). rewrite E0. f_equal. unfold sp_cols. cbn [lift sp_u]. apply map_ext. intros a. apply ksum_ext. intros [ca nu] _. cbn [fst snd]. ring.
    Qed.
    Theorem sc_hull k r p c y u lo hi j : spoly_of Bernstein vs k r p -> affine_comb n c vs y -> (forall t, In t c -> kle 0 t) -> sp_call p (pt y) = Ok u -> (j < k)%nat ->
      (forall a, In a (nth j (sp_cols p) []) -> kle lo a /\ kle a hi) -> kle lo (nth j u 0) /\ kle (nth j u 0) hi.
    Proof.
      intros Hp Hc Hpos Hu Hj HB. destruct (of_lift _ _ _ _ _ _ _ TU _ _ _ _ Hp) as (w & -> & Hb & Hw). destruct c as [|c0 x]; [destruct Hc as (E & _); destruct Hrows as [E' _]; rewrite E' in E; discriminate|].
      pose proof Hc as (Lc & Ly & Sc & _). rewrite ksum_cons in Sc. assert (E0 : 1 - ksum x (fun t => t) = c0) by (rewrite <- Sc; ring). assert (Hc' : affine_comb n (bary_of x) vs y) by (unfold bary_of; rewrite E0; exact Hc).
      rewrite (call_lift _ _ _ _ _ _ _ TU _ _ _ _ _ Hw Ly) in Hu. rewrite <- (tu_comb _ _ _ _ _ _ _ TU x y Hc') in Hu. assert (Lx : length x = n) by (destruct Hrows as [E' _]; rewrite E' in Lc; cbn [length] in Lc; lia).
      apply (bernstein_hull n k r w x u lo hi j Hw Lx); [intros v Hv; apply Hpos; right; exact Hv| |exact Hu|exact Hj|exact HB].
      apply kle_sub. rewrite E0. apply Hpos. left. reflexivity.
    Qed.
    Lemma vertex_comb i : (i <= n)%nat -> affine_comb n (bary_of (match i with O => repeat 0 n | S j => upd (repeat 0 n) j 1 end)) vs (nth i vs []).
    Proof.
      intros Hi. destruct Hrows as [Lv HR]. assert (Ln : length (nth i vs []) = n) by (apply HR, nth_In; lia). set (x := match i with O => repeat 0 n | S j => upd (repeat 0 n) j 1 end : list Q).
      assert (Lx : length x = n) by (unfold x; destruct i; rewrite ?upd_length; apply repeat_length).
      assert (Sx : forall j, nth j x 0 = if Nat.eq_dec (S j) i then 1 else 0).
      { intros j. unfold x. destruct i as [|i]; [destruct (Nat.eq_dec (S j) 0); [discriminate|apply nth_repeat]|]. destruct (Nat.eq_dec (S j) (S i)) as [E|E]; [injection E as ->; apply nth_upd_eq; rewrite repeat_length; lia|rewrite nth_upd_neq by congruence; apply nth_repeat]. }
      assert (HS : ksum x (fun t => t) = if Nat.eq_dec 0 i then 0 else 1).
      { transitivity (ksum (F := Q) (seq 0 n) (fun j => if Nat.eq_dec (S j) i then 1 else 0)).
        - replace x with (map (fun j => nth j x 0) (seq 0 n)) by (symmetry; apply (vec_ext x _ n Lx); [rewrite map_length, seq_length; reflexivity|]; intros j Hj; rewrite (nth_mapseq (fun j => nth j x 0)) by exact Hj; reflexivity). rewrite ksum_map. apply ksum_ext. intros j Hj. apply Sx.
        - destruct i as [|i]; [apply ksum_zero; intros j _; destruct (Nat.eq_dec (S j) 0); [discriminate|reflexivity]|]. destruct (Nat.eq_dec 0 (S i)); [discriminate|]. rewrite (ksum_ext _ (fun j => if Nat.eq_dec j i then (1 : Q) else 0)); [apply (ksum_delta Nat.eq_dec (fun _ => 1 : Q)); [apply seq_NoDup|apply in_seq; lia]|]. intros j _. destruct (Nat.eq_dec (S j) (S i)), (Nat.eq_dec j i); try reflexivity; congruence. }
      split; [unfold bary_of; cbn [length]; lia|]. split; [exact Ln|]. split; [unfold bary_of; rewrite ksum_cons, HS; destruct (Nat.eq_dec 0 i); ring|]. intros j Hj. rewrite Lv.
      rewrite (ksum_ext _ (fun l => if Nat.eq_dec l i then ent vs l j else 0)); [rewrite (ksum_delta Nat.eq_dec (fun l => ent vs l j)); [reflexivity|apply seq_NoDup|apply in_seq; lia]|].
      intros l _. unfold bary_of. destruct l as [|l]; cbn [nth]; [rewrite HS; destruct (Nat.eq_dec 0 i)|rewrite Sx; destruct (Nat.eq_dec (S l) i)]; ring.
    Qed.
    Theorem sc_vertices k r p i : spoly_of Bernstein vs k r p -> (i <= n)%nat ->
      exists j, get_index (match i with O => repeat 0%nat n | S l => upd (repeat 0%nat n) l r end) r = Ok j /\ sp_call p (pt (nth i vs [])) = Ok (map (fun c => nth j c 0) (sp_cols p)).
    Proof.
      intros Hp Hi. destruct (of_lift _ _ _ _ _ _ _ TU _ _ _ _ Hp) as (u & -> & Hb & Hu). pose proof (vertex_comb i Hi) as Hc. rewrite (call_lift _ _ _ _ _ _ _ TU _ _ _ _ _ Hu) by apply Hc. rewrite <- (tu_comb _ _ _ _ _ _ _ TU _ _ Hc).
      destruct (bernstein_vertices n k r u Hu) as [H0 H1]. destruct i as [|i]; [exact H0|]. apply H1. lia.
    Qed.
    Theorem sc_pderiv_h b k r p i : (forall w, veq w w = true) -> spoly_of b vs k r p -> (i < n)%nat ->
      exists q, sp_partial_derivative ksqrt tol veq p i = Ok q /\ spoly_of b vs k (r - 1) q /\
        forall y j, length y = n -> (j < k)%nat -> exists g, polyfun g /\ forall h,
          scomponent p j (upd y i (nth i y 0 + h)) = scomponent p j y + h * scomponent q j y + h * h * g h.
    Proof.
      intros Hv Hp Hi. destruct (sc_pderiv _ _ veq _ _ _ _ _ TU b k r p i Hv Hp Hi) as (q & Eq & Hq & HD). exists q. split; [exact Eq|]. split; [exact Hq|]. intros y j Ly Hj. destruct (HD y j Ly Hj) as (g & Hg & E). exists g. split; [exact Hg|]. intros h. rewrite (E h).
      replace (nth i y 0 + 0) with (nth i y 0) by ring. rewrite upd_nth_same by lia. reflexivity.
    Qed.
    Theorem sc_derivative b k r p alpha l : (forall w, veq w w = true) -> spoly_of b vs k r p -> length alpha = n -> (forall i, In i l -> (i < n)%nat) -> (forall j, count_occ Nat.eq_dec l j = nth j alpha 0%nat) ->
      exists q q', sp_derivative ksqrt tol veq p alpha = Ok q /\ foldM (sp_partial_derivative ksqrt tol veq) p l = Ok q' /\ spoly_of b vs k (r - list_sum alpha) q /\ spoly_of b vs k (r - list_sum alpha) q' /\
        forall y, length y = n -> exists v, sp_call q (pt y) = Ok v /\ sp_call q' (pt y) = Ok v.
    Proof.
      intros Hv Hp La Hl Hc. destruct (of_lift _ _ _ _ _ _ _ TU _ _ _ _ Hp) as (u & -> & Hb & Hu). pose proof (poly_of_valid _ _ _ _ _ Hu) as (Vu & U1 & U2 & U3 & U4). destruct (sdinv_start n vs B u Vu U2) as [as_ H0].
      destruct (sderivative_sdinv ksqrt tol veq n vs ab phi B TU u as_ alpha Hv U2 H0 La) as (q & Eq & Hq). destruct (sdinv_fold ksqrt tol veq n vs ab phi B TU u as_ l Hv U2 _ u (repeat_length _ _) H0 Hl) as (q' & Eq' & Hq'). rewrite <- La in Hq'. rewrite fold_up_count in Hq' by (try rewrite La; assumption). rewrite La in Hq'.
      assert (G : forall q, sdinv n vs B u as_ alpha q -> poly_of b n k (r - list_sum alpha) q) by (intros w (Vw & [S1 S2 S3] & Rw & _); apply poly_of_intro; try congruence; rewrite Rw, U4; reflexivity).
      exists (L q), (L q'). split; [exact Eq|]. split; [exact Eq'|]. split; [apply (lift_of _ _ _ _ _ _ _ TU); [exact Hb|apply G, Hq]|]. split; [apply (lift_of _ _ _ _ _ _ _ TU); [exact Hb|apply G, Hq']|].
      intros y Ly. rewrite (call_lift _ _ _ _ _ _ _ TU _ _ _ _ _ (G q Hq) Ly), (call_lift _ _ _ _ _ _ _ TU _ _ _ _ _ (G q' Hq') Ly). destruct (call_pv _ _ _ _ _ (X y) (G q Hq) (coords_length _ _ _ _)) as [-> _]. destruct (call_pv _ _ _ _ _ (X y) (G q' Hq') (coords_length _ _ _ _)) as [-> _]. exists (pv q (X y)). split; [reflexivity|].
      rewrite (sdinv_pv n vs B u as_ alpha q y Hq Ly), (sdinv_pv n vs B u as_ alpha q' y Hq' Ly). reflexivity.
    Qed.
  End One.
End SMul.
