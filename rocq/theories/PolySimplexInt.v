(** Integrals over a simplex and the dual Bernstein basis. *)
From Verif Require PermFacts.
From Verif Require Import Base MultiIndex MultiIndexFacts MultiCapFacts MultiIndexCache Fld FldInst CodeGen CodeGenFacts LinSolve Det Linalg VecFacts Simplicial SimplexGeo SimplexFacts SimplexMetric AffineFacts SimplexInside MultiCoef MultiCoefFacts LagrangeCache Unisolv Poly PolyFacts LagFacts PolyEval PolyOps PolyOpsB PolyDeriv PolyObj PolyPow PolyCalls IntegralCache Integrate IntFacts HasInt Bases Gram BasesFacts BasesCalls SubstFacts PolySimplex PolySimplexFacts PolySimplexCalls PolySimplexMul Baldoni HomogInt.
From Coq Require Import Field_theory Field.

Section Int.
  Context {Q : ofld} (ksqrt : Q -> Q) (tol : Q) (veq : list (list Q) -> list (list Q) -> bool).
  Add Field Kfield59 : (kth Q).
  Local Open Scope fld_scope.
  Notation pt := SimplexGeo.pt.
  Notation spoly_of := (spoly_of ksqrt tol).

  (** The integral of [f] over the simplex *)
  Definition has_sint (n : nat) (vs : list (list Q)) (f : list Q -> Q) (I : Q) : Prop :=
    exists w, has_int (F := Q) n (fun x => f (simplex_point n vs x)) w /\ I = kabs (det n (edge vs)) * w.

  Lemma point_eq n (vs : list (list Q)) x : rows_of (S n) n vs -> length x = n -> simplex_point n vs x = point (Q := Q) n vs x.
  Proof.
    intros HV Lx. apply (affine_comb_unique n (bary_of x) vs); [apply simplex_point_comb; rewrite (proj1 HV), Lx; reflexivity|apply point_comb; assumption].
  Qed.
  Lemma positive_det_eq n (vs : list (list Q)) : n <> 0%nat -> rows_of (S n) n vs -> positive_det vs = if kltb (0 : Q) (det n (edge vs)) then Ok (det n (edge vs)) else Err AssertionError.
  Proof.
    intros Hn HV. unfold positive_det. rewrite (from_unit_eq n n vs Hn (le_n _) HV). destruct (Nat.eqb_spec n 1) as [E1|N1].
    - cbn [bind fst]. replace (det n (edge vs)) with (edge vs 0 0) by (rewrite E1; cbn [det seq]; rewrite ksum_cons, ksum_nil; unfold Det.sg; cbn [kpow Nat.even]; ring). destruct (kltb 0 (edge vs 0 0)); reflexivity.
    - cbn [bind fst]. pose proof (A_rows n n vs) as AR. rewrite (ncols_rows n n _ AR) by lia. rewrite (proj1 AR), Nat.eqb_refl. cbn [bind]. assert (E : np_det (A_of n n vs) = det n (edge vs)) by (unfold np_det; rewrite (proj1 AR); apply det_A; exact HV). rewrite E. destruct (kltb (0 : Q) (det n (edge vs))); reflexivity.
  Qed.
  Lemma kltb_true (a b : Q) : klt a b -> kltb a b = true.
  Proof. apply kltb_spec. Qed.

  (** ** The two bases on a simplex *)
  Lemma integrate_bernstein_eq n (vs : list (list Q)) r (a : list Q) : n <> 0%nat -> rows_of (S n) n vs -> klt (0 : Q) (det n (edge vs)) -> length a = get_dimension r n ->
    integrate_bernstein_polynomial_simplex r a vs = Ok (det n (edge vs) * val_int Bernstein n r a).
  Proof.
    intros Hn HV HD La. unfold integrate_bernstein_polynomial_simplex, integrate_bernstein_basis_fn_simplex. rewrite (proj1 (dims n n vs HV)), La, Nat.eqb_refl. cbn [assert_ bind]. rewrite (positive_det_eq n) by assumption. rewrite kltb_true by exact HD. cbn [bind].
    f_equal. pose proof (int_bernstein_eq n r a La) as H. unfold integrate_bernstein_polynomial_unit_simplex in H. rewrite La, Nat.eqb_refl in H. cbn [assert_ bind] in H. injection H as H. change (val_int Bernstein n r a) with (bern_int n r a). rewrite <- H. ring.
  Qed.
  Lemma integrate_lagrange_eq n (vs : list (list Q)) r (a : list Q) : n <> 0%nat -> rows_of (S n) n vs -> klt (0 : Q) (det n (edge vs)) -> length a = get_dimension r n ->
    integrate_lagrange_polynomial_simplex r a vs = Ok (det n (edge vs) * val_int Lagrange n r a).
  Proof.
    intros Hn HV HD La. pose proof (int_lagrange_eq n r a La) as H. unfold integrate_lagrange_polynomial_simplex. unfold integrate_lagrange_polynomial_unit_simplex in H. rewrite (proj1 (dims n n vs HV)), La, Nat.eqb_refl. rewrite La, Nat.eqb_refl in H. cbn [assert_ bind] in *. rewrite generate_all_eq in *. cbn [bind] in *. change (val_int Lagrange n r a) with (mono_int n r (lagc n r a)).
    pose (v := fun i => match integrate_lagrange_basis_fn_unit_simplex (F := Q) (nth i (all_mi n r) []) r with Ok x => x | Err _ => 0 end).
    assert (HB : forall i, In i (seq 0 (length (all_mi n r))) -> get (all_mi n r) i = Ok (nth i (all_mi n r) []) /\ get a i = Ok (nth i a 0) /\ integrate_lagrange_basis_fn_unit_simplex (F := Q) (nth i (all_mi n r) []) r = Ok (v i)).
    { intros i Hi. apply in_seq in Hi. split; [apply PermFacts.get_ok; lia|]. split; [apply PermFacts.get_ok; rewrite La, dim_all_mi; lia|]. unfold v, integrate_lagrange_basis_fn_unit_simplex. set (nu := nth i (all_mi n r) []). assert (Hnu : In nu (all_mi n r)) by (apply nth_In; lia). apply in_all_mi in Hnu as [N1 N2].
      destruct (lc_spec (F := Q) r nu N2) as (-> & H2 & _). cbn [bind]. rewrite N1 in *. rewrite int_monomial_eq by exact H2. reflexivity. }
    rewrite (foldM_sum _ (fun i => nth i a 0 * v i)) in H by (intros s i Hi; destruct (HB i Hi) as (-> & -> & E); cbn [bind]; rewrite E; reflexivity). injection H as H. rewrite <- H.
    rewrite (foldM_sum _ (fun i => det n (edge vs) * (nth i a 0 * v i))).
    - f_equal. rewrite ksum_scale_l. ring.
    - intros s i Hi. destruct (HB i Hi) as (-> & -> & E). cbn [bind]. unfold integrate_lagrange_basis_fn_simplex. rewrite E. cbn [bind]. rewrite (positive_det_eq n) by assumption. rewrite kltb_true by exact HD. cbn [bind]. f_equal. ring.
  Qed.
  Lemma orientation_error b r (cols vs : list (list Q)) n : n <> 0%nat -> rows_of (S n) n vs -> ~ klt (0 : Q) (det n (edge vs)) -> b <> Monomial -> cols <> [] -> integrate_simplex b cols r vs = Err AssertionError.
  Proof.
    intros Hn HV HD Hb Hc. assert (K : kltb (0 : Q) (det n (edge vs)) = false) by (apply kltb_false; exact HD). destruct cols as [|a cols]; [contradiction|]. destruct b; [contradiction| |]; cbn [integrate_simplex mapM].
    - unfold integrate_bernstein_polynomial_simplex, integrate_bernstein_basis_fn_simplex. destruct (length a =? _)%nat; [|reflexivity]. cbn [assert_ bind]. rewrite (positive_det_eq n), K by assumption. reflexivity.
    - unfold integrate_lagrange_polynomial_simplex. rewrite (proj1 (dims n n vs HV)). destruct (Nat.eqb_spec (length a) (get_dimension r n)) as [La|]; [|reflexivity]. cbn [assert_ bind]. rewrite generate_all_eq. cbn [bind]. pose proof (dim_all_mi r n) as D0. assert (D1 : (0 < length (all_mi n r))%nat) by (assert (In (repeat 0%nat n) (all_mi n r)) by (apply in_all_mi; split; [apply repeat_length|rewrite nsum_repeat0; lia]); destruct (all_mi n r); [contradiction|cbn [length]; lia]).
      destruct (length (all_mi n r)) as [|k] eqn:Ek; [lia|]. cbn [seq foldM]. rewrite (PermFacts.get_ok (all_mi n r) 0%nat []) by lia. cbn [bind]. rewrite (PermFacts.get_ok a 0%nat 0) by lia. cbn [bind]. unfold integrate_lagrange_basis_fn_simplex, integrate_lagrange_basis_fn_unit_simplex. set (nu := nth 0 (all_mi n r) []). assert (Hnu : In nu (all_mi n r)) by (apply nth_In; lia). apply in_all_mi in Hnu as [N1 N2].
      destruct (lc_spec (F := Q) r nu N2) as (-> & H2 & _). cbn [bind]. rewrite N1 in *. rewrite int_monomial_eq by exact H2. cbn [bind]. rewrite (positive_det_eq n), K by assumption. reflexivity.
  Qed.

  (** ** Polynomials in the monomial basis *)
  Lemma fact_kabs (n : nat) (x : Q) : kofnat (fact n) * kabs (x / kofnat (fact n)) = kabs x.
  Proof.
    pose proof (fact_neq (F := Q) n) as NF. pose proof (fact_pos (Q := Q) n) as FP. destruct (klt_total Q 0 x) as [H|[H|H]].
    - rewrite !kabs_nonneg; [field; exact NF|apply klt_le; exact H|apply klt_le, klt_div; assumption].
    - rewrite <- H. replace (0 / kofnat (fact n)) with (0 : Q) by (field; exact NF). unfold kabs. destruct (kltb 0 0); ring.
    - assert (P : klt (x / kofnat (fact n)) 0). { apply klt_sub. apply klt_sub in H. replace (0 - x / kofnat (fact n)) with ((0 - x) / kofnat (fact n)) by (field; exact NF). apply klt_div; assumption. }
      rewrite !kabs_neg by assumption. field. exact NF.
  Qed.
  Lemma integrate_homogeneous_full n (vs : list (list Q)) nu : n <> 0%nat -> rows_of (S n) n vs -> length nu = n -> exists I, integrate_homogeneous_polynomial_simplex ksqrt nu vs = Ok I /\ has_sint n vs (fun y => mpow y nu) I.
  Proof.
    intros Hn HV Ln. destruct (integrate_homogeneous_ok ksqrt n n vs nu _ HV Ln (volume_full ksqrt n vs Hn HV)) as (I & w & E & H & EI). exists I. split; [exact E|]. exists w. split; [exact H|]. rewrite EI, fact_kabs. reflexivity.
  Qed.
  Theorem integrate_polynomial_ok n (vs : list (list Q)) r (a : list Q) : n <> 0%nat -> rows_of (S n) n vs -> length a = get_dimension r n ->
    exists I, integrate_polynomial_simplex ksqrt r a vs = Ok I /\ has_sint n vs (mval n r a) I.
  Proof.
    intros Hn HV La. unfold integrate_polynomial_simplex. rewrite (proj1 HV). replace (S n - 1)%nat with n by lia. rewrite generate_all_eq. cbn [bind].
    pose (v := fun nu => match integrate_homogeneous_polynomial_simplex ksqrt nu vs with Ok x => x | Err _ => 0 end).
    assert (Hv : forall nu, In nu (all_mi n r) -> integrate_homogeneous_polynomial_simplex ksqrt nu vs = Ok (v nu) /\ has_sint n vs (fun y => mpow y nu) (v nu)).
    { intros nu Hnu. apply in_all_mi in Hnu as [N1 _]. destruct (integrate_homogeneous_full n vs nu Hn HV N1) as (I & E & H). unfold v. rewrite E. split; [reflexivity|exact H]. }
    rewrite (foldM_sum _ (fun i => nth i a 0 * v (nth i (all_mi n r) []))).
    - eexists. split; [reflexivity|]. pose proof (combine_nth_sum a (all_mi n r) [] v) as HS. rewrite La, dim_all_mi in HS. specialize (HS eq_refl). rewrite (sum_cf n r a v La) in HS. rewrite <- HS.
      assert (G : forall L, incl L (all_mi n r) -> has_sint n vs (fun y => ksum L (fun nu => cf n r a nu * mpow y nu)) (ksum L (fun nu => cf n r a nu * v nu))).
      { induction L as [|nu L IH]; intros HI; [exists 0; split; [apply (has_int_ext n (fun _ => 0)); [reflexivity|apply has_int_zero]|rewrite ksum_nil; ring]|]. destruct IH as (w & Hw & Ew); [intros x Hx; apply HI; right; exact Hx|]. destruct (Hv nu) as [_ (w' & Hw' & Ew')]; [apply HI; left; reflexivity|].
        exists (cf n r a nu * w' + w). split; [|rewrite ksum_cons, Ew, Ew'; ring]. apply (has_int_ext n (fun x => cf n r a nu * mpow (simplex_point n vs x) nu + ksum L (fun nu => cf n r a nu * mpow (simplex_point n vs x) nu))); [intros x _; rewrite ksum_cons; reflexivity|]. apply has_int_plus; [apply has_int_scal; exact Hw'|exact Hw]. }
      destruct (G (all_mi n r) (incl_refl _)) as (w & Hw & Ew). exists w. split; [exact Hw|]. rewrite <- Ew. ring.
    - intros s i Hi. apply in_seq in Hi. rewrite (PermFacts.get_ok _ _ []) by lia. cbn [bind]. rewrite (PermFacts.get_ok _ _ 0) by (rewrite La, dim_all_mi; lia). cbn [bind]. destruct (Hv (nth i (all_mi n r) [])) as [-> _]; [apply nth_In; lia|]. reflexivity.
  Qed.
  Lemma has_sint_ext n (vs : list (list Q)) f g I : (forall y, length y = n -> f y = g y) -> has_sint n vs f I -> has_sint n vs g I.
  Proof. intros H (w & Hw & E). exists w. split; [|exact E]. apply (has_int_ext n (fun x => f (simplex_point n vs x))); [|exact Hw]. intros x _. apply H. unfold simplex_point. rewrite map_length, seq_length. reflexivity. Qed.
  Lemma has_sint_unique n vs f I J : has_sint n vs f I -> has_sint n vs f J -> I = J.
  Proof. intros (w & Hw & E) (w' & Hw' & E'). rewrite E, E', (has_int_unique n _ w w' Hw Hw'). reflexivity. Qed.

  Theorem l2_inner_ok n (vs : list (list Q)) r s (p q : poly Q) : n <> 0%nat -> rows_of (S n) n vs -> poly_of Monomial n 1 r p -> poly_of Monomial n 1 s q -> (r + s < 20)%nat ->
    exists I, l2_inner_product_simplex ksqrt p q vs = Ok I /\ has_sint n vs (fun y => component p 0 y * component q 0 y) I.
  Proof.
    intros Hn HV Hp Hq Hrs. pose proof (poly_of_valid _ _ _ _ _ Hp) as (Vp & P1 & P2 & P3 & P4). pose proof (poly_of_valid _ _ _ _ _ Hq) as (Vq & Q1 & Q2 & Q3 & Q4).
    destruct (mul_ok p q Vp Vq) as (t & Et & Vt & Tb & Tm & Tn & Tr & Tv); [congruence|exact P3|exact Q3|congruence|rewrite P4, Q4; lia|]. unfold l2_inner_product_simplex. rewrite Et. cbn [bind]. destruct (one_col _ Tn) as [ct Ect]. rewrite Ect, Tr, P4, Q4. cbn [hd].
    assert (Lct : length ct = get_dimension (r + s) n) by (pose proof Vt as [[_ Rt] _]; rewrite (Rt ct ltac:(rewrite Ect; left; reflexivity)), Tr, Tm, P2, P4, Q4; reflexivity).
    destruct (integrate_polynomial_ok n vs (r + s) ct Hn HV Lct) as (I & EI & HI). exists I. split; [exact EI|]. apply (has_sint_ext n vs (mval n (r + s) ct)); [|exact HI]. intros y Ly. unfold component. destruct (call_pv _ _ _ _ _ y Hp Ly) as [-> Lp]. destruct (call_pv _ _ _ _ _ y Hq Ly) as [-> Lq].
    pose proof (pv_one p y P3) as Ep. pose proof (pv_one q y Q3) as Eq. specialize (Tv y (nth 0 (pv p y) 0) (nth 0 (pv q y) 0) ltac:(congruence) Ep Eq). unfold pv in Tv at 1. rewrite Ect, Tb, Tm, Tr, P1, P2, P4, Q4 in Tv. cbn [map] in Tv. injection Tv as Tv. exact Tv.
  Qed.

  Lemma point_polydeg n (vs : list (list Q)) s f : polydeg n s f -> polydeg n s (fun x => f (point (Q := Q) n vs x)).
  Proof.
    intros Hf. pose (gs := map (fun j (x : list Q) => ent vs 0 j + ksum (seq 0 n) (fun i => edge vs i j * nth i x 0)) (seq 0 n)). apply (polydeg_ext n s (fun x => f (map (fun g => g x) gs))); [intros x Lx; unfold gs; rewrite map_map; reflexivity|].
    apply polydeg_subst with (k := n); [exact Hf| |unfold gs; rewrite map_length, seq_length; reflexivity]. apply Forall_forall. intros g Hg. apply in_map_iff in Hg as (j & <- & _). apply polydeg_affine.
  Qed.
  Section One.
    Context (n : nat) (vs : list (list Q)) (ab : arr Q * arr Q) (phi : arr Q -> result (arr Q)) (B : nat -> nat -> Q) (TU : to_unit ksqrt tol n vs ab phi B).
    Notation X := (coords n vs B).
    Notation L := (lift vs ab phi).
    Notation P := (point n vs).
    Let Hn : n <> 0%nat := tu_n _ _ _ _ _ _ _ TU.
    Let HV : rows_of (S n) n vs := tu_rows _ _ _ _ _ _ _ TU.

    Lemma scomponent_point b k r u j x : poly_of b n k r u -> length x = n -> (j < k)%nat -> scomponent (L u) j (simplex_point n vs x) = val b n r (nth j (p_cols u) []) x.
    Proof.
      intros Hu Lx Hj. pose proof (poly_of_valid _ _ _ _ _ Hu) as (Vu & U1 & U2 & U3 & U4). unfold scomponent. rewrite point_eq by assumption. rewrite (call_lift _ _ _ _ _ _ _ TU _ _ _ _ _ Hu) by apply point_length. rewrite (coords_point _ _ _ _ _ _ _ TU) by exact Lx.
      destruct (call_pv _ _ _ _ _ x Hu Lx) as [-> _]. unfold pv. rewrite U1, U2, U4. exact (map_nth_map (fun c => val b n r c x) (p_cols u) [] j 0 ltac:(rewrite U3; exact Hj)).
    Qed.
    Lemma kabs_pos (x : Q) : klt 0 x -> kabs x = x. Proof. intros H. apply kabs_nonneg, klt_le, H. Qed.
    Theorem integrate_simplex_ok b k r p : spoly_of b vs k r p -> klt (0 : Q) (det n (edge vs)) ->
      exists v, integrate_simplex b (sp_cols p) r vs = Ok v /\ length v = k /\ forall j, (j < k)%nat -> has_sint n vs (scomponent p j) (nth j v 0).
    Proof.
      intros Hp HD. destruct (of_lift _ _ _ _ _ _ _ TU _ _ _ _ Hp) as (u & -> & Hb & Hu). pose proof (poly_of_valid _ _ _ _ _ Hu) as (Vu & U1 & U2 & U3 & U4). change (sp_cols (L u)) with (p_cols u).
      assert (HC : forall c, In c (p_cols u) -> length c = get_dimension r n) by (intros c Hc; pose proof Vu as [[_ Rt] _]; rewrite (Rt c Hc), U2, U4; reflexivity).
      exists (map (fun c => det n (edge vs) * val_int b n r c) (p_cols u)). split; [|split; [rewrite map_length; exact U3|]].
      - destruct b; [contradiction| |]; cbn [integrate_simplex]; apply mapM_ok; intros c Hc; [apply integrate_bernstein_eq|apply integrate_lagrange_eq]; auto.
      - intros j Hj. rewrite (map_nth_map (fun c => det n (edge vs) * val_int b n r c) (p_cols u) [] j 0) by (rewrite U3; exact Hj). exists (val_int b n r (nth j (p_cols u) [])). split; [|rewrite kabs_pos by exact HD; reflexivity].
        apply (has_int_ext n (val b n r (nth j (p_cols u) []))); [|apply has_int_val]. intros x Lx. symmetry. apply (scomponent_point b k r); assumption.
    Qed.

    (** ** Dual Bernstein basis *)
    Lemma val_int_scal b r (c : list Q) s : length c = get_dimension r n -> val_int b n r (map (fun v => s * v) c) = s * val_int b n r c.
    Proof.
      intros Lc. apply (has_int_unique n (val b n r (map (fun v => s * v) c))); [apply has_int_val|]. apply (has_int_ext n (fun x => s * val b n r c x)); [|apply has_int_scal, has_int_val]. intros x _. rewrite (map_ext _ (fun v => v * s)) by (intros; ring). rewrite val_scale by exact Lc. ring.
    Qed.
    Lemma dual_polynomial_simplex mu r : klt (0 : Q) (det n (edge vs)) -> length mu = n -> (nsum mu <= r < 20)%nat ->
      exists d0 Y, dual_bernstein_basis_polynomial_simplex ksqrt tol mu r vs = Ok (L d0) /\ poly_of Bernstein n 1 r d0 /\ p_cols d0 = [map (fun v => 1 / det n (edge vs) * v) Y] /\ length Y = get_dimension r n /\
        forall nu, In nu (all_mi n r) -> dot (gram_row n r nu) Y = if mi_dec nu mu then 1 else 0.
    Proof.
      intros HD Lm [Hmu Hr]. destruct (dual_polynomial_ok (F := Q) mu r Hmu ltac:(lia)) as (D & Y & ED & (VD & Db & Dc & Dr & Dm) & LY & HG). rewrite Lm in *. unfold dual_bernstein_basis_polynomial_simplex. rewrite ED. cbn [bind]. rewrite (positive_det_eq n vs Hn HV), kltb_true by exact HD. cbn [bind]. rewrite Dc. cbn [map].
      destruct (sc_new _ _ _ _ _ _ _ TU Bernstein [map (fun v => 1 / det n (edge vs) * v) Y] r ltac:(discriminate) ltac:(discriminate)) as (p & Ep & Hp & Cp); [intros c [<-|[]]; rewrite map_length; exact LY|lia|]. rewrite Ep. destruct (of_lift _ _ _ _ _ _ _ TU _ _ _ _ Hp) as (d0 & -> & _ & Hd0). exists d0, Y. split; [reflexivity|]. split; [exact Hd0|]. split; [exact Cp|]. split; [exact LY|exact HG].
    Qed.
    Lemma dual_core mu r b (Y c ct : list Q) : klt (0 : Q) (det n (edge vs)) -> length mu = n -> (nsum mu <= r)%nat -> length Y = get_dimension r n -> (forall nu, In nu (all_mi n r) -> dot (gram_row n r nu) Y = if mi_dec nu mu then 1 else 0) -> length ct = get_dimension (r + r) n ->
      (forall x, length x = n -> val b n (r + r) ct x = bval n r (map (fun v => 1 / det n (edge vs) * v) Y) x * bval n r c x) -> det n (edge vs) * val_int b n (r + r) ct = cf n r c mu.
    Proof.
      intros HD Lm Hmu LY HG Lct H. assert (ND : det n (edge vs) <> 0) by (intros E0; rewrite E0 in HD; exact (klt_irrefl Q _ HD)).
      rewrite <- val_int_scal by exact Lct. apply (dual_int n r b Y c (map (fun v => det n (edge vs) * v) ct) mu LY); [apply in_all_mi; split; assumption|exact HG|]. intros x Lx. rewrite (map_ext _ (fun v => v * det n (edge vs))) by (intros; ring). rewrite val_scale by exact Lct. rewrite H by exact Lx.
      change (bval n r (map (fun v => 1 / det n (edge vs) * v) Y) x) with (val Bernstein n r (map (fun v => 1 / det n (edge vs) * v) Y) x). rewrite (map_ext _ (fun v => v * (1 / det n (edge vs)))) by (intros; ring). rewrite val_scale by exact LY. cbn [val]. field. exact ND.
    Qed.
    Theorem dual_simplex_ok mu r p c : (forall w, veq w w = true) -> klt (0 : Q) (det n (edge vs)) -> length mu = n -> (nsum mu <= r)%nat -> (2 * r < 20)%nat -> spoly_of Bernstein vs 1 r p -> sp_cols p = [c] ->
      dual_bernstein_basis_fn_simplex ksqrt tol veq mu r vs p = Ok [cf n r c mu].
    Proof.
      intros Hveq HD Lm Hmu Hr Hp Ec. destruct (of_lift _ _ _ _ _ _ _ TU _ _ _ _ Hp) as (u & -> & _ & Hu). change (sp_cols (L u)) with (p_cols u) in Ec. destruct (dual_polynomial_simplex mu r HD Lm ltac:(lia)) as (d0 & Y & ED & Hd0 & Cd & LY & HG). unfold dual_bernstein_basis_fn_simplex. rewrite ED. cbn [bind].
      pose proof (poly_of_valid _ _ _ _ _ Hu) as (Vu & U1 & U2 & U3 & U4). pose proof (poly_of_valid _ _ _ _ _ Hd0) as (Vd & D1 & D2 & D3 & D4). change (sp_basis (L u)) with (p_basis u). rewrite U1. unfold sp_mul, same_sbasis. change (sp_basis (L d0)) with (p_basis d0). change (sp_basis (L u)) with (p_basis u). rewrite D1, U1. change (sp_vs (L d0)) with vs. change (sp_vs (L u)) with vs. rewrite Hveq. cbn [basis_eqb andb assert_ bind].
      change (sp_n (L d0)) with (length (p_cols d0)). change (sp_n (L u)) with (length (p_cols u)). rewrite D3, U3. cbn [Nat.eqb assert_ bind]. change (sp_u (L d0)) with d0. change (sp_u (L u)) with u. change (sp_r (L d0)) with (p_r d0). change (sp_r (L u)) with (p_r u). rewrite D4, U4.
      destruct (mul_ok d0 u Vd Vu) as (t & Et & Vt & Tb & Tm & Tn & Tr & Tv); [congruence|exact D3|exact U3|congruence|rewrite D4, U4; lia|]. rewrite Et. cbn [bind]. rewrite (renew _ _ _ _ _ _ _ TU t Bernstein (p_cols t) (r + r) Vt) by congruence. cbn [bind]. change (sp_cols (L t)) with (p_cols t). destruct (one_col _ Tn) as [ct Ect]. rewrite Ect. cbn [mapM].
      assert (Lct : length ct = get_dimension (r + r) n) by (pose proof Vt as [[_ Rt] _]; rewrite (Rt ct ltac:(rewrite Ect; left; reflexivity)), Tr, Tm, D2, D4, U4; reflexivity). replace (2 * r)%nat with (r + r)%nat by lia. rewrite (integrate_bernstein_eq n) by assumption. cbn [bind]. do 2 f_equal.
      apply (dual_core mu r Bernstein Y c ct); try assumption. intros x Lx.
      assert (E1 : pv d0 x = [bval n r (map (fun v => 1 / det n (edge vs) * v) Y) x]) by (unfold pv; rewrite Cd, D1, D2, D4; reflexivity). assert (E2 : pv u x = [bval n r c x]) by (unfold pv; rewrite Ec, U1, U2, U4; reflexivity). specialize (Tv x _ _ ltac:(congruence) E1 E2). unfold pv in Tv. rewrite Ect, Tb, Tm, Tr, D1, D2, D4, U4 in Tv. cbn [map] in Tv. injection Tv as Tv. exact Tv.
    Qed.
    (** The second argument a polynomial in the monomial basis *)
    Theorem dual_simplex_monomial_ok mu r (p : poly Q) d : (forall w, veq w w = true) -> klt (0 : Q) (det n (edge vs)) -> length mu = n -> (nsum mu <= r)%nat -> (2 * r < 20)%nat -> poly_of Monomial n 1 r p -> length d = get_dimension r n ->
      (forall x, length x = n -> call p (P x) = Ok [bval n r d x]) -> dual_bernstein_basis_fn_simplex_monomial ksqrt tol veq mu r vs p = Ok [cf n r d mu].
    Proof.
      intros Hveq HD Lm Hmu Hr Hp Ld Hd. destruct (dual_polynomial_simplex mu r HD Lm ltac:(lia)) as (d0 & Y & ED & Hd0 & Cd & LY & HG). unfold dual_bernstein_basis_fn_simplex_monomial. rewrite ED. cbn [bind]. pose proof (poly_of_valid _ _ _ _ _ Hp) as (Vp & P1 & P2 & P3 & P4). pose proof (poly_of_valid _ _ _ _ _ Hd0) as (Vd & D1 & D2 & D3 & D4). rewrite P1. cbn [basis_eqb assert_ bind].
      destruct (sc_to_monomial _ _ veq _ _ _ _ _ TU Bernstein 1 r (L d0) Hveq (lift_of _ _ _ _ _ _ _ TU Bernstein 1 r d0 ltac:(discriminate) Hd0)) as (dm & Edm & Hdm & Hv). rewrite Edm. cbn [bind]. pose proof (poly_of_valid _ _ _ _ _ Hdm) as (Vm & M1 & M2 & M3 & M4).
      destruct (mul_ok dm p Vm Vp) as (t & Et & Vt & Tb & Tm & Tn & Tr & Tv); [congruence|exact M3|exact P3|congruence|rewrite M4, P4; lia|]. rewrite Et. cbn [bind]. destruct (one_col _ Tn) as [ct Ect]. rewrite Ect. cbn [mapM]. assert (Lct : length ct = get_dimension (r + r) n) by (pose proof Vt as [[_ Rt] _]; rewrite (Rt ct ltac:(rewrite Ect; left; reflexivity)), Tr, Tm, M2, M4, P4; reflexivity).
      replace (2 * r)%nat with (r + r)%nat by lia. destruct (integrate_polynomial_ok n vs (r + r) ct Hn HV Lct) as (I & EI & (w & Hw & Ew)). rewrite EI. cbn [bind]. do 2 f_equal. rewrite Ew, kabs_pos by exact HD.
      destruct (new_poly_ok Bernstein [d] r n) as (q & _ & (Vq & Q1 & Q2 & Q4 & Q3)); [split; [discriminate|intros c [<-|[]]; exact Ld]|lia|].
      destruct (mul_ok d0 q Vd Vq) as (s & _ & Vs & Sb & Sm & Sn & Sr & Sv); [congruence|exact D3|rewrite Q2; reflexivity|congruence|rewrite D4, Q4; lia|]. destruct (one_col _ Sn) as [cs Ecs].
      assert (Lcs : length cs = get_dimension (r + r) n) by (pose proof Vs as [[_ Rt] _]; rewrite (Rt cs ltac:(rewrite Ecs; left; reflexivity)), Sr, Sm, D2, D4, Q4; reflexivity).
      assert (HS : forall x, length x = n -> val Bernstein n (r + r) cs x = bval n r (map (fun v => 1 / det n (edge vs) * v) Y) x * bval n r d x).
      { intros x Lx. assert (E1 : pv d0 x = [bval n r (map (fun v => 1 / det n (edge vs) * v) Y) x]) by (unfold pv; rewrite Cd, D1, D2, D4; reflexivity). assert (E2 : pv q x = [bval n r d x]) by (unfold pv; rewrite Q2, Q1, Q3, Q4; reflexivity). specialize (Sv x _ _ ltac:(congruence) E1 E2). unfold pv in Sv. rewrite Ecs, Sb, Sm, Sr, D1, D2, D4, Q4 in Sv. cbn [map] in Sv. injection Sv as Sv. exact Sv. }
      rewrite (has_int_unique n _ w (val_int Bernstein n (r + r) cs) Hw); [apply (dual_core mu r Bernstein Y d cs); assumption|]. apply (has_int_ext n (val Bernstein n (r + r) cs)); [|apply has_int_val]. intros x Lx. rewrite HS by exact Lx. rewrite point_eq by assumption.
      destruct (Hv (P x) (point_length _ _ _)) as (v & Ev & Ev'). rewrite (call_lift _ _ _ _ _ _ _ TU _ _ _ _ _ Hd0) in Ev by apply point_length. rewrite (coords_point _ _ _ _ _ _ _ TU) in Ev by exact Lx. destruct (call_pv _ _ _ _ _ x Hd0 Lx) as [Ed _]. rewrite Ed in Ev. destruct (call_pv _ _ _ _ _ (P x) Hdm (point_length _ _ _)) as [Em _]. rewrite Em in Ev'. destruct (call_pv _ _ _ _ _ (P x) Hp (point_length _ _ _)) as [Epp _]. pose proof (Hd x Lx) as Edx. rewrite Epp in Edx.
      assert (F1 : pv dm (P x) = [bval n r (map (fun v => 1 / det n (edge vs) * v) Y) x]) by (transitivity (pv d0 x); [congruence|unfold pv; rewrite Cd, D1, D2, D4; reflexivity]). assert (F2 : pv p (P x) = [bval n r d x]) by congruence.
      specialize (Tv (P x) _ _ ltac:(rewrite point_length; congruence) F1 F2). unfold pv in Tv. rewrite Ect, Tb, Tm, Tr, M1, M2, M4, P4 in Tv. cbn [map] in Tv. injection Tv as Tv. symmetry. exact Tv.
    Qed.
    Theorem dual_pairing r p mu nu : (forall w, veq w w = true) -> klt (0 : Q) (det n (edge vs)) -> length mu = n -> length nu = n -> (list_sum mu <= r)%nat -> (list_sum nu <= r)%nat -> (2 * r < 20)%nat -> sp_basis_fn ksqrt tol Bernstein nu r vs = Ok p ->
      dual_bernstein_basis_fn_simplex ksqrt tol veq mu r vs p = Ok [if mi_dec mu nu then 1 else 0].
    Proof.
      intros Hveq HD Lm Ln Hm Hnu Hr Ep. rewrite (lift_basis_fn _ _ _ _ _ _ _ TU Bernstein nu r Ln) in Ep. destruct (basis_fn_ok (F := Q) Bernstein nu r Hnu ltac:(lia)) as (u & Eu & Vu & U1 & U2 & U4 & U3). rewrite Eu in Ep. cbn [bind] in Ep. injection Ep as <-. rewrite Ln in *.
      rewrite (dual_simplex_ok mu r (L u) _ Hveq HD Lm Hm Hr (lift_of _ _ _ _ _ _ _ TU Bernstein 1 r u ltac:(discriminate) ltac:(apply poly_of_intro; [exact Vu|exact U1|exact U3|rewrite U2; reflexivity|exact U4])) U2). do 2 f_equal. unfold unit_column. rewrite cf_map by assumption. reflexivity.
    Qed.
  End One.
End Int.
