(** Integrals over a simplex of real points. *)
From Coq Require Import Reals Lra Field_theory Field.
From Coquelicot Require Import Coquelicot.
From Verif Require Import Base MultiIndex MultiIndexFacts MultiCapFacts MultiIndexCache Fld FldInst CodeGen CodeGenFacts LinSolve Det Linalg VecFacts Simplicial SimplexGeo SimplexFacts SimplexMetric AffineFacts SimplexInside MultiCoef MultiCoefFacts LagrangeCache Unisolv Poly PolyFacts LagFacts PolyEval PolyOps PolyOpsB PolyDeriv PolyObj PolyPow PolyCalls IntegralCache Integrate IntFacts HasInt SimplexInt SimplexPos IntReal IntPos Bases Gram BasesFacts BasesCalls SubstFacts PolySimplex PolySimplexFacts PolySimplexCalls PolySimplexMul Baldoni HomogInt PolySimplexInt.

(** [simplex_integral n vs f I]: [I] is the integral of [f] over the simplex with
    the vertices [vs] in R^n, as the integral over the unit simplex of [f] after
    the affine map taking the unit simplex to the simplex, times the absolute
    value of the determinant of that map (the rows of the matrix are the edges
    from the first vertex). *)
Definition simplex_integral (n : nat) (vs : list (list R)) (f : list R -> R) (I : R) : Prop :=
  forall Phi : list R -> list R, (forall x, length x = n -> affine_comb (F := RF) n (bary_of (F := RF) x) vs (Phi x)) ->
    exists w, simplex_int n 1 (fun x => f (Phi x)) w /\ I = (Rabs (det (F := RF) n (fun i j => nth j (nth (S i) vs []) 0 - nth j (nth 0 vs []) 0)) * w)%R.

Lemma has_int_real n f v : has_int (F := RF) n f v -> simplex_int n 1 f v.
Proof.
  intros (r & a & HR & ->). apply (simplex_int_ext n 1 (fun x => ksum (F := RF) (all_mi n r) (fun nu => (a nu * mpow (F := RF) x nu)%R))); [lra|intros x Lx _ _; symmetry; apply HR, Lx|].
  apply (int_ksum n (all_mi n r) (fun nu x => (a nu * mpow (F := RF) x nu)%R) (fun nu => (a nu * mint (F := RF) nu)%R)). intros nu Hnu. apply in_all_mi in Hnu as [N1 _]. apply simplex_int_scal; [lra|]. rewrite <- N1. apply mint_int.
Qed.
Lemma kabs_Rabs (x : R) : kabs (Q := RO) x = Rabs x.
Proof.
  unfold kabs. destruct (kltb (o := RO) x (k0 (f := RO))) eqn:E.
  - apply (kltb_spec RO) in E. rewrite Rabs_left; [reflexivity|exact E].
  - apply (kltb_false (O := RO)) in E. rewrite Rabs_right; [reflexivity|]. unfold kle in E. cbn in E. lra.
Qed.
Lemma edge_det n (vs : list (list R)) : det (F := RF) n (edge (F := RF) vs) = det (F := RF) n (fun i j => nth j (nth (S i) vs []) 0 - nth j (nth 0 vs []) 0)%R.
Proof. apply det_ext. intros i j _ _. reflexivity. Qed.
Lemma has_sint_real n vs f I : rows_of (F := RF) (S n) n vs -> has_sint (Q := RO) n vs f I -> simplex_integral n vs f I.
Proof.
  intros HV (w & Hw & E) Phi HP. exists w. split.
  - apply (simplex_int_ext n 1 (fun x => f (simplex_point (Q := RO) n vs x))); [lra| |apply has_int_real; exact Hw]. intros x Lx _ _. f_equal. apply (affine_comb_unique (Q := RO) n (bary_of (F := RF) x) vs); [apply (simplex_point_comb (Q := RO) n vs x); exact (eq_trans (f_equal S Lx) (eq_sym (proj1 HV)))|apply HP, Lx].
  - rewrite <- edge_det. refine (eq_trans E _). rewrite kabs_Rabs. reflexivity.
Qed.
Lemma Phi_exists n (vs : list (list R)) : rows_of (F := RF) (S n) n vs -> exists Phi, forall x, length x = n -> affine_comb (F := RF) n (bary_of (F := RF) x) vs (Phi x).
Proof. intros HV. exists (simplex_point (Q := RO) n vs). intros x Lx. apply (simplex_point_comb (Q := RO) n vs x). exact (eq_trans (f_equal S Lx) (eq_sym (proj1 HV))). Qed.
Lemma simplex_integral_unique n vs f I J : rows_of (F := RF) (S n) n vs -> simplex_integral n vs f I -> simplex_integral n vs f J -> I = J.
Proof.
  intros HV HI HJ. destruct (Phi_exists n vs HV) as (Phi & HP). destruct (HI Phi HP) as (w & Hw & ->). destruct (HJ Phi HP) as (w' & Hw' & ->). f_equal. apply (simplex_int_unique n 1 (fun x => f (Phi x))); [lra|exact Hw|exact Hw'].
Qed.

(** On an interval this is the Riemann integral *)
Lemma simplex_integral_1 (a b : R) f I : a <> b -> simplex_integral 1 [[a]; [b]] f I -> is_RInt (fun t => f [t]) (Rmin a b) (Rmax a b) I.
Proof.
  intros N H. destruct (H (fun x => [a + nth 0 x 0 * (b - a)])%R) as (w & (g & Hg & HI) & E).
  { intros [|t [|? ?]] Lx; try discriminate. split; [reflexivity|]. split; [reflexivity|]. unfold bary_of, bary0. split; [rewrite !ksum_cons, !ksum_nil; cbn; change (K RF) with R; ring|]. intros [|j] Hj; [|lia]. cbn [seq length]. rewrite !ksum_cons, !ksum_nil. unfold ent. cbn. change (K RF) with R. ring. }
  assert (D : det (F := RF) 1 (fun i j => nth j (nth (S i) [[a]; [b]] []) 0 - nth j (nth 0 [[a]; [b]] []) 0)%R = (b - a)%R) by (cbn [det seq]; rewrite ksum_cons, ksum_nil; unfold Det.sg; cbn; change (K RF) with R; ring).
  rewrite D in E. clear D. rewrite E. clear E.
  assert (HI2 : is_RInt (fun t => f [a + t * (b - a)])%R 0 1 w).
  { apply (is_RInt_ext g); [|exact HI]. intros t Ht. rewrite Rmin_left, Rmax_right in Ht by lra. exact (Hg t ltac:(lra)). }
  assert (HJ : is_RInt (fun t => f [t]) a b ((b - a) * w)%R).
  { assert (NB : (b - a)%R <> 0%R) by lra.
    pose proof (is_RInt_comp_lin (V := R_NormedModule) (fun t => f [a + t * (b - a)])%R (/ (b - a)) (- a / (b - a)) a b w) as HC. replace (/ (b - a) * a + - a / (b - a))%R with 0%R in HC by (field; exact NB). replace (/ (b - a) * b + - a / (b - a))%R with 1%R in HC by (field; exact NB). specialize (HC HI2).
    apply (is_RInt_scal (V := R_NormedModule) _ a b (b - a)%R) in HC. refine (is_RInt_ext _ _ _ _ _ _ HC). intros t _. unfold scal; cbn; unfold mult; cbn. replace (a + (/ (b - a) * t + - a / (b - a)) * (b - a))%R with t by (field; exact NB). field. exact NB. }
  destruct (Rlt_dec a b) as [L|L].
  - rewrite Rmin_left, Rmax_right by lra. rewrite Rabs_right by lra. exact HJ.
  - rewrite Rmin_right, Rmax_left by lra. rewrite Rabs_left by lra. apply is_RInt_swap in HJ. replace (- (b - a) * w)%R with (opp ((b - a) * w))%R; [exact HJ|]. unfold opp; cbn. ring.
Qed.

(** The L2 norm *)
Lemma l2_norm2_simplex_definite (ksqrt : RO -> RO) n (vs : list (list R)) r (p : poly RF) : simplex (Q := RO) n vs -> poly_of (F := RF) Monomial n 1 r p -> (r + r < 20)%nat ->
  exists v, l2_norm2_simplex (Q := RO) ksqrt p vs = Ok v /\ (0 <= v)%R /\ (v = 0%R <-> forall y, length y = n -> call (F := RF) p y = Ok [0%R]).
Proof.
  intros HS Hp Hr. pose proof HS as (Hn & HV & HI). destruct (l2_inner_ok (Q := RO) ksqrt n vs r r p p Hn HV Hp Hp Hr) as (v & Ev & w & Hw & Ew). exists v. split; [exact Ev|]. pose proof (proj1 (affine_independent_det (F := RO) n vs Hn (proj1 HV)) HI) as ND.
  rewrite kabs_Rabs in Ew. assert (PD : (0 < Rabs (det (F := RF) n (edge (F := RF) vs)))%R) by (apply Rabs_pos_lt; exact ND). set (D := Rabs _) in *. change (v = (D * w)%R) in Ew. pose proof (has_int_real n _ w Hw) as HR.
  assert (HC : forall y, length y = n -> call (F := RF) p y = Ok [component (F := RF) p 0 y]).
  { intros y Ly. unfold component. destruct (call_pv _ _ _ _ _ y Hp Ly) as [-> L1]. destruct (pv p y) as [|a [|]]; [discriminate|reflexivity|discriminate]. }
  assert (W0 : (0 <= w)%R) by (apply (simplex_int_nonneg n 1 _ _ Rle_0_1) with (2 := HR); intros; apply Rle_0_sqr).
  split; [rewrite Ew; apply Rmult_le_pos; lra|]. split.
  - intros E0. assert (w = 0%R) by (rewrite Ew in E0; apply Rmult_integral in E0 as [?|?]; [lra|assumption]). clear Ew. rewrite H in HR.
    assert (PD1 : polydeg (F := RF) n r (fun x => component (F := RF) p 0 (point (Q := RO) n vs x))).
    { apply (point_polydeg (Q := RO) n vs r (component (F := RF) p 0)). pose proof (poly_of_valid _ _ _ _ _ Hp) as (Vp & P1 & P2 & P3 & P4). apply (polydeg_ext (F := RF) n r (fun x => nth 0 (pv p x) 0%R)); [intros x Lx; unfold component; destruct (call_pv _ _ _ _ _ x Hp Lx) as [-> _]; reflexivity|]. rewrite <- P2, <- P4. apply (pv_polydeg (Q := RO)); [exact Vp|refine (eq_ind_r (fun k => (0 < k)%nat) _ P3); lia]. }
    destruct PD1 as (c & Lc & Hc). assert (HZ : simplex_int n 1 (fun x => mval (F := RF) n r c x * mval (F := RF) n r c x)%R 0).
    { refine (simplex_int_ext _ _ _ _ _ Rle_0_1 _ HR). intros x Lx _ _. cbv beta. rewrite <- (Hc x Lx), (point_eq (Q := RO) n vs x HV Lx). reflexivity. }
    pose proof (sq_int_zero n r c HZ) as Z. intros y Ly. rewrite (HC y Ly). do 2 f_equal. destruct (to_unit_exists (Q := RO) (fun x => x) 0%R n vs HS) as (ab & phi & B & TU). pose proof (tu_coords _ _ _ _ _ _ _ TU y Ly) as CY. pose proof (coords_length (Q := RO) n vs B y) as LX.
    rewrite (affine_comb_unique (Q := RO) n _ vs y _ CY (point_comb (Q := RO) n vs _ HV LX)). refine (eq_trans (Hc _ LX) _). apply (ksum_zero (F := RF)). intros nu Hnu. rewrite (Z nu Hnu). apply Rmult_0_l.
  - intros H0. rewrite Ew. enough (w = 0%R) as -> by apply Rmult_0_r. refine (simplex_int_unique n 1 _ _ _ Rle_0_1 HR _). refine (simplex_int_ext _ _ _ _ _ Rle_0_1 _ (simplex_int_zero n 1 Rle_0_1)). intros x Lx _ _. cbv beta. assert (LS : length (simplex_point (Q := RO) n vs x) = n) by (unfold simplex_point; rewrite map_length, seq_length; reflexivity).
    pose proof (H0 _ LS) as E. unfold component. change (OF RO) with RF in *. rewrite E. cbn. change (K RF) with R. ring.
Qed.

(** The polynomial [x] in the Bernstein basis of the unit interval, over [1, 3] *)
Lemma unit_basis_finding : exists (p : poly RF) (vs : list (list R)) v, poly_of (F := RF) Bernstein 1 1 1 p /\ simplex (Q := RO) 1 vs /\ (forall t, call (F := RF) p [t] = Ok [t]) /\
  integrate_simplex (Q := RO) Bernstein (p_cols p) (p_r p) vs = Ok [v] /\ simplex_integral 1 vs (fun y => match call (F := RF) p y with Ok u => nth 0 u 0%R | Err _ => 0%R end) 4 /\ v <> 4%R.
Proof.
  destruct (new_poly_ok (F := RF) Bernstein [[0%R; 1%R]] 1 1) as (p & _ & (Vp & P1 & P2 & P4 & P3)); [split; [discriminate|intros c [<-|[]]; reflexivity]|lia|]. assert (Hp : poly_of (F := RF) Bernstein 1 1 1 p) by (apply poly_of_intro; try assumption; rewrite P2; reflexivity).
  assert (HC : forall t, call (F := RF) p [t] = Ok [t]).
  { intros t. destruct (call_pv _ _ _ _ _ [t] Hp eq_refl) as [-> _]. f_equal. unfold pv. rewrite P1, P2, P3, P4. cbn [map]. f_equal. cbn [val]. unfold bval. change (all_mi 1 1) with [[0%nat]; [1%nat]]. rewrite !ksum_cons, ksum_nil. unfold bern, M, cf, bary0. cbn. change (K RF) with R. rewrite ?ksum_cons, ?ksum_nil. cbn. rewrite !kofnat_INR. cbn [INR]. ring. }
  assert (HV : rows_of (F := RF) 2 1 [[1%R]; [3%R]]) by (split; [reflexivity|intros r [<-|[<-|[]]]; reflexivity]).
  assert (D : det (F := RF) 1 (edge (F := RF) [[1%R]; [3%R]]) = 2%R) by (cbn [det seq]; rewrite ksum_cons, ksum_nil; unfold Det.sg, edge, ent; cbn; change (K RF) with R; ring).
  exists p, [[1%R]; [3%R]], (2 * val_int (F := RF) Bernstein 1 1 [0; 1])%R. split; [exact Hp|]. split.
  { split; [discriminate|]. split; [exact HV|]. apply (affine_independent_det (F := RO) 1); [discriminate|reflexivity|]. change (det (F := RF) 1 (edge (F := RF) [[1%R]; [3%R]]) <> 0%R). rewrite D. lra. }
  split; [exact HC|]. split.
  { rewrite P2, P4. cbn [integrate_simplex mapM]. rewrite (integrate_bernstein_eq (Q := RO) 1 [[1%R]; [3%R]] 1 [0%R; 1%R] ltac:(discriminate) HV); [|change (0 < det (F := RF) 1 (edge (F := RF) [[1%R]; [3%R]]))%R; rewrite D; lra|reflexivity]. cbn [bind]. do 2 f_equal. exact (f_equal (fun d => (d * val_int (F := RF) Bernstein 1 1 [0; 1])%R) D). }
  split.
  { apply has_sint_real; [exact HV|]. exists 2%R. split.
    - apply (has_int_ext (F := RF) 1 (val (F := RF) Monomial 1 1 [1%R; 2%R])).
      + intros [|t [|? ?]] Lx; try discriminate. replace (simplex_point (Q := RO) 1 [[1%R]; [3%R]] [t]) with [(1 + 2 * t)%R]; [rewrite HC|].
        * cbn [val nth]. unfold mval. change (all_mi 1 1) with [[0%nat]; [1%nat]]. rewrite !ksum_cons, ksum_nil. unfold cf. cbn. change (K RF) with R. ring.
        * unfold simplex_point. cbn [seq map length]. rewrite !ksum_cons, ksum_nil. apply (f_equal (fun z : R => [z])). unfold bary_of, bary0, ent. cbn [nth]. rewrite !ksum_cons, ksum_nil. cbn. change (K RF) with R. ring.
      + replace 2%R with (val_int (F := RF) Monomial 1 1 [1%R; 2%R]) at 2; [apply has_int_val|]. cbn [val_int]. unfold mono_int. change (all_mi 1 1) with [[0%nat]; [1%nat]]. rewrite !ksum_cons, ksum_nil. unfold cf, mint. cbn. change (K RF) with R. rewrite ?kofnat_INR. cbn [INR]. field.
    - change (4%R = (kabs (Q := RO) (det (F := RF) 1 (edge (F := RF) [[1%R]; [3%R]])) * 2)%R). rewrite kabs_Rabs, D, Rabs_right; lra. }
  cbn [val_int]. unfold bern_int. change (all_mi 1 1) with [[0%nat]; [1%nat]]. rewrite !ksum_cons, ksum_nil. unfold cf. cbn. change (K RF) with R. intros E.
  rewrite !kofnat_INR in E. cbn [INR fact Nat.mul Nat.add] in E. lra.
Qed.
