(** Property C67: integrals over simplices and the dual Bernstein basis. *)
From Coq Require Import Reals Lra Qcanon QArith.
From Coquelicot Require Import Coquelicot.
From Verif Require Import Base MultiIndex MultiIndexCache MultiIndexFacts Fld FldInst ExNum CodeGen LinSolve VecFacts PolyFacts LagFacts Linalg Det Simplicial SimplexGeo SimplexFacts AffineFacts SimplexInside MultiCoef LagrangeCache Unisolv Poly PolyEval PolyDeriv PolyCalls IntegralCache Integrate HasInt SimplexInt IntReal Bases PolySimplex PolySimplexFacts PolySimplexCalls PolySimplexMul HomogInt PolySimplexInt SimplexIntReal Prop_PolySimplex.
Close Scope Q_scope. Close Scope Qc_scope. Close Scope R_scope.
Local Open Scope nat_scope.
Notation pt := SimplexGeo.pt.

(** [simplex_integral n vs f I] (SimplexIntReal.v) is the integral of [f] over the
    simplex: the integral over the unit simplex (C47) of [f] after the affine map,
    times the absolute value of the determinant.  It determines [I], and for an
    interval it is the Riemann integral. *)
Theorem C67_integral_unique : forall n (vs : list (list R)) f I J, simplex (Q := RO) n vs -> simplex_integral n vs f I -> simplex_integral n vs f J -> I = J.
Proof. intros n vs f I J H. apply simplex_integral_unique. apply H. Qed.
Print Assumptions C67_integral_unique.
Theorem C67_integral_interval : forall (a b : R) f I, a <> b -> simplex_integral 1 [[a]; [b]] f I -> is_RInt (fun t => f [t]) (Rmin a b) (Rmax a b) I.
Proof. exact simplex_integral_1. Qed.
Print Assumptions C67_integral_interval.

(** integrate_simplex for polynomials in the Bernstein and Lagrange bases on a
    positively oriented simplex. *)
Theorem C67_integrate_simplex : forall (ksqrt : RO -> RO) (tol : RO) n (vs : list (list R)) b k r (p : spoly RO), simplex (Q := RO) n vs -> spoly_of ksqrt tol b vs k r p ->
  (0 < det (F := RF) n (fun i j => nth j (nth (S i) vs []) 0 - nth j (nth 0 vs []) 0))%R ->
  exists v, integrate_simplex (Q := RO) b (sp_cols p) r vs = Ok v /\ length v = k /\
    forall j, j < k -> simplex_integral n vs (fun y => match sp_call p (pt (F := RO) y) with Ok u => nth j u 0%R | Err _ => 0%R end) (nth j v 0%R).
Proof.
  intros ksqrt tol n vs b k r p H Hp HD. destruct (to_unit_exists ksqrt tol n vs H) as (ab & phi & B & TU). rewrite <- edge_det in HD.
  destruct (integrate_simplex_ok (Q := RO) ksqrt tol n vs ab phi B TU b k r p Hp HD) as (v & Ev & Lv & Hv). exists v. split; [exact Ev|]. split; [exact Lv|]. intros j Hj. apply has_sint_real; [apply H|exact (Hv j Hj)].
Qed.
Print Assumptions C67_integrate_simplex.
(** Otherwise it raises an AssertionError. *)
Theorem C67_negative_orientation : forall (Q : ofld) n (vs : list (list Q)) b cols r, simplex n vs -> ~ klt k0 (det n (fun i j => ksub (nth j (nth (S i) vs []) k0) (nth j (nth 0 vs []) k0))) -> b <> Monomial -> cols <> [] ->
  integrate_simplex b cols r vs = Err AssertionError.
Proof. intros Q n vs b cols r (Hn & HV & HI) HD. exact (orientation_error b r cols vs n Hn HV HD). Qed.
Print Assumptions C67_negative_orientation.

(** Polynomials in the monomial basis, on a simplex of either orientation. *)
Theorem C67_integrate_polynomial_simplex : forall (ksqrt : RO -> RO) n (vs : list (list R)) r (a : list R) mis, simplex (Q := RO) n vs -> generate_all n r = Ok mis -> length a = length mis ->
  exists I, integrate_polynomial_simplex (Q := RO) ksqrt r a vs = Ok I /\
    simplex_integral n vs (fun y => ksum (F := RF) (combine a mis) (fun c => (fst c * mpow (F := RF) y (snd c))%R)) I.
Proof.
  intros ksqrt n vs r a mis (Hn & HV & HI) E La. rewrite generate_all_eq in E. injection E as <-. rewrite <- dim_all_mi in La. destruct (integrate_polynomial_ok (Q := RO) ksqrt n vs r a Hn HV La) as (I & EI & H). exists I. split; [exact EI|]. apply has_sint_real; [exact HV|].
  apply (has_sint_ext (Q := RO) n vs (@mval RF n r a)); [|exact H]. intros y _. symmetry. exact (@sum_cf RF n r a (mpow (F := RF) y) La).
Qed.
Print Assumptions C67_integrate_polynomial_simplex.
(** A monomial over a simplex of any dimension in a space of dimension [d]: the
    mean over the unit simplex times the volume. *)
Theorem C67_homogeneous_embedded : forall (ksqrt : RO -> RO) n d (vs : list (list R)) nu V Phi, rows_of (F := RF) (S n) d vs -> length nu = d -> volume (Q := RO) ksqrt vs = Ok V ->
  (forall x, length x = n -> affine_comb (F := RF) d (bary_of (F := RF) x) vs (Phi x)) ->
  exists I w, integrate_homogeneous_polynomial_simplex (Q := RO) ksqrt nu vs = Ok I /\ simplex_int n 1 (fun x => mpow (F := RF) (Phi x) nu) w /\ I = (INR (fact n) * V * w)%R.
Proof.
  intros ksqrt n d vs nu V Phi HV Ln EV HP. destruct (integrate_homogeneous_ok (Q := RO) ksqrt n d vs nu V HV Ln EV) as (I & w & E & Hw & EI). exists I, w. split; [exact E|]. split; [|rewrite EI, <- kofnat_INR; reflexivity]. apply (simplex_int_ext n 1 (fun x => mpow (F := RF) (simplex_point (Q := RO) d vs x) nu)); [lra| |apply has_int_real; exact Hw].
  intros x Lx _ _. f_equal. apply (affine_comb_unique (Q := RO) d (bary_of (F := RF) x) vs); [apply (simplex_point_comb (Q := RO) d vs x); exact (eq_trans (f_equal S Lx) (eq_sym (proj1 HV)))|apply HP, Lx].
Qed.
Print Assumptions C67_homogeneous_embedded.

(** The L2 inner product and norm *)
Theorem C67_l2_inner_product : forall (ksqrt : RO -> RO) n (vs : list (list R)) r s (p q : poly RF), simplex (Q := RO) n vs -> poly_of Monomial n 1 r p -> poly_of Monomial n 1 s q -> r + s < 20 ->
  exists I, l2_inner_product_simplex (Q := RO) ksqrt p q vs = Ok I /\ simplex_integral n vs (fun y => match call p y, call q y with Ok [u], Ok [w] => (u * w)%R | _, _ => 0%R end) I.
Proof.
  intros ksqrt n vs r s p q (Hn & HV & HI) Hp Hq Hrs. destruct (l2_inner_ok (Q := RO) ksqrt n vs r s p q Hn HV Hp Hq Hrs) as (I & EI & H). exists I. split; [exact EI|]. apply has_sint_real; [exact HV|]. refine (has_sint_ext (Q := RO) n vs _ _ I _ H). intros y Ly. unfold component.
  destruct (call_pv _ _ _ _ _ y Hp Ly) as [E1 L1]. destruct (call_pv _ _ _ _ _ y Hq Ly) as [E2 L2]. change (OF RO) with RF in *. rewrite E1, E2. destruct (pv p y) as [|u [|]]; try discriminate L1. destruct (pv q y) as [|w [|]]; try discriminate L2. reflexivity.
Qed.
Print Assumptions C67_l2_inner_product.
Theorem C67_l2_definite : forall (ksqrt : RO -> RO) n (vs : list (list R)) r (p : poly RF), simplex (Q := RO) n vs -> poly_of Monomial n 1 r p -> r + r < 20 ->
  exists v, l2_norm2_simplex (Q := RO) ksqrt p vs = Ok v /\ (0 <= v)%R /\ (v = 0%R <-> forall y, length y = n -> call p y = Ok [0%R]).
Proof. exact l2_norm2_simplex_definite. Qed.
Print Assumptions C67_l2_definite.

(** The dual Bernstein basis function of [mu] returns the coefficient of the
    Bernstein basis function [mu]. *)
Theorem C67_dual_bernstein : forall (Q : ofld) (ksqrt : Q -> Q) (tol : Q) (veq : list (list Q) -> list (list Q) -> bool) n (vs : list (list Q)) r p c mu j, simplex n vs -> (forall w, veq w w = true) ->
  klt k0 (det n (fun i j => ksub (nth j (nth (S i) vs []) k0) (nth j (nth 0 vs []) k0))) -> spoly_of ksqrt tol Bernstein vs 1 r p -> sp_cols p = [c] -> length mu = n -> list_sum mu <= r -> get_index mu r = Ok j -> 2 * r < 20 ->
  dual_bernstein_basis_fn_simplex ksqrt tol veq mu r vs p = Ok [nth j c k0].
Proof.
  intros Q ksqrt tol veq n vs r p c mu j H Hveq HD Hp Ec Lm Hmu Hj Hr. destruct (to_unit_exists ksqrt tol n vs H) as (ab & phi & B & TU). refine (eq_trans (dual_simplex_ok ksqrt tol veq n vs ab phi B TU mu r p c Hveq HD Lm Hmu Hr Hp Ec) _).
  do 2 f_equal. destruct (of_lift _ _ _ _ _ _ _ TU _ _ _ _ Hp) as (u & -> & _ & Hu). pose proof (BasesCalls.poly_of_valid _ _ _ _ _ Hu) as ([[_ Ru] _] & U1 & U2 & U3 & U4). assert (Lc : length c = get_dimension r n) by (rewrite <- U4, <- U2; apply Ru; change (p_cols u) with (sp_cols (lift vs ab phi u)); rewrite Ec; left; reflexivity).
  destruct (index_cf n r mu c Lm Hmu Lc) as (i & _ & Ei & Hi & G). rewrite Ei in Hj. injection Hj as <-. rewrite (PermFacts.get_ok c i k0 Hi) in G. congruence.
Qed.
Print Assumptions C67_dual_bernstein.
(** The pairing of the basis functions *)
Theorem C67_dual_bernstein_pairing : forall (Q : ofld) (ksqrt : Q -> Q) (tol : Q) (veq : list (list Q) -> list (list Q) -> bool) n (vs : list (list Q)) r p mu nu, simplex n vs -> (forall w, veq w w = true) ->
  klt k0 (det n (fun i j => ksub (nth j (nth (S i) vs []) k0) (nth j (nth 0 vs []) k0))) -> length mu = n -> length nu = n -> list_sum mu <= r -> list_sum nu <= r -> 2 * r < 20 -> sp_basis_fn ksqrt tol Bernstein nu r vs = Ok p ->
  dual_bernstein_basis_fn_simplex ksqrt tol veq mu r vs p = Ok [if mi_dec mu nu then k1 else k0].
Proof. intros Q ksqrt tol veq n vs r p mu nu H. destruct (to_unit_exists ksqrt tol n vs H) as (ab & phi & B & TU). exact (dual_pairing ksqrt tol veq n vs ab phi B TU r p mu nu). Qed.
Print Assumptions C67_dual_bernstein_pairing.
(** Applied to a polynomial in the monomial basis it returns the coefficient of
    the polynomial in the Bernstein basis of the simplex. *)
Theorem C67_dual_bernstein_monomial : forall (Q : ofld) (ksqrt : Q -> Q) (tol : Q) (veq : list (list Q) -> list (list Q) -> bool) n (vs : list (list Q)) r (p : poly Q) q c mu j, simplex n vs -> (forall w, veq w w = true) ->
  klt k0 (det n (fun i j => ksub (nth j (nth (S i) vs []) k0) (nth j (nth 0 vs []) k0))) -> poly_of Monomial n 1 r p -> spoly_of ksqrt tol Bernstein vs 1 r q -> sp_cols q = [c] -> (forall y, length y = n -> sp_call q (pt y) = call p y) ->
  length mu = n -> list_sum mu <= r -> get_index mu r = Ok j -> 2 * r < 20 ->
  dual_bernstein_basis_fn_simplex_monomial ksqrt tol veq mu r vs p = Ok [nth j c k0].
Proof.
  intros Q ksqrt tol veq n vs r p q c mu j H Hveq HD Hp Hq Ec Hpq Lm Hmu Hj Hr. destruct (to_unit_exists ksqrt tol n vs H) as (ab & phi & B & TU). destruct (of_lift _ _ _ _ _ _ _ TU _ _ _ _ Hq) as (u & -> & _ & Hu). pose proof (BasesCalls.poly_of_valid _ _ _ _ _ Hu) as ([[_ Ru] _] & U1 & U2 & U3 & U4). assert (Lc : length c = get_dimension r n) by (rewrite <- U4, <- U2; apply Ru; change (p_cols u) with (sp_cols (lift vs ab phi u)); rewrite Ec; left; reflexivity).
  destruct (index_cf n r mu c Lm Hmu Lc) as (i & _ & Ei & Hi & G). rewrite Ei in Hj. injection Hj as <-. rewrite (PermFacts.get_ok c i k0 Hi) in G. injection G as ->. apply (dual_simplex_monomial_ok ksqrt tol veq n vs ab phi B TU mu r p c Hveq HD Lm Hmu Hr Hp Lc). intros x Lx.
  rewrite <- Hpq by apply point_length. rewrite (call_lift _ _ _ _ _ _ _ TU _ _ _ _ _ Hu) by apply point_length. rewrite (coords_point _ _ _ _ _ _ _ TU) by exact Lx. destruct (call_pv _ _ _ _ _ x Hu Lx) as [-> _]. unfold pv. change (p_cols u) with (sp_cols (lift vs ab phi u)). rewrite Ec, U1, U2, U4. reflexivity.
Qed.
Print Assumptions C67_dual_bernstein_monomial.

(** ** Examples and findings *)
Definition ztri : list (list QcF) := [[rat 1 1; rat 1 1]; [rat 3 1; rat 1 1]; [rat 1 1; rat 4 1]].
Example C67_ex_integrate :
  (* stri has determinant 5 *)
  qres (integrate_simplex (Q := QcO) Bernstein [[rat 1 1; rat 2 1; rat 3 1]] 1 stri) = [(5#1)%Q] /\ qres (integrate_simplex (Q := QcO) Lagrange [[rat 1 1; rat 2 1; rat 3 1]] 1 stri) = [(5#1)%Q] /\
  integrate_simplex (Q := QcO) Bernstein [[rat 1 1; rat 2 1; rat 3 1]] 1 [nth 1 stri []; nth 0 stri []; nth 2 stri []] = Err AssertionError /\
  (* x over the triangle: the area times the first coordinate of the centroid *)
  qval (integrate_polynomial_simplex (Q := QcO) qsqrt 1 [rat 0 1; rat 1 1; rat 0 1] stri) = Some (5#2)%Q /\
  qval (integrate_polynomial_simplex (Q := QcO) qsqrt 2 [rat 0 1; rat 0 1; rat 0 1; rat 0 1; rat 1 1; rat 0 1] ztri) = qval (let* p := new_poly (F := QcF) Monomial [[rat 0 1; rat 1 1; rat 0 1]] (Some 1) 2 in let* q := new_poly Monomial [[rat 0 1; rat 0 1; rat 1 1]] (Some 1) 2 in l2_inner_product_simplex (Q := QcO) qsqrt p q ztri) /\
  (* x over a segment of length 5 in the plane *)
  qval (integrate_homogeneous_polynomial_simplex (Q := QcO) qsqrt [1; 0] [[rat 0 1; rat 0 1]; [rat 3 1; rat 4 1]]) = Some (15#2)%Q.
Proof. repeat split; vm_compute; reflexivity. Qed.
Example C67_ex_dual : (match new_spoly (Q := QcO) qsqrt (rat 0 1) Bernstein [[rat 1 1; rat 2 1; rat 3 1]] stri (Some 1) with Ok p => map (fun mu => qres (dual_bernstein_basis_fn_simplex (Q := QcO) qsqrt (rat 0 1) veq_all mu 1 stri p)) [[0; 0]; [1; 0]; [0; 1]] | Err _ => [] end) = [[(1#1)%Q]; [(2#1)%Q]; [(3#1)%Q]] /\
  (match new_poly (F := QcF) Monomial [[rat 0 1; rat 1 1; rat 0 1]] (Some 1) 2 with Ok p => map (fun mu => qres (dual_bernstein_basis_fn_simplex_monomial (Q := QcO) qsqrt (rat 0 1) veq_all mu 1 stri p)) [[0; 0]; [1; 0]; [0; 1]] | Err _ => [] end) = [[(0#1)%Q]; [(2#1)%Q]; [(1#1)%Q]] /\ klt (o := QcO) k0 (det (F := QcF) 2 (edge stri)).
Proof. split; [vm_compute; reflexivity|]. split; vm_compute; reflexivity. Qed.
(** For the polynomial [x] on the interval [0, 1] in the Bernstein basis of the
    unit interval integrate_simplex over the interval [1, 3] does not return the
    integral, which is 4: it returns 1. *)
Theorem C67_unit_basis_refuted : exists (p : poly RF) (vs : list (list R)) v, poly_of Bernstein 1 1 1 p /\ simplex (Q := RO) 1 vs /\ (forall t, call p [t] = Ok [t]) /\
  integrate_simplex (Q := RO) Bernstein (p_cols p) (p_r p) vs = Ok [v] /\ simplex_integral 1 vs (fun y => match call p y with Ok u => nth 0 u 0%R | Err _ => 0%R end) 4 /\ v <> 4%R.
Proof. exact unit_basis_finding. Qed.
Print Assumptions C67_unit_basis_refuted.
(** Polynomials in the monomial basis are rejected. *)
Example C67_ex_monomial : integrate_simplex (Q := QcO) Monomial [[rat 1 1; rat 2 1; rat 3 1]] 1 stri = Err TypeError.
Proof. reflexivity. Qed.
