(** Property theorems for basis conversion, dual bases, higher derivatives and
    vector valued bases (C48, C56-C59 of properties.jsonl).  [poly_of b m n r p]:
    see Prop_Poly.v. *)
From Coq Require Import Reals Qcanon.
From Coquelicot Require Import Coquelicot.
From Verif Require Import Base MultiIndex MultiIndexFacts MultiCapFacts MultiIndexCache Fld FldInst CodeGen CodeGenFacts LinSolve MultiCoef MultiCoefFacts LagrangeCache Unisolv Poly PolyFacts LagFacts PolyEval PolyOps PolyOpsB PolyDeriv PolyObj PolyPow PolyCalls IntegralCache Integrate IntFacts SimplexInt HasInt QHom Gram Bases DualOne BasesFacts DerivFacts BasesCalls BasesMore BasesReal.
From Verif Require Import ExNum.
From Coq Require Import QArith.
Local Open Scope fld_scope.

(** ** C48: conversion between bases *)
Theorem C48_conversion_keeps_values : forall (F : fld) b b' m n r (p : poly F), poly_of b m n r p ->
  (b' = Bernstein -> b <> Bernstein -> (0 < m)%nat -> (2 * r < 20)%nat) ->
  exists q, convert_polynomial_to_basis p b' = Ok q /\ poly_of b' m n r q /\
    forall x, length x = m -> exists u, call p x = Ok u /\ call q x = Ok u.
Proof. exact @convert_calls. Qed.
Print Assumptions C48_conversion_keeps_values.
Theorem C48_round_trip : forall (F : fld) b b' m n r (p : poly F), poly_of b m n r p ->
  (b <> b' -> b = Bernstein \/ b' = Bernstein -> (0 < m)%nat -> (2 * r < 20)%nat) ->
  exists q, convert_polynomial_to_basis p b' = Ok q /\ convert_polynomial_to_basis q b = Ok p.
Proof. exact @convert_round_trip. Qed.
Print Assumptions C48_round_trip.
(** Polynomials of degree 10 to 19 exist in all bases but cannot be converted
    to the Bernstein basis: the product with the dual basis polynomial exceeds
    the degree limit. *)
Theorem C48_bernstein_degree_limit_refuted : exists m r, (r < 20)%nat /\ forall (F : fld) (p : poly F), poly_of Lagrange m 1 r p -> convert_polynomial_to_basis p Bernstein = Err AssertionError.
Proof. exists 1%nat, 10%nat. split; [repeat constructor|]. intros F p. apply convert_limit; repeat constructor. Qed.
Print Assumptions C48_bernstein_degree_limit_refuted.
Example C48_example :
  let c := [[rat 1 1; rat 2 1; rat (-1) 2; rat 0 1; rat 3 1; rat 1 1]; [rat 0 1; rat 1 3; rat 1 1; rat 5 1; rat (-2) 1; rat 7 1]] in
  match new_poly (F := QcF) Lagrange c (Some 2%nat) 2 with
  | Ok p => (let q := convert_polynomial_to_basis p Bernstein in
             (match q with Ok q => map qlist (p_cols q) | Err _ => [] end,
              match (let* q := q in let* t := convert_polynomial_to_basis q Monomial in convert_polynomial_to_basis t Lagrange) with
              | Ok t => map qlist (p_cols t) | Err _ => [] end))
  | Err _ => ([], []) end = ([[1%Q; (15#4)%Q; (-1#2)%Q; (-1)%Q; (23#4)%Q; 1%Q]; [0%Q; (1#6)%Q; 1%Q; (13#2)%Q; (-8)%Q; 7%Q]], map qlist c).
Proof. vm_compute. reflexivity. Qed.

(** ** C56: dual bases *)
Theorem C56_bernstein : forall (F : fld) nu mu r (p : poly F), length mu = length nu -> (list_sum nu <= r)%nat -> (list_sum mu <= r)%nat ->
  ((0 < length nu)%nat -> (2 * r < 20)%nat) -> basis_fn Bernstein nu r = Ok p ->
  dual_bernstein_basis_fn mu r p = Ok [if mi_dec mu nu then 1 else 0].
Proof. exact @dual_bernstein_basis. Qed.
Print Assumptions C56_bernstein.
Theorem C56_bernstein_integral : forall mu r, (list_sum mu <= r)%nat -> ((0 < length mu)%nat -> (r < 20)%nat) ->
  exists d : poly RF, dual_bernstein_basis_polynomial mu r = Ok d /\
    forall nu, length nu = length mu -> (list_sum nu <= r)%nat -> exists p : poly RF, basis_fn Bernstein nu r = Ok p /\
      simplex_int (length mu) 1 (fun x => match call d x, call p x with Ok [u], Ok [w] => (u * w)%R | _, _ => 0%R end) (if mi_dec mu nu then 1%R else 0%R).
Proof. exact dual_bernstein_integral. Qed.
Print Assumptions C56_bernstein_integral.
Theorem C56_lagrange : forall (F : fld) nu mu r (p : poly F), length mu = length nu -> (list_sum nu <= r)%nat -> (list_sum mu <= r)%nat ->
  basis_fn Lagrange nu r = Ok p -> dual_lagrange_basis_fn mu r p = Ok [if mi_dec mu nu then 1 else 0].
Proof. exact @dual_lagrange_basis. Qed.
Print Assumptions C56_lagrange.
(** The dual monomial basis functions of a polynomial are its coefficients in
    the monomial basis, whatever basis the polynomial is given in. *)
Theorem C56_monomial : forall (F : fld) b m n r (p : poly F) mis, poly_of b m n r p -> generate_all m r = Ok mis ->
  exists ds, mapM (fun mu => dual_monomial_basis_fn mu p) mis = Ok ds /\
    forall x, length x = m -> exists u, call p x = Ok u /\ length u = n /\ forall k, (k < n)%nat -> nth k u 0 = ksum (combine mis ds) (fun md => nth k (snd md) 0 * mpow x (fst md)).
Proof. exact @taylor. Qed.
Print Assumptions C56_monomial.
Example C56_example :
  (match dual_bernstein_basis_polynomial (F := QcF) [1]%nat 2 with Ok d => map qlist (p_cols d) | Err _ => [] end,
   match dual_bernstein_basis_polynomial (F := QcF) [1;0]%nat 1 with Ok d => map qlist (p_cols d) | Err _ => [] end,
   match basis_fn (F := QcF) Bernstein [1;0]%nat 2 with
   | Ok p => (qres (dual_bernstein_basis_fn [1;0]%nat 2 p), qres (dual_bernstein_basis_fn [0;1]%nat 2 p), qres (dual_monomial_basis_fn [2;0]%nat p)) | Err _ => ([], [], []) end)
  = ([[(-9)%Q; 21%Q; (-9)%Q]], [[(-6)%Q; 18%Q; (-6)%Q]], ([1%Q], [0%Q], [(-2)%Q])).
Proof. vm_compute. reflexivity. Qed.

(** ** C57: higher derivatives *)
Theorem C57_derivative : forall (F : fld) b m n r (p : poly F) alpha l, poly_of b m n r p -> length alpha = m ->
  (forall i, In i l -> (i < m)%nat) -> (forall k, count_occ Nat.eq_dec l k = nth k alpha 0%nat) ->
  exists q q', derivative p alpha = Ok q /\ foldM partial_derivative p l = Ok q' /\ poly_of b m n (r - list_sum alpha) q /\ q' = q.
Proof. exact @derivative_any_order. Qed.
Print Assumptions C57_derivative.
Theorem C57_commute : forall (F : fld) b m n r (p : poly F) i j, poly_of b m n r p -> (i < m)%nat -> (j < m)%nat ->
  exists q, (let* t := partial_derivative p i in partial_derivative t j) = Ok q /\ (let* t := partial_derivative p j in partial_derivative t i) = Ok q.
Proof. exact @partial_derivatives_commute. Qed.
Print Assumptions C57_commute.
Theorem C57_hessian : forall (F : fld) b m r (p : poly F), poly_of b m 1 r p ->
  exists h, hessian p = Ok h /\ length h = m /\ (forall row, In row h -> length row = m) /\
    forall i j, (i < m)%nat -> (j < m)%nat -> exists q, nth_error (nth i h []) j = Some q /\ nth_error (nth j h []) i = Some q /\
      (let* t := partial_derivative p i in partial_derivative t j) = Ok q.
Proof. exact @hessian_ok. Qed.
Print Assumptions C57_hessian.
Theorem C57_jacobian : forall (F : fld) b m n r (p : poly F), poly_of b m n r p ->
  exists h, jacobian p = Ok h /\ length h = n /\
    forall i j, (i < n)%nat -> (j < m)%nat -> exists q d, nth_error (nth i h []) j = Some q /\ partial_derivative p j = Ok d /\ poly_of b m 1 (r - 1) q /\
      forall x, length x = m -> exists v, call d x = Ok v /\ call q x = Ok [nth i v 0].
Proof. exact @jacobian_ok. Qed.
Print Assumptions C57_jacobian.
Example C57_example :
  (* x^2 y *)
  match new_poly (F := QcF) Monomial [[rat 0 1; rat 0 1; rat 0 1; rat 0 1; rat 0 1; rat 0 1; rat 1 1; rat 0 1; rat 0 1; rat 0 1]] (Some 3%nat) 2 with
  | Ok p => (match derivative p [1;1]%nat with Ok q => map qlist (p_cols q) | Err _ => [] end,
             match hessian p with Ok h => map (map (fun q => map qlist (p_cols q))) h | Err _ => [] end)
  | Err _ => ([], []) end = ([[0; 2; 0]%Q], [[[[0; 0; 2]]; [[0; 2; 0]]]; [[[0; 2; 0]]; [[0; 0; 0]]]]%Q).
Proof. vm_compute. reflexivity. Qed.

(** ** C58: degree elevated Bernstein basis functions *)
Theorem C58_degree_elevated : forall (F : fld) nu r s, (list_sum nu <= r)%nat -> (r < s)%nat -> ((0 < length nu)%nat -> (s < 20)%nat) ->
  exists p q : poly F, basis_fn Bernstein nu r = Ok p /\ degree_elevated_bernstein_basis_fn nu r s = Ok q /\ poly_of Bernstein (length nu) 1 s q /\
    forall x, length x = length nu -> exists u, call p x = Ok u /\ call q x = Ok u.
Proof. exact @degree_elevated_ok. Qed.
Print Assumptions C58_degree_elevated.
Theorem C58_barycentric : forall (F : fld) r m (a x : list F) mis, length x = m -> length a = get_dimension r m -> generate_all m r = Ok mis ->
  barycentric_polynomial_general r a x = Ok (ksum (combine mis a) (fun na => snd na * (mpow x (fst na) * kpow (1 - ksum x (fun v => v)) (r - list_sum (fst na))))).
Proof. exact @barycentric_polynomial_ok. Qed.
Print Assumptions C58_barycentric.
Example C58_example :
  (match degree_elevated_bernstein_basis_fn (F := QcF) [1;0]%nat 1 3 with Ok q => map qlist (p_cols q) | Err _ => [] end,
   qval (barycentric_polynomial_general 1 [rat 1 1; rat 2 1; rat 3 1] [rat 1 2; rat 1 3])) = ([[0; (1#3); (2#3); 1; 0; (1#3); (2#3); 0; (1#3); 0]%Q], Some (13#6)%Q).
Proof. vm_compute. reflexivity. Qed.

(** ** C59: vector valued bases *)
Theorem C59_basis_function : forall (F : fld) b nu r i n, n <> 1%nat -> (i < n)%nat -> (list_sum nu <= r)%nat -> ((0 < length nu)%nat -> (r < 20)%nat) ->
  exists p q : poly F, polynomial_basis_fn nu r b = Ok p /\ vector_valued_polynomial_basis_fn nu r i n b = Ok q /\ poly_of b (length nu) n (degree p) q /\
    forall x, length x = length nu -> exists v, call p x = Ok [v] /\ call q x = Ok (upd (repeat 0 n) i v).
Proof. exact @vector_valued_fn_ok. Qed.
Print Assumptions C59_basis_function.
Theorem C59_basis : forall (F : fld) r m n b interleaved mis, n <> 1%nat -> ((0 < m)%nat -> (r < 20)%nat) -> generate_all m r = Ok mis ->
  exists ps : list (poly F), vector_valued_polynomial_basis r m n b interleaved = Ok ps /\ length ps = (n * length mis)%nat /\
    forall i j nu, (i < n)%nat -> nth_error mis j = Some nu ->
      exists q, nth_error ps (if interleaved then j * n + i else i * length mis + j)%nat = Some q /\ vector_valued_polynomial_basis_fn nu r i n b = Ok q.
Proof. exact @vector_valued_basis_ok. Qed.
Print Assumptions C59_basis.
(** With a target of dimension one the degree and the dimension of the domain are
    exchanged: the basis of the affine functions on the triangle comes out as
    the basis of the quadratic functions on the interval. *)
Theorem C59_scalar_target_refuted : exists r m, r = 1%nat /\ m = 2%nat /\ forall (F : fld) b il, vector_valued_polynomial_basis (F := F) r m 1 b il = polynomial_basis 2 1 b /\
  polynomial_basis (F := F) 2 1 b <> polynomial_basis 1 2 b.
Proof.
  exists 1%nat, 2%nat. split; [reflexivity|]. split; [reflexivity|]. intros F b il. split; [reflexivity|]. intros E.
  assert (H : forall r, mapM (fun nu => polynomial_basis_fn (F := F) nu 1 b) [[0;0];[1;0];[0;1]]%nat = Ok r -> forall q, In q r -> p_m q = 2%nat).
  { intros r Hr q Hq. apply mapM_inv in Hr. apply In_nth_error in Hq as [k Hk].
    assert (HP : forall nu, In nu [[0;0];[1;0];[0;1]]%nat -> forall q, polynomial_basis_fn (F := F) nu 1 b = Ok q -> p_m q = 2%nat).
    { intros nu Hnu q' Eq. destruct (basis_fn_deg (F := F) b nu 1) as (s & Hs & E1 & _); [destruct Hnu as [<-|[<-|[<-|[]]]]; cbn; repeat constructor|]. rewrite E1 in Eq. change (list_sum nu) with (nsum nu) in Hs.
      destruct (basis_fn_ok (F := F) b nu s ltac:(lia) ltac:(lia)) as (p & Ep & (_ & _ & _ & _ & Pm)). rewrite Ep in Eq. injection Eq as <-. rewrite Pm. destruct Hnu as [<-|[<-|[<-|[]]]]; reflexivity. }
    clear E. revert HP k Hk. induction Hr as [|a c l r0 Hac HF IH]; intros HP [|k] Hk; try discriminate; cbn [nth_error] in Hk.
    - injection Hk as ->. apply (HP a); [left; reflexivity|exact Hac].
    - apply (IH (fun nu h => HP nu (or_intror h)) k Hk). }
  assert (P0 : exists p : poly F, polynomial_basis_fn [0]%nat 2 b = Ok p /\ p_m p = 1%nat).
  { destruct (basis_fn_deg (F := F) b [0]%nat 2) as (s & Hs & E1 & _); [cbn; repeat constructor|]. rewrite E1. destruct (basis_fn_ok (F := F) b [0]%nat s ltac:(cbn in *; lia) ltac:(cbn in *; lia)) as (p & Ep & (_ & _ & _ & _ & Pm)). exists p. split; [exact Ep|exact Pm]. }
  destruct P0 as (p0 & Ep0 & Pm0). unfold polynomial_basis in E. change (generate_all 2 1) with (Ok [[0;0];[1;0];[0;1]]%nat) in E. change (generate_all 1 2) with (Ok [[0];[1];[2]]%nat) in E. cbn [bind] in E.
  destruct (mapM (fun nu => polynomial_basis_fn (F := F) nu 1 b) [[0;0];[1;0];[0;1]]%nat) as [r|] eqn:Er.
  - cbn [mapM] in E. rewrite Ep0 in E. cbn [bind] in E. destruct (polynomial_basis_fn [1]%nat 2 b); cbn [bind] in E; [|discriminate]. destruct (polynomial_basis_fn [2]%nat 2 b); cbn [bind] in E; [|discriminate]. injection E as E.
    specialize (H r eq_refl p0 ltac:(rewrite <- E || rewrite E; left; reflexivity)). rewrite H in Pm0. discriminate.
  - destruct (mapM_exists (fun nu => polynomial_basis_fn (F := F) nu 1 b) (fun _ _ => True) [[0;0];[1;0];[0;1]]%nat) as (ps & E' & _); [|congruence].
    intros nu Hnu. destruct (basis_fn_deg (F := F) b nu 1) as (s & Hs & E1 & _); [destruct Hnu as [<-|[<-|[<-|[]]]]; cbn; repeat constructor|]. rewrite E1. change (list_sum nu) with (nsum nu) in Hs.
    destruct (basis_fn_ok (F := F) b nu s ltac:(lia) ltac:(lia)) as (p & Ep & _). exists p. auto.
Qed.
Print Assumptions C59_scalar_target_refuted.
Example C59_example :
  (match vector_valued_polynomial_basis (F := QcF) 1 1 2 Bernstein true with Ok ps => map (fun q => map qlist (p_cols q)) ps | Err _ => [] end,
   match vector_valued_polynomial_basis (F := QcF) 1 1 2 Bernstein false with Ok ps => map (fun q => map qlist (p_cols q)) ps | Err _ => [] end)
  = ([[[1; 0]; [0; 0]]; [[0; 0]; [1; 0]]; [[0; 1]; [0; 0]]; [[0; 0]; [0; 1]]]%Q, [[[1; 0]; [0; 0]]; [[0; 1]; [0; 0]]; [[0; 0]; [1; 0]]; [[0; 0]; [0; 1]]]%Q).
Proof. vm_compute. reflexivity. Qed.
