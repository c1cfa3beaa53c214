(** Property C66: polynomial/polynomials_simplex_*.py. *)
From Coq Require Import Reals Lra Qcanon QArith.
From Verif Require Import Base MultiIndex MultiIndexCache Fld FldInst ExNum CodeGen LinSolve VecFacts PolyFacts Linalg Det Simplicial SimplexGeo SimplexFacts AffineFacts SimplexInside MultiCoef LagrangeCache Unisolv Poly PolyEval PolyDeriv PolyCalls IntegralCache Integrate Bases PolySimplex PolySimplexFacts PolySimplexCalls PolySimplexMul.
Close Scope Q_scope. Close Scope Qc_scope. Close Scope R_scope.
Local Open Scope nat_scope.
Notation pt := SimplexGeo.pt.

(** The constructor accepts every array of the right size. *)
Theorem C66_constructor : forall (Q : ofld) (ksqrt : Q -> Q) (tol : Q) n (vs : list (list Q)) b cols r, simplex n vs ->
  b <> Monomial -> cols <> [] -> (forall c, In c cols -> length c = get_dimension r n) -> r < 20 ->
  exists p, new_spoly ksqrt tol b cols vs (Some r) = Ok p /\ spoly_of ksqrt tol b vs (length cols) r p /\ sp_cols p = cols.
Proof. intros Q ksqrt tol n vs b cols r H. destruct (to_unit_exists ksqrt tol n vs H) as (ab & phi & B & TU). exact (sc_new _ _ _ _ _ _ _ TU b cols r). Qed.
Print Assumptions C66_constructor.

(** The value at a point is that of the polynomial with the same coefficients on
    the unit simplex at the barycentric coordinates of the point. *)
Theorem C66_evaluation : forall (Q : ofld) (ksqrt : Q -> Q) (tol : Q) n (vs : list (list Q)) b k r p, simplex n vs -> spoly_of ksqrt tol b vs k r p ->
  (exists u, new_poly b (sp_cols p) (Some r) n = Ok u /\ forall x y, affine_comb n (bary_of x) vs y -> sp_call p (pt y) = call u x) /\
  (forall y, length y = n -> exists x v, affine_comb n (bary_of x) vs y /\ sp_call p (pt y) = Ok v /\ length v = k).
Proof.
  intros Q ksqrt tol n vs b k r p H Hp. destruct (to_unit_exists ksqrt tol n vs H) as (ab & phi & B & TU). split; [exact (sc_call _ _ _ _ _ _ _ TU b k r p Hp)|]. intros y Ly. destruct (sc_total _ _ _ _ _ _ _ TU b k r p y Hp Ly) as (v & E & Lv). exists (coords n vs B y), v. split; [exact (tu_coords _ _ _ _ _ _ _ TU y Ly)|]. split; assumption.
Qed.
Print Assumptions C66_evaluation.

Theorem C66_bernstein_evaluation : forall (Q : ofld) (ksqrt : Q -> Q) (tol : Q) n (vs : list (list Q)) k r p mis c y, simplex n vs -> spoly_of ksqrt tol Bernstein vs k r p -> generate_all n r = Ok mis -> affine_comb n c vs y ->
  sp_call p (pt y) = Ok (map (fun a => ksum (combine a mis) (fun ca => kmul (fst ca)
    (kmul (kdiv (kofnat (fact r)) (kmul (kofnat (fold_right Nat.mul 1 (map fact (snd ca)))) (kofnat (fact (r - list_sum (snd ca)))))) (kmul (kpow (nth 0 c k0) (r - list_sum (snd ca))) (mpow (tl c) (snd ca)))))) (sp_cols p)).
Proof. intros Q ksqrt tol n vs k r p mis c y H. destruct (to_unit_exists ksqrt tol n vs H) as (ab & phi & B & TU). exact (sc_bernstein _ _ _ _ _ _ _ TU k r p mis c y). Qed.
Print Assumptions C66_bernstein_evaluation.

(** Convex hull property and values at the vertices. *)
Theorem C66_bernstein_hull : forall (Q : ofld) (ksqrt : Q -> Q) (tol : Q) n (vs : list (list Q)) k r p c y u lo hi j, simplex n vs -> spoly_of ksqrt tol Bernstein vs k r p -> affine_comb n c vs y -> (forall t, In t c -> kle k0 t) -> sp_call p (pt y) = Ok u -> j < k ->
  (forall a, In a (nth j (sp_cols p) []) -> kle lo a /\ kle a hi) -> kle lo (nth j u k0) /\ kle (nth j u k0) hi.
Proof. intros Q ksqrt tol n vs k r p c y u lo hi j H. destruct (to_unit_exists ksqrt tol n vs H) as (ab & phi & B & TU). exact (sc_hull _ _ _ _ _ _ _ TU k r p c y u lo hi j). Qed.
Print Assumptions C66_bernstein_hull.
Theorem C66_bernstein_vertices : forall (Q : ofld) (ksqrt : Q -> Q) (tol : Q) n (vs : list (list Q)) k r p i, simplex n vs -> spoly_of ksqrt tol Bernstein vs k r p -> i <= n ->
  exists j, get_index (match i with O => repeat 0 n | S l => upd (repeat 0 n) l r end) r = Ok j /\ sp_call p (pt (nth i vs [])) = Ok (map (fun c => nth j c k0) (sp_cols p)).
Proof. intros Q ksqrt tol n vs k r p i H. destruct (to_unit_exists ksqrt tol n vs H) as (ab & phi & B & TU). exact (sc_vertices _ _ _ _ _ _ _ TU k r p i). Qed.
Print Assumptions C66_bernstein_vertices.
(** Nodal values of Lagrange polynomials; the nodes have the barycentric
    coordinates of the nodes of the unit simplex. *)
Theorem C66_lagrange_nodal : forall (Q : ofld) (ksqrt : Q -> Q) (tol : Q) n (vs : list (list Q)) r, simplex n vs ->
  exists pts upts, generate_lagrange_points_simplex vs r = Ok pts /\ generate_lagrange_points n r = Ok upts /\ length pts = length upts /\
    (forall i x, nth_error upts i = Some x -> exists y, nth_error pts i = Some (pt y) /\ affine_comb n (bary_of x) vs y) /\
    (forall k p i x, spoly_of ksqrt tol Lagrange vs k r p -> nth_error pts i = Some x -> sp_call p x = Ok (map (fun c => nth i c k0) (sp_cols p))).
Proof.
  intros Q ksqrt tol n vs r H. destruct (to_unit_exists ksqrt tol n vs H) as (ab & phi & B & TU). eexists. eexists. split; [exact (spoints _ _ _ _ _ _ _ TU r)|]. split; [apply LagFacts.lagrange_points_eq|]. split; [rewrite !map_length; reflexivity|]. split.
  - intros i x Hi. rewrite nth_error_map in Hi. destruct (nth_error (MultiIndexFacts.all_mi n r) i) as [mu|] eqn:Em; [|discriminate]. injection Hi as <-. exists (point n vs (generate_lagrange_point n r mu)). split; [apply (map_nth_error (fun mu => pt (point n vs (generate_lagrange_point n r mu)))); exact Em|]. apply point_comb; [apply H|].
    apply LagFacts.lagrange_point_length. apply nth_error_In, MultiIndexFacts.in_all_mi in Em. apply Em.
  - intros k p i x Hp Hi. exact (sc_nodal _ _ _ _ _ _ _ TU k r p _ i x Hp (spoints _ _ _ _ _ _ _ TU r) Hi).
Qed.
Print Assumptions C66_lagrange_nodal.

(** Arithmetic *)
Theorem C66_add : forall (Q : ofld) (ksqrt : Q -> Q) (tol : Q) (veq : list (list Q) -> list (list Q) -> bool) n (vs : list (list Q)) b k r s p q, simplex n vs -> (forall w, veq w w = true) -> spoly_of ksqrt tol b vs k r p -> spoly_of ksqrt tol b vs k s q ->
  exists t, sp_add ksqrt tol veq p q = Ok t /\ spoly_of ksqrt tol b vs k (Nat.max r s) t /\
    forall y, length y = n -> exists u v w, sp_call p (pt y) = Ok u /\ sp_call q (pt y) = Ok v /\ sp_call t (pt y) = Ok w /\
      length u = k /\ length v = k /\ length w = k /\ forall j, j < k -> nth j w k0 = kadd (nth j u k0) (nth j v k0).
Proof. intros Q ksqrt tol veq n vs b k r s p q H. destruct (to_unit_exists ksqrt tol n vs H) as (ab & phi & B & TU). exact (sc_add _ _ veq _ _ _ _ _ TU b k r s p q). Qed.
Print Assumptions C66_add.
Theorem C66_sub : forall (Q : ofld) (ksqrt : Q -> Q) (tol : Q) (veq : list (list Q) -> list (list Q) -> bool) n (vs : list (list Q)) b k r s p q, simplex n vs -> (forall w, veq w w = true) -> spoly_of ksqrt tol b vs k r p -> spoly_of ksqrt tol b vs k s q ->
  exists t, sp_sub ksqrt tol veq p q = Ok t /\ spoly_of ksqrt tol b vs k (Nat.max r s) t /\
    forall y, length y = n -> exists u v w, sp_call p (pt y) = Ok u /\ sp_call q (pt y) = Ok v /\ sp_call t (pt y) = Ok w /\
      length u = k /\ length v = k /\ length w = k /\ forall j, j < k -> nth j w k0 = ksub (nth j u k0) (nth j v k0).
Proof. intros Q ksqrt tol veq n vs b k r s p q H. destruct (to_unit_exists ksqrt tol n vs H) as (ab & phi & B & TU). exact (sc_sub _ _ veq _ _ _ _ _ TU b k r s p q). Qed.
Print Assumptions C66_sub.
Theorem C66_scale : forall (Q : ofld) (ksqrt : Q -> Q) (tol : Q) n (vs : list (list Q)) b k r p c, simplex n vs -> spoly_of ksqrt tol b vs k r p ->
  exists t, sp_scale ksqrt tol p c = Ok t /\ spoly_of ksqrt tol b vs k r t /\
    forall y, length y = n -> exists u, sp_call p (pt y) = Ok u /\ length u = k /\ sp_call t (pt y) = Ok (map (fun v => kmul v c) u).
Proof. intros Q ksqrt tol n vs b k r p c H. destruct (to_unit_exists ksqrt tol n vs H) as (ab & phi & B & TU). exact (sc_scale _ _ _ _ _ _ _ TU b k r p c). Qed.
Print Assumptions C66_scale.
Theorem C66_truediv : forall (Q : ofld) (ksqrt : Q -> Q) (tol : Q) n (vs : list (list Q)) b k r p c, simplex n vs -> c <> k0 -> spoly_of ksqrt tol b vs k r p ->
  exists t, sp_truediv ksqrt tol p c = Ok t /\ spoly_of ksqrt tol b vs k r t /\
    forall y, length y = n -> exists u, sp_call p (pt y) = Ok u /\ length u = k /\ sp_call t (pt y) = Ok (map (fun v => kdiv v c) u).
Proof. intros Q ksqrt tol n vs b k r p c H. destruct (to_unit_exists ksqrt tol n vs H) as (ab & phi & B & TU). exact (sc_truediv _ _ _ _ _ _ _ TU b k r p c). Qed.
Print Assumptions C66_truediv.
Theorem C66_vector_scale : forall (Q : ofld) (ksqrt : Q -> Q) (tol : Q) n (vs : list (list Q)) b r p c, simplex n vs -> spoly_of ksqrt tol b vs 1 r p -> c <> [] ->
  exists t, sp_outer ksqrt tol p c = Ok t /\ spoly_of ksqrt tol b vs (length c) r t /\
    forall y, length y = n -> exists u, sp_call p (pt y) = Ok [u] /\ sp_call t (pt y) = Ok (map (fun v => kmul u v) c).
Proof. intros Q ksqrt tol n vs b r p c H. destruct (to_unit_exists ksqrt tol n vs H) as (ab & phi & B & TU). exact (sc_outer _ _ _ _ _ _ _ TU b r p c). Qed.
Print Assumptions C66_vector_scale.
Theorem C66_getitem : forall (Q : ofld) (ksqrt : Q -> Q) (tol : Q) n (vs : list (list Q)) b k r p i, simplex n vs -> spoly_of ksqrt tol b vs k r p -> i < k ->
  exists t, sp_getitem ksqrt tol p i = Ok t /\ spoly_of ksqrt tol b vs 1 r t /\
    forall y, length y = n -> exists u, sp_call p (pt y) = Ok u /\ length u = k /\ sp_call t (pt y) = Ok [nth i u k0].
Proof. intros Q ksqrt tol n vs b k r p i H. destruct (to_unit_exists ksqrt tol n vs H) as (ab & phi & B & TU). exact (sc_getitem _ _ _ _ _ _ _ TU b k r p i). Qed.
Print Assumptions C66_getitem.
Theorem C66_degree_elevate : forall (Q : ofld) (ksqrt : Q -> Q) (tol : Q) n (vs : list (list Q)) b k r s p, simplex n vs -> spoly_of ksqrt tol b vs k r p -> r <= s < 20 ->
  exists t, sp_degree_elevate ksqrt tol p s = Ok t /\ spoly_of ksqrt tol b vs k s t /\ forall y, length y = n -> exists u, sp_call p (pt y) = Ok u /\ sp_call t (pt y) = Ok u.
Proof. intros Q ksqrt tol n vs b k r s p H. destruct (to_unit_exists ksqrt tol n vs H) as (ab & phi & B & TU). exact (sc_elevate _ _ _ _ _ _ _ TU b k r s p). Qed.
Print Assumptions C66_degree_elevate.
(** The second factor of a Lagrange polynomial may live on another simplex. *)
Theorem C66_mul : forall (Q : ofld) (ksqrt : Q -> Q) (tol : Q) (veq : list (list Q) -> list (list Q) -> bool) n (vs vs2 : list (list Q)) b b2 r s p q, simplex n vs -> simplex n vs2 -> (forall w, veq w w = true) ->
  spoly_of ksqrt tol b vs 1 r p -> spoly_of ksqrt tol b2 vs2 1 s q -> (b <> Lagrange -> b2 = b /\ vs2 = vs) -> r + s < 20 ->
  exists t, sp_mul ksqrt tol veq p q = Ok t /\ spoly_of ksqrt tol b vs 1 (r + s) t /\
    forall y, length y = n -> exists u v, sp_call p (pt y) = Ok [u] /\ sp_call q (pt y) = Ok [v] /\ sp_call t (pt y) = Ok [kmul u v].
Proof. intros Q ksqrt tol veq n vs vs2 b b2 r s p q H H2 Hv. destruct (to_unit_exists ksqrt tol n vs H) as (ab & phi & B & TU). exact (sc_mul _ _ veq _ _ _ _ _ TU b b2 vs2 r s p q Hv H2). Qed.
Print Assumptions C66_mul.
(** The power of exponent zero of a Lagrange polynomial has degree one. *)
Theorem C66_pow : forall (Q : ofld) (ksqrt : Q -> Q) (tol : Q) (veq : list (list Q) -> list (list Q) -> bool) n (vs : list (list Q)) b r p e, simplex n vs -> spoly_of ksqrt tol b vs 1 r p -> r * e < 20 ->
  exists t, sp_pow ksqrt tol veq p e = Ok t /\ spoly_of ksqrt tol b vs 1 (if basis_eqb b Lagrange && (e =? 0) then 1 else r * e) t /\
    forall y, length y = n -> exists u, sp_call p (pt y) = Ok [u] /\ sp_call t (pt y) = Ok [kpow u e].
Proof. intros Q ksqrt tol veq n vs b r p e H. destruct (to_unit_exists ksqrt tol n vs H) as (ab & phi & B & TU). exact (sc_pow _ _ veq _ _ _ _ _ TU b r p e). Qed.
Print Assumptions C66_pow.
Theorem C66_pow_multi_index : forall (Q : ofld) (ksqrt : Q -> Q) (tol : Q) n (vs : list (list Q)) b k r p e, simplex n vs -> spoly_of ksqrt tol b vs k r p -> length e = k -> k <> 1 -> r * list_sum e < 20 ->
  exists t, sp_pow_mi ksqrt tol p e = Ok t /\ spoly_of ksqrt tol b vs 1 (r * list_sum e) t /\
    forall y, length y = n -> exists u, sp_call p (pt y) = Ok u /\ length u = k /\ sp_call t (pt y) = Ok [mpow u e].
Proof. intros Q ksqrt tol n vs b k r p e H. destruct (to_unit_exists ksqrt tol n vs H) as (ab & phi & B & TU). exact (sc_pow_mi _ _ _ _ _ _ _ TU b k r p e). Qed.
Print Assumptions C66_pow_multi_index.
Theorem C66_zero_unit : forall (Q : ofld) (ksqrt : Q -> Q) (tol : Q) n (vs : list (list Q)) b r k, simplex n vs -> b <> Monomial -> k <> 0 -> r < 20 ->
  (exists p, sp_zero ksqrt tol b vs r k = Ok p /\ spoly_of ksqrt tol b vs k r p /\ forall y, length y = n -> sp_call p (pt y) = Ok (repeat k0 k)) /\
  (exists p, sp_unit ksqrt tol b vs r k = Ok p /\ spoly_of ksqrt tol b vs k r p /\ forall y, length y = n -> sp_call p (pt y) = Ok (repeat k1 k)).
Proof. intros Q ksqrt tol n vs b r k H Hb Hk Hr. destruct (to_unit_exists ksqrt tol n vs H) as (ab & phi & B & TU). split; [exact (sc_zero _ _ _ _ _ _ _ TU b r k Hb Hk Hr)|exact (sc_unit _ _ _ _ _ _ _ TU b r k Hb Hk Hr)]. Qed.
Print Assumptions C66_zero_unit.

(** Derivatives with respect to the Cartesian coordinates *)
Theorem C66_partial_derivative : forall (Q : ofld) (ksqrt : Q -> Q) (tol : Q) (veq : list (list Q) -> list (list Q) -> bool) n (vs : list (list Q)) b k r p i, simplex n vs -> (forall w, veq w w = true) -> spoly_of ksqrt tol b vs k r p -> i < n ->
  exists q, sp_partial_derivative ksqrt tol veq p i = Ok q /\ spoly_of ksqrt tol b vs k (r - 1) q /\
    forall y j, length y = n -> j < k -> exists g, polyfun g /\ forall h,
      scomponent p j (upd y i (kadd (nth i y k0) h)) = kadd (kadd (scomponent p j y) (kmul h (scomponent q j y))) (kmul (kmul h h) (g h)).
Proof.
  intros Q ksqrt tol veq n vs b k r p i H Hv Hp Hi. destruct (to_unit_exists ksqrt tol n vs H) as (ab & phi & B & TU). exact (sc_pderiv_h _ _ veq _ _ _ _ _ TU b k r p i Hv Hp Hi).
Qed.
Print Assumptions C66_partial_derivative.
Theorem C66_partial_derivative_real : forall (ksqrt : R -> R) (tol : R) (veq : list (list R) -> list (list R) -> bool) n (vs : list (list RO)) b k r p i, simplex n vs -> (forall w, veq w w = true) -> spoly_of (Q := RO) ksqrt tol b vs k r p -> i < n ->
  exists q, sp_partial_derivative (Q := RO) ksqrt tol veq p i = Ok q /\ spoly_of (Q := RO) ksqrt tol b vs k (r - 1) q /\
    forall y j, length y = n -> j < k -> derivable_pt_lim (fun t => scomponent (Q := RO) p j (upd y i t)) (nth i y 0%R) (scomponent (Q := RO) q j y).
Proof.
  intros ksqrt tol veq n vs b k r p i H Hv Hp Hi. destruct (to_unit_exists (Q := RO) ksqrt tol n vs H) as (ab & phi & B & TU). destruct (sc_pderiv (Q := RO) _ _ veq _ _ _ _ _ TU b k r p i Hv Hp Hi) as (q & Eq & Hq & HD). exists q. split; [exact Eq|]. split; [exact Hq|]. intros y j Ly Hj. exact (pderiv_real (scomponent (Q := RO) p j) i y _ (HD y j Ly Hj)).
Qed.
Print Assumptions C66_partial_derivative_real.
(** Derivatives of higher order: the order of differentiation does not matter. *)
Theorem C66_derivative : forall (Q : ofld) (ksqrt : Q -> Q) (tol : Q) (veq : list (list Q) -> list (list Q) -> bool) n (vs : list (list Q)) b k r p alpha l, simplex n vs -> (forall w, veq w w = true) -> spoly_of ksqrt tol b vs k r p ->
  length alpha = n -> (forall i, In i l -> i < n) -> (forall j, count_occ Nat.eq_dec l j = nth j alpha 0) ->
  exists q q', sp_derivative ksqrt tol veq p alpha = Ok q /\ foldM (sp_partial_derivative ksqrt tol veq) p l = Ok q' /\ spoly_of ksqrt tol b vs k (r - list_sum alpha) q /\ spoly_of ksqrt tol b vs k (r - list_sum alpha) q' /\
    forall y, length y = n -> exists v, sp_call q (pt y) = Ok v /\ sp_call q' (pt y) = Ok v.
Proof. intros Q ksqrt tol veq n vs b k r p alpha l H. destruct (to_unit_exists ksqrt tol n vs H) as (ab & phi & B & TU). exact (sc_derivative _ _ veq _ _ _ _ _ TU b k r p alpha l). Qed.
Print Assumptions C66_derivative.
(** The monomial form has the same values. *)
Theorem C66_to_monomial : forall (Q : ofld) (ksqrt : Q -> Q) (tol : Q) (veq : list (list Q) -> list (list Q) -> bool) n (vs : list (list Q)) b k r p, simplex n vs -> (forall w, veq w w = true) -> spoly_of ksqrt tol b vs k r p ->
  exists q, sp_to_monomial ksqrt tol veq p = Ok q /\ poly_of Monomial n k r q /\ forall y, length y = n -> exists v, sp_call p (pt y) = Ok v /\ call q y = Ok v.
Proof. intros Q ksqrt tol veq n vs b k r p H. destruct (to_unit_exists ksqrt tol n vs H) as (ab & phi & B & TU). exact (sc_to_monomial _ _ veq _ _ _ _ _ TU b k r p). Qed.
Print Assumptions C66_to_monomial.

(** Bases *)
Theorem C66_basis_fn : forall (Q : ofld) (ksqrt : Q -> Q) (tol : Q) n (vs : list (list Q)) b nu r, simplex n vs -> b <> Monomial -> length nu = n -> list_sum nu <= r < 20 ->
  exists p u, sp_basis_fn ksqrt tol b nu r vs = Ok p /\ spoly_of ksqrt tol b vs 1 r p /\ basis_fn b nu r = Ok u /\
    forall x y, affine_comb n (bary_of x) vs y -> sp_call p (pt y) = call u x.
Proof. intros Q ksqrt tol n vs b nu r H. destruct (to_unit_exists ksqrt tol n vs H) as (ab & phi & B & TU). exact (sc_basis_fn _ _ _ _ _ _ _ TU b nu r). Qed.
Print Assumptions C66_basis_fn.
Theorem C66_basis : forall (Q : ofld) (ksqrt : Q -> Q) (tol : Q) n (vs : list (list Q)) b r mis, simplex n vs -> b <> Monomial -> r < 20 -> generate_all n r = Ok mis ->
  exists ps, sp_basis_all ksqrt tol b r vs = Ok ps /\ length ps = length mis /\ forall j nu, nth_error mis j = Some nu -> exists p, nth_error ps j = Some p /\ sp_basis_fn ksqrt tol b nu r vs = Ok p.
Proof. intros Q ksqrt tol n vs b r mis H. destruct (to_unit_exists ksqrt tol n vs H) as (ab & phi & B & TU). exact (sc_basis_all _ _ _ _ _ _ _ TU b r mis). Qed.
Print Assumptions C66_basis.
Theorem C66_dual_lagrange : forall (Q : ofld) (ksqrt : Q -> Q) (tol : Q) n (vs : list (list Q)) nu mu r p, simplex n vs -> length nu = n -> length mu = n -> list_sum nu <= r -> list_sum mu <= r -> sp_basis_fn ksqrt tol Lagrange nu r vs = Ok p ->
  dual_lagrange_basis_fn_simplex mu r vs p = Ok [if mi_dec mu nu then k1 else k0].
Proof. intros Q ksqrt tol n vs nu mu r p H. destruct (to_unit_exists ksqrt tol n vs H) as (ab & phi & B & TU). exact (sc_dual_lagrange _ _ _ _ _ _ _ TU nu mu r p). Qed.
Print Assumptions C66_dual_lagrange.
Theorem C66_vector_basis_fn : forall (Q : ofld) (ksqrt : Q -> Q) (tol : Q) n (vs : list (list Q)) b nu r i k, simplex n vs -> b <> Monomial -> length nu = n -> list_sum nu <= r < 20 -> i < k ->
  exists p q, sp_basis_fn ksqrt tol b nu r vs = Ok p /\ sp_vector_basis_fn ksqrt tol b nu r i vs k = Ok q /\ spoly_of ksqrt tol b vs k r q /\
    forall y, length y = n -> exists v, sp_call p (pt y) = Ok [v] /\ sp_call q (pt y) = Ok (upd (repeat k0 k) i v).
Proof. intros Q ksqrt tol n vs b nu r i k H. destruct (to_unit_exists ksqrt tol n vs H) as (ab & phi & B & TU). exact (sc_vector_basis_fn _ _ _ _ _ _ _ TU b nu r i k). Qed.
Print Assumptions C66_vector_basis_fn.
Theorem C66_vector_basis : forall (Q : ofld) (ksqrt : Q -> Q) (tol : Q) n (vs : list (list Q)) b r k il mis, simplex n vs -> b <> Monomial -> r < 20 -> generate_all n r = Ok mis ->
  exists ps, sp_vector_basis ksqrt tol b r vs k il = Ok ps /\ length ps = k * length mis /\
    forall i j nu, i < k -> nth_error mis j = Some nu -> exists q, nth_error ps (if il then j * k + i else i * length mis + j) = Some q /\ sp_vector_basis_fn ksqrt tol b nu r i vs k = Ok q.
Proof. intros Q ksqrt tol n vs b r k il mis H. destruct (to_unit_exists ksqrt tol n vs H) as (ab & phi & B & TU). exact (sc_vector_basis _ _ _ _ _ _ _ TU b r k il mis). Qed.
Print Assumptions C66_vector_basis.

(** ** Examples and findings *)
(** A square root that is exact on the squares of rational numbers. *)
Definition qsqrt (x : QcF) : QcF := let q := this (x : Qc) in rat (Z.sqrt (Qnum q)) (Z.to_pos (Z.sqrt (Zpos (Qden q)))).
Definition veq_all : list (list QcF) -> list (list QcF) -> bool := fun v w => forallb (fun ab => Qeq_bool (fst ab) (snd ab)) (combine (map (fun v : Qc => this v) (concat v)) (map (fun v : Qc => this v) (concat w))) && (length v =? length w)%nat.
Definition stri : list (list QcF) := [[rat 0 1; rat 1 1]; [rat 2 1; rat 0 1]; [rat 1 1; rat 3 1]].
Lemma stri_simplex : simplex (Q := QcO) 2 stri.
Proof.
  split; [discriminate|]. split; [split; [reflexivity|]; intros r [<-|[<-|[<-|[]]]]; reflexivity|].
  apply (affine_independent_det 2); [discriminate|reflexivity|intros E; apply (f_equal (fun v : Qc => this v)) in E; vm_compute in E; discriminate E].
Qed.
Definition sp_q (p : result (spoly QcO)) (y : list QcF) : list Q := match p with Ok p => qres (sp_call p (SimplexGeo.pt y)) | Err _ => [] end.
Definition ex_b := new_spoly (Q := QcO) qsqrt (rat 0 1) Bernstein [[rat 1 1; rat 2 1; rat 3 1; rat 0 1; rat 1 2; rat 5 1]] stri (Some 2).
Definition ex_l := new_spoly (Q := QcO) qsqrt (rat 0 1) Lagrange [[rat 1 1; rat 2 1; rat 3 1]] stri (Some 1).
Example C66_ex : sp_q ex_b [rat 2 1; rat 0 1] = [(3#1)%Q] /\ sp_q ex_b [rat 1 1; rat 1 1] = sp_q (let* p := ex_b in sp_degree_elevate (Q := QcO) qsqrt (rat 0 1) p 4) [rat 1 1; rat 1 1] /\
  sp_q ex_l [rat 1 1; rat 3 1] = [(3#1)%Q] /\
  sp_q (let* p := ex_b in sp_partial_derivative (Q := QcO) qsqrt (rat 0 1) veq_all p 1) [rat 1 1; rat 1 1] <> [] /\
  (exists p, ex_b = Ok p /\ spoly_of (Q := QcO) qsqrt (rat 0 1) Bernstein stri 1 2 p) /\ simplex (Q := QcO) 2 stri.
Proof.
  split; [vm_compute; reflexivity|]. split; [vm_compute; reflexivity|]. split; [vm_compute; reflexivity|]. split; [vm_compute; discriminate|]. split; [|exact stri_simplex].
  destruct (C66_constructor QcO qsqrt (rat 0 1) 2 stri Bernstein [[rat 1 1; rat 2 1; rat 3 1; rat 0 1; rat 1 2; rat 5 1]] 2 stri_simplex) as (p & E & H & _); [discriminate|discriminate|intros c [<-|[]]; reflexivity|lia|]. exists p. split; [exact E|exact H].
Qed.
(** The power of exponent zero of a Lagrange polynomial of degree two has a
    degree larger than the product of degree and exponent. *)
Theorem C66_pow_zero_refuted : exists (vs : list (list QcF)) p t, simplex (Q := QcO) 2 vs /\ spoly_of (Q := QcO) qsqrt (rat 0 1) Lagrange vs 1 2 p /\ sp_pow (Q := QcO) qsqrt (rat 0 1) veq_all p 0 = Ok t /\ sp_r t <> sp_r p * 0.
Proof.
  destruct (C66_constructor QcO qsqrt (rat 0 1) 2 stri Lagrange [repeat (rat 1 1) 6] 2 stri_simplex) as (p & E & H & _); [discriminate|discriminate|intros c [<-|[]]; reflexivity|lia|].
  destruct (C66_pow QcO qsqrt (rat 0 1) veq_all 2 stri Lagrange 2 p 0 stri_simplex H ltac:(lia)) as (t & Et & Ht & _). exists stri, p, t. split; [exact stri_simplex|]. split; [exact H|]. split; [exact Et|]. destruct Ht as (_ & _ & _ & Hr). cbn [basis_eqb andb Nat.eqb] in Hr. rewrite Hr, Nat.mul_0_r. discriminate.
Qed.
Print Assumptions C66_pow_zero_refuted.
(** A simplex of lower dimension than its space: polynomials can be created but
    not evaluated at the points of the simplex. *)
Theorem C66_embedded_refuted : exists (vs : list (list QcF)) cols p, vs = [[rat 0 1; rat 0 1]; [rat 3 1; rat 4 1]] /\ new_spoly (Q := QcO) qsqrt (rat 0 1) Bernstein cols vs (Some 1) = Ok p /\
  sp_call p (Vec [rat 3 1; rat 4 1]) = Err IndexError /\ new_spoly (Q := QcO) qsqrt (rat 0 1) Bernstein [[rat 1 1; rat 2 1]] vs (Some 1) = Err AssertionError.
Proof.
  exists [[rat 0 1; rat 0 1]; [rat 3 1; rat 4 1]], [[rat 1 1; rat 2 1; rat 3 1]]. destruct (new_spoly (Q := QcO) qsqrt (rat 0 1) Bernstein [[rat 1 1; rat 2 1; rat 3 1]] [[rat 0 1; rat 0 1]; [rat 3 1; rat 4 1]] (Some 1)) as [p|e] eqn:E.
  - exists p. split; [reflexivity|]. split; [reflexivity|]. split; [|vm_compute; reflexivity]. assert (G : (let* p := new_spoly (Q := QcO) qsqrt (rat 0 1) Bernstein [[rat 1 1; rat 2 1; rat 3 1]] [[rat 0 1; rat 0 1]; [rat 3 1; rat 4 1]] (Some 1) in sp_call p (Vec [rat 3 1; rat 4 1])) = Err IndexError) by (vm_compute; reflexivity). rewrite E in G. exact G.
  - exfalso. assert (G : match new_spoly (Q := QcO) qsqrt (rat 0 1) Bernstein [[rat 1 1; rat 2 1; rat 3 1]] [[rat 0 1; rat 0 1]; [rat 3 1; rat 4 1]] (Some 1) with Ok _ => true | Err _ => false end = true) by (vm_compute; reflexivity). rewrite E in G. discriminate.
Qed.
Print Assumptions C66_embedded_refuted.
