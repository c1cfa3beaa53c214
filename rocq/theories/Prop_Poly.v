(** Property theorems for polynomials on the unit simplex
    (C39-C46, C48 and C55 of properties.jsonl). *)
From Coq Require Import Reals Qcanon.
From Verif Require Import Base MultiIndex MultiIndexFacts MultiCapFacts MultiIndexCache Fld FldInst CodeGen CodeGenFacts LinSolve MultiCoef MultiCoefFacts LagrangeCache Unisolv Poly PolyFacts LagFacts PolyEval PolyOps PolyOpsB PolyDeriv PolyObj PolyPow PolyCalls.
From Coq Require Import QArith.
Local Open Scope fld_scope.
(** Rational numbers for the examples. *)
Definition rat (a : Z) (b : positive) : QcF := Q2Qc (Qmake a b).
Definition qlist (l : list QcF) : list Q := map (fun v : Qc => this v) l.

(** [poly_of b m n r p] (PolyCalls.v): [p] is an object made by the constructor
    of the class for basis [b], with domain dimension [m], target dimension
    [n] and degree [r].  All theorems hold for every field of characteristic
    zero; those about derivatives of real analysis for the real numbers. *)

(** ** C55: the generated code evaluates the polynomial *)
Theorem C55_constructor_total : forall (F : fld) b (cols : list (list F)) r m,
  cols <> [] -> (forall c, In c cols -> length c = get_dimension r m) -> ((0 < m)%nat -> (r < 20)%nat) ->
  exists p, new_poly b cols (Some r) m = Ok p /\ poly_of b m (length cols) r p /\ p_cols p = cols.
Proof. exact @constructor_total. Qed.
Print Assumptions C55_constructor_total.

(** The sum over all multi-indices in the order of the coefficients. *)
Theorem C55_monomial_evaluation : forall (F : fld) m n r (p : poly F) x mis,
  poly_of Monomial m n r p -> length x = m -> generate_all m r = Ok mis ->
  call p x = Ok (map (fun c => ksum (combine c mis) (fun ca => fst ca * mpow x (snd ca))) (p_cols p)).
Proof. exact @monomial_evaluation. Qed.
Print Assumptions C55_monomial_evaluation.

Theorem C55_bernstein_evaluation : forall (F : fld) m n r (p : poly F) x mis,
  poly_of Bernstein m n r p -> length x = m -> generate_all m r = Ok mis ->
  call p x = Ok (map (fun c => ksum (combine c mis) (fun ca => fst ca *
    (kofnat (fact r) / (kofnat (fold_right Nat.mul 1%nat (map fact (snd ca))) * kofnat (fact (r - list_sum (snd ca)))) *
     (mpow x (snd ca) * kpow (1 - ksum x (fun v => v)) (r - list_sum (snd ca)))))) (p_cols p)).
Proof. exact @bernstein_evaluation. Qed.
Print Assumptions C55_bernstein_evaluation.

(** Degrees of 20 and more are rejected, whatever the coefficients. *)
Theorem C55_degree_limit_refuted : exists r m, forall (F : fld) b (c : list F),
  length c = get_dimension r m -> new_poly b [c] (Some r) m = Err AssertionError.
Proof. exists 20%nat, 1%nat. exact @constructor_limit. Qed.
Print Assumptions C55_degree_limit_refuted.

Example C55_example :
  match new_poly (F := QcF) Bernstein [[rat 1 1; rat (-3) 1; rat (1) 2]; [rat 0 1; rat 2 1; rat 5 1]] (Some 2%nat) 1 with
  | Ok p => match call p [rat (1) 3] with Ok v => qlist v | Err _ => [] end
  | Err _ => [] end = [(-5#6)%Q; (13#9)%Q].
Proof. vm_compute. reflexivity. Qed.

(** ** C39: Monomial basis *)
Theorem C39_add : forall (F : fld) m n r s (p q : poly F), poly_of Monomial m n r p -> poly_of Monomial m n s q ->
  exists t, add p q = Ok t /\ poly_of Monomial m n (Nat.max r s) t /\
    forall x, length x = m -> exists u v w, call p x = Ok u /\ call q x = Ok v /\ call t x = Ok w /\
      length u = n /\ length v = n /\ length w = n /\ forall k, (k < n)%nat -> nth k w 0 = nth k u 0 + nth k v 0.
Proof. intros F. apply calls_add. Qed.
Print Assumptions C39_add.
Theorem C39_sub : forall (F : fld) m n r s (p q : poly F), poly_of Monomial m n r p -> poly_of Monomial m n s q ->
  exists t, sub p q = Ok t /\ poly_of Monomial m n (Nat.max r s) t /\
    forall x, length x = m -> exists u v w, call p x = Ok u /\ call q x = Ok v /\ call t x = Ok w /\
      length u = n /\ length v = n /\ length w = n /\ forall k, (k < n)%nat -> nth k w 0 = nth k u 0 - nth k v 0.
Proof. intros F. apply calls_sub. Qed.
Print Assumptions C39_sub.
Theorem C39_scale : forall (F : fld) m n r (p : poly F) c, poly_of Monomial m n r p ->
  exists t, scale p c = Ok t /\ poly_of Monomial m n r t /\
    forall x, length x = m -> exists u, call p x = Ok u /\ length u = n /\ call t x = Ok (map (fun v => v * c) u).
Proof. intros F. apply calls_scale. Qed.
Print Assumptions C39_scale.
(** Multiplication of a scalar valued polynomial with a vector. *)
Theorem C39_outer : forall (F : fld) m r (p : poly F) c, poly_of Monomial m 1 r p -> c <> [] ->
  exists t, outer p c = Ok t /\ poly_of Monomial m (length c) r t /\
    forall x, length x = m -> exists u, call p x = Ok [u] /\ call t x = Ok (map (fun v => u * v) c).
Proof. intros F. apply calls_outer. Qed.
Print Assumptions C39_outer.
Theorem C39_truediv : forall (F : fld) m n r (p : poly F) c, c <> 0 -> poly_of Monomial m n r p ->
  exists t, truediv p c = Ok t /\ poly_of Monomial m n r t /\
    forall x, length x = m -> exists u, call p x = Ok u /\ length u = n /\ call t x = Ok (map (fun v => v / c) u).
Proof. intros F. apply calls_truediv. Qed.
Print Assumptions C39_truediv.
Theorem C39_mul : forall (F : fld) m r s (p q : poly F), poly_of Monomial m 1 r p -> poly_of Monomial m 1 s q -> ((0 < m)%nat -> (r + s < 20)%nat) ->
  exists t, mul p q = Ok t /\ poly_of Monomial m 1 (r + s) t /\
    forall x, length x = m -> exists u v, call p x = Ok [u] /\ call q x = Ok [v] /\ call t x = Ok [u * v].
Proof. intros F. intros m r s p q Hp Hq Hd. apply (calls_mul Monomial Monomial m r s p q Hp Hq); [reflexivity|exact Hd]. Qed.
Print Assumptions C39_mul.
(** A product of degree 20 or more raises AssertionError (although both
    factors can be constructed). *)
Theorem C39_mul_degree_limit_refuted : exists m r s, (r < 20)%nat /\ (s < 20)%nat /\
  forall (F : fld) (p q : poly F), poly_of Monomial m 1 r p -> poly_of Monomial m 1 s q -> mul p q = Err AssertionError.
Proof. exists 1%nat, 10%nat, 10%nat. split; [lia|]. split; [lia|]. intros F p q Hp Hq. apply (calls_mul_limit Monomial 1 10 10 p q Hp Hq); lia. Qed.
Print Assumptions C39_mul_degree_limit_refuted.
Theorem C39_pow : forall (F : fld) m r (p : poly F) e, poly_of Monomial m 1 r p -> ((0 < m)%nat -> (r * e < 20)%nat) ->
  exists t, pow p e = Ok t /\ poly_of Monomial m 1 (r * e) t /\
    forall x, length x = m -> exists u, call p x = Ok [u] /\ call t x = Ok [kpow u e].
Proof. intros F. apply calls_pow. Qed.
Print Assumptions C39_pow.
Theorem C39_pow_multiindex : forall (F : fld) m n r (p : poly F) e, poly_of Monomial m n r p -> length e = n -> ((0 < m)%nat -> (r * list_sum e < 20)%nat) ->
  exists t, pow_mi p e = Ok t /\ poly_of Monomial m 1 (r * list_sum e) t /\
    forall x, length x = m -> exists u w, call p x = Ok u /\ power u e = Ok w /\ call t x = Ok [w].
Proof. intros F m n r p e Hp He Hd. apply (calls_pow_mi _ m n); [exact Hp|exact He|congruence|exact Hd]. Qed.
Print Assumptions C39_pow_multiindex.

Example C39_example :
  let c1 := [rat 1 1; rat 2 1; rat (-1) 2] in let c2 := [rat 3 1; rat (-1) 1; rat 0 1; rat 2 1; rat 1 1; rat (1) 3] in
  match (let* p := new_poly (F := QcF) Monomial [c1] (Some 1%nat) 2 in let* q := new_poly (F := QcF) Monomial [c2] (Some 2%nat) 2 in
         let* t := mul p q in let* u := add t p in let x := [rat (1) 2; rat (1) 5] in
         let* a := call p x in let* b := call q x in let* c := call u x in Ok (a, b, c)) with
  | Ok (a, b, c) => qlist a = [(19 # 10)%Q] /\ qlist b = [(226 # 75)%Q] /\ qlist c = [(5719 # 750)%Q]
  | Err _ => False end.
Proof. vm_compute. repeat split. Qed.

(** ** C40 *)
Theorem C40_degree_elevate : forall (F : fld) m n r s (p : poly F), poly_of Monomial m n r p -> (r <= s)%nat -> ((0 < m)%nat -> (s < 20)%nat) ->
  exists t, degree_elevate p s = Ok t /\ poly_of Monomial m n s t /\ forall x, length x = m -> exists u, call p x = Ok u /\ call t x = Ok u.
Proof. intros F. apply calls_elevate. Qed.
Print Assumptions C40_degree_elevate.
(** The coefficient of every monomial of degree at most [r] is kept, the
    others are zero. *)
Theorem C40_degree_elevate_coefficients : forall (F : fld) m n r s (p : poly F) t, poly_of Monomial m n r p -> (r <= s)%nat -> degree_elevate p s = Ok t ->
  forall k nu i, (k < n)%nat -> length nu = m -> (list_sum nu <= s)%nat -> get_index nu s = Ok i ->
    if (list_sum nu <=? r)%nat then exists j, get_index nu r = Ok j /\ nth i (nth k (p_cols t) []) 0 = nth j (nth k (p_cols p) []) 0
    else nth i (nth k (p_cols t) []) 0 = 0.
Proof. exact @elevate_coefficients. Qed.
Print Assumptions C40_degree_elevate_coefficients.
(** [f(x + h e_i) = f(x) + h d + h^2 g(h)] with a polynomial [g]: the formal
    partial derivative, over every field. *)
Theorem C40_derivative : forall (F : fld) m n r (p : poly F) i, poly_of Monomial m n r p -> (i < m)%nat ->
  exists q, partial_derivative p i = Ok q /\ poly_of Monomial m n (r - 1) q /\
    forall x k, length x = m -> (k < n)%nat -> exists g, polyfun g /\ forall h,
      component p k (upd x i (nth i x 0 + h)) = component p k x + h * component q k x + h * h * g h.
Proof. intros F. apply calls_derivative. Qed.
Print Assumptions C40_derivative.
(** The partial derivative of real analysis. *)
Theorem C40_derivative_real : forall m n r (p : poly RF) i, poly_of Monomial m n r p -> (i < m)%nat ->
  exists q, partial_derivative p i = Ok q /\ poly_of Monomial m n (r - 1) q /\
    forall x k, length x = m -> (k < n)%nat -> derivable_pt_lim (fun t => component p k (upd x i t)) (nth i x 0%R) (component q k x).
Proof. apply calls_derivative_real. Qed.
Print Assumptions C40_derivative_real.
Example C40_example :
  match (let* p := new_poly (F := QcF) Monomial [[rat 3 1; rat (-1) 1; rat 0 1; rat 2 1; rat 7 1; rat (1) 3]] (Some 2%nat) 2 in
         let* d := partial_derivative p 1 in let* e := degree_elevate d 2 in Ok (p_cols d, p_cols e)) with
  | Ok (a, b) => map qlist a = [[2%Q; 7%Q; (2#3)%Q]] /\ map qlist b = [[2%Q; 7%Q; 0%Q; (2#3)%Q; 0%Q; 0%Q]]
  | Err _ => False end.
Proof. vm_compute. split; reflexivity. Qed.

(** ** C41: Bernstein basis *)
Theorem C41_add : forall (F : fld) m n r s (p q : poly F), poly_of Bernstein m n r p -> poly_of Bernstein m n s q ->
  exists t, add p q = Ok t /\ poly_of Bernstein m n (Nat.max r s) t /\
    forall x, length x = m -> exists u v w, call p x = Ok u /\ call q x = Ok v /\ call t x = Ok w /\
      length u = n /\ length v = n /\ length w = n /\ forall k, (k < n)%nat -> nth k w 0 = nth k u 0 + nth k v 0.
Proof. intros F. apply calls_add. Qed.
Print Assumptions C41_add.
Theorem C41_sub : forall (F : fld) m n r s (p q : poly F), poly_of Bernstein m n r p -> poly_of Bernstein m n s q ->
  exists t, sub p q = Ok t /\ poly_of Bernstein m n (Nat.max r s) t /\
    forall x, length x = m -> exists u v w, call p x = Ok u /\ call q x = Ok v /\ call t x = Ok w /\
      length u = n /\ length v = n /\ length w = n /\ forall k, (k < n)%nat -> nth k w 0 = nth k u 0 - nth k v 0.
Proof. intros F. apply calls_sub. Qed.
Print Assumptions C41_sub.
Theorem C41_scale : forall (F : fld) m n r (p : poly F) c, poly_of Bernstein m n r p ->
  exists t, scale p c = Ok t /\ poly_of Bernstein m n r t /\
    forall x, length x = m -> exists u, call p x = Ok u /\ length u = n /\ call t x = Ok (map (fun v => v * c) u).
Proof. intros F. apply calls_scale. Qed.
Print Assumptions C41_scale.
(** Multiplication of a scalar valued polynomial with a vector. *)
Theorem C41_outer : forall (F : fld) m r (p : poly F) c, poly_of Bernstein m 1 r p -> c <> [] ->
  exists t, outer p c = Ok t /\ poly_of Bernstein m (length c) r t /\
    forall x, length x = m -> exists u, call p x = Ok [u] /\ call t x = Ok (map (fun v => u * v) c).
Proof. intros F. apply calls_outer. Qed.
Print Assumptions C41_outer.
Theorem C41_truediv : forall (F : fld) m n r (p : poly F) c, c <> 0 -> poly_of Bernstein m n r p ->
  exists t, truediv p c = Ok t /\ poly_of Bernstein m n r t /\
    forall x, length x = m -> exists u, call p x = Ok u /\ length u = n /\ call t x = Ok (map (fun v => v / c) u).
Proof. intros F. apply calls_truediv. Qed.
Print Assumptions C41_truediv.
Theorem C41_mul : forall (F : fld) m r s (p q : poly F), poly_of Bernstein m 1 r p -> poly_of Bernstein m 1 s q -> ((0 < m)%nat -> (r + s < 20)%nat) ->
  exists t, mul p q = Ok t /\ poly_of Bernstein m 1 (r + s) t /\
    forall x, length x = m -> exists u v, call p x = Ok [u] /\ call q x = Ok [v] /\ call t x = Ok [u * v].
Proof. intros F. intros m r s p q Hp Hq Hd. apply (calls_mul Bernstein Bernstein m r s p q Hp Hq); [reflexivity|exact Hd]. Qed.
Print Assumptions C41_mul.
(** A product of degree 20 or more raises AssertionError (although both
    factors can be constructed). *)
Theorem C41_mul_degree_limit_refuted : exists m r s, (r < 20)%nat /\ (s < 20)%nat /\
  forall (F : fld) (p q : poly F), poly_of Bernstein m 1 r p -> poly_of Bernstein m 1 s q -> mul p q = Err AssertionError.
Proof. exists 1%nat, 10%nat, 10%nat. split; [lia|]. split; [lia|]. intros F p q Hp Hq. apply (calls_mul_limit Bernstein 1 10 10 p q Hp Hq); lia. Qed.
Print Assumptions C41_mul_degree_limit_refuted.
Theorem C41_pow : forall (F : fld) m r (p : poly F) e, poly_of Bernstein m 1 r p -> ((0 < m)%nat -> (r * e < 20)%nat) ->
  exists t, pow p e = Ok t /\ poly_of Bernstein m 1 (r * e) t /\
    forall x, length x = m -> exists u, call p x = Ok [u] /\ call t x = Ok [kpow u e].
Proof. intros F. apply calls_pow. Qed.
Print Assumptions C41_pow.
Theorem C41_pow_multiindex : forall (F : fld) m n r (p : poly F) e, poly_of Bernstein m n r p -> length e = n -> n <> 1%nat -> ((0 < m)%nat -> (r * list_sum e < 20)%nat) ->
  exists t, pow_mi p e = Ok t /\ poly_of Bernstein m 1 (r * list_sum e) t /\
    forall x, length x = m -> exists u w, call p x = Ok u /\ power u e = Ok w /\ call t x = Ok [w].
Proof. intros F m n r p e Hp He Hn Hd. apply (calls_pow_mi _ m n); [exact Hp|exact He|intros _; exact Hn|exact Hd]. Qed.
Print Assumptions C41_pow_multiindex.
(** A scalar valued polynomial cannot be raised to a one-component multi-index. *)
Theorem C41_pow_multiindex_scalar_refuted : exists e, forall (F : fld) m r (p : poly F), poly_of Bernstein m 1 r p -> pow_mi p e = Err IndexError.
Proof. exists [1%nat]. intros F m r p (_ & Hb & _ & Hn & _). apply pow_mi_scalar_bernstein; [exact Hb|exact Hn|lia]. Qed.
Print Assumptions C41_pow_multiindex_scalar_refuted.

Theorem C41_unit_polynomial : forall (F : fld) r m n, n <> 0%nat -> ((0 < m)%nat -> (r < 20)%nat) ->
  exists p, unit_polynomial (F := F) Bernstein r m n = Ok p /\ poly_of Bernstein m n r p /\ forall x, length x = m -> call p x = Ok (repeat 1 n).
Proof. intros F. apply calls_unit. Qed.
Print Assumptions C41_unit_polynomial.
Example C41_example :
  let c1 := [rat 1 1; rat 2 1; rat (-1) 2] in let c2 := [rat 3 1; rat (-1) 1; rat 0 1; rat 2 1; rat 1 1; rat (1) 3] in
  match (let* p := new_poly (F := QcF) Bernstein [c1] (Some 1%nat) 2 in let* q := new_poly (F := QcF) Bernstein [c2] (Some 2%nat) 2 in
         let* t := mul p q in let* u := add t p in let x := [rat (1) 2; rat (1) 5] in
         let* a := call p x in let* b := call q x in let* c := call u x in Ok (a, b, c)) with
  | Ok (a, b, c) => qlist a = [(6 # 5)%Q] /\ qlist b = [(127 # 300)%Q] /\ qlist c = [(427 # 250)%Q]
  | Err _ => False end.
Proof. vm_compute. repeat split. Qed.

(** ** C42 *)
Theorem C42_degree_elevate : forall (F : fld) m n r s (p : poly F), poly_of Bernstein m n r p -> (r <= s)%nat -> ((0 < m)%nat -> (s < 20)%nat) ->
  exists t, degree_elevate p s = Ok t /\ poly_of Bernstein m n s t /\ forall x, length x = m -> exists u, call p x = Ok u /\ call t x = Ok u.
Proof. intros F. apply calls_elevate. Qed.
Print Assumptions C42_degree_elevate.
(** [f(x + h e_i) = f(x) + h d + h^2 g(h)] with a polynomial [g]: the formal
    partial derivative, over every field. *)
Theorem C42_derivative : forall (F : fld) m n r (p : poly F) i, poly_of Bernstein m n r p -> (i < m)%nat ->
  exists q, partial_derivative p i = Ok q /\ poly_of Bernstein m n (r - 1) q /\
    forall x k, length x = m -> (k < n)%nat -> exists g, polyfun g /\ forall h,
      component p k (upd x i (nth i x 0 + h)) = component p k x + h * component q k x + h * h * g h.
Proof. intros F. apply calls_derivative. Qed.
Print Assumptions C42_derivative.
(** The partial derivative of real analysis. *)
Theorem C42_derivative_real : forall m n r (p : poly RF) i, poly_of Bernstein m n r p -> (i < m)%nat ->
  exists q, partial_derivative p i = Ok q /\ poly_of Bernstein m n (r - 1) q /\
    forall x k, length x = m -> (k < n)%nat -> derivable_pt_lim (fun t => component p k (upd x i t)) (nth i x 0%R) (component q k x).
Proof. apply calls_derivative_real. Qed.
Print Assumptions C42_derivative_real.
Example C42_example :
  match (let* p := new_poly (F := QcF) Bernstein [[rat 3 1; rat (-1) 1; rat 0 1; rat 2 1; rat 7 1; rat (1) 3]] (Some 2%nat) 2 in
         let* d := partial_derivative p 1 in let* e := degree_elevate d 2 in Ok (p_cols d, p_cols e)) with
  | Ok (a, b) => map qlist a = [[(-2)%Q; 16%Q; (-10#3)%Q]] /\ map qlist b = [[(-2)%Q; 7%Q; 16%Q; (-8#3)%Q; (19#3)%Q; (-10#3)%Q]]
  | Err _ => False end.
Proof. vm_compute. split; reflexivity. Qed.

(** ** C43: convex combinations; [O] is an ordered field *)
Definition in_unit_simplex {O : ofld} (x : list O) : Prop := (forall v, In v x -> kle 0 v) /\ kle (ksum x (fun v => v)) 1.
Theorem C43_basis_nonnegative : forall (O : ofld) nu r (p : poly O) x v, basis_fn Bernstein nu r = Ok p -> (list_sum nu <= r)%nat ->
  length x = length nu -> in_unit_simplex x -> call p x = Ok [v] -> kle 0 v.
Proof. intros O nu r p x v H1 H2 H3 [H4 H5]. apply (bernstein_nonneg nu r p x v); assumption. Qed.
Print Assumptions C43_basis_nonnegative.
Theorem C43_partition_of_unity : forall (F : fld) m r mis (ps : list (poly F)) x vs, generate_all m r = Ok mis -> mapM (fun nu => basis_fn Bernstein nu r) mis = Ok ps ->
  length x = m -> mapM (fun p => call1 p x) ps = Ok vs -> ksum vs (fun v => v) = 1.
Proof. exact @bernstein_partition. Qed.
Print Assumptions C43_partition_of_unity.
Theorem C43_convex_hull : forall (O : ofld) m n r (p : poly O) x u lo hi k, poly_of Bernstein m n r p -> length x = m -> in_unit_simplex x -> call p x = Ok u -> (k < n)%nat ->
  (forall c, In c (nth k (p_cols p) []) -> kle lo c /\ kle c hi) -> kle lo (nth k u 0) /\ kle (nth k u 0) hi.
Proof. intros O m n r p x u lo hi k H1 H2 [H3 H4]. apply (bernstein_hull m n r p x u lo hi k); assumption. Qed.
Print Assumptions C43_convex_hull.
(** Vertex 0 is the origin, vertex [j + 1] the unit vector [j]; the
    coefficients there have the multi-indices 0 and [r e_j]. *)
Theorem C43_vertex_values : forall (F : fld) m n r (p : poly F), poly_of Bernstein m n r p ->
  (exists i, get_index (repeat 0%nat m) r = Ok i /\ call p (repeat 0 m) = Ok (map (fun c => nth i c 0) (p_cols p))) /\
  forall j, (j < m)%nat -> exists i, get_index (upd (repeat 0%nat m) j r) r = Ok i /\ call p (upd (repeat 0 m) j 1) = Ok (map (fun c => nth i c 0) (p_cols p)).
Proof. exact @bernstein_vertices. Qed.
Print Assumptions C43_vertex_values.
Example C43_example :
  match (let* p := new_poly (F := QcF) Bernstein [[rat 3 1; rat (-1) 1; rat 0 1; rat 2 1; rat 7 1; rat (1) 3]] (Some 2%nat) 2 in
         let* u := call p [rat (1) 2; rat (1) 4] in let* v := call p [rat 0 1; rat 1 1] in Ok (u, v)) with
  | Ok (a, b) => qlist a = [(47#24)%Q] /\ qlist b = [(1#3)%Q]
  | Err _ => False end.
Proof. vm_compute. split; reflexivity. Qed.

(** ** C44: Lagrange polynomials *)
Theorem C44_nodal_values : forall (F : fld) m n r (p : poly F) pts i x, poly_of Lagrange m n r p -> generate_lagrange_points m r = Ok pts -> nth_error pts i = Some x ->
  call p x = Ok (map (fun c => nth i c 0) (p_cols p)).
Proof. exact @lagrange_nodal. Qed.
Print Assumptions C44_nodal_values.
(** The points are [nu / r], in the order of [generate_all]. *)
Theorem C44_points : forall (F : fld) m r mis, r <> 0%nat -> generate_all m r = Ok mis ->
  generate_lagrange_points (F := F) m r = Ok (map (map (fun a => kofnat a / kofnat r)) mis).
Proof. exact @lagrange_points_explicit. Qed.
Print Assumptions C44_points.
(** Polynomials of degree at most [r], in any bases, that agree at the
    Lagrange points agree everywhere. *)
Theorem C44_unisolvence : forall (F : fld) b b' m n r s t (p q : poly F) pts, poly_of b m n s p -> poly_of b' m n t q -> (s <= r)%nat -> (t <= r)%nat ->
  generate_lagrange_points m r = Ok pts -> (forall x, In x pts -> call p x = call q x) -> forall x, length x = m -> call p x = call q x.
Proof. exact @lagrange_unisolvent. Qed.
Print Assumptions C44_unisolvence.
Example C44_example :
  match (let* p := new_poly (F := QcF) Lagrange [[rat 3 1; rat (-1) 1; rat 0 1; rat 2 1; rat 7 1; rat (1) 3]] (Some 2%nat) 2 in
         let* u := call p [rat (1) 2; rat (1) 2] in Ok u) with
  | Ok a => qlist a = [7%Q]
  | Err _ => False end.
Proof. vm_compute. reflexivity. Qed.

(** ** C45: Lagrange basis *)
Theorem C45_add : forall (F : fld) m n r s (p q : poly F), poly_of Lagrange m n r p -> poly_of Lagrange m n s q ->
  exists t, add p q = Ok t /\ poly_of Lagrange m n (Nat.max r s) t /\
    forall x, length x = m -> exists u v w, call p x = Ok u /\ call q x = Ok v /\ call t x = Ok w /\
      length u = n /\ length v = n /\ length w = n /\ forall k, (k < n)%nat -> nth k w 0 = nth k u 0 + nth k v 0.
Proof. intros F. apply calls_add. Qed.
Print Assumptions C45_add.
Theorem C45_sub : forall (F : fld) m n r s (p q : poly F), poly_of Lagrange m n r p -> poly_of Lagrange m n s q ->
  exists t, sub p q = Ok t /\ poly_of Lagrange m n (Nat.max r s) t /\
    forall x, length x = m -> exists u v w, call p x = Ok u /\ call q x = Ok v /\ call t x = Ok w /\
      length u = n /\ length v = n /\ length w = n /\ forall k, (k < n)%nat -> nth k w 0 = nth k u 0 - nth k v 0.
Proof. intros F. apply calls_sub. Qed.
Print Assumptions C45_sub.
Theorem C45_scale : forall (F : fld) m n r (p : poly F) c, poly_of Lagrange m n r p ->
  exists t, scale p c = Ok t /\ poly_of Lagrange m n r t /\
    forall x, length x = m -> exists u, call p x = Ok u /\ length u = n /\ call t x = Ok (map (fun v => v * c) u).
Proof. intros F. apply calls_scale. Qed.
Print Assumptions C45_scale.
(** Multiplication of a scalar valued polynomial with a vector. *)
Theorem C45_outer : forall (F : fld) m r (p : poly F) c, poly_of Lagrange m 1 r p -> c <> [] ->
  exists t, outer p c = Ok t /\ poly_of Lagrange m (length c) r t /\
    forall x, length x = m -> exists u, call p x = Ok [u] /\ call t x = Ok (map (fun v => u * v) c).
Proof. intros F. apply calls_outer. Qed.
Print Assumptions C45_outer.
Theorem C45_truediv : forall (F : fld) m n r (p : poly F) c, c <> 0 -> poly_of Lagrange m n r p ->
  exists t, truediv p c = Ok t /\ poly_of Lagrange m n r t /\
    forall x, length x = m -> exists u, call p x = Ok u /\ length u = n /\ call t x = Ok (map (fun v => v / c) u).
Proof. intros F. apply calls_truediv. Qed.
Print Assumptions C45_truediv.
(** The second factor may be a polynomial in any basis. *)
Theorem C45_mul : forall (F : fld) bq m r s (p q : poly F), poly_of Lagrange m 1 r p -> poly_of bq m 1 s q -> ((0 < m)%nat -> (r + s < 20)%nat) ->
  exists t, mul p q = Ok t /\ poly_of Lagrange m 1 (r + s) t /\
    forall x, length x = m -> exists u v, call p x = Ok [u] /\ call q x = Ok [v] /\ call t x = Ok [u * v].
Proof. intros F bq m r s p q Hp Hq Hd. apply (calls_mul Lagrange bq m r s p q Hp Hq); [congruence|exact Hd]. Qed.
Print Assumptions C45_mul.
(** A product of degree 20 or more raises AssertionError (although both
    factors can be constructed). *)
Theorem C45_mul_degree_limit_refuted : exists m r s, (r < 20)%nat /\ (s < 20)%nat /\
  forall (F : fld) (p q : poly F), poly_of Lagrange m 1 r p -> poly_of Lagrange m 1 s q -> mul p q = Err AssertionError.
Proof. exists 1%nat, 10%nat, 10%nat. split; [lia|]. split; [lia|]. intros F p q Hp Hq. apply (calls_mul_limit Lagrange 1 10 10 p q Hp Hq); lia. Qed.
Print Assumptions C45_mul_degree_limit_refuted.
Theorem C45_pow : forall (F : fld) m r (p : poly F) e, poly_of Lagrange m 1 r p -> ((0 < m)%nat -> (r * e < 20)%nat) ->
  exists t, pow p e = Ok t /\ poly_of Lagrange m 1 (r * e) t /\
    forall x, length x = m -> exists u, call p x = Ok [u] /\ call t x = Ok [kpow u e].
Proof. intros F. apply calls_pow. Qed.
Print Assumptions C45_pow.
Theorem C45_pow_multiindex : forall (F : fld) m n r (p : poly F) e, poly_of Lagrange m n r p -> length e = n -> n <> 1%nat -> ((0 < m)%nat -> (r * list_sum e < 20)%nat) ->
  exists t, pow_mi p e = Ok t /\ poly_of Lagrange m 1 (r * list_sum e) t /\
    forall x, length x = m -> exists u w, call p x = Ok u /\ power u e = Ok w /\ call t x = Ok [w].
Proof. intros F m n r p e Hp He Hn Hd. apply (calls_pow_mi _ m n); [exact Hp|exact He|intros _; exact Hn|exact Hd]. Qed.
Print Assumptions C45_pow_multiindex.
Theorem C45_pow_multiindex_scalar_refuted : exists e, forall (F : fld) m r (p : poly F), poly_of Lagrange m 1 r p -> pow_mi p e = Err TypeError.
Proof. exists [1%nat]. intros F m r p (Hp & Hb & _ & Hn & _). apply pow_mi_scalar_lagrange; [apply is_poly_valid, Hp|exact Hb|exact Hn]. Qed.
Print Assumptions C45_pow_multiindex_scalar_refuted.

Theorem C45_degree_elevate : forall (F : fld) m n r s (p : poly F), poly_of Lagrange m n r p -> (r <= s)%nat -> ((0 < m)%nat -> (s < 20)%nat) ->
  exists t, degree_elevate p s = Ok t /\ poly_of Lagrange m n s t /\ forall x, length x = m -> exists u, call p x = Ok u /\ call t x = Ok u.
Proof. intros F. apply calls_elevate. Qed.
Print Assumptions C45_degree_elevate.
(** [f(x + h e_i) = f(x) + h d + h^2 g(h)] with a polynomial [g]: the formal
    partial derivative, over every field. *)
Theorem C45_derivative : forall (F : fld) m n r (p : poly F) i, poly_of Lagrange m n r p -> (i < m)%nat ->
  exists q, partial_derivative p i = Ok q /\ poly_of Lagrange m n (r - 1) q /\
    forall x k, length x = m -> (k < n)%nat -> exists g, polyfun g /\ forall h,
      component p k (upd x i (nth i x 0 + h)) = component p k x + h * component q k x + h * h * g h.
Proof. intros F. apply calls_derivative. Qed.
Print Assumptions C45_derivative.
(** The partial derivative of real analysis. *)
Theorem C45_derivative_real : forall m n r (p : poly RF) i, poly_of Lagrange m n r p -> (i < m)%nat ->
  exists q, partial_derivative p i = Ok q /\ poly_of Lagrange m n (r - 1) q /\
    forall x k, length x = m -> (k < n)%nat -> derivable_pt_lim (fun t => component p k (upd x i t)) (nth i x 0%R) (component q k x).
Proof. apply calls_derivative_real. Qed.
Print Assumptions C45_derivative_real.
Theorem C45_unit_polynomial : forall (F : fld) r m n, n <> 0%nat -> ((0 < m)%nat -> (r < 20)%nat) ->
  exists p, unit_polynomial (F := F) Lagrange r m n = Ok p /\ poly_of Lagrange m n r p /\ forall x, length x = m -> call p x = Ok (repeat 1 n).
Proof. intros F. apply calls_unit. Qed.
Print Assumptions C45_unit_polynomial.
Example C45_example :
  let c1 := [rat 1 1; rat 2 1; rat (-1) 2] in let c2 := [rat 3 1; rat (-1) 1; rat 0 1; rat 2 1; rat 1 1; rat (1) 3] in
  match (let* p := new_poly (F := QcF) Lagrange [c1] (Some 1%nat) 2 in let* q := new_poly (F := QcF) Lagrange [c2] (Some 2%nat) 2 in
         let* t := mul p q in let* u := add t p in let x := [rat (1) 2; rat (1) 5] in
         let* a := call p x in let* b := call q x in let* c := call u x in Ok (a, b, c)) with
  | Ok (a, b, c) => qlist a = [(6 # 5)%Q] /\ qlist b = [(-3 # 25)%Q] /\ qlist c = [(132 # 125)%Q]
  | Err _ => False end.
Proof. vm_compute. repeat split. Qed.

(** ** C46: the coefficient cache *)
(** [cached n r] is [lagrange_basis_coefficients_cache[n-1][r-1]]. *)
Theorem C46_cache_entries : forall (F : fld) n r d nu c mis, cached n r = Some d -> In (nu, c) d -> generate_all n r = Ok mis ->
  In nu mis /\ length c = length mis /\
  forall mu, In mu mis ->
    ksum (combine (map (fun pq : Z * nat => kofZ (F := F) (fst pq) / kofnat (snd pq)) c) mis)
      (fun ca => fst ca * mpow (map (fun a => kofnat a / kofnat r) mu) (snd ca)) = if mi_dec mu nu then 1 else 0.
Proof. exact @cache_entries. Qed.
Print Assumptions C46_cache_entries.
(** The cached and the computed coefficients agree. *)
Theorem C46_cache_equals_computation : forall (F : fld) r n,
  get_lagrange_base_coefficients (F := F) r n = generate_lagrange_base_coefficients r n.
Proof. intros F. apply get_eq_generate_lagrange. Qed.
Print Assumptions C46_cache_equals_computation.
(** The cache has entries for dimensions 1 to 4 and degrees 1 to 4. *)
Example C46_example : map (fun n => map (fun r => match cached n r with Some d => length d | None => 0%nat end) [1;2;3;4;5]%nat) [1;2;3;4]%nat
  = [[2;3;4;5;0]; [3;6;10;15;0]; [4;10;20;35;0]; [5;15;35;70;0]]%nat.
Proof. vm_compute. reflexivity. Qed.
