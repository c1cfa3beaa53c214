(** The adaptive quadratures compute the integral if scipy does. *)
From Coq Require Import Reals Lra Factorial.
From Coquelicot Require Import Coquelicot.
From Verif Require Import Base MultiIndex MultiIndexFacts Fld FldInst LinSolve Det Linalg VecFacts SimplexGeo SimplexFacts AffineFacts KdTree RVec Quadrature QuadFacts HomogInt QuadReal SimplexInt IntReal SimplexIntReal SimplexPos KdMesh MeshGeo MidpointInt SimplexCont Adaptive MidpointFacts.
Local Open Scope R_scope.

(** the contracts of scipy for one integrand and an error of at most [eps]:
    [dblquad] calls [func(y, x)], [tplquad] calls [func(z, y, x)] *)
Definition accurate1 (q : callable RF -> R -> R -> result (arr RF)) (g : R -> R) (eps : R) : Prop :=
  forall f a b v, (forall x : R, c_run f [Sc (F := RF) x] = Ok (Sc (F := RF) (g x))) -> is_RInt g a b v -> exists r : R, q f a b = Ok (Sc (F := RF) r) /\ Rabs (r - v) <= eps.
Definition accurate2 (q : callable RF -> R -> R -> (R -> R) -> (R -> R) -> result (arr RF)) (g : R -> R -> R) (eps : R) : Prop :=
  forall f a b lo hi J v, a <= b -> (forall y x : R, c_run f [Sc (F := RF) y; Sc (F := RF) x] = Ok (Sc (F := RF) (g y x))) ->
    (forall x, a <= x <= b -> is_RInt (fun y => g y x) (lo x) (hi x) (J x)) -> is_RInt J a b v ->
    exists r : R, q f a b lo hi = Ok (Sc (F := RF) r) /\ Rabs (r - v) <= eps.
Definition accurate3 (q : callable RF -> R -> R -> (R -> R) -> (R -> R) -> (R -> R -> R) -> (R -> R -> R) -> result (arr RF)) (g : R -> R -> R -> R) (eps : R) : Prop :=
  forall f a b lo hi lo2 hi2 K J v, a <= b -> (forall x, a <= x <= b -> lo x <= hi x) -> (forall z y x : R, c_run f [Sc (F := RF) z; Sc (F := RF) y; Sc (F := RF) x] = Ok (Sc (F := RF) (g z y x))) ->
    (forall x y, a <= x <= b -> lo x <= y <= hi x -> is_RInt (fun z => g z y x) (lo2 x y) (hi2 x y) (K x y)) ->
    (forall x, a <= x <= b -> is_RInt (K x) (lo x) (hi x) (J x)) -> is_RInt J a b v ->
    exists r : R, q f a b lo hi lo2 hi2 = Ok (Sc (F := RF) r) /\ Rabs (r - v) <= eps.

Lemma int1 (h : list R -> R) s v : 0 <= s -> simplex_int 1 s h v -> is_RInt (fun z => h [z]) 0 s v.
Proof. intros Hs (g & H1 & H2). apply (is_RInt_ext g); [|exact H2]. intros t Ht. rewrite Rmin_left, Rmax_right in Ht by lra. exact (H1 t ltac:(lra)). Qed.

Lemma unit_triangle_near q f g eps : ucont 2 g -> scalar_fn 2 f g -> accurate2 q (fun y x => g [y; x]) eps -> exists v I, quadrature_unit_triangle q f = Ok (Sc (F := RF) v) /\ simplex_int 2 1 g I /\ Rabs (v - I) <= eps.
Proof.
  intros U S A. destruct (ucont_int 2 g U) as (I & HI). destruct (ucont_int 2 _ (rev_ucont 2 g U)) as (w & Hw). pose proof (simplex_int_rev 2 g I w U HI Hw) as E. subst w.
  destruct Hw as (J & H1 & H2). destruct (A f 0 1 (fun _ => 0) (fun x => 1 - x) J I) as (r & E & B).
  - lra.
  - intros y x. apply (S [y; x] eq_refl).
  - intros x Hx. apply (int1 (fun y => g (rev (x :: y)))); [lra|]. apply H1, Hx.
  - exact H2.
  - exists r, I. split; [exact E|]. split; [exact HI|exact B].
Qed.
Lemma unit_tetrahedron_near q f g eps : ucont 3 g -> scalar_fn 3 f g -> accurate3 q (fun z y x => g [z; y; x]) eps -> exists v I, quadrature_unit_tetrahedron q f = Ok (Sc (F := RF) v) /\ simplex_int 3 1 g I /\ Rabs (v - I) <= eps.
Proof.
  intros U S A. destruct (ucont_int 3 g U) as (I & HI). destruct (ucont_int 3 _ (rev_ucont 3 g U)) as (w & Hw). pose proof (simplex_int_rev 3 g I w U HI Hw) as E. subst w.
  destruct Hw as (J & H1 & H2). set (K := fun x y => RInt (fun z => g [z; y; x]) 0 (1 - x - y)).
  assert (KI : forall x k y v, 0 <= 1 - x - y -> simplex_int 1 (1 - x - y) k v -> (forall z, k [z] = g [z; y; x]) -> is_RInt (fun z => g [z; y; x]) 0 (1 - x - y) v).
  { intros x k y v Hy Hk E. apply (is_RInt_ext (fun z => k [z])); [intros z _; apply E|]. apply int1; assumption. }
  destruct (A f 0 1 (fun _ => 0) (fun x => 1 - x) (fun _ _ => 0) (fun x y => 1 - x - y) K J I) as (r & E & B).
  - lra.
  - intros x Hx. lra.
  - intros z y x. apply (S [z; y; x] eq_refl).
  - intros x y Hx Hy. destruct (H1 x Hx) as (k & K1 & _). assert (Q := KI x (fun z => g (rev (x :: y :: z))) y (k y) ltac:(lra) (K1 y ltac:(lra)) (fun z => eq_refl)).
    unfold K. rewrite (is_RInt_unique _ _ _ _ Q). exact Q.
  - intros x Hx. destruct (H1 x Hx) as (k & K1 & K2). apply (is_RInt_ext k); [|exact K2]. intros y Hy. rewrite Rmin_left, Rmax_right in Hy by lra.
    assert (Q := KI x (fun z => g (rev (x :: y :: z))) y (k y) ltac:(lra) (K1 y ltac:(lra)) (fun z => eq_refl)). unfold K. symmetry. apply is_RInt_unique, Q.
  - exact H2.
  - exists r, I. split; [exact E|]. split; [exact HI|exact B].
Qed.

(** ** On a simplex *)
Lemma simplex_pull n (rule : callable RF -> result (arr RF)) f g (vs : list (list R)) eps : (2 <= n)%nat -> rows_of (F := RF) (S n) n vs -> is_univariate f = Ok false -> scalar_fn n f g ->
  (forall h, scalar_fn n h (fun x => g (simplex_point (Q := RO) n vs x)) -> exists v I, rule h = Ok (Sc (F := RF) v) /\ simplex_int n 1 (fun x => g (simplex_point (Q := RO) n vs x)) I /\ Rabs (v - I) <= eps) ->
  exists v I, quadrature_simplex rule f vs = Ok (Sc (F := RF) v) /\ simplex_integral n vs g I /\ Rabs (v - I) <= Rabs (det (F := RF) n (fun i j => nth j (nth (S i) vs []) 0 - nth j (nth 0 vs []) 0)) * eps.
Proof.
  intros Hn Hr Uf S H. destruct (from_unit_callable (Q := RO) n vs Hn Hr) as (a & b & phi & E1 & E2 & E3 & E4 & E5). destruct (pull_callable (Q := RO) n vs f g phi Uf E3 E4 S) as (h & E6 & S').
  destruct (H h S') as (v & I & E & HI & B). set (d := det (F := RF) n (fun i j => nth j (nth (Datatypes.S i) vs []) 0 - nth j (nth 0 vs []) 0)).
  exists (Rabs d * v), (Rabs d * I). split; [|split].
  - unfold quadrature_simplex. refine (eq_trans (f_equal (fun r => bind r _) E1) _). cbn [bind]. refine (eq_trans (f_equal (fun r => bind r _) E2) _). cbn [bind]. refine (eq_trans (f_equal (fun r => bind r _) E6) _). cbn [bind]. refine (eq_trans (f_equal (fun r => bind r _) E5) _). cbn [bind]. rewrite E. cbn [bind np_scale].
    rewrite kabs_Rabs. reflexivity.
  - intros Phi HP. exists I. split; [|reflexivity]. refine (simplex_int_ext n 1 _ _ _ _ _ HI); [lra|]. intros x Lx _ _. f_equal.
    apply (PolySimplexMul.affine_comb_unique (Q := RO) n (bary_of (F := RF) x) vs); [|apply HP, Lx]. apply (simplex_point_comb (Q := RO)). destruct Hr as [LV _]. refine (eq_trans _ (eq_sym LV)). f_equal. exact Lx.
  - rewrite <- Rmult_minus_distr_l, Rabs_mult, Rabs_Rabsolu. apply Rmult_le_compat_l; [apply Rabs_pos|exact B].
Qed.
