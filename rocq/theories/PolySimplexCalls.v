(** The operations of the polynomials on a simplex, seen through the values the
    objects return. *)
From Verif Require PermFacts.
From Verif Require Import Base MultiIndex MultiIndexFacts MultiCapFacts MultiIndexCache Fld FldInst CodeGen CodeGenFacts LinSolve Det Linalg VecFacts Simplicial SimplexGeo SimplexFacts SimplexMetric AffineFacts MultiCoef MultiCoefFacts LagrangeCache Unisolv Poly PolyFacts LagFacts PolyEval PolyOps PolyOpsB PolyDeriv PolyObj PolyPow PolyCalls IntegralCache Integrate IntFacts HasInt Bases BasesFacts BasesCalls BasesMore DerivFacts SubstFacts PolySimplex PolySimplexFacts.
From Coq Require Import Field_theory Field.

Section SCalls.
  Context {Q : ofld} (ksqrt : Q -> Q) (tol : Q) (veq : list (list Q) -> list (list Q) -> bool).
  Add Field Kfield55 : (kth Q).
  Local Open Scope fld_scope.
  Notation pt := SimplexGeo.pt.

  (** Objects of the class for basis [b] on the simplex [vs], with [k]
      components and degree [r] *)
  Definition spoly_of (b : basis) (vs : list (list Q)) (k r : nat) (p : spoly Q) : Prop :=
    b <> Monomial /\ (exists len cols ro, rect len cols /\ new_spoly ksqrt tol b cols vs ro = Ok p) /\ sp_n p = k /\ sp_r p = r.
  (** Component [k] of the value at [y] *)
  Definition scomponent (p : spoly Q) (k : nat) (y : list Q) : Q := match sp_call p (pt y) with Ok v => nth k v 0 | Err _ => 0 end.

  Lemma new_poly_shape b (cols : list (list Q)) ro m u : new_poly b cols ro m = Ok u -> p_basis u = b /\ p_m u = m.
  Proof.
    unfold new_poly. intros H. destruct (assert_ _); [|discriminate]. cbn [bind] in H. match type of H with bind ?e _ = _ => destruct e; [|discriminate] end. cbn [bind] in H. destruct (mapM _ _); [|discriminate]. cbn [bind] in H. injection H as <-. split; reflexivity.
  Qed.

  Section One.
    Context (n : nat) (vs : list (list Q)) (ab : arr Q * arr Q) (phi : arr Q -> result (arr Q)) (B : nat -> nat -> Q) (TU : to_unit ksqrt tol n vs ab phi B).
    Notation X := (coords n vs B).
    Notation L := (lift vs ab phi).

    Lemma lift_of b k r u : b <> Monomial -> poly_of b n k r u -> spoly_of b vs k r (L u).
    Proof.
      intros Hb Hu. pose proof (poly_of_valid _ _ _ _ _ Hu) as (Vu & U1 & U2 & U3 & U4). split; [exact Hb|]. split; [|split; [exact U3|exact U4]]. exists (get_dimension (p_r u) (p_m u)), (p_cols u), (Some r). split; [apply Vu|].
      exact (renew _ _ _ _ _ _ _ TU u b (p_cols u) r Vu U2 U1 eq_refl U4).
    Qed.
    Lemma of_lift b k r p : spoly_of b vs k r p -> exists u, p = L u /\ b <> Monomial /\ poly_of b n k r u.
    Proof.
      intros (Hb & (len & cols & ro & HR & E) & E1 & E2). rewrite (new_spoly_eq _ _ _ _ _ _ _ TU) in E. destruct (new_poly b cols ro n) as [u|] eqn:Eu; [|discriminate]. cbn [bind] in E. injection E as <-. exists u. split; [reflexivity|]. split; [exact Hb|].
      destruct (new_poly_shape _ _ _ _ _ Eu) as [S1 S2]. split; [exists len, b, cols, ro, n; split; assumption|]. repeat split; assumption.
    Qed.
    Lemma call_lift b k r u y : poly_of b n k r u -> length y = n -> sp_call (L u) (pt y) = call u (X y).
    Proof.
      intros Hu Ly. pose proof (poly_of_valid _ _ _ _ _ Hu) as (Vu & U1 & U2 & U3 & U4). rewrite (lift_call _ _ _ _ _ _ _ TU u y Vu U2 Ly). symmetry. apply call_ok; [exact Vu|]. rewrite coords_length. symmetry. exact U2.
    Qed.

    Theorem sc_new b cols r : b <> Monomial -> cols <> [] -> (forall c, In c cols -> length c = get_dimension r n) -> (r < 20)%nat ->
      exists p, new_spoly ksqrt tol b cols vs (Some r) = Ok p /\ spoly_of b vs (length cols) r p /\ sp_cols p = cols.
    Proof.
      intros Hb H1 H2 H3. destruct (constructor_total b cols r n H1 H2 (fun _ => H3)) as (u & E & Hu & Ec). exists (L u). rewrite (new_spoly_eq _ _ _ _ _ _ _ TU), E. split; [reflexivity|]. split; [apply lift_of; assumption|exact Ec].
    Qed.
    Theorem sc_call b k r p : spoly_of b vs k r p -> exists u, new_poly b (sp_cols p) (Some r) n = Ok u /\ forall x y, affine_comb n (bary_of x) vs y -> sp_call p (pt y) = call u x.
    Proof.
      intros Hp. destruct (of_lift _ _ _ _ Hp) as (u & -> & Hb & Hu). exists u. pose proof (poly_of_valid _ _ _ _ _ Hu) as (Vu & U1 & U2 & U3 & U4). split.
      - unfold sp_cols. cbn [lift sp_u]. rewrite <- U1, <- U2, <- U4. apply valid_renew. exact Vu.
      - intros x y Hc. rewrite (call_lift _ _ _ _ _ Hu) by apply Hc. rewrite <- (tu_comb _ _ _ _ _ _ _ TU x y Hc). reflexivity.
    Qed.
    Theorem sc_total b k r p y : spoly_of b vs k r p -> length y = n -> exists v, sp_call p (pt y) = Ok v /\ length v = k.
    Proof.
      intros Hp Ly. destruct (of_lift _ _ _ _ Hp) as (u & -> & Hb & Hu). rewrite (call_lift _ _ _ _ _ Hu Ly). destruct (call_pv _ _ _ _ _ (X y) Hu (coords_length _ _ _ _)) as [E El]. exists (pv u (X y)). split; assumption.
    Qed.
    Theorem sc_add b k r s p q : (forall w, veq w w = true) -> spoly_of b vs k r p -> spoly_of b vs k s q ->
      exists t, sp_add ksqrt tol veq p q = Ok t /\ spoly_of b vs k (Nat.max r s) t /\
        forall y, length y = n -> exists u v w, sp_call p (pt y) = Ok u /\ sp_call q (pt y) = Ok v /\ sp_call t (pt y) = Ok w /\
          length u = k /\ length v = k /\ length w = k /\ forall j, (j < k)%nat -> nth j w 0 = nth j u 0 + nth j v 0.
    Proof.
      intros Hv Hp Hq. destruct (of_lift _ _ _ _ Hp) as (u & -> & Hb & Hu). destruct (of_lift _ _ _ _ Hq) as (v & -> & _ & Hw). pose proof (poly_of_valid _ _ _ _ _ Hu) as (Vu & U1 & U2 & U3 & U4). pose proof (poly_of_valid _ _ _ _ _ Hw) as (Vv & V1 & V2 & V3 & V4).
      destruct (calls_add b n k r s u v Hu Hw) as (t & Et & Ht & HV). exists (L t). split; [|split; [apply lift_of; assumption|]].
      - unfold sp_add. rewrite (lift_linear_op _ _ _ _ _ _ _ _ TU kadd u v Hv Vu Vv U2 V2). change (linear_op kadd u v) with (add u v). rewrite Et. reflexivity.
      - intros y Ly. rewrite (call_lift _ _ _ _ _ Hu Ly), (call_lift _ _ _ _ _ Hw Ly), (call_lift _ _ _ _ _ Ht Ly). apply HV, coords_length.
    Qed.
    Theorem sc_sub b k r s p q : (forall w, veq w w = true) -> spoly_of b vs k r p -> spoly_of b vs k s q ->
      exists t, sp_sub ksqrt tol veq p q = Ok t /\ spoly_of b vs k (Nat.max r s) t /\
        forall y, length y = n -> exists u v w, sp_call p (pt y) = Ok u /\ sp_call q (pt y) = Ok v /\ sp_call t (pt y) = Ok w /\
          length u = k /\ length v = k /\ length w = k /\ forall j, (j < k)%nat -> nth j w 0 = nth j u 0 - nth j v 0.
    Proof.
      intros Hv Hp Hq. destruct (of_lift _ _ _ _ Hp) as (u & -> & Hb & Hu). destruct (of_lift _ _ _ _ Hq) as (v & -> & _ & Hw). pose proof (poly_of_valid _ _ _ _ _ Hu) as (Vu & U1 & U2 & U3 & U4). pose proof (poly_of_valid _ _ _ _ _ Hw) as (Vv & V1 & V2 & V3 & V4).
      destruct (calls_sub b n k r s u v Hu Hw) as (t & Et & Ht & HV). exists (L t). split; [|split; [apply lift_of; assumption|]].
      - unfold sp_sub. rewrite (lift_linear_op _ _ _ _ _ _ _ _ TU ksub u v Hv Vu Vv U2 V2). change (linear_op ksub u v) with (sub u v). rewrite Et. reflexivity.
      - intros y Ly. rewrite (call_lift _ _ _ _ _ Hu Ly), (call_lift _ _ _ _ _ Hw Ly), (call_lift _ _ _ _ _ Ht Ly). apply HV, coords_length.
    Qed.
    Theorem sc_scale b k r p c : spoly_of b vs k r p ->
      exists t, sp_scale ksqrt tol p c = Ok t /\ spoly_of b vs k r t /\
        forall y, length y = n -> exists u, sp_call p (pt y) = Ok u /\ length u = k /\ sp_call t (pt y) = Ok (map (fun v => v * c) u).
    Proof.
      intros Hp. destruct (of_lift _ _ _ _ Hp) as (u & -> & Hb & Hu). pose proof (poly_of_valid _ _ _ _ _ Hu) as (Vu & U1 & U2 & U3 & U4). destruct (calls_scale b n k r u c Hu) as (t & Et & Ht & HV). exists (L t). rewrite (lift_scale _ _ _ _ _ _ _ TU u c U2), Et. split; [reflexivity|]. split; [apply lift_of; assumption|].
      intros y Ly. rewrite (call_lift _ _ _ _ _ Hu Ly), (call_lift _ _ _ _ _ Ht Ly). apply HV, coords_length.
    Qed.
    Theorem sc_truediv b k r p c : c <> 0 -> spoly_of b vs k r p ->
      exists t, sp_truediv ksqrt tol p c = Ok t /\ spoly_of b vs k r t /\
        forall y, length y = n -> exists u, sp_call p (pt y) = Ok u /\ length u = k /\ sp_call t (pt y) = Ok (map (fun v => v / c) u).
    Proof.
      intros Hc Hp. destruct (of_lift _ _ _ _ Hp) as (u & -> & Hb & Hu). pose proof (poly_of_valid _ _ _ _ _ Hu) as (Vu & U1 & U2 & U3 & U4). destruct (calls_truediv b n k r u c Hc Hu) as (t & Et & Ht & HV). exists (L t). rewrite (lift_truediv _ _ _ _ _ _ _ TU u c U2), Et. split; [reflexivity|]. split; [apply lift_of; assumption|].
      intros y Ly. rewrite (call_lift _ _ _ _ _ Hu Ly), (call_lift _ _ _ _ _ Ht Ly). apply HV, coords_length.
    Qed.
    Theorem sc_outer b r p c : spoly_of b vs 1 r p -> c <> [] ->
      exists t, sp_outer ksqrt tol p c = Ok t /\ spoly_of b vs (length c) r t /\
        forall y, length y = n -> exists u, sp_call p (pt y) = Ok [u] /\ sp_call t (pt y) = Ok (map (fun v => u * v) c).
    Proof.
      intros Hp Hc. destruct (of_lift _ _ _ _ Hp) as (u & -> & Hb & Hu). pose proof (poly_of_valid _ _ _ _ _ Hu) as (Vu & U1 & U2 & U3 & U4). destruct (calls_outer b n r u c Hu Hc) as (t & Et & Ht & HV). exists (L t). rewrite (lift_outer _ _ _ _ _ _ _ TU u c U2), Et. split; [reflexivity|]. split; [apply lift_of; assumption|].
      intros y Ly. rewrite (call_lift _ _ _ _ _ Hu Ly), (call_lift _ _ _ _ _ Ht Ly). apply HV, coords_length.
    Qed.
    Theorem sc_getitem b k r p i : spoly_of b vs k r p -> (i < k)%nat ->
      exists t, sp_getitem ksqrt tol p i = Ok t /\ spoly_of b vs 1 r t /\
        forall y, length y = n -> exists u, sp_call p (pt y) = Ok u /\ length u = k /\ sp_call t (pt y) = Ok [nth i u 0].
    Proof.
      intros Hp Hi. destruct (of_lift _ _ _ _ Hp) as (u & -> & Hb & Hu). pose proof (poly_of_valid _ _ _ _ _ Hu) as (Vu & U1 & U2 & U3 & U4). destruct (getitem_ok u i Vu ltac:(congruence)) as (t & Et & T1 & T2 & T3 & T4 & T5 & T6).
      assert (Ht : poly_of b n 1 r t) by (apply poly_of_intro; [exact T1|congruence|congruence|rewrite T5; reflexivity|congruence]).
      exists (L t). rewrite (lift_getitem _ _ _ _ _ _ _ TU u i U2), Et. split; [reflexivity|]. split; [apply lift_of; assumption|].
      intros y Ly. rewrite (call_lift _ _ _ _ _ Hu Ly), (call_lift _ _ _ _ _ Ht Ly). destruct (call_pv _ _ _ _ _ (X y) Hu (coords_length _ _ _ _)) as [-> Lu]. destruct (call_pv _ _ _ _ _ (X y) Ht (coords_length _ _ _ _)) as [-> _]. exists (pv u (X y)). split; [reflexivity|]. split; [exact Lu|]. rewrite T6 by (rewrite coords_length; congruence). reflexivity.
    Qed.
    Theorem sc_elevate b k r s p : spoly_of b vs k r p -> (r <= s < 20)%nat ->
      exists t, sp_degree_elevate ksqrt tol p s = Ok t /\ spoly_of b vs k s t /\ forall y, length y = n -> exists u, sp_call p (pt y) = Ok u /\ sp_call t (pt y) = Ok u.
    Proof.
      intros Hp Hs. destruct (of_lift _ _ _ _ Hp) as (u & -> & Hb & Hu). pose proof (poly_of_valid _ _ _ _ _ Hu) as (Vu & U1 & U2 & U3 & U4). destruct (calls_elevate b n k r s u Hu (proj1 Hs) (fun _ => proj2 Hs)) as (t & Et & Ht & HV). exists (L t).
      rewrite (lift_elevate _ _ _ _ _ _ _ TU u s Vu U2) by lia. rewrite Et. split; [reflexivity|]. split; [apply lift_of; assumption|].
      intros y Ly. rewrite (call_lift _ _ _ _ _ Hu Ly), (call_lift _ _ _ _ _ Ht Ly). apply HV, coords_length.
    Qed.
    Theorem sc_zero b r k : b <> Monomial -> k <> 0%nat -> (r < 20)%nat -> exists p, sp_zero ksqrt tol b vs r k = Ok p /\ spoly_of b vs k r p /\ forall y, length y = n -> sp_call p (pt y) = Ok (repeat 0 k).
    Proof.
      intros Hb Hk Hr. rewrite (lift_zero _ _ _ _ _ _ _ TU). destruct (zero_polynomial_ok (F := Q) b r n k Hk (fun _ => Hr)) as (z & Ez & Z1 & Z2 & Z3 & Z4 & Z5 & Z6). rewrite Ez. exists (L z). split; [reflexivity|]. assert (Hz : poly_of b n k r z) by (apply poly_of_intro; assumption). split; [apply lift_of; assumption|].
      intros y Ly. rewrite (call_lift _ _ _ _ _ Hz Ly). destruct (call_pv _ _ _ _ _ (X y) Hz (coords_length _ _ _ _)) as [-> _]. rewrite Z6 by apply coords_length. reflexivity.
    Qed.
    (** ** Derivatives *)
    Lemma coords_line y i h : (i < n)%nat -> length y = n -> X (upd y i (nth i y 0 + h)) = line n (X y) (map (fun k => B k i) (seq 0 n)) h.
    Proof.
      intros Hi Ly. unfold line. unfold coords at 1. apply map_ext_in. intros k Hk. apply in_seq in Hk. rewrite (nth_mapseq (fun k => B k i)) by lia. unfold coords. rewrite (nth_mapseq (fun k => ksum (seq 0 n) (fun l => B k l * (nth l y 0 - ent vs 0 l)))) by lia.
      rewrite (ksum_ext _ (fun l => B k l * (nth l y 0 - ent vs 0 l) + (if Nat.eq_dec l i then B k l * h else 0))).
      - rewrite ksum_plus. f_equal. rewrite (ksum_delta Nat.eq_dec (fun l => B k l * h)); [ring|apply seq_NoDup|apply in_seq; lia].
      - intros l Hl. apply in_seq in Hl. destruct (Nat.eq_dec l i) as [E|E]; [rewrite E, nth_upd_eq by lia; ring|rewrite nth_upd_neq by congruence; ring].
    Qed.
    Lemma lift_pderiv u i : (forall w, veq w w = true) -> valid u -> p_m u = n -> (i < n)%nat ->
      exists u', sp_partial_derivative ksqrt tol veq (L u) i = Ok (L u') /\ valid u' /\ same_shape u u' /\ p_r u' = (p_r u - 1)%nat /\
        forall y j, length y = n -> (j < length (p_cols u))%nat -> is_pderiv (fun y => nth j (pv u (X y)) 0) i y (nth j (pv u' (X y)) 0).
    Proof.
      intros Hv Vu Um Hi. destruct (lift_partial ksqrt tol veq n vs ab phi B TU u i Hv Vu Um Hi) as (u' & E & V' & S' & R' & HV). exists u'. repeat (split; [assumption|]). intros y j Ly Hj.
      pose proof (dat_line n (p_r u) (fun x => nth j (pv u x) 0) (X y) (map (fun k => B k i) (seq 0 n)) (fun k => nth j (pv (Dk u k) (X y)) 0)) as H. cbv beta in H. unfold is_pderiv. eapply dat_ext; [| |apply H].
      - intros h. cbv beta. rewrite coords_line by assumption. reflexivity.
      - rewrite HV by apply coords_length. rewrite (nth_mapseq (fun j => ksum (seq 0 n) (fun k => nth j (pv (Dk u k) (X y)) 0 * B k i))) by exact Hj. apply ksum_ext. intros k Hk. apply in_seq in Hk. rewrite (nth_mapseq (fun k => B k i)) by lia. ring.
      - rewrite <- Um. apply pv_polydeg; assumption.
      - apply coords_length.
      - intros k Hk. apply pderivs_nth; [|exact Hj|rewrite coords_length; congruence]. apply Dk_ok; [exact Vu|congruence].
    Qed.
    Theorem sc_pderiv b k r p i : (forall w, veq w w = true) -> spoly_of b vs k r p -> (i < n)%nat ->
      exists q, sp_partial_derivative ksqrt tol veq p i = Ok q /\ spoly_of b vs k (r - 1) q /\
        forall y j, length y = n -> (j < k)%nat -> is_pderiv (scomponent p j) i y (scomponent q j y).
    Proof.
      intros Hv Hp Hi. destruct (of_lift _ _ _ _ Hp) as (u & -> & Hb & Hu). pose proof (poly_of_valid _ _ _ _ _ Hu) as (Vu & U1 & U2 & U3 & U4). destruct (lift_pderiv u i Hv Vu U2 Hi) as (u' & E & V' & [S1 S2 S3] & R' & HD).
      assert (Hq : poly_of b n k (r - 1) u') by (apply poly_of_intro; congruence). exists (L u'). split; [exact E|]. split; [apply lift_of; assumption|]. intros y j Ly Hj.
      refine (pderiv_ext _ _ i y _ _ n Ly _ _ (HD y j Ly ltac:(congruence))).
      - intros z Lz. unfold scomponent. rewrite (call_lift _ _ _ _ _ Hu Lz). destruct (call_pv _ _ _ _ _ (X z) Hu (coords_length _ _ _ _)) as [-> _]. reflexivity.
      - unfold scomponent. rewrite (call_lift _ _ _ _ _ Hq Ly). destruct (call_pv _ _ _ _ _ (X y) Hq (coords_length _ _ _ _)) as [-> _]. reflexivity.
    Qed.

    (** Higher derivatives, as in DerivFacts.v *)
    Lemma polydeg_pull r f : polydeg n r f -> polydeg n r (fun y : list Q => f (X y)).
    Proof.
      intros Hf. pose (gs := map (fun k (y : list Q) => ksum (seq 0 n) (fun l => B k l * (nth l y 0 - ent vs 0 l))) (seq 0 n)).
      apply (polydeg_ext n r (fun y => f (map (fun g => g y) gs))).
      - intros y Ly. unfold gs. rewrite map_map. reflexivity.
      - apply polydeg_subst with (k := n); [exact Hf| |unfold gs; rewrite map_length, seq_length; reflexivity]. apply Forall_forall. intros g Hg. apply in_map_iff in Hg as (k & <- & _).
        apply (polydeg_ext n 1 (fun y => - ksum (seq 0 n) (fun l => B k l * ent vs 0 l) + ksum (seq 0 n) (fun l => B k l * nth l y 0))); [|apply polydeg_affine].
        intros y Ly. rewrite <- ksum_opp, <- ksum_plus. apply ksum_ext. intros l _. ring.
    Qed.
    Definition sdinv (p : poly Q) (as_ : nat -> list nat -> Q) (beta : list nat) (q : poly Q) : Prop :=
      valid q /\ same_shape p q /\ p_r q = (p_r p - nsum beta)%nat /\
      forall j, (j < length (p_cols p))%nat -> bounded n (p_r p) (as_ j) /\ rep n (p_r q) (dcoef beta (as_ j)) (fun y => nth j (pv q (X y)) 0).
    Lemma sdinv_start u : valid u -> p_m u = n -> exists as_, sdinv u as_ (repeat 0%nat n) u.
    Proof.
      intros Vu Um. assert (H : forall l, exists as_ : nat -> list nat -> Q, forall j, (j < l)%nat -> (j < length (p_cols u))%nat -> bounded n (p_r u) (as_ j) /\ rep n (p_r u) (dcoef (repeat 0%nat n) (as_ j)) (fun y => nth j (pv u (X y)) 0)).
      { induction l as [|l [as_ IH]]; [exists (fun _ _ => 0); intros; lia|]. destruct (Nat.ltb_spec l (length (p_cols u))) as [Hl|Hl].
        - pose proof (pv_polydeg u l Vu Hl) as HP. rewrite Um in HP. destruct (polydeg_pull _ _ HP) as (d & Ld & Hd). exists (fun j => if Nat.eq_dec j l then cf n (p_r u) d else as_ j). intros j Hj Hj'. destruct (Nat.eq_dec j l) as [E|E]; [|apply IH; lia]. rewrite E. split.
          + intros nu _ Hn. apply cf_out. exact Hn.
          + intros x Hx. rewrite (Hd x Hx). unfold mval. apply ksum_ext. intros nu Hnu. apply in_all_mi in Hnu as [N1 _]. rewrite dcoef_zero by exact N1. reflexivity.
        - exists as_. intros j Hj Hj'. apply IH; lia. }
      destruct (H (length (p_cols u))) as [as_ Ha]. exists as_. split; [exact Vu|]. split; [constructor; reflexivity|]. split; [rewrite nsum_repeat0; lia|]. intros j Hj. apply Ha; exact Hj.
    Qed.
    Lemma sdinv_step u as_ beta q i : (forall w, veq w w = true) -> p_m u = n -> length beta = n -> sdinv u as_ beta q -> (i < n)%nat -> exists q', sp_partial_derivative ksqrt tol veq (L q) i = Ok (L q') /\ sdinv u as_ (up beta i) q'.
    Proof.
      intros Hv Um Hb (Vq & [S1 S2 S3] & Qr & HF) Hi. destruct (lift_pderiv q i Hv Vq ltac:(congruence) Hi) as (q' & E & V' & [T1 T2 T3] & R' & HD). exists q'. split; [exact E|]. split; [exact V'|]. split; [constructor; congruence|]. split; [rewrite R', Qr, up_sum by lia; lia|].
      intros j Hj. destruct (HF j Hj) as [H1 H2]. split; [exact H1|]. rewrite R'. refine (rep_ext_coef _ _ _ _ _ _ (pderiv_rep n (p_r q) (dcoef beta (as_ j)) _ _ i Hi _ H2 _)).
      - intros nu Hnu. apply in_all_mi in Hnu as [N1 _]. apply dcoef_up; congruence.
      - rewrite Qr. apply dcoef_bounded; assumption.
      - intros y Ly. cbv beta. apply HD; [exact Ly|congruence].
    Qed.
    Lemma sdinv_fold u as_ l : (forall w, veq w w = true) -> p_m u = n -> forall beta q, length beta = n -> sdinv u as_ beta q -> (forall i, In i l -> (i < n)%nat) ->
      exists q', foldM (sp_partial_derivative ksqrt tol veq) (L q) l = Ok (L q') /\ sdinv u as_ (fold_left up l beta) q'.
    Proof.
      intros Hv Um. induction l as [|i l IH]; intros beta q Hb Hq Hl; [exists q; split; [reflexivity|exact Hq]|]. destruct (sdinv_step u as_ beta q i Hv Um Hb Hq (Hl i (or_introl eq_refl))) as (q1 & E & H1). cbn [foldM]. rewrite E. cbn [bind fold_left].
      apply IH; [rewrite up_length; exact Hb|exact H1|intros; apply Hl; right; assumption].
    Qed.
    Lemma sp_derivative_fold p alpha : length alpha = sp_m p -> sp_derivative ksqrt tol veq p alpha = foldM (sp_partial_derivative ksqrt tol veq) p (dorder alpha).
    Proof.
      intros E. unfold sp_derivative, dorder. rewrite E, Nat.eqb_refl. cbn [assert_ bind]. rewrite <- E. assert (H : forall k, In k (seq 0 (length alpha)) -> (k < length alpha)%nat) by (intros k Hk; apply in_seq in Hk; lia).
      revert H. generalize (seq 0 (length alpha)) p. clear p E. induction l as [|i l IH]; intros p H; [reflexivity|]. cbn [foldM flat_map]. rewrite (PermFacts.get_ok _ _ 0%nat) by (apply H; left; reflexivity). cbn [bind].
      rewrite foldM_app. set (k := nth i alpha 0%nat).
      assert (R : forall j q, foldM (fun (dp : spoly Q) (_ : nat) => sp_partial_derivative ksqrt tol veq dp i) q (seq j k) = foldM (sp_partial_derivative ksqrt tol veq) q (repeat i k)).
      { induction k as [|k IHk]; intros j q; [reflexivity|]. cbn [seq repeat foldM]. destruct (sp_partial_derivative ksqrt tol veq q i); [apply IHk|reflexivity]. }
      rewrite R. destruct (foldM (sp_partial_derivative ksqrt tol veq) p (repeat i k)); [|reflexivity]. cbn [bind]. apply IH. intros; apply H; right; assumption.
    Qed.
    Lemma sdinv_pv u as_ beta q y : sdinv u as_ beta q -> length y = n -> pv q (X y) = map (fun j => ksum (all_mi n (p_r u - nsum beta)) (fun nu => dcoef beta (as_ j) nu * mpow y nu)) (seq 0 (length (p_cols u))).
    Proof.
      intros (_ & [S1 S2 S3] & Qr & HF) Ly. rewrite (pv_list q), S3. apply map_ext_in. intros j Hj. apply in_seq in Hj. destruct (HF j ltac:(lia)) as [_ H]. rewrite (H y Ly), Qr. reflexivity.
    Qed.
    Theorem sderivative_sdinv u as_ alpha : (forall w, veq w w = true) -> p_m u = n -> sdinv u as_ (repeat 0%nat n) u -> length alpha = n -> exists q, sp_derivative ksqrt tol veq (L u) alpha = Ok (L q) /\ sdinv u as_ alpha q.
    Proof.
      intros Hv Um H E. rewrite sp_derivative_fold by (rewrite E; symmetry; exact Um). destruct (sdinv_fold u as_ (dorder alpha) Hv Um _ u (repeat_length _ _) H) as (q & Eq & Hq); [intros i Hi; rewrite <- E; apply dorder_bound, Hi|].
      exists q. split; [exact Eq|]. rewrite <- E in Hq. rewrite fold_up_count in Hq; [exact Hq|apply dorder_bound|apply dorder_count].
    Qed.
    Lemma sdual_monomial_ok u as_ mu : (forall w, veq w w = true) -> p_m u = n -> sdinv u as_ (repeat 0%nat n) u -> length mu = n -> (nsum mu <= p_r u)%nat ->
      sp_dual_monomial ksqrt tol veq mu (L u) = Ok (map (fun j => as_ j mu) (seq 0 (length (p_cols u)))).
    Proof.
      intros Hv Um H E Hmu. unfold sp_dual_monomial. destruct (sderivative_sdinv u as_ mu Hv Um H E) as (q & Eq & Hq). rewrite Eq. cbn [bind]. pose proof Hq as (Vq & [S1 S2 S3] & Qr & _). rewrite E. rewrite (lift_call _ _ _ _ _ _ _ TU q); [|exact Vq|congruence|apply repeat_length]. cbn [bind]. rewrite (sdinv_pv u as_ mu q _ Hq) by apply repeat_length.
      rewrite map_map. f_equal. apply map_ext. intros j. rewrite (ksum_ext _ (fun nu => if mi_dec nu (repeat 0%nat n) then dcoef mu (as_ j) nu else 0)).
      - rewrite (ksum_delta mi_dec (dcoef mu (as_ j))); [|apply NoDup_all_mi|apply in_all_mi; rewrite repeat_length, nsum_repeat0; lia]. unfold dcoef.
        assert (Z : mi_add (repeat 0%nat n) mu = mu) by (rewrite <- E; clear; induction mu as [|k mu IH]; [reflexivity|]; unfold mi_add in *; cbn [length repeat combine map fst snd]; rewrite IH; reflexivity). rewrite Z.
        replace (mi_factorial (repeat 0%nat n)) with 1%nat by (clear; induction n as [|k IH]; [reflexivity|]; cbn [repeat]; rewrite mi_factorial_cons, <- IH; reflexivity). rewrite kofnat_1. field. split; [apply k1_neq_0|apply mfac_neq].
      - intros nu Hnu. apply in_all_mi in Hnu as [N1 _]. rewrite mpow_at_zero by exact N1. destruct (mi_dec _ _); ring.
    Qed.
    Theorem sc_to_monomial b k r p : (forall w, veq w w = true) -> spoly_of b vs k r p -> exists q, sp_to_monomial ksqrt tol veq p = Ok q /\ poly_of Monomial n k r q /\ forall y, length y = n -> exists v, sp_call p (pt y) = Ok v /\ call q y = Ok v.
    Proof.
      intros Hv Hp. destruct (of_lift _ _ _ _ Hp) as (u & -> & Hb & Hu). pose proof (poly_of_valid _ _ _ _ _ Hu) as (Vu & U1 & U2 & U3 & U4). destruct (sdinv_start u Vu U2) as [as_ H0].
      unfold sp_to_monomial. change (sp_m (L u)) with (p_m u). change (sp_r (L u)) with (p_r u). change (sp_n (L u)) with (length (p_cols u)). rewrite U2, U4, U3, generate_all_eq. cbn [bind].
      rewrite (mapM_ok _ (fun mu => map (fun j => as_ j mu) (seq 0 k))) by (intros mu Hmu; apply in_all_mi in Hmu as [M1 M2]; rewrite (sdual_monomial_ok u as_ mu Hv U2 H0 M1) by lia; rewrite U3; reflexivity). cbn [bind].
      assert (Hk : k <> 0%nat) by (destruct Vu as ((Hc & _) & _); intros ->; destruct (p_cols u); [apply Hc; reflexivity|discriminate]).
      assert (HR : rect (get_dimension r n) (cols_of_rows (F := Q) k (map (fun mu => map (fun j => as_ j mu) (seq 0 k)) (all_mi n r)))).
      { split; [unfold cols_of_rows; destruct k; [congruence|discriminate]|]. intros c Hc. unfold cols_of_rows in Hc. apply in_map_iff in Hc as (j & <- & _). rewrite !map_length. pose proof (map_all_mi_length (F := Q) n r (fun _ => 0)) as El. rewrite map_length in El. exact El. }
      destruct (new_poly_ok Monomial _ r n HR) as (q & Eq & Vq & Q1 & Q2 & Q3 & Q4); [intros _; rewrite <- U4; apply Vu; pose proof (tu_n _ _ _ _ _ _ _ TU); lia|]. exists q. split; [exact Eq|].
      assert (Hq : poly_of Monomial n k r q) by (apply poly_of_intro; try assumption; rewrite Q2; unfold cols_of_rows; rewrite map_length, seq_length; reflexivity). split; [exact Hq|].
      intros y Ly. exists (pv u (X y)). split; [apply (lift_call _ _ _ _ _ _ _ TU); assumption|]. destruct (call_pv _ _ _ _ _ y Hq Ly) as [-> _]. f_equal. rewrite (sdinv_pv u as_ _ u y H0 Ly). unfold pv. rewrite Q1, Q2, Q3, Q4. unfold cols_of_rows. rewrite map_map, U3. apply map_ext_in. intros j Hj. apply in_seq in Hj. cbn [val].
      rewrite nsum_repeat0, U4. replace (r - 0)%nat with r by lia. unfold mval. apply ksum_ext. intros nu Hnu. apply in_all_mi in Hnu as [N1 N2]. rewrite dcoef_zero by exact N1. f_equal. rewrite map_map. rewrite (map_ext_in _ (as_ j)) by (intros mu _; apply (nth_mapseq (fun j => as_ j mu)); lia). apply cf_map; assumption.
    Qed.
  End One.
End SCalls.
