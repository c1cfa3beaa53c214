(** Higher derivatives of polynomials: order independence and Taylor coefficients. *)
From Verif Require PermFacts.
From Verif Require Import Base MultiIndex MultiIndexFacts MultiCapFacts MultiIndexCache Fld CodeGen CodeGenFacts LinSolve MultiCoef MultiCoefFacts LagrangeCache Unisolv Poly PolyFacts LagFacts PolyEval PolyOps PolyOpsB PolyDeriv PolyObj PolyPow PolyCalls IntegralCache Integrate IntFacts HasInt Bases.
From Coq Require Import Field_theory Field.

Section DerivFacts.
  Context {F : fld}.
  Add Field Kfield29 : (kth F).
  Local Open Scope fld_scope.

  (** ** Uniqueness of the derivative *)
  Definition prep1 (r : nat) (c : nat -> F) (f : F -> F) : Prop := forall h, f h = ksum (seq 0 (S r)) (fun k => c k * kpow h k).
  Lemma polyfun_polydeg f : polyfun f -> exists r, polydeg 1 r (fun x : list F => f (hd 0 x)).
  Proof.
    induction 1 as [c| |f g _ [r Hr] _ [s Hs]|f g _ [r Hr] _ [s Hs]].
    - exists 0%nat. apply polydeg_const.
    - exists 1%nat. exists [0; 1]. split; [reflexivity|]. intros [|h [|? ?]] E; try discriminate. cbn [hd]. unfold mval. rewrite ksum_1. cbn [seq]. rewrite !ksum_cons. rewrite !nth_cf by (rewrite ?get_dimension_1; cbn; lia). cbn [nth mpow kpow]. change (ksum [] _) with (0 : F). ring.
    - exists (Nat.max r s). destruct (polydeg_elevate 1 r (Nat.max r s) _ ltac:(lia) Hr) as (d & Ld & Hd). destruct (polydeg_elevate 1 s (Nat.max r s) _ ltac:(lia) Hs) as (e & Le & He).
      exists (map (fun nu => cf 1 (Nat.max r s) d nu + cf 1 (Nat.max r s) e nu) (all_mi 1 (Nat.max r s))). split; [apply map_all_mi_length|]. intros x Hx. rewrite (Hd x Hx), (He x Hx), (mval_ext _ _ _ _ _ eq_refl). unfold mval. rewrite <- ksum_plus. apply ksum_ext. intros. ring.
    - exists (r + s)%nat. apply (polydeg_mul 1 r s _ _ Hr Hs).
  Qed.
  Lemma dat_unique f (d e : F) : dat f d -> dat f e -> d = e.
  Proof.
    intros (u & Hu & Eu) (v & Hv & Ev). assert (Hw : polyfun (fun h => u h + (fun _ => - (1)) h * v h)) by (repeat first [apply pf_add|apply pf_mul|apply pf_const|assumption]).
    destruct (polyfun_polydeg _ Hw) as (r & c & Lc & Hc). cbv beta in Hc.
    pose (a := fun nu : list nat => match nu with [0%nat] => 0 | [1%nat] => d - e | [S (S k)] => cf 1 r c [k] | _ => 0 end).
    assert (H : forall mu, In mu (all_mi 1 (S (S r))) -> a mu = (fun _ => 0) mu).
    { apply (coefficients_unique 1 (S (S r))). intros [|h [|? ?]] E; try discriminate. transitivity (0 : F); [|symmetry; apply ksum_zero; intros; ring].
      rewrite ksum_1. rewrite <- (seq_app 2 (S r)) || idtac. change (seq 0 (S (S (S r)))) with (0%nat :: 1%nat :: seq 2 (S r)). rewrite !ksum_cons. rewrite <- (seq_shift (S r) 1), <- (seq_shift (S r) 0), map_map, ksum_map. cbn [a mpow kpow].
      transitivity (h * (d - e) + h * h * (u h + - (1) * v h)); [|].
      - specialize (Hc [h] eq_refl). cbn [hd] in Hc. rewrite Hc. unfold mval. rewrite ksum_1, <- ksum_scale_l. transitivity (0 + ((d - e) * (h * 1 * 1) + ksum (seq 0 (S r)) (fun x => cf 1 r c [x] * (h * (h * kpow h x) * 1)))); [ring|]. transitivity (h * (d - e) + ksum (seq 0 (S r)) (fun x => cf 1 r c [x] * (h * (h * kpow h x) * 1))); [ring|]. f_equal. apply ksum_ext. intros k _. cbn [mpow]. ring.
      - transitivity (f h - f h); [|ring]. rewrite (Eu h) at 1. rewrite (Ev h) at 1. ring. }
    specialize (H [1%nat]). cbn [a] in H. transitivity ((d - e) + e); [ring|]. rewrite H; [ring|]. apply in_all_mi. cbn. lia.
  Qed.
  Lemma pderiv_unique f i x (d e : F) : is_pderiv f i x d -> is_pderiv f i x e -> d = e.
  Proof. apply dat_unique. Qed.

  (** ** Monomial coefficients of derivatives *)
  Definition bounded (m r : nat) (a : list nat -> F) : Prop := forall nu, length nu = m -> (r < nsum nu)%nat -> a nu = 0.
  Lemma pderiv_rep m r a f g i : (i < m)%nat -> bounded m r a -> rep m r a f -> (forall x, length x = m -> is_pderiv f i x (g x)) ->
    rep m (r - 1) (fun nu => kofnat (S (nth i nu 0%nat)) * a (up nu i)) g.
  Proof.
    intros Hi Ha Hf Hg x Hx. apply (pderiv_unique f i x); [apply Hg, Hx|]. destruct (Nat.eq_dec r 0) as [-> |Hr].
    - apply (pderiv_ext (mval m 0 (map a (all_mi m 0))) _ i x 0 _ m Hx).
      + intros y Hy. rewrite (Hf y Hy). apply mval_ext. reflexivity.
      + symmetry. apply ksum_zero. intros nu Hnu. apply in_all_mi in Hnu as [N1 N2]. rewrite (Ha (up nu i)); [ring|rewrite up_length; exact N1|rewrite up_sum; lia].
      + apply pderiv_const_0; assumption.
    - apply (pderiv_ext (mval m r (map a (all_mi m r))) _ i x (mval m (r - 1) (map (fun tau => kofnat (S (nth i tau 0%nat)) * cf m r (map a (all_mi m r)) (up tau i)) (all_mi m (r - 1))) x) _ m Hx).
      + intros y Hy. rewrite (Hf y Hy). apply mval_ext. reflexivity.
      + rewrite (mval_ext _ _ _ _ _ eq_refl). apply ksum_ext. intros nu Hnu. apply in_all_mi in Hnu as [N1 N2]. rewrite cf_map; [reflexivity|rewrite up_length; exact N1|rewrite up_sum; lia].
      + apply mval_deriv; [exact Hi|lia|exact Hx].
  Qed.

  (** The coefficients of the derivative of order [beta] *)
  Definition dcoef (beta : list nat) (a : list nat -> F) (nu : list nat) : F := kofnat (mi_factorial (mi_add nu beta)) / kofnat (mi_factorial nu) * a (mi_add nu beta).
  Lemma mi_factorial_neq nu : kofnat (F := F) (mi_factorial nu) <> 0.
  Proof. apply kofnat_neq. intros E. pose proof (mnom_fact nu) as H. rewrite E, Nat.mul_0_r in H. pose proof (fact_neq_0 (nsum nu)). lia. Qed.
  Lemma mi_add_up nu beta i : length nu = length beta -> mi_add (up nu i) beta = mi_add nu (up beta i).
  Proof.
    revert beta i. induction nu as [|a nu IH]; intros [|b beta] i E; try discriminate; [destruct i; reflexivity|]. injection E as E. destruct i as [|i]; unfold up, mi_add in *; cbn [upd nth combine map fst snd].
    - f_equal. lia.
    - f_equal. apply IH. exact E.
  Qed.
  Lemma mi_factorial_up nu i : (i < length nu)%nat -> mi_factorial (up nu i) = (S (nth i nu 0%nat) * mi_factorial nu)%nat.
  Proof.
    revert i. induction nu as [|a nu IH]; intros i Hi; cbn [length] in Hi; [lia|]. destruct i as [|i]; unfold up in *; cbn [upd nth]; rewrite !mi_factorial_cons.
    - change (fact (S a)) with (S a * fact a)%nat. lia.
    - rewrite IH by lia. lia.
  Qed.
  Lemma dcoef_up beta a nu i : length nu = length beta -> (i < length nu)%nat -> kofnat (S (nth i nu 0%nat)) * dcoef beta a (up nu i) = dcoef (up beta i) a nu.
  Proof.
    intros E Hi. unfold dcoef. rewrite mi_add_up by exact E. rewrite (mi_factorial_up nu i Hi), kofnat_mul. pose proof (mi_factorial_neq nu). assert (kofnat (F := F) (S (nth i nu 0%nat)) <> 0) by (apply kofnat_neq; discriminate). field. split; assumption.
  Qed.
  Lemma dcoef_bounded m r a beta : length beta = m -> bounded m r a -> bounded m (r - nsum beta) (dcoef beta a).
  Proof. intros Hb Ha nu N1 N2. unfold dcoef. rewrite (Ha (mi_add nu beta)); [ring|rewrite mi_add_length; congruence|rewrite mi_add_sum by congruence; lia]. Qed.
  Lemma dcoef_zero m a nu : length nu = m -> dcoef (repeat 0%nat m) a nu = a nu.
  Proof.
    intros E. unfold dcoef. replace (mi_add nu (repeat 0%nat m)) with nu; [field; apply mi_factorial_neq|]. rewrite <- E. clear. induction nu as [|b nu IH]; [reflexivity|]. unfold mi_add in *. cbn [length repeat combine map fst snd]. rewrite <- IH. f_equal. lia.
  Qed.
  Lemma rep_ext_coef m r (a a' : list nat -> F) f : (forall nu, In nu (all_mi m r) -> a nu = a' nu) -> rep m r a f -> rep m r a' f.
  Proof. intros H Hr x Hx. rewrite (Hr x Hx). apply ksum_ext. intros nu Hnu. rewrite (H nu Hnu). reflexivity. Qed.

  (** [q] is the derivative of order [beta] of [p], whose components have the
      monomial coefficients [as_]. *)
  Definition dinv (p : poly F) (as_ : list (list nat -> F)) (beta : list nat) (q : poly F) : Prop :=
    valid q /\ same_shape p q /\ p_r q = (p_r p - nsum beta)%nat /\
    Forall2 (fun a c => bounded (p_m p) (p_r p) a /\ rep (p_m p) (p_r q) (dcoef beta a) (val (p_basis p) (p_m p) (p_r q) c)) as_ (p_cols q).
  Lemma dinv_start (p : poly F) : valid p -> exists as_, dinv p as_ (repeat 0%nat (p_m p)) p.
  Proof.
    intros Vp. pose proof Vp as ((_ & HR) & _ & _). assert (H : exists as_, Forall2 (fun a c => bounded (p_m p) (p_r p) a /\ rep (p_m p) (p_r p) (dcoef (repeat 0%nat (p_m p)) a) (val (p_basis p) (p_m p) (p_r p) c)) as_ (p_cols p)).
    { revert HR. generalize (p_cols p). induction l as [|c l IH]; intros HR; [exists []; constructor|]. destruct IH as [as_ IH]; [intros; apply HR; right; assumption|].
      destruct (polydeg_val (p_basis p) (p_m p) (p_r p) c (HR c (or_introl eq_refl))) as (d & Ld & Hd). exists (cf (p_m p) (p_r p) d :: as_). constructor; [|exact IH]. split.
      - intros nu _ Hn. apply cf_out. exact Hn.
      - intros x Hx. rewrite (Hd x Hx). unfold mval. apply ksum_ext. intros nu Hnu. apply in_all_mi in Hnu as [N1 _]. rewrite dcoef_zero by exact N1. reflexivity. }
    destruct H as [as_ H]. exists as_. split; [exact Vp|]. split; [constructor; reflexivity|]. split; [|exact H]. rewrite nsum_repeat0. lia.
  Qed.
  Lemma dinv_step (p : poly F) as_ beta q i : length beta = p_m p -> dinv p as_ beta q -> (i < p_m p)%nat -> exists q', partial_derivative q i = Ok q' /\ dinv p as_ (up beta i) q'.
  Proof.
    intros Hb (Vq & [S1 S2 S3] & Qr & HF) Hi. destruct (partial_derivative_ok q i Vq ltac:(congruence)) as (q' & E & V' & [T1 T2 T3] & R' & HD). exists q'. split; [exact E|]. split; [exact V'|]. split; [constructor; congruence|].
    split; [rewrite R', Qr, up_sum by lia; lia|]. unfold pderivs in HD. rewrite S1, S2, T1, T2, S1, S2, R' in HD. rewrite R'. clear - HF HD Hb Hi Qr F.
    revert HD. generalize (p_cols q'). induction HF as [|a c as_ cs [H1 H2] HF IH]; intros ds HD; inversion HD as [|? d ? ds' Hd HD']; constructor; [|apply IH; assumption].
    split; [exact H1|]. refine (rep_ext_coef _ _ _ _ _ _ (pderiv_rep (p_m p) (p_r q) (dcoef beta a) _ _ i Hi _ H2 Hd)).
    - intros nu Hnu. apply in_all_mi in Hnu as [N1 _]. apply dcoef_up; congruence.
    - rewrite Qr. apply dcoef_bounded; assumption.
  Qed.
  (** Taking partial derivatives one after the other *)
  Lemma dinv_fold (p : poly F) as_ l : forall beta q, length beta = p_m p -> dinv p as_ beta q -> (forall i, In i l -> (i < p_m p)%nat) ->
    exists q', foldM partial_derivative q l = Ok q' /\ dinv p as_ (fold_left up l beta) q'.
  Proof.
    induction l as [|i l IH]; intros beta q Hb Hq Hl; [exists q; split; [reflexivity|exact Hq]|]. destruct (dinv_step p as_ beta q i Hb Hq (Hl i (or_introl eq_refl))) as (q1 & E & H1). cbn [foldM]. rewrite E. cbn [bind fold_left].
    apply IH; [rewrite up_length; exact Hb|exact H1|intros; apply Hl; right; assumption].
  Qed.
  Lemma fold_up_length l : forall beta, length (fold_left up l beta) = length beta.
  Proof. induction l as [|i l IH]; intros beta; [reflexivity|]. cbn [fold_left]. rewrite IH. apply up_length. Qed.
  Lemma fold_up_nth l : forall beta k, (forall i, In i l -> (i < length beta)%nat) -> nth k (fold_left up l beta) 0%nat = (nth k beta 0%nat + count_occ Nat.eq_dec l k)%nat.
  Proof.
    induction l as [|i l IH]; intros beta k Hl; [cbn; lia|]. cbn [fold_left]. rewrite IH by (rewrite up_length; intros; apply Hl; right; assumption). cbn [count_occ]. unfold up. pose proof (Hl i (or_introl eq_refl)). destruct (Nat.eq_dec i k) as [E|E].
    - rewrite <- E. rewrite nth_upd_eq by assumption. lia.
    - rewrite nth_upd_neq by exact E. lia.
  Qed.
  Lemma fold_up_count l alpha : (forall i, In i l -> (i < length alpha)%nat) -> (forall k, count_occ Nat.eq_dec l k = nth k alpha 0%nat) -> fold_left up l (repeat 0%nat (length alpha)) = alpha.
  Proof.
    intros Hl Hc. apply (nth_ext _ _ 0%nat 0%nat); [rewrite fold_up_length; apply repeat_length|]. intros k _. rewrite fold_up_nth by (rewrite repeat_length; exact Hl). rewrite nth_repeat. apply Hc.
  Qed.
  (** The order used by [derivative] *)
  Definition dorder (alpha : list nat) : list nat := flat_map (fun i => repeat i (nth i alpha 0%nat)) (seq 0 (length alpha)).
  Lemma foldM_app {S A} (f : S -> A -> result S) l k : forall s, foldM f s (l ++ k) = let* t := foldM f s l in foldM f t k.
  Proof. induction l as [|a l IH]; intros s; [reflexivity|]. cbn [app foldM]. destruct (f s a); [apply IH|reflexivity]. Qed.
  Lemma foldM_const {S A} (f : S -> result S) (l : list A) : forall s, foldM (fun s _ => f s) s l = foldM (fun s _ => f s) s (repeat 0%nat (length l)).
  Proof. induction l as [|a l IH]; intros s; [reflexivity|]. cbn [length repeat foldM]. destruct (f s); [apply IH|reflexivity]. Qed.
  Lemma derivative_fold (p : poly F) alpha : length alpha = p_m p -> derivative p alpha = foldM partial_derivative p (dorder alpha).
  Proof.
    intros E. unfold derivative, domain_dimension, dorder. rewrite E, Nat.eqb_refl. cbn [assert_ bind]. rewrite <- E. assert (H : forall k, In k (seq 0 (length alpha)) -> (k < length alpha)%nat) by (intros k Hk; apply in_seq in Hk; lia).
    revert H. generalize (seq 0 (length alpha)) p. clear p E. induction l as [|i l IH]; intros p H; [reflexivity|]. cbn [foldM flat_map]. rewrite (PermFacts.get_ok _ _ 0%nat) by (apply H; left; reflexivity). cbn [bind].
    rewrite foldM_app. set (k := nth i alpha 0%nat). 
    assert (R : forall j q, foldM (fun (dp : poly F) (_ : nat) => partial_derivative dp i) q (seq j k) = foldM partial_derivative q (repeat i k)).
    { induction k as [|k IHk]; intros j q; [reflexivity|]. cbn [seq repeat foldM]. destruct (partial_derivative q i); [apply IHk|reflexivity]. }
    rewrite R. destruct (foldM partial_derivative p (repeat i k)); [|reflexivity]. cbn [bind]. apply IH. intros; apply H; right; assumption.
  Qed.
  Lemma count_repeat i n k : count_occ Nat.eq_dec (repeat i n) k = if Nat.eqb i k then n else 0%nat.
  Proof. induction n as [|n IH]; cbn [repeat count_occ]; [destruct (Nat.eqb i k); reflexivity|]. destruct (Nat.eq_dec i k), (Nat.eqb_spec i k); try congruence; rewrite IH; reflexivity. Qed.
  Lemma dorder_count alpha k : count_occ Nat.eq_dec (dorder alpha) k = nth k alpha 0%nat.
  Proof.
    unfold dorder. assert (G : forall n s, count_occ Nat.eq_dec (flat_map (fun i => repeat i (nth i alpha 0%nat)) (seq s n)) k = if (s <=? k)%nat && (k <? s + n)%nat then nth k alpha 0%nat else 0%nat).
    { induction n as [|n IH]; intros s; cbn [seq flat_map]; [cbn [count_occ]; destruct (Nat.leb_spec s k), (Nat.ltb_spec k (s + 0)); cbn [andb]; try reflexivity; lia|]. rewrite count_occ_app, count_repeat, IH.
      destruct (Nat.eqb_spec s k), (Nat.leb_spec s k), (Nat.leb_spec (S s) k), (Nat.ltb_spec k (s + S n)), (Nat.ltb_spec k (S s + n)); cbn [andb]; try lia; replace s with k by lia; lia. }
    rewrite G. destruct (Nat.leb_spec 0 k), (Nat.ltb_spec k (0 + length alpha)); cbn [andb]; try lia. symmetry. apply nth_overflow. lia.
  Qed.
  Lemma dorder_bound alpha i : In i (dorder alpha) -> (i < length alpha)%nat.
  Proof. unfold dorder. intros H. apply in_flat_map in H as (j & Hj & H). apply repeat_spec in H. apply in_seq in Hj. lia. Qed.
  Theorem derivative_dinv (p : poly F) as_ alpha : dinv p as_ (repeat 0%nat (p_m p)) p -> length alpha = p_m p -> exists q, derivative p alpha = Ok q /\ dinv p as_ alpha q.
  Proof.
    intros H E. rewrite derivative_fold by exact E. destruct (dinv_fold p as_ (dorder alpha) _ p (repeat_length _ _) H) as (q & Eq & Hq); [intros i Hi; rewrite <- E; apply dorder_bound, Hi|].
    exists q. split; [exact Eq|]. rewrite <- E in Hq. rewrite fold_up_count in Hq; [exact Hq|apply dorder_bound|apply dorder_count].
  Qed.
  (** Values are determined by the invariant. *)
  Lemma dinv_pv (p : poly F) as_ beta q x : dinv p as_ beta q -> length x = p_m p -> pv q x = map (fun a => ksum (all_mi (p_m p) (p_r p - nsum beta)) (fun nu => dcoef beta a nu * mpow x nu)) as_.
  Proof.
    intros (_ & [S1 S2 _] & Qr & HF) Hx. unfold pv. rewrite S1, S2. rewrite Qr in *. clear - HF Hx. induction HF as [|a c as_ cs [_ H] HF IH]; [reflexivity|]. cbn [map]. rewrite IH, (H x Hx). reflexivity.
  Qed.
End DerivFacts.
