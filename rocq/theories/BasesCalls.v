(** Basis conversion, dual bases and higher derivatives in terms of calls. *)
From Verif Require PermFacts.
From Verif Require Import Base MultiIndex MultiIndexFacts MultiCapFacts MultiIndexCache Fld CodeGen CodeGenFacts LinSolve MultiCoef MultiCoefFacts LagrangeCache Unisolv Poly PolyFacts LagFacts PolyEval PolyOps PolyOpsB PolyDeriv PolyObj PolyPow PolyCalls IntegralCache Integrate IntFacts HasInt QHom Gram Bases DualOne BasesFacts DerivFacts.
From Coq Require Import Field_theory Field.

Section BasesCalls.
  Context {F : fld}.
  Add Field Kfield30 : (kth F).
  Local Open Scope fld_scope.

  (** ** Uniqueness of coefficients *)
  Lemma val_unique b m r (c d : list F) : length c = get_dimension r m -> length d = get_dimension r m -> (forall x, length x = m -> val b m r c x = val b m r d x) -> c = d.
  Proof.
    intros Lc Ld H. apply (cf_ext_eq m r); [exact Lc|exact Ld|]. intros mu M1 M2. assert (I : In mu (all_mi m r)) by (apply in_all_mi; auto). destruct b; cbn [val] in H.
    - apply (coefficients_unique m r (cf m r c) (cf m r d) H mu I).
    - assert (Z : cf m r c mu - cf m r d mu = 0).
      { apply (bern_independent m r (fun nu => cf m r c nu - cf m r d nu)); [|exact I]. intros x Hx. rewrite (ksum_ext _ (fun nu => cf m r c nu * bern r nu x - cf m r d nu * bern r nu x)) by (intros; ring). rewrite ksum_minus. fold (bval m r c x) (bval m r d x). rewrite (H x Hx). ring. }
      transitivity (cf m r c mu - cf m r d mu + cf m r d mu); [ring|]. rewrite Z. ring.
    - rewrite <- !(lval_nodal m r) by assumption. apply H. apply lagrange_point_length, M1.
  Qed.
  Lemma poly_unique (p q : poly F) : valid p -> valid q -> p_basis q = p_basis p -> p_m q = p_m p -> p_r q = p_r p -> (forall x, length x = p_m p -> pv q x = pv p x) -> q = p.
  Proof.
    intros (Rp & _ & Cp) (Rq & _ & Cq) Eb Em Er Hv. assert (Ec : p_cols q = p_cols p).
    { unfold pv in Hv. rewrite Eb, Em, Er in *. destruct Rp as [_ Rp], Rq as [_ Rq]. clear Cp Cq. revert Rp Rq Hv. generalize (p_cols p) (p_cols q). induction l as [|c l IH]; intros [|d l'] Rp Rq Hv.
      - reflexivity.
      - specialize (Hv (repeat 0 (p_m p)) (repeat_length _ _)). discriminate.
      - specialize (Hv (repeat 0 (p_m p)) (repeat_length _ _)). discriminate.
      - f_equal.
        + apply (val_unique (p_basis p) (p_m p) (p_r p)); [apply Rq; left; reflexivity|apply Rp; left; reflexivity|]. intros x Hx. specialize (Hv x Hx). cbn [map] in Hv. congruence.
        + apply IH; [intros; apply Rp; right; assumption|intros; apply Rq; right; assumption|]. intros x Hx. specialize (Hv x Hx). cbn [map] in Hv. congruence. }
    rewrite Eb, Em, Er, Ec, Cp in Cq. destruct p, q. cbn in *. congruence.
  Qed.

  (** ** Conversion *)
  Lemma poly_of_valid b m n r (p : poly F) : poly_of b m n r p -> valid p /\ p_basis p = b /\ p_m p = m /\ length (p_cols p) = n /\ p_r p = r.
  Proof. intros (Hp & Hb & Hm & Hn & Hr). split; [apply is_poly_valid, Hp|]. auto. Qed.
  Theorem convert_calls b b' m n r (p : poly F) : poly_of b m n r p -> (b' = Bernstein -> b <> Bernstein -> (0 < m)%nat -> (2 * r < 20)%nat) ->
    exists q, convert_polynomial_to_basis p b' = Ok q /\ poly_of b' m n r q /\ forall x, length x = m -> exists u, call p x = Ok u /\ call q x = Ok u.
  Proof.
    intros Hp Hd. pose proof (poly_of_valid _ _ _ _ _ Hp) as (Vp & Pb & Pm & Pn & Pr). destruct (convert_ok p b' Vp) as (q & Eq & Vq & Qb & Qm & Qr & Qn & Qv); [rewrite Pb, Pm, Pr; exact Hd|].
    exists q. split; [exact Eq|]. assert (Hq : poly_of b' m n r q) by (apply poly_of_intro; congruence || exact Vq). split; [exact Hq|]. intros x Hx. exists (pv p x). destruct (call_pv _ _ _ _ _ x Hp Hx) as [Ep _], (call_pv _ _ _ _ _ x Hq Hx) as [Eq' _]. rewrite Qv in Eq' by congruence. auto.
  Qed.
  Theorem convert_round_trip b b' m n r (p : poly F) : poly_of b m n r p -> (b <> b' -> b = Bernstein \/ b' = Bernstein -> (0 < m)%nat -> (2 * r < 20)%nat) ->
    exists q, convert_polynomial_to_basis p b' = Ok q /\ convert_polynomial_to_basis q b = Ok p.
  Proof.
    intros Hp Hd. pose proof (poly_of_valid _ _ _ _ _ Hp) as (Vp & Pb & Pm & Pn & Pr). destruct (convert_ok p b' Vp) as (q & Eq & Vq & Qb & Qm & Qr & Qn & Qv).
    { rewrite Pb, Pm, Pr. intros E1 E2. apply Hd; [congruence|right; exact E1]. }
    destruct (convert_ok q b Vq) as (s & Es & Vs & Sb & Sm & Sr & Sn & Sv).
    { rewrite Qb, Qm, Qr, Pm, Pr. intros E1 E2. apply Hd; [congruence|left; exact E1]. }
    exists q. split; [exact Eq|]. rewrite Es. f_equal. apply poly_unique; [exact Vp|exact Vs|congruence|congruence|congruence|]. intros x Hx. rewrite Sv by congruence. apply Qv, Hx.
  Qed.
  Theorem convert_limit m r (p : poly F) : (0 < m)%nat -> (10 <= r)%nat -> poly_of Lagrange m 1 r p -> convert_polynomial_to_basis p Bernstein = Err AssertionError.
  Proof.
    intros Hm Hr Hp. pose proof (poly_of_valid _ _ _ _ _ Hp) as (Vp & Pb & Pm & Pn & Pr). unfold convert_polynomial_to_basis, domain_dimension, target_dimension, degree. rewrite Pb, Pm, Pn, Pr. cbn [basis_eqb]. rewrite generate_all_eq. cbn [bind Nat.eqb].
    assert (H : forall mu, In mu (all_mi m r) -> dual_bernstein_basis_fn mu r p = Err AssertionError).
    { intros mu Hmu. apply in_all_mi in Hmu as [M1 M2]. assert (H20 : (r < 20)%nat) by (rewrite <- Pr; apply Vp; lia). unfold dual_bernstein_basis_fn. destruct (dual_polynomial_ok (F := F) mu r M2 ltac:(lia)) as (D & X & ED & (VD & Db & Dc & Dr & Dm) & _). rewrite ED. cbn [bind]. rewrite Pb.
      destruct (to_monomial_ok D VD) as (D' & ED' & VD' & D'b & D'm & D'n & D'r & _). rewrite ED'. cbn [bind]. destruct (to_monomial_ok p Vp) as (P' & EP' & VP' & P'b & P'm & P'n & P'r & _). rewrite EP'. cbn [bind].
      rewrite (calls_mul_limit Monomial m r r D' P'); [reflexivity| | |exact Hm|lia]; apply poly_of_intro; try congruence. rewrite D'n, Dc. reflexivity. }
    pose proof (get_dimension_pos r m) as L. rewrite dim_all_mi in L. destruct (all_mi m r) as [|mu l]; [cbn in L; lia|]. cbn [mapM dual_polynomial_basis_fn]. rewrite (H mu (or_introl eq_refl)). reflexivity.
  Qed.

  (** ** Dual bases *)
  Theorem dual_bernstein_basis nu mu r (p : poly F) : length mu = length nu -> (list_sum nu <= r)%nat -> (list_sum mu <= r)%nat -> ((0 < length nu)%nat -> (2 * r < 20)%nat) -> basis_fn Bernstein nu r = Ok p ->
    dual_bernstein_basis_fn mu r p = Ok [if mi_dec mu nu then 1 else 0].
  Proof.
    intros E Hnu Hmu Hr Hp. destruct (basis_fn_ok (F := F) Bernstein nu r Hnu ltac:(lia)) as (q & Eq & (Vq & Qb & Qc & Qr & Qm)). rewrite Hp in Eq. injection Eq as <-.
    rewrite (dual_bernstein_ok mu r p (unit_column (length nu) r nu) (unit_column (length nu) r nu) Vq); [|congruence|exact Qr|exact Qc|exact Hmu|rewrite E; exact Hr|rewrite Qb, E; reflexivity].
    unfold unit_column. rewrite <- E. rewrite cf_map by (reflexivity || exact Hmu). reflexivity.
  Qed.
  Theorem dual_lagrange_basis nu mu r (p : poly F) : length mu = length nu -> (list_sum nu <= r)%nat -> (list_sum mu <= r)%nat -> basis_fn Lagrange nu r = Ok p ->
    dual_lagrange_basis_fn mu r p = Ok [if mi_dec mu nu then 1 else 0].
  Proof.
    intros E Hnu Hmu Hp. assert (Hr : (0 < length nu)%nat -> (r < 20)%nat).
    { intros H0. unfold basis_fn in Hp. destruct (get_index nu r); [|discriminate]. cbn [bind] in Hp. destruct (set _ _ _) as [c|]; [|discriminate]. cbn [bind] in Hp. unfold new_poly in Hp. destruct (0 <? length (hd [] [c]))%nat; [|discriminate]. cbn [bind assert_] in Hp.
      destruct (Nat.ltb_spec 0 (length nu)); [|lia]. cbn [bind] in Hp. destruct (get_degree_from_dimension _ _) as [d|] eqn:Ed; [|discriminate]. cbn [bind] in Hp. destruct (Nat.eqb_spec r d) as [Erd|]; [|discriminate]. apply get_degree_inv in Ed. lia. }
    destruct (basis_fn_ok (F := F) Lagrange nu r Hnu Hr) as (q & Eq & (Vq & Qb & Qc & Qr & Qm)). rewrite Hp in Eq. injection Eq as <-.
    unfold dual_lagrange_basis_fn. rewrite call_ok; [|exact Vq|rewrite Qm, <- E; apply lagrange_point_length; reflexivity]. unfold pv. rewrite Qb, Qc, Qr, Qm. cbn [map val]. rewrite E. rewrite lval_nodal; [|unfold unit_column; apply map_all_mi_length|exact E|exact Hmu].
    unfold unit_column. rewrite cf_map by assumption. reflexivity.
  Qed.

  (** ** Derivatives *)
  Lemma dinv_poly_of b m n r (p : poly F) as_ beta q : poly_of b m n r p -> dinv p as_ beta q -> poly_of b m n (r - list_sum beta) q.
  Proof. intros Hp (Vq & [S1 S2 S3] & Qr & _). pose proof (poly_of_valid _ _ _ _ _ Hp) as (Vp & Pb & Pm & Pn & Pr). apply poly_of_intro; try congruence. rewrite Qr, Pr. reflexivity. Qed.
  (** Partial derivatives in any order with the right multiplicities *)
  Theorem derivative_any_order b m n r (p : poly F) alpha l : poly_of b m n r p -> length alpha = m -> (forall i, In i l -> (i < m)%nat) -> (forall k, count_occ Nat.eq_dec l k = nth k alpha 0%nat) ->
    exists q q', derivative p alpha = Ok q /\ foldM partial_derivative p l = Ok q' /\ poly_of b m n (r - list_sum alpha) q /\ q' = q.
  Proof.
    intros Hp Ha Hl Hc. pose proof (poly_of_valid _ _ _ _ _ Hp) as (Vp & Pb & Pm & Pn & Pr). destruct (dinv_start p Vp) as [as_ H0]. destruct (derivative_dinv p as_ alpha H0 ltac:(congruence)) as (q & Eq & Hq).
    destruct (dinv_fold p as_ l _ p (repeat_length _ _) H0) as (q' & Eq' & Hq'); [rewrite Pm; exact Hl|]. replace (p_m p) with (length alpha) in Hq' by congruence. rewrite fold_up_count in Hq'; [|rewrite Ha; exact Hl|exact Hc].
    exists q, q'. split; [exact Eq|]. split; [exact Eq'|]. split; [exact (dinv_poly_of _ _ _ _ _ _ _ _ Hp Hq)|].
    pose proof Hq as (Vq & [S1 S2 S3] & Qr & _). pose proof Hq' as (Vq' & [T1 T2 T3] & Qr' & _). apply poly_unique; try congruence. intros x Hx. rewrite (dinv_pv p as_ alpha q x Hq) by congruence. apply (dinv_pv p as_ alpha q' x Hq'). congruence.
  Qed.
  Theorem partial_derivatives_commute b m n r (p : poly F) i j : poly_of b m n r p -> (i < m)%nat -> (j < m)%nat ->
    exists q, (let* t := partial_derivative p i in partial_derivative t j) = Ok q /\ (let* t := partial_derivative p j in partial_derivative t i) = Ok q.
  Proof.
    intros Hp Hi Hj. set (alpha := fold_left up [i; j] (repeat 0%nat m)). assert (La : length alpha = m) by (unfold alpha; rewrite fold_up_length; apply repeat_length).
    assert (Hb : forall l, (l = [i; j] \/ l = [j; i]) -> forall k, In k l -> (k < m)%nat) by (intros l [-> | ->] k [<-|[<-|[]]]; assumption).
    assert (C : forall l, (l = [i; j] \/ l = [j; i]) -> forall k, count_occ Nat.eq_dec l k = nth k alpha 0%nat).
    { intros l Hl k. unfold alpha. rewrite fold_up_nth by (rewrite repeat_length; apply Hb; left; reflexivity). rewrite nth_repeat. destruct Hl as [-> | ->]; cbn [count_occ]; destruct (Nat.eq_dec i k), (Nat.eq_dec j k); reflexivity. }
    destruct (derivative_any_order b m n r p alpha [i; j] Hp La (Hb _ (or_introl eq_refl)) (C _ (or_introl eq_refl))) as (q & q1 & Eq & E1 & _ & ->). destruct (derivative_any_order b m n r p alpha [j; i] Hp La (Hb _ (or_intror eq_refl)) (C _ (or_intror eq_refl))) as (q' & q2 & Eq' & E2 & _ & ->).
    exists q. cbn [foldM] in E1, E2. split; [destruct (partial_derivative p i) as [t|]; [|discriminate]; cbn [bind] in *; destruct (partial_derivative t j); [exact E1|discriminate]|].
    rewrite Eq in Eq'. injection Eq' as <-. destruct (partial_derivative p j) as [t|]; [|discriminate]; cbn [bind] in *; destruct (partial_derivative t i); [exact E2|discriminate].
  Qed.
  Theorem hessian_ok b m r (p : poly F) : poly_of b m 1 r p -> exists h, hessian p = Ok h /\ length h = m /\ (forall row, In row h -> length row = m) /\
    forall i j, (i < m)%nat -> (j < m)%nat -> exists q, nth_error (nth i h []) j = Some q /\ nth_error (nth j h []) i = Some q /\ (let* t := partial_derivative p i in partial_derivative t j) = Ok q.
  Proof.
    intros Hp. pose proof (poly_of_valid _ _ _ _ _ Hp) as (Vp & Pb & Pm & Pn & Pr). unfold hessian, domain_dimension, target_dimension. rewrite Pn, Pm. cbn [Nat.eqb assert_ bind].
    set (al := fun i j => up (up (repeat 0%nat m) (Nat.min i j)) (Nat.max i j)).
    assert (Hal : forall i j, (i < m)%nat -> (j < m)%nat -> exists q, derivative p (al i j) = Ok q /\ (let* t := partial_derivative p i in partial_derivative t j) = Ok q).
    { intros i j Hi Hj. destruct (derivative_any_order b m 1 r p (al i j) [i; j] Hp) as (q & q' & Eq & Eq' & _ & ->); [unfold al; rewrite !up_length; apply repeat_length|intros k [<-|[<-|[]]]; assumption| |].
      - intros k. unfold al. change (up (up (repeat 0%nat m) (Nat.min i j)) (Nat.max i j)) with (fold_left up [Nat.min i j; Nat.max i j] (repeat 0%nat m)). rewrite fold_up_nth; [|rewrite repeat_length; intros k' [<-|[<-|[]]]; lia]. rewrite nth_repeat. cbn [count_occ].
        destruct (Nat.eq_dec i k), (Nat.eq_dec j k), (Nat.eq_dec (Nat.min i j) k), (Nat.eq_dec (Nat.max i j) k); lia.
      - exists q. split; [exact Eq|]. cbn [foldM] in Eq'. destruct (partial_derivative p i) as [t|]; [|discriminate]; cbn [bind] in *; destruct (partial_derivative t j); [exact Eq'|discriminate]. }
    set (ent := fun i j => match derivative p (al i j) with Ok q => q | Err _ => p end).
    assert (E : forall i j, (i < m)%nat -> (j < m)%nat -> (let* a0 := get (zero_multiindex m) (Nat.min i j) in let* alpha := set (zero_multiindex m) (Nat.min i j) (a0 + 1)%nat in let* a1 := get alpha (Nat.max i j) in let* alpha := set alpha (Nat.max i j) (a1 + 1)%nat in derivative p alpha) = Ok (ent i j)).
    { intros i j Hi Hj. unfold zero_multiindex. rewrite (PermFacts.get_ok _ _ 0%nat) by (rewrite repeat_length; lia). cbn [bind]. rewrite PermFacts.set_ok by (rewrite repeat_length; lia). cbn [bind]. rewrite (PermFacts.get_ok _ _ 0%nat) by (rewrite upd_length, repeat_length; lia). cbn [bind]. rewrite PermFacts.set_ok by (rewrite upd_length, repeat_length; lia). cbn [bind].
      rewrite !Nat.add_1_r. destruct (Hal i j Hi Hj) as (q & Eq & _). unfold ent. rewrite Eq. exact Eq. }
    exists (map (fun i => map (ent i) (seq 0 m)) (seq 0 m)). split; [|split; [rewrite map_length, seq_length; reflexivity|split]].
    - apply mapM_ok. intros i Hi. apply in_seq in Hi. apply mapM_ok. intros j Hj. apply in_seq in Hj. apply E; lia.
    - intros row Hrow. apply in_map_iff in Hrow as (i & <- & _). rewrite map_length, seq_length. reflexivity.
    - intros i j Hi Hj. exists (ent i j). assert (N : forall a b, (a < m)%nat -> (b < m)%nat -> nth_error (nth a (map (fun i => map (ent i) (seq 0 m)) (seq 0 m)) []) b = Some (ent a b)).
      { intros a c Ha Hc. rewrite (map_nth_map _ _ 0%nat) by (rewrite seq_length; exact Ha). rewrite seq_nth by exact Ha. apply map_nth_error. rewrite (nth_error_nth' _ 0%nat) by (rewrite seq_length; exact Hc). rewrite seq_nth by exact Hc. reflexivity. }
      split; [apply N; assumption|]. split; [rewrite N by assumption; f_equal; unfold ent, al; rewrite Nat.min_comm, Nat.max_comm; reflexivity|]. destruct (Hal i j Hi Hj) as (q & Eq & Ec). unfold ent. rewrite Eq. exact Ec.
  Qed.
  Theorem jacobian_ok b m n r (p : poly F) : poly_of b m n r p -> exists h, jacobian p = Ok h /\ length h = n /\
    forall i j, (i < n)%nat -> (j < m)%nat -> exists q d, nth_error (nth i h []) j = Some q /\ partial_derivative p j = Ok d /\ poly_of b m 1 (r - 1) q /\ forall x, length x = m -> exists v, call d x = Ok v /\ call q x = Ok [nth i v 0].
  Proof.
    intros Hp. pose proof (poly_of_valid _ _ _ _ _ Hp) as (Vp & Pb & Pm & Pn & Pr). unfold jacobian, target_dimension. rewrite Pn.
    destruct (mapM_exists (fun i => let* pi := getitem p i in gradient1 pi) (fun i row => length row = m /\ forall j, (j < m)%nat -> exists q d, nth_error row j = Some q /\ partial_derivative p j = Ok d /\ poly_of b m 1 (r - 1) q /\ forall x, length x = m -> exists v, call d x = Ok v /\ call q x = Ok [nth i v 0]) (seq 0 n)) as (h & Eh & HF).
    - intros i Hi. apply in_seq in Hi. destruct (getitem_ok p i Vp ltac:(lia)) as (s & Es & Vs & Sb & Sm & Sr & Sc & Sv). rewrite Es. cbn [bind]. unfold gradient1, domain_dimension. rewrite Sm, Pm.
      destruct (mapM_exists (partial_derivative s) (fun j q => exists d, partial_derivative p j = Ok d /\ poly_of b m 1 (r - 1) q /\ forall x, length x = m -> exists v, call d x = Ok v /\ call q x = Ok [nth i v 0]) (seq 0 m)) as (row & Er & HR).
      + intros j Hj. apply in_seq in Hj. destruct (partial_derivative_ok s j Vs ltac:(lia)) as (q & Eq & Vq & [Q1 Q2 Q3] & Qr & QD). exists q. split; [exact Eq|]. destruct (partial_derivative_ok p j Vp ltac:(lia)) as (d & Ed & Vd & [D1 D2 D3] & Dr & DD). exists d. split; [exact Ed|].
        assert (Hq : poly_of b m 1 (r - 1) q) by (apply poly_of_intro; try congruence; rewrite Q3, Sc; reflexivity). split; [exact Hq|]. assert (Hd : poly_of b m n (r - 1) d) by (apply poly_of_intro; congruence).
        intros x Hx. exists (pv d x). split; [apply (call_pv _ _ _ _ _ x Hd Hx)|]. rewrite (proj1 (call_pv _ _ _ _ _ x Hq Hx)). f_equal. unfold pderivs in QD, DD. rewrite Sc in QD. destruct (p_cols q) as [|cq [|? ?]] eqn:Eq2; inversion QD as [|? ? ? ? Hq1 Hq2]; [|inversion Hq2].
        unfold pv. rewrite Eq2. cbn [map]. f_equal.
        assert (Hc : exists e, nth_error (p_cols d) i = Some e /\ forall y, length y = p_m p -> is_pderiv (val (p_basis p) (p_m p) (p_r p) (nth i (p_cols p) [])) j y (val (p_basis d) (p_m d) (p_r d) e y)).
        { clear - DD Hi Pn. rewrite <- Pn in Hi. clear Pn. revert i Hi. induction DD as [|a e l l' H DD IH]; intros i Hi; cbn [length] in Hi; [lia|]. destruct i as [|i]; [exists e; split; [reflexivity|exact H]|]. cbn [nth nth_error]. apply IH. lia. }
        destruct Hc as (e & Ee & He). apply (f_equal (option_map (fun c => val (p_basis d) (p_m d) (p_r d) c x))) in Ee. rewrite <- (nth_error_map) in Ee || idtac.
        assert (EN : nth i (map (fun c => val (p_basis d) (p_m d) (p_r d) c x) (p_cols d)) 0 = val (p_basis d) (p_m d) (p_r d) e x).
        { apply nth_error_nth. cbn [option_map] in Ee. exact Ee. }
        rewrite EN. specialize (He x ltac:(congruence)). specialize (Hq1 x ltac:(congruence)). rewrite Sb, Sm, Sr in Hq1. exact (pderiv_unique _ _ _ _ _ Hq1 He).
      + exists row. split; [exact Er|]. split; [rewrite (mapM_length _ _ _ Er), seq_length; reflexivity|]. intros j Hj. clear - HR Hj. assert (G : forall k s l row, Forall2 (fun j q => exists d, partial_derivative p j = Ok d /\ poly_of b m 1 (r - 1) q /\ forall x, length x = m -> exists v, call d x = Ok v /\ call q x = Ok [nth i v 0]) (seq s l) row -> (k < l)%nat -> exists q d, nth_error row k = Some q /\ partial_derivative p (s + k) = Ok d /\ poly_of b m 1 (r - 1) q /\ forall x, length x = m -> exists v, call d x = Ok v /\ call q x = Ok [nth i v 0]).
        { induction k as [|k IH]; intros s0 l row0 H Hk; (destruct l as [|l]; [lia|]); cbn [seq] in H; inversion H as [|? q ? row' Hq H']; [destruct Hq as (d & Hd); exists q, d; rewrite Nat.add_0_r; split; [reflexivity|exact Hd]|]. cbn [nth_error]. rewrite <- Nat.add_succ_comm. apply (IH (S s0) l row' H'). lia. }
        exact (G j 0%nat m row HR Hj).
    - exists h. split; [exact Eh|]. split; [rewrite (mapM_length _ _ _ Eh), seq_length; reflexivity|]. intros i j Hi Hj. clear - HF Hi Hj.
      assert (G : forall k s l h, Forall2 (fun i row => length row = m /\ forall j, (j < m)%nat -> exists q d, nth_error row j = Some q /\ partial_derivative p j = Ok d /\ poly_of b m 1 (r - 1) q /\ forall x, length x = m -> exists v, call d x = Ok v /\ call q x = Ok [nth i v 0]) (seq s l) h -> (k < l)%nat -> exists q d, nth_error (nth k h []) j = Some q /\ partial_derivative p j = Ok d /\ poly_of b m 1 (r - 1) q /\ forall x, length x = m -> exists v, call d x = Ok v /\ call q x = Ok [nth (s + k) v 0]).
      { induction k as [|k IH]; intros s0 l h0 H Hk; (destruct l as [|l]; [lia|]); cbn [seq] in H; inversion H as [|? row ? h' Hr H']; [rewrite Nat.add_0_r; exact (proj2 Hr j Hj)|]. cbn [nth]. rewrite <- Nat.add_succ_comm. apply (IH (S s0) l h' H'). lia. }
      exact (G i 0%nat n h HF Hi).
  Qed.
  (** ** Taylor's formula *)
  Lemma mpow_at_zero m nu : length nu = m -> mpow (repeat 0 m) nu = if mi_dec nu (repeat 0%nat m) then 1 else 0 :> F.
  Proof.
    revert nu. induction m as [|m IH]; intros [|a nu] E; try discriminate; [reflexivity|]. injection E as E. cbn [repeat mpow]. rewrite (IH nu E). destruct a as [|a]; cbn [kpow].
    - destruct (mi_dec nu (repeat 0%nat m)) as [H|H], (mi_dec (0%nat :: nu) (0%nat :: repeat 0%nat m)) as [H'|H']; try ring; [rewrite H in H'; congruence|injection H' as H'; congruence].
    - destruct (mi_dec (S a :: nu) (0%nat :: repeat 0%nat m)) as [H'|H']; [discriminate|]. ring.
  Qed.
  Lemma dual_monomial_ok (p : poly F) as_ mu : dinv p as_ (repeat 0%nat (p_m p)) p -> length mu = p_m p -> (nsum mu <= p_r p)%nat -> dual_monomial_basis_fn mu p = Ok (map (fun a => a mu) as_).
  Proof.
    intros H E Hmu. unfold dual_monomial_basis_fn. destruct (derivative_dinv p as_ mu H E) as (q & Eq & Hq). rewrite Eq. cbn [bind]. pose proof Hq as (Vq & [S1 S2 S3] & Qr & _). rewrite E. rewrite call_ok; [|exact Vq|rewrite repeat_length; congruence]. cbn [bind]. rewrite (dinv_pv p as_ mu q _ Hq) by apply repeat_length.
    rewrite map_map. f_equal. apply map_ext. intros a. rewrite (ksum_ext _ (fun nu => if mi_dec nu (repeat 0%nat (p_m p)) then dcoef mu a nu else 0)).
    - rewrite (ksum_delta mi_dec (dcoef mu a)); [|apply NoDup_all_mi|apply in_all_mi; rewrite repeat_length, nsum_repeat0; lia]. unfold dcoef.
      assert (Z : mi_add (repeat 0%nat (p_m p)) mu = mu) by (rewrite <- E; clear; induction mu as [|k mu IH]; [reflexivity|]; unfold mi_add in *; cbn [length repeat combine map fst snd]; rewrite IH; reflexivity). rewrite Z.
      replace (mi_factorial (repeat 0%nat (p_m p))) with 1%nat by (generalize (p_m p); clear; induction n as [|n IH]; [reflexivity|]; cbn [repeat]; rewrite mi_factorial_cons, <- IH; reflexivity). rewrite kofnat_1. field. split; [apply k1_neq_0|apply mfac_neq].
    - intros nu Hnu. apply in_all_mi in Hnu as [N1 _]. rewrite mpow_at_zero by exact N1. destruct (mi_dec _ _); ring.
  Qed.
  Theorem taylor b m n r (p : poly F) mis : poly_of b m n r p -> generate_all m r = Ok mis ->
    exists ds, mapM (fun mu => dual_monomial_basis_fn mu p) mis = Ok ds /\
      forall x, length x = m -> exists u, call p x = Ok u /\ length u = n /\ forall k, (k < n)%nat -> nth k u 0 = ksum (combine mis ds) (fun md => nth k (snd md) 0 * mpow x (fst md)).
  Proof.
    intros Hp Hmis. rewrite generate_all_eq in Hmis. injection Hmis as <-. pose proof (poly_of_valid _ _ _ _ _ Hp) as (Vp & Pb & Pm & Pn & Pr). destruct (dinv_start p Vp) as [as_ H0].
    exists (map (fun mu => map (fun a => a mu) as_) (all_mi m r)). split.
    - apply mapM_ok. intros mu Hmu. apply in_all_mi in Hmu as [M1 M2]. apply dual_monomial_ok; [exact H0|congruence|lia].
    - intros x Hx. exists (pv p x). destruct (call_pv _ _ _ _ _ x Hp Hx) as [E1 E2]. split; [exact E1|]. split; [exact E2|]. intros k Hk. rewrite (dinv_pv p as_ _ p x H0) by congruence.
      assert (La : length as_ = n) by (rewrite (dinv_pv p as_ _ p x H0), map_length in E2 by congruence; exact E2). rewrite (map_nth_map _ _ (fun _ => 0)) by lia. rewrite nsum_repeat0, Pm, Pr. replace (r - 0)%nat with r by lia.
      assert (G : forall L, (forall nu, In nu L -> length nu = m) -> ksum L (fun nu => dcoef (repeat 0%nat m) (nth k as_ (fun _ => 0)) nu * mpow x nu) = ksum (combine L (map (fun mu => map (fun a => a mu) as_) L)) (fun md => nth k (snd md) 0 * mpow x (fst md))).
      { induction L as [|nu L IH]; intros HL; [reflexivity|]. cbn [map combine]. rewrite !ksum_cons, IH by (intros; apply HL; right; assumption). cbn [fst snd]. f_equal. rewrite dcoef_zero by (apply HL; left; reflexivity). f_equal. rewrite (map_nth_map _ _ (fun _ => 0)) by lia. reflexivity. }
      apply G. intros nu Hnu. apply in_all_mi in Hnu. tauto.
  Qed.
End BasesCalls.
