(** Bernstein coefficients: products, degree elevation, conversion. *)
From Verif Require Import Base MultiIndex MultiIndexFacts MultiCapFacts MultiIndexCache Fld CodeGen CodeGenFacts LinSolve MultiCoef MultiCoefFacts LagrangeCache Unisolv Poly PolyFacts LagFacts PolyEval PolyOps.
From Coq Require Import Field_theory Field.

Section OpsB.
  Context {F : fld}.
  Add Field Kfield11 : (kth F).
  Local Open Scope fld_scope.

  Definition bprod (m r s : nat) (a b : list nat -> F) (tau : list nat) : F :=
    ksum (all_mi m r) (fun nu => if mi_leb nu tau && (nsum (mi_sub tau nu) <=? s)%nat
                                 then M r nu * M s (mi_sub tau nu) / M (r + s) tau * a nu * b (mi_sub tau nu) else 0).
  Lemma M_neq0 r nu : nsum nu <= r -> M (F := F) r nu <> 0.
  Proof. intros H. unfold M. apply kofnat_neq, mnom_pos. Qed.

  Theorem bprod_val m r s (a b : list nat -> F) x : length x = m ->
    ksum (all_mi m (r + s)) (fun tau => bprod m r s a b tau * bern (r + s) tau x) =
    ksum (all_mi m r) (fun nu => a nu * bern r nu x) * ksum (all_mi m s) (fun nu => b nu * bern s nu x).
  Proof.
    intros Hx. rewrite ksum_mul, ksum_convolution. apply ksum_ext. intros tau Ht. apply in_all_mi in Ht as [T1 T2]. unfold bprod. rewrite <- ksum_scale_r. apply ksum_ext.
    intros nu Hn. apply in_all_mi in Hn as [N1 N2]. destruct (mi_leb nu tau) eqn:El; cbn [andb]; [|ring]. destruct (Nat.leb_spec (nsum (mi_sub tau nu)) s) as [Hs|Hs]; [|ring].
    unfold bern. destruct (mi_sub_sum nu tau ltac:(congruence) El) as [ES EL].
    assert (EM : mpow x tau = mpow x nu * mpow x (mi_sub tau nu)) by (rewrite <- mpow_add by (rewrite ?mi_sub_length; congruence); rewrite mi_add_sub by (assumption || congruence); reflexivity). rewrite EM.
    replace (r + s - nsum tau)%nat with ((r - nsum nu) + (s - nsum (mi_sub tau nu)))%nat by lia. rewrite kpow_add. field. apply M_neq0. exact T2.
  Qed.

  Theorem mul_bernstein_eq m r s (a b : list F) : length a = get_dimension r m -> length b = get_dimension s m ->
    mul_bernstein m r s a b = Ok (map (bprod m r s (cf m r a) (cf m s b)) (all_mi m (r + s))).
  Proof.
    intros Ha Hb. unfold mul_bernstein. destruct (Nat.eqb_spec m 1) as [->|Hm].
    - rewrite get_dimension_1, (all_mi_1 (r + s)), map_map. apply mapM_ok. intros k Hk. apply in_seq in Hk. rewrite !get_dimension_1 in *.
      rewrite (foldM_sum _ (fun i => binomF r i * binomF s (k - i) / binomF (r + s) k * nth i a 0 * nth (k - i) b 0)).
      + rewrite ksum_window by lia. unfold bprod. rewrite ksum_1. rewrite ksum_comm0. f_equal. apply ksum_ext. intros i Hi. apply in_seq in Hi. rewrite mi_leb_1. change (mi_sub [k] [i]) with [(k - i)%nat].
        replace (nsum [(k - i)%nat]) with (k - i)%nat by (cbn; lia). destruct ((i <=? k)%nat && (k - i <=? s)%nat) eqn:E; [|reflexivity]. apply andb_prop in E as [_ E]. apply Nat.leb_le in E.
        rewrite !nth_cf by (rewrite ?get_dimension_1; lia). rewrite !binomF_M by lia. reflexivity.
      + intros acc i Hi. apply in_seq in Hi. unfold get. rewrite (nth_error_nth' a 0) by lia. cbn [bind]. rewrite (nth_error_nth' b 0) by lia. reflexivity.
    - rewrite generate_all_eq. cbn [bind]. apply mapM_ok. intros tau Ht. apply in_all_mi in Ht as [T1 T2]. rewrite generate_all_multi_cap_eq. cbn [bind].
      rewrite (foldM_sum _ (fun nu => if (s <? nsum (mi_sub tau nu))%nat then 0 else if (r <? nsum nu)%nat then 0 else
          M r nu * M s (mi_sub tau nu) / M (r + s) tau * cf m r a nu * cf m s b (mi_sub tau nu))).
      + rewrite (ksum_cap m r s tau) by exact T1. rewrite ksum_comm0. reflexivity.
      + intros acc nu Hn. apply in_all_cap in Hn. pose proof (Forall2_len _ _ _ Hn) as HL. rewrite <- (mi_leb_Forall2 nu tau) in Hn by congruence.
        rewrite mi_minus_ok by assumption. cbn [bind]. unfold norm. destruct (Nat.ltb_spec s (nsum (mi_sub tau nu))) as [H1|H1]; [f_equal; ring|].
        destruct (Nat.ltb_spec r (nsum nu)) as [H2|H2]; [f_equal; ring|].
        destruct (index_cf m r nu a) as (i & _ & Ei & _ & Eg); [congruence|exact H2|exact Ha|].
        destruct (index_cf m s (mi_sub tau nu) b) as (j & _ & Ej & _ & Eh); [rewrite mi_sub_length; congruence|exact H1|exact Hb|].
        rewrite Ei. cbn [bind]. rewrite Ej. cbn [bind]. rewrite !multinom_general_eq by assumption. cbn [bind]. rewrite Eg. cbn [bind]. rewrite Eh. reflexivity.
  Qed.
  Theorem mul_bernstein_ok m r s (a b : list F) : length a = get_dimension r m -> length b = get_dimension s m ->
    exists c, mul_bernstein m r s a b = Ok c /\ length c = get_dimension (r + s) m /\ forall x, length x = m -> bval m (r + s) c x = bval m r a x * bval m s b x.
  Proof.
    intros Ha Hb. rewrite mul_bernstein_eq by assumption. eexists. split; [reflexivity|]. split; [apply map_all_mi_length|]. intros x Hx.
    rewrite (bval_ext _ _ _ _ _ eq_refl). apply bprod_val. exact Hx.
  Qed.

  Theorem bern_partition m r x : length x = m -> ksum (all_mi m r) (fun nu => bern (F := F) r nu x) = 1.
  Proof. intros <-. unfold bern. rewrite multinomial_theorem. unfold bary0. replace (1 - ksum x (fun v => v) + ksum x (fun v => v)) with (1 : F) by ring. apply kpow_1. Qed.

  Theorem elevate_bernstein_eq m r s (c : list F) : (r <= s)%nat -> length c = get_dimension r m ->
    elevate_bernstein m r s c = Ok (map (bprod m r (s - r) (cf m r c) (fun _ => 1)) (all_mi m s)).
  Proof.
    intros Hrs Hc. assert (Ers : (r + (s - r))%nat = s) by lia. unfold elevate_bernstein. destruct (Nat.eqb_spec m 1) as [->|Hm].
    - rewrite get_dimension_1, (all_mi_1 s), map_map. apply mapM_ok. intros k Hk. apply in_seq in Hk. rewrite !get_dimension_1 in *.
      rewrite (foldM_sum _ (fun i => binomF r i * binomF (s - r) (k - i) * (1 / binomF s k) * nth i c 0)).
      + rewrite ksum_window by lia. unfold bprod. rewrite ksum_1. rewrite ksum_comm0. f_equal. apply ksum_ext. intros i Hi. apply in_seq in Hi. rewrite mi_leb_1. change (mi_sub [k] [i]) with [(k - i)%nat].
        replace (nsum [(k - i)%nat]) with (k - i)%nat by (cbn; lia). destruct ((i <=? k)%nat && (k - i <=? s - r)%nat) eqn:E; [|reflexivity]. apply andb_prop in E as [_ E]. apply Nat.leb_le in E.
        rewrite !nth_cf by (rewrite ?get_dimension_1; lia). rewrite Ers, !binomF_M by lia. field. apply M_neq0. cbn. lia.
      + intros acc i Hi. apply in_seq in Hi. unfold get. rewrite (nth_error_nth' c 0) by lia. reflexivity.
    - rewrite generate_all_eq. cbn [bind]. apply mapM_ok. intros mu Ht. apply in_all_mi in Ht as [T1 T2]. rewrite multinom_general_eq by exact T2. cbn [bind]. rewrite generate_all_multi_cap_eq. cbn [bind].
      rewrite (foldM_sum _ (fun nu => if (s - r <? nsum (mi_sub mu nu))%nat then 0 else if (r <? nsum nu)%nat then 0 else
          M r nu * M (s - r) (mi_sub mu nu) / M (r + (s - r)) mu * cf m r c nu * 1)).
      + rewrite (ksum_cap m r (s - r) mu) by exact T1. rewrite ksum_comm0. reflexivity.
      + intros acc nu Hn. apply in_all_cap in Hn. pose proof (Forall2_len _ _ _ Hn) as HL. rewrite <- (mi_leb_Forall2 nu mu) in Hn by congruence.
        destruct (mi_sub_sum nu mu ltac:(congruence) Hn) as [ES EL]. unfold norm.
        destruct (Nat.ltb_spec (nsum nu + (s - r)) (nsum mu)) as [H1|H1]; destruct (Nat.ltb_spec (s - r) (nsum (mi_sub mu nu))) as [H1'|H1']; try lia; [f_equal; ring|].
        destruct (Nat.ltb_spec r (nsum nu)) as [H2|H2]; [f_equal; ring|].
        destruct (index_cf m r nu c) as (i & _ & Ei & _ & Eg); [congruence|exact H2|exact Hc|].
        rewrite Ei. cbn [bind]. rewrite multinom_general_eq by assumption. cbn [bind]. rewrite mi_minus_ok by assumption. cbn [bind]. rewrite Eg. cbn [bind]. f_equal. rewrite Ers.
        rewrite <- (M_multinom (s - r) (mi_sub mu nu)) by exact H1'. field. apply M_neq0. exact T2.
  Qed.
  Theorem bval_elevate m r s (c x : list F) : (r <= s)%nat -> length x = m ->
    bval m s (map (bprod m r (s - r) (cf m r c) (fun _ => 1)) (all_mi m s)) x = bval m r c x.
  Proof.
    intros Hrs Hx. rewrite (bval_ext _ _ _ _ _ eq_refl). pose proof (bprod_val m r (s - r) (cf m r c) (fun _ => 1) x Hx) as H. replace (r + (s - r))%nat with s in H by lia. rewrite H.
    rewrite (ksum_ext (fun nu => 1 * bern (s - r) nu x) (fun nu => bern (s - r) nu x)) by (intros; ring). rewrite bern_partition by exact Hx. unfold bval. ring.
  Qed.

  (** *** Bernstein to monomial *)
  Definition sgn (k : nat) : F := if Nat.odd k then - (1) else 1.
  Lemma sgn_pow k : sgn k = kpow (- (1)) k.
  Proof.
    induction k as [|k IH]; [reflexivity|]. cbn [kpow]. rewrite <- IH. unfold sgn. rewrite Nat.odd_succ, <- Nat.negb_odd. destruct (Nat.odd k); cbn [negb]; ring.
  Qed.
  Lemma mpow_opp (x : list F) a : length x = length a -> mpow (map kopp x) a = kpow (- (1)) (nsum a) * mpow x a.
  Proof.
    revert a. induction x as [|v x IH]; intros [|k a] E; try discriminate; [cbn; ring|]. cbn [map mpow]. rewrite nsum_cons, kpow_add, IH by (cbn in E; lia).
    replace (- v) with (- (1) * v) by ring. rewrite kpow_mul_base. ring.
  Qed.
  Lemma bary_expand m k (x : list F) : length x = m -> kpow (bary0 x) k = ksum (all_mi m k) (fun mu => M k mu * sgn (nsum mu) * mpow x mu).
  Proof.
    intros <-. pose proof (multinomial_theorem (map kopp x) 1 k) as H. rewrite map_length, ksum_map, ksum_opp in H. replace (1 + - ksum x (fun v => v)) with (bary0 x) in H by (unfold bary0; ring).
    rewrite <- H. apply ksum_ext. intros mu Hmu. apply in_all_mi in Hmu as [E _]. rewrite mpow_opp, kpow_1, sgn_pow by congruence. ring.
  Qed.
  (** monomial coefficients of [bern r nu] *)
  Definition bern_mono (r : nat) (nu tau : list nat) : F :=
    if mi_leb nu tau then M r nu * (M (r - nsum nu) (mi_sub tau nu) * sgn (nsum (mi_sub tau nu))) else 0.
  Theorem bern_monomial m r nu x : length nu = m -> nsum nu <= r -> length x = m ->
    bern r nu x = ksum (all_mi m r) (fun tau => bern_mono r nu tau * mpow x tau).
  Proof.
    intros N1 N2 Hx. unfold bern. rewrite (bary_expand m) by exact Hx.
    transitivity (ksum (filter (mi_leb nu) (all_mi m r)) (fun tau => bern_mono r nu tau * mpow x tau)).
    - rewrite <- !ksum_scale_l. apply (ksum_bij _ _ (mi_add nu)).
      + apply NoDup_all_mi.
      + apply NoDup_filter, NoDup_all_mi.
      + intros mu Hmu. apply in_all_mi in Hmu as [E1 E2]. apply filter_In. rewrite in_all_mi, mi_add_length, mi_add_sum, mi_leb_add by congruence. repeat split; lia.
      + intros a b Ha Hb E. apply in_all_mi in Ha as [A1 _]. apply in_all_mi in Hb as [B1 _]. rewrite <- (mi_sub_add nu a), <- (mi_sub_add nu b) by congruence. rewrite E. reflexivity.
      + intros tau Ht. apply filter_In in Ht as [Ht1 Ht2]. apply in_all_mi in Ht1 as [T1 T2]. exists (mi_sub tau nu). destruct (mi_sub_sum nu tau ltac:(congruence) Ht2).
        rewrite in_all_mi, mi_sub_length by congruence. split; [split; lia|]. apply mi_add_sub; [congruence|exact Ht2].
      + intros mu Hmu. apply in_all_mi in Hmu as [E1 E2]. unfold bern_mono. rewrite mi_leb_add, mi_sub_add, mpow_add by congruence. ring.
    - rewrite ksum_filter. apply ksum_ext. intros tau _. unfold bern_mono. destruct (mi_leb nu tau); ring.
  Qed.
  Lemma bval_monomial m r (c : list F) : exists d, length d = get_dimension r m /\ forall x, length x = m -> bval m r c x = mval m r d x.
  Proof.
    exists (map (fun tau => ksum (all_mi m r) (fun nu => cf m r c nu * bern_mono r nu tau)) (all_mi m r)). split; [apply map_all_mi_length|]. intros x Hx.
    rewrite (mval_ext _ _ _ _ _ eq_refl). unfold bval.
    rewrite (ksum_ext _ (fun nu => ksum (all_mi m r) (fun tau => cf m r c nu * (bern_mono r nu tau * mpow x tau)))).
    - rewrite ksum_swap. apply ksum_ext. intros tau _. rewrite <- ksum_scale_r. apply ksum_ext. intros nu _. ring.
    - intros nu Hnu. apply in_all_mi in Hnu as [N1 N2]. rewrite (bern_monomial m) by assumption. rewrite ksum_scale_l. reflexivity.
  Qed.
  Lemma val_monomial b m r (c : list F) : length c = get_dimension r m -> exists d, length d = get_dimension r m /\ forall x, length x = m -> val b m r c x = mval m r d x.
  Proof.
    intros Hc. destruct b; cbn [val].
    - exists c. auto.
    - apply bval_monomial.
    - exists (lagc m r c). split; [apply lagc_length|reflexivity].
  Qed.

  (** The array [bernstein_basis_fn_monomial] fills in. *)
  Definition bern_c (m r : nat) (nu : list nat) : list F := map (bern_mono r nu) (all_mi m r).
  Lemma bern_c_fill nu r : nsum nu <= r ->
    foldM (fun acc mu =>
      let v := kofnat (fact r) / kofnat (mi_factorial nu) / (kofnat (mi_factorial mu) * kofnat (fact (r - norm nu - norm mu))) in
      let v := if Nat.odd (norm mu) then v * (- (1)) else v in
      let* j := get_index (mi_add mu nu) r in
      set acc j v) (repeat 0 (get_dimension r (length nu))) (all_mi (length nu) (r - norm nu)) = Ok (bern_c (length nu) r nu).
  Proof.
    intros Hs. set (m := length nu). assert (Enu : length nu = m) by reflexivity. clearbody m. unfold norm.
    assert (G : forall l acc, NoDup l -> (forall mu, In mu l -> length mu = m /\ nsum mu <= r - nsum nu) -> length acc = get_dimension r m ->
      exists acc', foldM (fun acc mu =>
        let v := kofnat (fact r) / kofnat (mi_factorial nu) / (kofnat (mi_factorial mu) * kofnat (fact (r - nsum nu - nsum mu))) in
        let v := if Nat.odd (nsum mu) then v * (- (1)) else v in
        let* j := get_index (mi_add mu nu) r in set acc j v) acc l = Ok acc' /\ length acc' = get_dimension r m /\
        (forall mu, In mu l -> cf m r acc' (mi_add nu mu) = bern_mono r nu (mi_add nu mu)) /\
        (forall tau, (forall mu, In mu l -> tau <> mi_add nu mu) -> cf m r acc' tau = cf m r acc tau)).
    { induction l as [|mu l IH]; intros acc HN Hl Hacc.
      - exists acc. split; [reflexivity|]. split; [exact Hacc|]. split; [intros mu []|reflexivity].
      - apply NoDup_cons_iff in HN as [HN1 HN2]. cbn [foldM]. destruct (Hl mu (or_introl eq_refl)) as [U1 U2].
        assert (EC : mi_add mu nu = mi_add nu mu).
        { clear -U1 Enu. rewrite <- Enu in U1. clear Enu. revert mu U1. induction nu as [|a nu IH]; intros [|b mu] E; try discriminate; [reflexivity|]. rewrite !mi_add_cons, IH by (cbn in E; lia). f_equal. lia. }
        destruct (index_cf m r (mi_add nu mu) acc) as (k & Hk & Ek & Hb & _); [rewrite mi_add_length by congruence; exact Enu|rewrite mi_add_sum by congruence; lia|exact Hacc|].
        rewrite EC, Ek. cbn zeta. cbn [bind]. unfold set at 1. apply Nat.ltb_lt in Hb. rewrite Hb. cbn [bind].
        match goal with |- context [upd acc k ?v0] => set (v := v0) end.
        destruct (IH (upd acc k v) HN2) as (acc' & E & HL & H1 & H2); [intros t Ht; apply Hl; right; exact Ht|rewrite upd_length; exact Hacc|].
        exists acc'. split; [exact E|]. split; [exact HL|].
        assert (INJ : forall t, In t l -> mi_add nu mu <> mi_add nu t).
        { intros t Ht E'. apply HN1. destruct (Hl t (or_intror Ht)) as [W1 _]. rewrite <- (mi_sub_add nu mu), E', mi_sub_add by congruence. exact Ht. }
        split.
        + intros t [<-|Ht]; [|apply H1; exact Ht]. rewrite (H2 _ INJ), (cf_upd m r (mi_add nu mu)) by assumption.
          destruct (mi_dec (mi_add nu mu) (mi_add nu mu)) as [_|C]; [|congruence]. unfold bern_mono, v. rewrite mi_leb_add, mi_sub_add by congruence.
          pose proof (M_fact (F := F) r nu Hs) as E1. pose proof (M_fact (F := F) (r - nsum nu) mu U2) as E2.
          assert (V : kofnat (fact r) / kofnat (mi_factorial nu) / (kofnat (mi_factorial mu) * kofnat (fact (r - nsum nu - nsum mu))) = M r nu * M (F := F) (r - nsum nu) mu).
          { rewrite <- E1, <- E2. field. repeat split; apply kfact_neq || apply mfac_neq. }
          rewrite V. unfold sgn. destruct (Nat.odd (nsum mu)); ring.
        + intros tau Ht. rewrite H2 by (intros t Hin; apply Ht; right; exact Hin). rewrite (cf_upd m r (mi_add nu mu)) by assumption.
          destruct (mi_dec tau (mi_add nu mu)) as [C|_]; [|reflexivity]. exfalso. apply (Ht mu (or_introl eq_refl)). exact C. }
    destruct (G (all_mi m (r - nsum nu)) (repeat 0 (get_dimension r m)) (NoDup_all_mi _ _)) as (acc & E & HL & H1 & H2); [intros mu Hmu; apply in_all_mi in Hmu; exact Hmu|apply repeat_length|].
    transitivity (Ok acc); [exact E|]. f_equal. apply (cf_ext_eq m r); [exact HL|apply map_all_mi_length|]. intros tau T1 T2. unfold bern_c. rewrite cf_map by assumption.
    destruct (mi_leb nu tau) eqn:El.
    - rewrite <- (mi_add_sub nu tau) by (assumption || congruence). destruct (mi_sub_sum nu tau ltac:(congruence) El). apply H1. apply in_all_mi. rewrite mi_sub_length by congruence. split; [exact T1|lia].
    - rewrite H2, cf_repeat; [unfold bern_mono; rewrite El; reflexivity|]. intros mu Hmu ->. apply in_all_mi in Hmu as [U1 _]. rewrite mi_leb_add in El by congruence. discriminate.
  Qed.
End OpsB.
