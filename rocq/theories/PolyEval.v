(** Polynomials constructed from coefficient arrays and their values. *)
From Verif Require Import Base MultiIndex MultiIndexFacts MultiCapFacts MultiIndexCache Fld CodeGen CodeGenFacts LinSolve MultiCoef MultiCoefFacts LagrangeCache Unisolv Poly PolyFacts LagFacts.
From Coq Require Import Field_theory Field.

Section Eval.
  Context {F : fld}.
  Add Field Kfield9 : (kth F).
  Local Open Scope fld_scope.

  (** Value of the polynomial with Bernstein coefficients [c]. *)
  Definition bern (r : nat) (nu : list nat) (x : list F) : F := M r nu * (mpow x nu * kpow (bary0 x) (r - nsum nu)).
  Definition bval (m r : nat) (c x : list F) : F := ksum (all_mi m r) (fun nu => cf m r c nu * bern r nu x).
  (** Monomial coefficients of the polynomial with Lagrange coefficients [c]. *)
  Definition lagc (m r : nat) (c : list F) : list F :=
    match get_lagrange_base_coefficients r m with Ok l => mat_vec l c | Err _ => [] end.
  Definition lval (m r : nat) (c x : list F) : F := mval m r (lagc m r c) x.
  Definition val (b : basis) (m r : nat) (c x : list F) : F :=
    match b with Monomial => mval m r c x | Bernstein => bval m r c x | Lagrange => lval m r c x end.

  Lemma lagc_length m r (c : list F) : length (lagc m r c) = get_dimension r m.
  Proof.
    unfold lagc. destruct (get_lagrange_ok (F := F) r m) as (l & -> & (H & _)). unfold mat_vec. rewrite map_length. exact H.
  Qed.
  Lemma dot_comm (u v : list F) : dot u v = dot v u.
  Proof. revert v. induction u as [|a u IH]; intros [|b v]; try reflexivity. rewrite !dot_cons, IH. ring. Qed.
  Lemma nth_mat_vec (l : list (list F)) (c : list F) i : i < length l -> nth i (mat_vec l c) 0 = dot (nth i l []) c.
  Proof.
    intros H. unfold mat_vec. rewrite (nth_indep _ 0 (dot [] c)) by (rewrite map_length; exact H). apply (map_nth (fun row => dot row c)).
  Qed.
  Lemma dot_seq (u v : list F) n : length u = n -> length v = n -> dot u v = ksum (seq 0 n) (fun j => nth j u 0 * nth j v 0).
  Proof.
    revert v n. induction u as [|a u IH]; intros [|b v] n <- E; cbn [length] in E; try discriminate; [reflexivity|].
    cbn [length]. rewrite dot_cons, ksum_seq_S. cbn [nth]. rewrite (IH v (length u)) by lia. reflexivity.
  Qed.
  (** Values of the linear combination of the columns. *)
  Lemma mval_mat_vec m r (l : list (list F)) (c x : list F) : length l = get_dimension r m -> (forall row, In row l -> length row = get_dimension r m) -> length c = get_dimension r m ->
    mval m r (mat_vec l c) x = ksum (seq 0 (get_dimension r m)) (fun j => nth j c 0 * mval m r (mat_col l j) x).
  Proof.
    intros Hl Hr Hc. unfold mval.
    transitivity (ksum (all_mi m r) (fun nu => ksum (seq 0 (get_dimension r m)) (fun j => nth j c 0 * (cf m r (mat_col l j) nu * mpow x nu)))).
    - apply ksum_ext. intros nu Hnu. destruct (pos_in _ _ Hnu) as [i Hi]. pose proof (pos_bound _ _ _ Hi) as Hb. rewrite <- dim_all_mi in Hb.
      unfold cf, cfl. rewrite Hi, nth_mat_vec by lia.
      rewrite (dot_seq _ _ (get_dimension r m)); [|apply Hr, nth_In; lia|exact Hc]. rewrite <- ksum_scale_r. apply ksum_ext. intros j Hj.
      unfold mat_col. rewrite (nth_indep (map _ l) 0 (nth j [] 0)) by (rewrite map_length; lia). rewrite (map_nth (fun row => nth j row 0)). ring.
    - rewrite ksum_swap. apply ksum_ext. intros j _. rewrite ksum_scale_l. reflexivity.
  Qed.
  (** The Lagrange polynomial takes the value [c_nu] at the point [nu]. *)
  Theorem lval_nodal m r (c : list F) nu : length c = get_dimension r m -> length nu = m -> nsum nu <= r -> lval m r c (generate_lagrange_point m r nu) = cf m r c nu.
  Proof.
    intros Hc H1 H2. unfold lval, lagc. destruct (get_lagrange_ok (F := F) r m) as (l & -> & (L1 & L2 & L3)). rewrite mval_mat_vec by assumption.
    assert (Hin : In nu (all_mi m r)) by (apply in_all_mi; split; assumption). destruct (pos_in _ _ Hin) as [i Hi]. pose proof (pos_bound _ _ _ Hi) as Hb. rewrite <- dim_all_mi in Hb.
    unfold cf, cfl. rewrite Hi. pose proof (pos_nth _ _ _ Hi) as Hn. rewrite <- (ksum_delta Nat.eq_dec (fun j => nth j c 0) (seq 0 (get_dimension r m)) i); [|apply seq_NoDup|apply in_seq; lia].
    apply ksum_ext. intros j Hj. apply in_seq in Hj. rewrite (L3 i j nu Hn) by lia. destruct (Nat.eq_dec j i) as [->|E]; [rewrite Nat.eqb_refl; ring|].
    destruct (Nat.eqb_spec i j); [congruence|ring].
  Qed.
  (** A polynomial of degree [r] agreeing with [c] at the points is the
      Lagrange polynomial. *)
  Theorem lval_unique m r (c d : list F) : length c = get_dimension r m -> length d = get_dimension r m ->
    (forall nu, length nu = m -> nsum nu <= r -> mval m r d (generate_lagrange_point m r nu) = cf m r c nu) -> lagc m r c = d.
  Proof.
    intros Hc Hd H. apply (nodal_unique m r); [apply lagc_length|exact Hd|]. intros nu H1 H2. rewrite (H nu H1 H2). apply lval_nodal; assumption.
  Qed.

  (** *** Generated code *)
  Lemma bernstein_a_eq m r (c : list F) : length c = get_dimension r m -> bernstein_a m r c = Ok (map (fun nu => cf m r c nu * M r nu) (all_mi m r)).
  Proof.
    intros Hc. unfold bernstein_a. destruct (Nat.eqb_spec m 1) as [->|Hm].
    - rewrite all_mi_1, map_map. apply mapM_ok. intros k Hk. apply in_seq in Hk. rewrite nth_cf by (assumption || lia). rewrite get_dimension_1 in Hc.
      unfold get. rewrite (nth_error_nth' c 0) by lia. cbn [bind]. rewrite binomF_M by lia. reflexivity.
    - rewrite generate_all_eq. cbn [bind].
      rewrite (mapM_ok _ (fun p => nth (fst p) c 0 * M r (snd p))).
      + f_equal. apply map_combine_seq. intros i nu Hi. cbn [fst snd]. unfold cf, cfl. rewrite (pos_nth_error _ _ i (NoDup_all_mi m r) Hi). reflexivity.
      + intros [i nu] Hp. cbn [fst snd]. pose proof (in_combine_r _ _ _ _ Hp) as Hn. apply in_combine_l in Hp. apply in_seq in Hp. apply in_all_mi in Hn as [_ Hn].
        rewrite multinom_general_eq by exact Hn. cbn [bind]. unfold get. rewrite (nth_error_nth' c 0) by (rewrite Hc, dim_all_mi; lia). reflexivity.
  Qed.

  Theorem eval_code_ok b m r (c : list F) : length c = get_dimension r m -> exists ts, eval_code b m r c = Ok ts /\ forall x, length x = m -> run_code [] x ts = Ok (val b m r c x).
  Proof.
    intros Hc. destruct b; cbn [eval_code val].
    - pose proof (fun x Hx => monomial_code_ok [] x m r (map str_number c) c Hx (coeff_numbers_ok [] x c)) as H. rewrite map_length, Hc in H.
      destruct (H (repeat 0 m) (repeat_length _ _) (dim_all_mi r m)) as (ts & Et & _). exists ts. split; [exact Et|]. intros x Hx.
      destruct (H x Hx (dim_all_mi r m)) as (ts' & Et' & Hr). rewrite Et in Et'. injection Et' as <-. rewrite Hr. f_equal. apply sum_cf. exact Hc.
    - rewrite (bernstein_a_eq m r c Hc). cbn [bind]. set (a := map _ (all_mi m r)). assert (Ha : length a = get_dimension r m) by apply map_all_mi_length.
      pose proof (fun x Hx => barycentric_code_ok [] x m r (map str_number a) a Hx (coeff_numbers_ok [] x a)) as H. rewrite map_length, Ha in H.
      destruct (H (repeat 0 m) (repeat_length _ _) (dim_all_mi r m)) as (ts & Et & _). exists ts. split; [exact Et|]. intros x Hx.
      destruct (H x Hx (dim_all_mi r m)) as (ts' & Et' & Hr). rewrite Et in Et'. injection Et' as <-. rewrite Hr. f_equal.
      rewrite (sum_cf m r a (fun nu => mpow x nu * kpow (bary0 x) (r - nsum nu)) Ha). apply ksum_ext. intros nu Hnu. apply in_all_mi in Hnu as [N1 N2]. unfold a.
      rewrite cf_map by assumption. unfold bern. ring.
    - unfold lval, lagc. pose proof (lagc_length m r c) as Hl. unfold lagc in Hl. destruct (get_lagrange_ok (F := F) r m) as (l & El & _). rewrite El in *. cbn [bind].
      pose proof (fun x Hx => monomial_code_ok [] x m r (map str_number (mat_vec l c)) (mat_vec l c) Hx (coeff_numbers_ok [] x _)) as H. rewrite map_length, Hl in H.
      destruct (H (repeat 0 m) (repeat_length _ _) (dim_all_mi r m)) as (ts & Et & _). exists ts. split; [exact Et|]. intros x Hx.
      destruct (H x Hx (dim_all_mi r m)) as (ts' & Et' & Hr). rewrite Et in Et'. injection Et' as <-. rewrite Hr. f_equal. apply sum_cf. exact Hl.
  Qed.

  (** *** Objects *)
  (** A rectangular array of [n] columns with [len] rows. *)
  Definition rect (len : nat) (cols : list (list F)) : Prop := cols <> [] /\ forall c, In c cols -> length c = len.
  (** The objects the constructor makes from an array. *)
  Definition is_poly (p : poly F) : Prop := exists len b cols r m, rect len cols /\ new_poly b cols r m = Ok p.
  Definition valid (p : poly F) : Prop :=
    rect (get_dimension (p_r p) (p_m p)) (p_cols p) /\ (0 < p_m p -> p_r p < 20) /\ mapM (eval_code (p_basis p) (p_m p) (p_r p)) (p_cols p) = Ok (p_code p).
  Definition pv (p : poly F) (x : list F) : list F := map (fun c => val (p_basis p) (p_m p) (p_r p) c x) (p_cols p).

  Lemma hd_rect len cols : rect len cols -> length (hd [] cols) = len.
  Proof. intros [H1 H2]. destruct cols as [|c cols]; [congruence|]. apply H2. left. reflexivity. Qed.
  Lemma is_poly_valid p : is_poly p -> valid p.
  Proof.
    intros (len & b & cols & r & m & HR & H). unfold new_poly in H. rewrite (hd_rect _ _ HR) in H. destruct (Nat.ltb_spec 0 len) as [Hp|Hp]; cbn [assert_ bind] in H; [|discriminate].
    destruct r as [r|].
    - destruct (Nat.ltb_spec 0 m) as [Hm|Hm].
      + destruct (get_degree_from_dimension len m) as [d|] eqn:Ed; cbn [bind] in H; [|discriminate]. destruct (Nat.eqb_spec r d) as [E|]; cbn [assert_ bind] in H; [|discriminate].
        destruct (mapM (eval_code b m r) cols) as [codes|] eqn:Ec; cbn [bind] in H; [|discriminate]. injection H as <-. apply get_degree_inv in Ed as [E1 E2]. rewrite <- E in *.
        unfold valid. cbn [p_r p_m p_cols p_basis p_code]. rewrite <- E2. split; [exact HR|]. split; [intros _; exact E1|exact Ec].
      + destruct (Nat.eqb_spec len 1) as [E|]; cbn [assert_ bind] in H; [|discriminate].
        destruct (mapM (eval_code b m r) cols) as [codes|] eqn:Ec; cbn [bind] in H; [|discriminate]. injection H as <-.
        unfold valid. cbn [p_r p_m p_cols p_basis p_code]. replace m with O in * by lia.
        replace (get_dimension r 0) with 1%nat by (unfold get_dimension; destruct (r + 0)%nat; reflexivity). rewrite <- E. split; [exact HR|]. split; [lia|exact Ec].
    - destruct (get_degree_from_dimension len m) as [d|] eqn:Ed; cbn [bind] in H; [|discriminate].
      destruct (mapM (eval_code b m d) cols) as [codes|] eqn:Ec; cbn [bind] in H; [|discriminate]. injection H as <-. apply get_degree_inv in Ed as [E1 E2].
      unfold valid. cbn [p_r p_m p_cols p_basis p_code]. rewrite <- E2. split; [exact HR|]. split; [intros _; exact E1|exact Ec].
  Qed.
  Lemma eval_codes_ok b m r cols : rect (get_dimension r m) cols -> exists codes, mapM (eval_code b m r) cols = Ok codes.
  Proof.
    intros [_ H]. induction cols as [|c cols IH]; [exists []; reflexivity|]. destruct (eval_code_ok b m r c (H c (or_introl eq_refl))) as (ts & E & _).
    destruct IH as [codes Ec]; [intros d Hd; apply H; right; exact Hd|]. exists (ts :: codes). cbn [mapM]. rewrite E. cbn [bind]. rewrite Ec. reflexivity.
  Qed.
  Definition pbuilt (b : basis) (cols : list (list F)) (r m : nat) (p : poly F) : Prop :=
    valid p /\ p_basis p = b /\ p_cols p = cols /\ p_r p = r /\ p_m p = m.
  Theorem new_poly_ok b cols r m : rect (get_dimension r m) cols -> (0 < m -> r < 20) -> exists p, new_poly b cols (Some r) m = Ok p /\ pbuilt b cols r m p.
  Proof.
    intros HR Hr. destruct (eval_codes_ok b m r cols HR) as [codes Ec]. exists (mkPoly b cols r m codes). split.
    - unfold new_poly. rewrite (hd_rect _ _ HR). pose proof (get_dimension_pos r m) as Hp. apply Nat.ltb_lt in Hp. rewrite Hp. cbn [assert_ bind].
      destruct (Nat.ltb_spec 0 m) as [Hm|Hm].
      + rewrite (get_degree_ok r m Hm (Hr Hm)). cbn [bind]. rewrite Nat.eqb_refl. cbn [assert_ bind]. rewrite Ec. reflexivity.
      + replace m with O in * by lia. replace (get_dimension r 0) with 1%nat by (unfold get_dimension; destruct (r + 0)%nat; reflexivity).
        cbn [Nat.eqb assert_ bind]. rewrite Ec. reflexivity.
    - split; [|cbn; auto]. unfold valid. cbn [p_r p_m p_cols p_basis p_code]. auto.
  Qed.
  Lemma valid_is_poly p : valid p -> is_poly p.
  Proof.
    intros (H1 & H2 & H3). exists (get_dimension (p_r p) (p_m p)), (p_basis p), (p_cols p), (Some (p_r p)), (p_m p). split; [exact H1|].
    destruct (new_poly_ok (p_basis p) (p_cols p) (p_r p) (p_m p) H1 H2) as (q & E & (_ & _ & H6) & Q1 & Q2 & Q3 & Q4). rewrite E. f_equal.
    rewrite Q1, Q2, Q3, Q4, H3 in H6. injection H6 as H6. destruct p, q; cbn in *. congruence.
  Qed.
  Lemma valid_renew p : valid p -> new_poly (p_basis p) (p_cols p) (Some (p_r p)) (p_m p) = Ok p.
  Proof.
    intros (H1 & H2 & H3). destruct (new_poly_ok (p_basis p) (p_cols p) (p_r p) (p_m p) H1 H2) as (q & E & (_ & _ & H6) & Q1 & Q2 & Q3 & Q4). rewrite E. f_equal.
    rewrite Q1, Q2, Q3, Q4, H3 in H6. injection H6 as H6. destruct p, q; cbn in *. congruence.
  Qed.
  Theorem call_ok p x : valid p -> length x = p_m p -> call p x = Ok (pv p x).
  Proof.
    intros ((_ & H1) & _ & H3) Hx. unfold call, pv. revert H1 H3. generalize (p_cols p) (p_code p). intros cols.
    induction cols as [|c cols IH]; intros codes H1 H3; cbn [mapM] in H3.
    - injection H3 as <-. reflexivity.
    - destruct (eval_code_ok (p_basis p) (p_m p) (p_r p) c (H1 c (or_introl eq_refl))) as (ts & E & HV). rewrite E in H3. cbn [bind] in H3.
      destruct (mapM _ cols) as [cs|] eqn:Em; cbn [bind] in H3; [|discriminate]. injection H3 as <-. cbn [mapM map]. rewrite (HV x Hx). cbn [bind].
      rewrite (IH cs); [reflexivity|intros d Hd; apply H1; right; exact Hd|reflexivity].
  Qed.
End Eval.
