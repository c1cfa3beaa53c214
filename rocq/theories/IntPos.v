(** A real polynomial whose square integrates to zero over the unit simplex is zero. *)
From Coq Require Import Reals Lra Field_theory Field.
From Coquelicot Require Import Coquelicot.
From Verif Require Import Base MultiIndex MultiIndexFacts MultiCapFacts MultiIndexCache Fld FldInst CodeGen CodeGenFacts LinSolve MultiCoef MultiCoefFacts LagrangeCache Unisolv Poly PolyFacts LagFacts PolyEval PolyOps PolyOpsB PolyDeriv PolyObj PolyPow PolyCalls IntegralCache Integrate IntFacts SimplexInt SimplexPos.
From Verif Require Import IntReal.

Section Sq.
  Add Field Kfield19 : (kth RF).
  Local Open Scope fld_scope.
  Lemma pl_ksum (L : list (R * list nat)) x : pl L x = ksum (F := RF) L (fun e => (fst e : RF) * mpow (F := RF) x (snd e)).
  Proof. induction L as [|e L IH]; [reflexivity|]. rewrite ksum_cons, <- IH. cbn [pl fold_right]. rewrite <- mpow_rmpow. reflexivity. Qed.
  Definition sq_list m r (c : list RF) : list (R * list nat) :=
    flat_map (fun mu => map (fun nu => ((cf m r c mu * cf m r c nu : RF), mi_add mu nu)) (all_mi m r)) (all_mi m r).
  Lemma sq_list_val m r (c x : list RF) : length x = m -> pl (sq_list m r c) x = mval m r c x * mval m r c x.
  Proof.
    intros Hx. rewrite pl_ksum. unfold sq_list. rewrite ksum_flat_map. unfold mval. rewrite ksum_mul. apply (ksum_ext (F := RF)). intros mu Hmu. refine (eq_trans (ksum_map (F := RF) _ _ _) _). apply (ksum_ext (F := RF)). intros nu Hnu. apply in_all_mi in Hmu as [A _], Hnu as [B _].
    cbn [fst snd]. rewrite mpow_add by congruence. ring.
  Qed.
  Lemma sq_list_length m r c e : In e (sq_list m r c) -> length (snd e) = m.
  Proof.
    intros H. apply in_flat_map in H as (mu & Hmu & H). apply in_map_iff in H as (nu & <- & Hnu). apply in_all_mi in Hmu as [A _], Hnu as [B _]. cbn [snd]. unfold mi_add. rewrite map_length, combine_length. lia.
  Qed.
  Theorem sq_int_zero m r (c : list RF) : simplex_int m 1 (fun x => mval m r c x * mval m r c x) 0 -> forall mu, In mu (all_mi m r) -> cf m r c mu = 0.
  Proof.
    intros H. set (L := sq_list m r c).
    assert (H0 : pl_int m 1 L = 0%R).
    { refine (simplex_int_unique m 1 (pl L) _ _ Rle_0_1 (pl_integral m 1 L Rle_0_1 (sq_list_length m r c)) _). refine (simplex_int_ext _ _ _ _ _ Rle_0_1 _ H). intros x Hx _ _. symmetry. apply sq_list_val, Hx. }
    assert (HZ : forall x, length x = m -> (forall u, In u x -> (0 <= u)%R) -> (rsum x < 1)%R -> mval m r c x = 0).
    { intros x Hx Hx1 Hx2. assert (P : pl L x = 0%R).
      { refine (pl_positive m 1 L Rlt_0_1 (sq_list_length m r c) _ H0 x Hx Hx1 Hx2). intros y Hy _ _. unfold L. rewrite sq_list_val by exact Hy. change (0 <= (mval (F := RF) m r c y) * (mval (F := RF) m r c y))%R. apply Rle_0_sqr. }
      unfold L in P. rewrite sq_list_val in P by exact Hx. change ((mval (F := RF) m r c x) * (mval (F := RF) m r c x) = 0)%R in P. apply Rsqr_0_uniq. exact P. }
    apply (unisolvence m r (repeat (fun k => kofnat k / kofnat (S r)) m) (repeat_length _ _)) with (c := cf m r c).
    - intros f Hf. apply repeat_spec in Hf. rewrite Hf. apply kofnat_div_inj. discriminate.
    - intros nu N1 N2. apply HZ.
      + unfold pt. rewrite map_length, combine_length, repeat_length. lia.
      + intros u Hu. unfold pt in Hu. apply in_map_iff in Hu as ((f & k) & <- & Hk). apply in_combine_l in Hk. apply repeat_spec in Hk. cbn [fst snd]. rewrite Hk. change (0 <= kofnat (F := RF) k / kofnat (F := RF) (S r))%R. rewrite !kofnat_INR. apply Rmult_le_pos; [apply pos_INR|]. left. apply Rinv_0_lt_compat, lt_0_INR. lia.
      + assert (G : forall n nu, length nu = n -> rsum (pt (repeat (fun k => kofnat (F := RF) k / kofnat (S r)) n) nu) = (INR (nsum nu) / INR (S r))%R).
        { clear. induction n as [|n IH]; intros [|a nu] E; try discriminate; cbn [repeat]; [cbn; lra|]. injection E as E. transitivity ((kofnat (F := RF) a / kofnat (F := RF) (S r)) + rsum (pt (F := RF) (repeat (fun k => (kofnat (F := RF) k / kofnat (F := RF) (S r))%K) n) nu))%R; [reflexivity|]. rewrite (IH nu E), nsum_cons, plus_INR. cbn [kdiv RF]. rewrite !kofnat_INR. unfold Rdiv. ring. }
        rewrite (G m nu N1). apply Rmult_lt_reg_r with (INR (S r)); [apply lt_0_INR; lia|]. unfold Rdiv. rewrite Rmult_assoc, Rinv_l by (apply not_0_INR; discriminate). rewrite Rmult_1_r, Rmult_1_l. apply lt_INR. lia.
  Qed.
End Sq.

Lemma mpow_fold (x : list R) nu : mpow (F := RF) x nu = fold_right Rmult 1%R (map (fun xa => (fst xa ^ snd xa)%R) (combine x nu)).
Proof. revert nu. induction x as [|a x IH]; intros [|k nu]; cbn [mpow combine map fold_right]; try reflexivity. rewrite IH. reflexivity. Qed.
Lemma mifac_fold nu : mi_factorial nu = fold_right Nat.mul 1%nat (map fact nu).
Proof. induction nu as [|a nu IH]; [reflexivity|]. rewrite mi_factorial_cons, IH. reflexivity. Qed.
Lemma div_help (x a b f : R) : a <> 0%R -> b <> 0%R -> (x * (b * a))%R = f -> x = (f / (a * b))%R.
Proof. intros Ha Hb <-. field. split; assumption. Qed.
Lemma bern_basis_formula r nu : (list_sum nu <= r)%nat ->
  simplex_int (length nu) 1 (fun x => (INR (fact r) / (INR (fold_right Nat.mul 1%nat (map fact nu)) * INR (fact (r - list_sum nu))) *
      (fold_right Rmult 1 (map (fun xa => fst xa ^ snd xa) (combine x nu)) * (1 - fold_right Rplus 0 x) ^ (r - list_sum nu)))%R)
    (integrate_bernstein_basis_fn_unit_simplex (F := RF) r (length nu)).
Proof.
  intros H. change (list_sum nu) with (nsum nu) in *. rewrite int_bern_basis. refine (simplex_int_ext _ _ _ _ _ Rle_0_1 _ (bern_basis_int r nu H)). intros x Hx _ _. unfold bern.
  pose proof (M_fact (F := RF) r nu H) as HM. rewrite bary0_rsum, <- mpow_fold, <- mifac_fold. change (K RF) with R in *. cbn [kmul RF] in *. f_equal.
  rewrite <- !kofnat_INR. apply div_help; [| |exact HM]; rewrite kofnat_INR; apply not_0_INR; [|apply fact_neq_0].
  rewrite mifac_fold. clear. induction nu as [|a nu IH]; cbn [map fold_right]; [discriminate|]. pose proof (fact_neq_0 a). nia.
Qed.
Lemma homogeneous_formula nu : simplex_int (length nu) 1 (fun x => fold_right Rmult 1%R (map (fun xa => (fst xa ^ snd xa)%R) (combine x nu)))
    (integrate_homogeneous_polynomial_unit_simplex (F := RF) nu).
Proof. rewrite int_homogeneous_eq. refine (simplex_int_ext _ _ _ _ _ Rle_0_1 _ (mint_int nu)). intros x _ _ _. apply mpow_fold. Qed.
Lemma table_formula (F : fld) n r l mis i nu pq : assoc monomial_integrals_unit_simplex_all_cache (n, r) = Some l -> generate_all n r = Ok mis ->
  length l = length mis /\ (nth_error mis i = Some nu -> nth_error l i = Some pq ->
    cached_integral (F := F) pq = (kofnat (fold_right Nat.mul 1%nat (map fact nu)) / kofnat (fact (n + list_sum nu)))%K).
Proof.
  intros H E. rewrite generate_all_eq in E. injection E as <-. destruct (table_integrals (F := F) n r l H) as [A B]. split; [rewrite A; apply dim_all_mi|]. intros Hn Hl. rewrite (B i nu pq Hn Hl).
  apply nth_error_In, in_all_mi in Hn as [N1 _]. unfold mint. rewrite mifac_fold, N1. reflexivity.
Qed.
Definition ind_ok (t : (nat * nat) * list (list nat * (Z * Z))) : bool :=
  let '((n, r), d) := t in forallb (fun e => let '(nu, (p, q)) := e in (length nu =? n)%nat && (list_sum nu <=? r)%nat && negb (q =? 0)%Z && (p * Z.of_nat (fact (n + list_sum nu)) =? q * Z.of_nat (fold_right Nat.mul 1%nat (map fact nu)))%Z) d.
Lemma ind_checked : forallb ind_ok monomial_integrals_unit_simplex_individual_cache = true.
Proof. vm_compute. reflexivity. Qed.
Lemma individual_table n r d nu p q : In ((n, r), d) monomial_integrals_unit_simplex_individual_cache -> In (nu, (p, q)) d ->
  length nu = n /\ (list_sum nu <= r)%nat /\ q <> 0%Z /\ (p * Z.of_nat (fact (n + list_sum nu)) = q * Z.of_nat (fold_right Nat.mul 1%nat (map fact nu)))%Z.
Proof.
  intros H1 H2. pose proof ind_checked as C. rewrite forallb_forall in C. specialize (C _ H1). unfold ind_ok in C. rewrite forallb_forall in C. specialize (C _ H2). cbn beta iota in C.
  apply andb_prop in C as [C C4]. apply andb_prop in C as [C C3]. apply andb_prop in C as [C1 C2]. apply Nat.eqb_eq in C1. apply Nat.leb_le in C2. apply negb_true_iff, Z.eqb_neq in C3. apply Z.eqb_eq in C4. tauto.
Qed.

Lemma l2_inner m r s (p q : poly RF) : poly_of Monomial m 1 r p -> poly_of Monomial m 1 s q -> ((0 < m)%nat -> (r + s < 20)%nat) ->
  exists v, l2_inner_product_unit p q = Ok v /\
    simplex_int m 1 (fun x => match call p x, call q x with Ok [u], Ok [w] => (u * w)%R | _, _ => 0%R end) v.
Proof.
  intros Hp Hq Hd. destruct (calls_mul Monomial Monomial m r s p q Hp Hq (fun _ => eq_refl) Hd) as (t & Et & Ht & HV). unfold l2_inner_product_unit. rewrite Et. cbn [bind].
  destruct (integrate_components _ _ _ _ _ Ht) as (v & Ev & Hv & HI). pose proof Ht as (T1 & T2 & T3 & T4 & T5). unfold domain_dimension, target_dimension, degree in *. unfold integrate_unit_simplex in Ev. rewrite T2 in Ev.
  destruct (p_cols t) as [|c [|]]; cbn [length] in T4; try lia. cbn [mapM hd] in *. destruct (integrate_polynomial_unit_simplex (p_r t) (p_m t) c) as [w|]; cbn [bind] in Ev; [|discriminate]. injection Ev as <-.
  exists w. split; [reflexivity|]. specialize (HI 0%nat ltac:(lia)). cbn [nth] in HI. refine (simplex_int_ext _ _ _ _ _ Rle_0_1 _ HI). intros x Hx _ _. destruct (HV x Hx) as (a & b & E1 & E2 & E3). unfold component. rewrite E1, E2, E3. reflexivity.
Qed.
Lemma l2_definite m r (p : poly RF) : poly_of Monomial m 1 r p -> ((0 < m)%nat -> (r + r < 20)%nat) ->
  exists v, l2_norm2_unit p = Ok v /\ (0 <= v)%R /\ (v = 0%R <-> forall c a, In c (p_cols p) -> In a c -> a = 0%R).
Proof.
  intros Hp Hd. destruct (l2_inner m r r p p Hp Hp Hd) as (v & Ev & HI). exists v. split; [exact Ev|].
  pose proof Hp as (P1 & P2 & P3 & P4 & P5). unfold domain_dimension, target_dimension, degree in *. pose proof (is_poly_valid _ P1) as V. destruct (p_cols p) as [|c [|]] eqn:Ec; cbn [length] in P4; try lia.
  assert (Lc : length c = get_dimension r m) by (destruct V as [[_ V] _]; rewrite <- P5, <- P3; apply V; rewrite Ec; left; reflexivity).
  assert (HI2 : simplex_int m 1 (fun x => mval (F := RF) m r c x * mval (F := RF) m r c x)%R v).
  { refine (simplex_int_ext _ _ _ _ _ Rle_0_1 _ HI). intros x Hx _ _. destruct (call_pv _ _ _ _ _ _ Hp Hx) as [E _]. rewrite E. unfold pv. rewrite Ec, P2, P3, P5. reflexivity. }
  split; [apply (simplex_int_nonneg m 1 _ _ Rle_0_1) with (2 := HI2); intros; apply Rle_0_sqr|]. split.
  - intros -> c' a [<-|[]] Ha. apply In_nth with (d := 0%R) in Ha as (i & Hi & <-). pose proof (sq_int_zero m r c HI2) as Z. rewrite <- (map_cf (F := RF) m r c Lc) in Hi |- *. rewrite map_length in Hi.
    rewrite (map_nth_map _ _ ([] : list nat)) by exact Hi. apply Z. apply nth_In. exact Hi.
  - intros H. refine (simplex_int_unique m 1 _ _ _ Rle_0_1 HI2 _). refine (simplex_int_ext _ _ _ _ _ Rle_0_1 _ (simplex_int_zero m 1 Rle_0_1)). intros x Hx _ _.
    replace (mval (F := RF) m r c x) with 0%R; [rewrite Rmult_0_l; reflexivity|]. symmetry. apply (ksum_zero (F := RF)). intros nu Hnu.
    replace (cf (F := RF) m r c nu) with (0%R : RF); [apply Rmult_0_l|]. symmetry. apply (H c); [left; reflexivity|]. rewrite <- (map_cf (F := RF) m r c Lc) at 2. apply in_map. exact Hnu.
Qed.
