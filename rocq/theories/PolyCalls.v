(** The operations seen through the values [call] returns. *)
From Coq Require Import Reals Field_theory Field.
From Verif Require Import Base MultiIndex MultiIndexFacts MultiCapFacts MultiIndexCache Fld FldInst CodeGen CodeGenFacts LinSolve MultiCoef MultiCoefFacts LagrangeCache Unisolv Poly PolyFacts LagFacts PolyEval PolyOps PolyOpsB PolyDeriv PolyObj PolyPow.

Section Calls.
  Context {F : fld}.
  Add Field Kfield16 : (kth F).
  Local Open Scope fld_scope.

  (** Objects of the class for basis [b], with given dimensions and degree. *)
  Definition poly_of (b : basis) (m n r : nat) (p : poly F) : Prop := is_poly p /\ p_basis p = b /\ domain_dimension p = m /\ target_dimension p = n /\ degree p = r.
  (** Component [k] of the value at [x]. *)
  Definition component (p : poly F) (k : nat) (x : list F) : F := match call p x with Ok v => nth k v 0 | Err _ => 0 end.

  Lemma poly_of_intro b m n r p : valid p -> p_basis p = b -> p_m p = m -> length (p_cols p) = n -> p_r p = r -> poly_of b m n r p.
  Proof. intros H1 H2 H3 H4 H5. split; [apply valid_is_poly; exact H1|]. auto. Qed.
  Lemma call_pv b m n r p x : poly_of b m n r p -> length x = m -> call p x = Ok (pv p x) /\ length (pv p x) = n.
  Proof. intros (H1 & _ & H3 & H4 & _) Hx. split; [apply call_ok; [apply is_poly_valid; exact H1|unfold domain_dimension in H3; congruence]|]. rewrite pv_length. exact H4. Qed.
  Lemma call_scalar b m r p x : poly_of b m 1 r p -> length x = m -> exists u, pv p x = [u] /\ call p x = Ok [u].
  Proof. intros H Hx. destruct (call_pv _ _ _ _ _ _ H Hx) as [E L]. destruct (pv p x) as [|u [|]]; try discriminate. exists u. auto. Qed.

  Theorem constructor_total b (cols : list (list F)) r m : cols <> [] -> (forall c, In c cols -> length c = get_dimension r m) -> ((0 < m)%nat -> (r < 20)%nat) ->
    exists p, new_poly b cols (Some r) m = Ok p /\ poly_of b m (length cols) r p /\ p_cols p = cols.
  Proof.
    intros H1 H2 H3. destruct (new_poly_ok b cols r m (conj H1 H2) H3) as (p & E & Hv & R1 & R2 & R3 & R4). exists p. split; [exact E|]. split; [|exact R2]. apply poly_of_intro; congruence.
  Qed.
  Theorem constructor_limit b (c : list F) : length c = get_dimension 20 1 -> new_poly b [c] (Some 20%nat) 1 = Err AssertionError.
  Proof. intros E. unfold new_poly. cbn [hd]. rewrite E. reflexivity. Qed.

  Lemma val_mis b m r (B : list nat -> list F -> F) mis c x : generate_all m r = Ok mis -> length c = get_dimension r m ->
    (forall c x, length c = get_dimension r m -> val b m r c x = ksum (all_mi m r) (fun nu => cf m r c nu * B nu x)) -> val b m r c x = ksum (combine c mis) (fun ca => fst ca * B (snd ca) x).
  Proof. intros Hm Hc HB. rewrite generate_all_eq in Hm. injection Hm as <-. rewrite (sum_cf m r c (fun nu => B nu x) Hc). apply HB. exact Hc. Qed.
  Theorem monomial_evaluation m n r (p : poly F) x mis : poly_of Monomial m n r p -> length x = m -> generate_all m r = Ok mis ->
    call p x = Ok (map (fun c => ksum (combine c mis) (fun ca => fst ca * mpow x (snd ca))) (p_cols p)).
  Proof.
    intros Hp Hx Hm. destruct (call_pv _ _ _ _ _ _ Hp Hx) as [-> _]. destruct Hp as (Hp & Hb & H3 & _ & H5). unfold domain_dimension, degree in *. apply is_poly_valid in Hp. destruct Hp as ((_ & HP) & _). f_equal. unfold pv. apply map_ext_in. intros c Hc.
    rewrite Hb, H3, H5. apply (val_mis Monomial m r (fun nu x => mpow x nu)); [exact Hm|rewrite <- H3, <- H5; apply HP, Hc|reflexivity].
  Qed.
  Lemma mi_factorial_map a : mi_factorial a = fold_right Nat.mul 1%nat (map fact a).
  Proof. induction a as [|x a IH]; [reflexivity|]. cbn [map fold_right]. rewrite mi_factorial_cons, IH. reflexivity. Qed.
  Theorem bernstein_evaluation m n r (p : poly F) x mis : poly_of Bernstein m n r p -> length x = m -> generate_all m r = Ok mis ->
    call p x = Ok (map (fun c => ksum (combine c mis) (fun ca => fst ca *
      (kofnat (fact r) / (kofnat (fold_right Nat.mul 1%nat (map fact (snd ca))) * kofnat (fact (r - list_sum (snd ca)))) *
       (mpow x (snd ca) * kpow (1 - ksum x (fun v => v)) (r - list_sum (snd ca)))))) (p_cols p)).
  Proof.
    intros Hp Hx Hm. destruct (call_pv _ _ _ _ _ _ Hp Hx) as [-> _]. destruct Hp as (Hp & Hb & H3 & _ & H5). unfold domain_dimension, degree in *. apply is_poly_valid in Hp. destruct Hp as ((_ & HP) & _). f_equal. unfold pv. apply map_ext_in. intros c Hc.
    rewrite Hb, H3, H5. rewrite (val_mis Bernstein m r (fun nu x => bern r nu x) mis c x Hm); [|rewrite <- H3, <- H5; apply HP, Hc|reflexivity].
    apply ksum_ext. intros [ci nu] Hin. apply in_combine_r in Hin. rewrite generate_all_eq in Hm. injection Hm as <-. apply in_all_mi in Hin as [N1 N2]. cbn [fst snd]. f_equal. unfold bern. f_equal.
    rewrite <- mi_factorial_map. pose proof (M_fact (F := F) r nu N2) as E. pose proof (kofnat_neq (F := F) _ (mi_factorial_pos nu)). pose proof (kofnat_neq (F := F) _ (fact_neq_0 (r - nsum nu))). change (list_sum nu) with (nsum nu). rewrite <- E. field. split; assumption.
  Qed.

  Theorem calls_add b m n r s (p q : poly F) : poly_of b m n r p -> poly_of b m n s q ->
    exists t, add p q = Ok t /\ poly_of b m n (Nat.max r s) t /\
      forall x, length x = m -> exists u v w, call p x = Ok u /\ call q x = Ok v /\ call t x = Ok w /\
        length u = n /\ length v = n /\ length w = n /\ forall k, (k < n)%nat -> nth k w 0 = nth k u 0 + nth k v 0.
  Proof.
    intros Hp Hq. pose proof Hp as (P1 & P2 & P3 & P4 & P5). pose proof Hq as (Q1 & Q2 & Q3 & Q4 & Q5). unfold domain_dimension, target_dimension, degree in *.
    destruct (add_ok p q (is_poly_valid _ P1) (is_poly_valid _ Q1)) as (t & Et & T1 & [T2 T3 T4] & T5 & T6); [constructor; congruence|].
    assert (Ht : poly_of b m n (Nat.max r s) t) by (apply poly_of_intro; congruence). exists t. split; [exact Et|]. split; [exact Ht|]. intros x Hx. exists (pv p x), (pv q x), (pv t x).
    destruct (call_pv _ _ _ _ _ _ Hp Hx) as [C1 L1], (call_pv _ _ _ _ _ _ Hq Hx) as [C2 L2], (call_pv _ _ _ _ _ _ Ht Hx) as [C3 L3]. repeat (split; [assumption|]). intros k Hk. rewrite T6 by congruence. apply nth_vadd. congruence.
  Qed.
  Theorem calls_sub b m n r s (p q : poly F) : poly_of b m n r p -> poly_of b m n s q ->
    exists t, sub p q = Ok t /\ poly_of b m n (Nat.max r s) t /\
      forall x, length x = m -> exists u v w, call p x = Ok u /\ call q x = Ok v /\ call t x = Ok w /\
        length u = n /\ length v = n /\ length w = n /\ forall k, (k < n)%nat -> nth k w 0 = nth k u 0 - nth k v 0.
  Proof.
    intros Hp Hq. pose proof Hp as (P1 & P2 & P3 & P4 & P5). pose proof Hq as (Q1 & Q2 & Q3 & Q4 & Q5). unfold domain_dimension, target_dimension, degree in *.
    destruct (sub_ok p q (is_poly_valid _ P1) (is_poly_valid _ Q1)) as (t & Et & T1 & [T2 T3 T4] & T5 & T6); [constructor; congruence|].
    assert (Ht : poly_of b m n (Nat.max r s) t) by (apply poly_of_intro; congruence). exists t. split; [exact Et|]. split; [exact Ht|]. intros x Hx. exists (pv p x), (pv q x), (pv t x).
    destruct (call_pv _ _ _ _ _ _ Hp Hx) as [C1 L1], (call_pv _ _ _ _ _ _ Hq Hx) as [C2 L2], (call_pv _ _ _ _ _ _ Ht Hx) as [C3 L3]. repeat (split; [assumption|]). intros k Hk. rewrite T6 by congruence. apply (nth_cop ksub); [congruence|ring].
  Qed.
  Theorem calls_scale b m n r (p : poly F) c : poly_of b m n r p ->
    exists t, scale p c = Ok t /\ poly_of b m n r t /\
      forall x, length x = m -> exists u, call p x = Ok u /\ length u = n /\ call t x = Ok (map (fun v => v * c) u).
  Proof.
    intros Hp. pose proof Hp as (P1 & P2 & P3 & P4 & P5). unfold domain_dimension, target_dimension, degree in *.
    destruct (scale_ok p c (is_poly_valid _ P1)) as (t & Et & T1 & [T2 T3 T4] & T5 & T6).
    assert (Ht : poly_of b m n r t) by (apply poly_of_intro; congruence). exists t. split; [exact Et|]. split; [exact Ht|]. intros x Hx. exists (pv p x).
    destruct (call_pv _ _ _ _ _ _ Hp Hx) as [C1 L1], (call_pv _ _ _ _ _ _ Ht Hx) as [C3 L3]. repeat (split; [assumption|]). rewrite C3, T6 by congruence. reflexivity.
  Qed.
  Theorem calls_truediv b m n r (p : poly F) c : c <> 0 -> poly_of b m n r p ->
    exists t, truediv p c = Ok t /\ poly_of b m n r t /\
      forall x, length x = m -> exists u, call p x = Ok u /\ length u = n /\ call t x = Ok (map (fun v => v / c) u).
  Proof.
    intros Hc Hp. pose proof Hp as (P1 & P2 & P3 & P4 & P5). unfold domain_dimension, target_dimension, degree in *.
    destruct (truediv_ok p c Hc (is_poly_valid _ P1)) as (t & Et & T1 & [T2 T3 T4] & T5 & T6).
    assert (Ht : poly_of b m n r t) by (apply poly_of_intro; congruence). exists t. split; [exact Et|]. split; [exact Ht|]. intros x Hx. exists (pv p x).
    destruct (call_pv _ _ _ _ _ _ Hp Hx) as [C1 L1], (call_pv _ _ _ _ _ _ Ht Hx) as [C3 L3]. repeat (split; [assumption|]). rewrite C3, T6 by congruence. reflexivity.
  Qed.
  Theorem calls_outer b m r (p : poly F) c : poly_of b m 1 r p -> c <> [] ->
    exists t, outer p c = Ok t /\ poly_of b m (length c) r t /\
      forall x, length x = m -> exists u, call p x = Ok [u] /\ call t x = Ok (map (fun v => u * v) c).
  Proof.
    intros Hp Hc. pose proof Hp as (P1 & P2 & P3 & P4 & P5). unfold domain_dimension, target_dimension, degree in *.
    destruct (outer_ok p c (is_poly_valid _ P1) P4 Hc) as (t & Et & T1 & T2 & T3 & T4 & T5 & T6).
    assert (Ht : poly_of b m (length c) r t) by (apply poly_of_intro; congruence). exists t. split; [exact Et|]. split; [exact Ht|]. intros x Hx.
    destruct (call_scalar _ _ _ _ _ Hp Hx) as (u & V1 & C1), (call_pv _ _ _ _ _ _ Ht Hx) as [C3 L3]. exists u. split; [exact C1|]. rewrite C3, (T6 x u) by congruence. reflexivity.
  Qed.
  Theorem calls_mul b bq m r s (p q : poly F) : poly_of b m 1 r p -> poly_of bq m 1 s q -> (b <> Lagrange -> bq = b) -> ((0 < m)%nat -> (r + s < 20)%nat) ->
    exists t, mul p q = Ok t /\ poly_of b m 1 (r + s) t /\
      forall x, length x = m -> exists u v, call p x = Ok [u] /\ call q x = Ok [v] /\ call t x = Ok [u * v].
  Proof.
    intros Hp Hq Hb Hd. pose proof Hp as (P1 & P2 & P3 & P4 & P5). pose proof Hq as (Q1 & Q2 & Q3 & Q4 & Q5). unfold domain_dimension, target_dimension, degree in *.
    destruct (mul_ok p q (is_poly_valid _ P1) (is_poly_valid _ Q1) ltac:(congruence) P4 Q4) as (t & Et & T1 & T2 & T3 & T4 & T5 & T6); [rewrite P2, Q2; exact Hb|rewrite P3, P5, Q5; exact Hd|].
    assert (Ht : poly_of b m 1 (r + s) t) by (apply poly_of_intro; congruence). exists t. split; [exact Et|]. split; [exact Ht|]. intros x Hx.
    destruct (call_scalar _ _ _ _ _ Hp Hx) as (u & V1 & C1), (call_scalar _ _ _ _ _ Hq Hx) as (v & V2 & C2), (call_pv _ _ _ _ _ _ Ht Hx) as [C3 L3]. exists u, v. split; [exact C1|]. split; [exact C2|]. rewrite C3, (T6 x u v) by congruence. reflexivity.
  Qed.
  Theorem calls_mul_limit b m r s (p q : poly F) : poly_of b m 1 r p -> poly_of b m 1 s q -> (0 < m)%nat -> (20 <= r + s)%nat -> mul p q = Err AssertionError.
  Proof.
    intros Hp Hq Hm Hd. pose proof Hp as (P1 & P2 & P3 & P4 & P5). pose proof Hq as (Q1 & Q2 & Q3 & Q4 & Q5). unfold domain_dimension, target_dimension, degree in *.
    apply mul_limit; try assumption; try (apply is_poly_valid; assumption); try congruence; lia.
  Qed.
  Theorem calls_pow b m r (p : poly F) e : poly_of b m 1 r p -> ((0 < m)%nat -> (r * e < 20)%nat) ->
    exists t, pow p e = Ok t /\ poly_of b m 1 (r * e) t /\
      forall x, length x = m -> exists u, call p x = Ok [u] /\ call t x = Ok [kpow u e].
  Proof.
    intros Hp Hd. pose proof Hp as (P1 & P2 & P3 & P4 & P5). unfold domain_dimension, target_dimension, degree in *.
    destruct (pow_ok p e (is_poly_valid _ P1) P4) as (t & Et & T1 & T2 & T3 & T4 & T5 & T6); [rewrite P3, P5; exact Hd|].
    assert (Ht : poly_of b m 1 (r * e) t) by (apply poly_of_intro; congruence). exists t. split; [exact Et|]. split; [exact Ht|]. intros x Hx.
    destruct (call_scalar _ _ _ _ _ Hp Hx) as (u & V1 & C1), (call_pv _ _ _ _ _ _ Ht Hx) as [C3 L3]. exists u. split; [exact C1|]. rewrite C3, (T6 x u) by congruence. reflexivity.
  Qed.
  Theorem calls_pow_mi b m n r (p : poly F) e : poly_of b m n r p -> length e = n -> (b <> Monomial -> n <> 1%nat) -> ((0 < m)%nat -> (r * list_sum e < 20)%nat) ->
    exists t, pow_mi p e = Ok t /\ poly_of b m 1 (r * list_sum e) t /\
      forall x, length x = m -> exists u w, call p x = Ok u /\ power u e = Ok w /\ call t x = Ok [w].
  Proof.
    intros Hp He Hn Hd. pose proof Hp as (P1 & P2 & P3 & P4 & P5). unfold domain_dimension, target_dimension, degree in *. change (list_sum e) with (nsum e) in *.
    destruct (pow_mi_ok p e (is_poly_valid _ P1)) as (t & Et & T1 & T2 & T3 & T4 & T5 & T6); [congruence|rewrite P2, P4; exact Hn|rewrite P3, P5; exact Hd|].
    assert (Ht : poly_of b m 1 (r * nsum e) t) by (apply poly_of_intro; congruence). exists t. split; [exact Et|]. split; [exact Ht|]. intros x Hx.
    destruct (call_pv _ _ _ _ _ _ Hp Hx) as [C1 L1], (call_pv _ _ _ _ _ _ Ht Hx) as [C3 L3]. exists (pv p x), (mpow (pv p x) e). split; [exact C1|]. split; [apply power_mpow; congruence|]. rewrite C3, (T6 x) by congruence. reflexivity.
  Qed.
  Theorem calls_elevate b m n r s (p : poly F) : poly_of b m n r p -> (r <= s)%nat -> ((0 < m)%nat -> (s < 20)%nat) ->
    exists t, degree_elevate p s = Ok t /\ poly_of b m n s t /\ forall x, length x = m -> exists u, call p x = Ok u /\ call t x = Ok u.
  Proof.
    intros Hp Hs Hd. pose proof Hp as (P1 & P2 & P3 & P4 & P5). unfold domain_dimension, target_dimension, degree in *.
    destruct (degree_elevate_ok p s (is_poly_valid _ P1)) as (t & Et & T1 & [T2 T3 T4] & T5 & T6); [congruence|rewrite P3; exact Hd|].
    assert (Ht : poly_of b m n s t) by (apply poly_of_intro; congruence). exists t. split; [exact Et|]. split; [exact Ht|]. intros x Hx.
    destruct (call_pv _ _ _ _ _ _ Hp Hx) as [C1 L1], (call_pv _ _ _ _ _ _ Ht Hx) as [C3 L3]. exists (pv p x). split; [exact C1|]. rewrite C3, (T6 x) by congruence. reflexivity.
  Qed.
  Theorem elevate_coefficients m n r s (p : poly F) t : poly_of Monomial m n r p -> (r <= s)%nat -> degree_elevate p s = Ok t ->
    forall k nu i, (k < n)%nat -> length nu = m -> (list_sum nu <= s)%nat -> get_index nu s = Ok i ->
      if (list_sum nu <=? r)%nat then exists j, get_index nu r = Ok j /\ nth i (nth k (p_cols t) []) 0 = nth j (nth k (p_cols p) []) 0
      else nth i (nth k (p_cols t) []) 0 = 0.
  Proof.
    intros Hp Hs Ht k nu i Hk Hn1 Hn2 Hi. pose proof Hp as (P1 & P2 & P3 & P4 & P5). unfold domain_dimension, target_dimension, degree in *. change (list_sum nu) with (nsum nu) in *. apply is_poly_valid in P1. pose proof P1 as ((_ & HP) & _ & _). rewrite P3, P5 in HP.
    assert (HC : nth i (nth k (p_cols t) []) 0 = cf m r (nth k (p_cols p) []) nu).
    { assert (Hc : length (nth k (p_cols p) []) = get_dimension r m) by (apply HP, nth_In; lia). unfold degree_elevate in Ht. rewrite P5 in Ht. replace (r <=? s)%nat with true in Ht by (symmetry; apply Nat.leb_le; exact Hs). cbn [assert_ bind] in Ht. rewrite P2 in Ht.
      destruct (Nat.eqb_spec s r) as [E|E].
      - replace Monomial with (p_basis p) in Ht. rewrite <- P5 in Ht at 1. rewrite valid_renew in Ht by exact P1. injection Ht as <-. rewrite E in *. destruct (index_cf m r nu _ Hn1 Hn2 Hc) as (j & _ & Ej & _ & Eg). rewrite Hi in Ej. injection Ej as <-. unfold get in Eg.
        destruct (nth_error _ i) as [v|] eqn:En in Eg; [|discriminate]. injection Eg as <-. apply nth_error_nth. exact En.
      - rewrite P3 in Ht. rewrite (mapM_ok _ (fun c => map (cf m r c) (all_mi m s))) in Ht by (intros c Hc'; apply elevate_monomial_eq; [exact Hs|apply HP, Hc']). cbn [bind] in Ht.
        unfold new_poly in Ht. destruct (assert_ _); [|discriminate]. cbn [bind] in Ht. match type of Ht with bind ?e _ = _ => destruct e; [|discriminate] end. cbn [bind] in Ht. destruct (mapM _ _); [|discriminate]. cbn [bind] in Ht. injection Ht as <-. cbn [p_cols].
        rewrite (map_nth_map (fun c => map (cf m r c) (all_mi m s)) (p_cols p) [] k []) by lia.
        destruct (index_cf m s nu (map (cf m r (nth k (p_cols p) [])) (all_mi m s)) Hn1 Hn2 (map_all_mi_length _ _ _)) as (j & _ & Ej & _ & Eg). rewrite Hi in Ej. injection Ej as <-. unfold get in Eg.
        destruct (nth_error _ i) as [v|] eqn:En in Eg; [|discriminate]. injection Eg as Eg. rewrite (nth_error_nth _ _ _ En), Eg. apply cf_map; assumption. }
    rewrite HC. destruct (Nat.leb_spec (nsum nu) r) as [H|H]; [|apply cf_out; exact H].
    assert (Hc : length (nth k (p_cols p) []) = get_dimension r m) by (apply HP, nth_In; lia). destruct (index_cf m r nu _ Hn1 H Hc) as (j & _ & Ej & _ & Eg). exists j. split; [exact Ej|]. unfold get in Eg.
    destruct (nth_error _ j) as [v|] eqn:En in Eg; [|discriminate]. injection Eg as <-. symmetry. apply nth_error_nth. exact En.
  Qed.

  Theorem calls_pderiv b m n r (p : poly F) i : poly_of b m n r p -> (i < m)%nat ->
    exists q, partial_derivative p i = Ok q /\ poly_of b m n (r - 1) q /\
      forall x k, length x = m -> (k < n)%nat -> is_pderiv (component p k) i x (component q k x).
  Proof.
    intros Hp Hi. pose proof Hp as (P1 & P2 & P3 & P4 & P5). unfold domain_dimension, target_dimension, degree in *.
    destruct (partial_derivative_ok p i (is_poly_valid _ P1)) as (q & Eq & Q1 & [Q2 Q3 Q4] & Q5 & Q6); [congruence|].
    assert (Hq : poly_of b m n (r - 1) q) by (apply poly_of_intro; congruence). exists q. split; [exact Eq|]. split; [exact Hq|]. intros x k Hx Hk.
    destruct (call_pv _ _ _ _ _ _ Hq Hx) as [C2 L2].
    assert (HC : forall y, length y = m -> component p k y = val (p_basis p) (p_m p) (p_r p) (nth k (p_cols p) []) y).
    { intros y Hy. unfold component. destruct (call_pv _ _ _ _ _ _ Hp Hy) as [-> _]. unfold pv. apply (map_nth_map (fun c => val (p_basis p) (p_m p) (p_r p) c y)). lia. }
    assert (HD : component q k x = val (p_basis q) (p_m q) (p_r q) (nth k (p_cols q) []) x).
    { unfold component. rewrite C2. unfold pv. apply (map_nth_map (fun c => val (p_basis q) (p_m q) (p_r q) c x)). lia. }
    rewrite HD. apply (pderiv_ext (val (p_basis p) (p_m p) (p_r p) (nth k (p_cols p) [])) _ i x (val (p_basis q) (p_m q) (p_r q) (nth k (p_cols q) []) x) _ m Hx); [intros y Hy; symmetry; apply HC, Hy|reflexivity|].
    unfold pderivs in Q6. rewrite <- P3 in Hx. assert (Hk' : (k < length (p_cols p))%nat) by lia. clear -Q6 Hk' Hx. revert k Hk'. induction Q6 as [|c d cs ds Hcd _ IH]; intros k Hk; cbn [length] in Hk; [lia|]. destruct k as [|k]; cbn [nth]; [apply Hcd; exact Hx|]. apply IH. lia.
  Qed.
  Theorem calls_derivative b m n r (p : poly F) i : poly_of b m n r p -> (i < m)%nat ->
    exists q, partial_derivative p i = Ok q /\ poly_of b m n (r - 1) q /\
      forall x k, length x = m -> (k < n)%nat -> exists g, polyfun g /\ forall h,
        component p k (upd x i (nth i x 0 + h)) = component p k x + h * component q k x + h * h * g h.
  Proof.
    intros Hp Hi. destruct (calls_pderiv b m n r p i Hp Hi) as (q & Eq & Hq & H). exists q. split; [exact Eq|]. split; [exact Hq|]. intros x k Hx Hk. destruct (H x k Hx Hk) as (g & Hg & E). exists g. split; [exact Hg|]. intros h. rewrite (E h).
    replace (nth i x 0 + 0) with (nth i x 0) by ring. rewrite upd_nth_same. reflexivity.
  Qed.
  Theorem calls_unit b r m n : n <> 0%nat -> ((0 < m)%nat -> (r < 20)%nat) ->
    exists p, unit_polynomial (F := F) b r m n = Ok p /\ poly_of b m n r p /\ forall x, length x = m -> call p x = Ok (repeat 1 n).
  Proof.
    intros Hn Hr. destruct (unit_polynomial_ok (F := F) b r m n Hn Hr) as (z & Ez & Z1 & Z2 & Z3 & Z4 & Z5 & Z6). assert (Hz : poly_of b m n r z) by (apply poly_of_intro; congruence).
    exists z. split; [exact Ez|]. split; [exact Hz|]. intros x Hx. destruct (call_pv _ _ _ _ _ _ Hz Hx) as [-> _]. rewrite (Z6 x Hx). reflexivity.
  Qed.

  (** *** Bernstein basis *)
  Lemma basis_fn_value b nu r (p : poly F) x v : basis_fn b nu r = Ok p -> (nsum nu <= r)%nat -> length x = length nu -> call p x = Ok [v] -> v = val b (length nu) r (unit_column (length nu) r nu) x.
  Proof.
    intros Hp Hn Hx Hv. unfold basis_fn in Hp. destruct (unit_column_set (F := F) (length nu) r nu eq_refl Hn) as (i & Ei & Es). rewrite Ei in Hp. cbn [bind] in Hp. rewrite Es in Hp. cbn [bind] in Hp.
    assert (HP : is_poly p) by (exists (get_dimension r (length nu)), b, [unit_column (length nu) r nu], (Some r), (length nu); split; [apply rect1, map_all_mi_length|exact Hp]).
    pose proof Hp as Hp'. unfold new_poly in Hp'. destruct (assert_ _) in Hp'; [|discriminate]. cbn [bind] in Hp'. match type of Hp' with bind ?e _ = _ => destruct e as [r'|] eqn:E; [|discriminate] end. cbn [bind] in Hp'.
    destruct (mapM _ _) in Hp'; [|discriminate]. cbn [bind] in Hp'. injection Hp' as <-. rewrite call_ok in Hv by (first [apply is_poly_valid; exact HP|exact Hx]). unfold pv in Hv. cbn [p_basis p_cols p_r p_m map] in Hv. injection Hv as <-.
    assert (r' = r) as ->; [|reflexivity]. match type of E with bind ?e _ = _ => destruct e; [|discriminate] end. cbn [bind] in E. congruence.
  Qed.
  Lemma bval_unit m r nu (x : list F) : length nu = m -> (nsum nu <= r)%nat -> bval m r (unit_column m r nu) x = bern r nu x.
  Proof.
    intros H1 H2. unfold bval, unit_column. rewrite <- (ksum_delta mi_dec (fun mu => bern r mu x) (all_mi m r) nu (NoDup_all_mi m r)) by (apply in_all_mi; split; assumption).
    apply ksum_ext. intros mu Hmu. apply in_all_mi in Hmu as [M1 M2]. rewrite cf_map by assumption. destruct (mi_dec mu nu); ring.
  Qed.
  Theorem bernstein_partition m r mis (ps : list (poly F)) x vs : generate_all m r = Ok mis -> mapM (fun nu => basis_fn Bernstein nu r) mis = Ok ps ->
    length x = m -> mapM (fun p => call1 p x) ps = Ok vs -> ksum vs (fun v => v) = 1.
  Proof.
    intros Hm Hps Hx Hvs. rewrite generate_all_eq in Hm. injection Hm as <-. rewrite <- (bern_partition m r x Hx).
    assert (HI : forall nu, In nu (all_mi m r) -> length nu = m /\ (nsum nu <= r)%nat) by (intros nu Hn; apply in_all_mi in Hn; exact Hn).
    revert ps vs Hps Hvs HI. generalize (all_mi m r). induction l as [|nu l IH]; intros ps vs Hps Hvs HI.
    - cbn [mapM] in Hps. injection Hps as <-. cbn [mapM] in Hvs. injection Hvs as <-. reflexivity.
    - cbn [mapM] in Hps. destruct (basis_fn Bernstein nu r) as [p|] eqn:Ep; cbn [bind] in Hps; [|discriminate]. destruct (mapM _ l) as [ps'|] eqn:Eps; cbn [bind] in Hps; [|discriminate]. injection Hps as <-.
      cbn [mapM] in Hvs. destruct (call1 p x) as [v|] eqn:Ev; cbn [bind] in Hvs; [|discriminate]. destruct (mapM _ ps') as [vs'|] eqn:Evs; cbn [bind] in Hvs; [|discriminate]. injection Hvs as <-.
      rewrite !ksum_cons. destruct (HI nu (or_introl eq_refl)) as [N1 N2]. f_equal; [|apply (IH ps' vs' eq_refl Evs); intros mu Hmu; apply HI; right; exact Hmu].
      destruct (basis_fn_ok (F := F) Bernstein nu r N2) as (p' & Ep' & Hv & R1 & R2 & R3 & R4).
      { unfold basis_fn in Ep. destruct (get_index nu r); cbn [bind] in Ep; [|discriminate]. destruct (set _ _ _) as [c|] eqn:Ec; cbn [bind] in Ep; [|discriminate]. intros Hl. assert (HP : is_poly p).
        { exists (length c), Bernstein, [c], (Some r), (length nu). split; [apply rect1; reflexivity|exact Ep]. }
        apply is_poly_valid in HP as (_ & HP & _). unfold new_poly in Ep. destruct (assert_ _) in Ep; [|discriminate]. cbn [bind] in Ep. match type of Ep with bind ?e _ = _ => destruct e as [r'|] eqn:E; [|discriminate] end. cbn [bind] in Ep.
        destruct (mapM _ [c]) in Ep; [|discriminate]. cbn [bind] in Ep. injection Ep as <-. cbn [p_m p_r] in HP. match type of E with bind ?e _ = _ => destruct e; [|discriminate] end. cbn [bind] in E. injection E as ->. apply HP. exact Hl. }
      rewrite Ep in Ep'. injection Ep' as <-. unfold call1 in Ev. rewrite call_ok in Ev by (assumption || congruence). unfold pv in Ev. rewrite R1, R2, R3, R4 in Ev. cbn in Ev. injection Ev as <-. rewrite N1. apply bval_unit; assumption.
  Qed.
  Lemma bern_vertex0 m r nu : length nu = m -> (nsum nu <= r)%nat -> bern r nu (repeat (0 : F) m) = if mi_dec nu (repeat 0%nat m) then 1 else 0.
  Proof.
    intros H1 H2. unfold bern. assert (E0 : bary0 (repeat (0 : F) m) = 1) by (unfold bary0; rewrite ksum_zero; [ring|intros a Ha; apply repeat_spec in Ha; exact Ha]). rewrite E0, kpow_1.
    destruct (mi_dec nu (repeat 0%nat m)) as [->|E].
    - rewrite mpow_zero. assert (EM : M (F := F) r (repeat 0%nat m) = 1) by (pose proof (M_multinom (F := F) r (repeat 0%nat m) H2) as EM; rewrite <- EM, nsum_repeat0; unfold multinom, norm; rewrite nsum_repeat0, mi_factorial_map; replace (fold_right Nat.mul 1%nat (map fact (repeat 0%nat m))) with 1%nat by (clear; induction m as [|m IH]; [reflexivity|]; cbn; lia); unfold binomF; destruct r; cbn [fact]; rewrite ?kofnat_1; field; apply k1_neq_0). rewrite EM. ring.
    - assert (HZ : mpow (repeat (0 : F) m) nu = 0).
      { clear H2 E0. revert nu H1 E. induction m as [|m IH]; intros [|a nu] H1 E; cbn [length repeat] in *; try lia; [congruence|]. cbn [mpow]. destruct a as [|a]; [|cbn [kpow]; ring]. rewrite IH; [ring|lia|]. intros ->. apply E. reflexivity. }
      rewrite HZ. ring.
  Qed.
  Lemma bern_unit_vertex m r nu j : length nu = m -> (nsum nu <= r)%nat -> (j < m)%nat -> bern r nu (upd (repeat (0 : F) m) j 1) = if mi_dec nu (upd (repeat 0%nat m) j r) then 1 else 0.
  Proof.
    intros H1 H2 Hj. unfold bern.
    assert (E0 : bary0 (upd (repeat (0 : F) m) j 1) = 0).
    { unfold bary0. assert (ES : ksum (upd (repeat (0 : F) m) j 1) (fun v => v) = 1); [|rewrite ES; ring]. clear -Hj. revert j Hj. induction m as [|m IH]; intros [|j] Hj; try lia; cbn [repeat upd]; rewrite ksum_cons.
      - rewrite ksum_zero; [ring|]. intros a Ha. apply repeat_spec in Ha. exact Ha.
      - rewrite IH by lia. ring. }
    rewrite E0. destruct (mi_dec nu (upd (repeat 0%nat m) j r)) as [->|E].
    - assert (ES : nsum (upd (repeat 0%nat m) j r) = r).
      { clear -Hj. revert j Hj. induction m as [|m IH]; intros [|j] Hj; try lia; cbn [repeat upd]; rewrite nsum_cons; [rewrite nsum_repeat0|rewrite IH by lia]; lia. }
      assert (EP : mpow (upd (repeat (0 : F) m) j 1) (upd (repeat 0%nat m) j r) = 1).
      { clear -Hj. revert j Hj. induction m as [|m IH]; intros [|j] Hj; try lia; cbn [repeat upd mpow]; [rewrite mpow_zero, kpow_1|rewrite IH by lia; cbn [kpow]]; ring. }
      assert (EF : mi_factorial (upd (repeat 0%nat m) j r) = fact r).
      { clear -Hj. rewrite mi_factorial_map. revert j Hj. induction m as [|m IH]; intros [|j] Hj; try lia; cbn [repeat upd map fold_right]; [|rewrite IH by lia; cbn [fact]; lia].
        replace (fold_right Nat.mul 1%nat (map fact (repeat 0%nat m))) with 1%nat by (clear; induction m as [|m IH]; [reflexivity|]; cbn; lia). lia. }
      rewrite ES, Nat.sub_diag, EP. cbn [kpow].
      assert (EM : M (F := F) r (upd (repeat 0%nat m) j r) = 1).
      { symmetry. apply M_unique; [lia|]. rewrite ES, Nat.sub_diag, EF. cbn [fact]. rewrite kofnat_1. ring. }
      rewrite EM. ring.
    - destruct (Nat.eq_dec (nsum nu) r) as [Es|Es].
      + assert (HZ : mpow (upd (repeat (0 : F) m) j 1) nu = 0); [|rewrite HZ; ring].
        clear E0 H2. revert nu j Hj H1 Es E. induction m as [|m IH]; intros [|a nu] j Hj H1 Es E; cbn [length] in *; try lia. destruct j as [|j]; cbn [repeat upd mpow] in *.
        * assert (HZ : mpow (repeat (0 : F) m) nu = 0); [|rewrite HZ; ring].
          assert (nu <> repeat 0%nat m) by (intros ->; apply E; rewrite nsum_cons, nsum_repeat0 in Es; f_equal; lia). clear -H H1. injection H1 as H1. revert nu H1 H. induction m as [|m IH]; intros [|b nu] H1 H; cbn [length repeat] in *; try lia; [congruence|].
          cbn [mpow]. destruct b as [|b]; [|cbn [kpow]; ring]. rewrite IH; [ring|lia|]. intros ->. apply H. reflexivity.
        * destruct a as [|a]; [|cbn [kpow]; ring]. rewrite (IH nu j); [ring|lia|lia|exact Es|]. intros ->. apply E. reflexivity.
      + destruct (r - nsum nu)%nat eqn:Ed; [lia|]. cbn [kpow]. ring.
  Qed.
  Theorem bernstein_vertices m n r (p : poly F) : poly_of Bernstein m n r p ->
    (exists i, get_index (repeat 0%nat m) r = Ok i /\ call p (repeat 0 m) = Ok (map (fun c => nth i c 0) (p_cols p))) /\
    forall j, (j < m)%nat -> exists i, get_index (upd (repeat 0%nat m) j r) r = Ok i /\ call p (upd (repeat 0 m) j 1) = Ok (map (fun c => nth i c 0) (p_cols p)).
  Proof.
    intros Hp.
    assert (G : forall x mu, length x = m -> length mu = m -> (nsum mu <= r)%nat -> (forall nu, length nu = m -> (nsum nu <= r)%nat -> bern r nu x = if mi_dec nu mu then 1 else 0) ->
      exists i, get_index mu r = Ok i /\ call p x = Ok (map (fun c => nth i c 0) (p_cols p))).
    { intros x mu Hx H1 H2 HB. destruct (call_pv _ _ _ _ _ _ Hp Hx) as [-> _]. destruct Hp as (P1 & P2 & P3 & _ & P5). unfold domain_dimension, degree in *. apply is_poly_valid in P1 as ((_ & HP) & _). rewrite P3, P5 in HP.
      destruct (index_cf (F := F) m r mu (repeat 0 (get_dimension r m)) H1 H2 (repeat_length _ _)) as (i & Hi & Ei & _ & _). exists i. split; [exact Ei|]. f_equal. unfold pv. apply map_ext_in. intros c Hc. rewrite P2, P3, P5. cbn [val]. unfold bval.
      transitivity (cf m r c mu); [|unfold cf, cfl; rewrite Hi; reflexivity]. rewrite <- (ksum_delta mi_dec (cf m r c) (all_mi m r) mu (NoDup_all_mi m r)) by (apply in_all_mi; split; assumption).
      apply ksum_ext. intros nu Hn. apply in_all_mi in Hn as [N1 N2]. rewrite HB by assumption. destruct (mi_dec nu mu); ring. }
    split.
    - apply G; [apply repeat_length|apply repeat_length|rewrite nsum_repeat0; lia|]. intros nu N1 N2. apply bern_vertex0; assumption.
    - intros j Hj. apply G; [rewrite upd_length; apply repeat_length|rewrite upd_length; apply repeat_length| |].
      + assert (ES : nsum (upd (repeat 0%nat m) j r) = r); [|lia]. clear -Hj. revert j Hj. induction m as [|m IH]; intros [|j] Hj; try lia; cbn [repeat upd]; rewrite nsum_cons; [rewrite nsum_repeat0|rewrite IH by lia]; lia.
      + intros nu N1 N2. apply bern_unit_vertex; assumption.
  Qed.

  (** *** Lagrange basis *)
  Theorem lagrange_points_explicit m r mis : r <> 0%nat -> generate_all m r = Ok mis -> generate_lagrange_points (F := F) m r = Ok (map (map (fun a => kofnat a / kofnat r)) mis).
  Proof. intros Hr Hm. rewrite generate_all_eq in Hm. injection Hm as <-. rewrite lagrange_points_eq. f_equal. apply map_ext. intros nu. unfold generate_lagrange_point. destruct r; [congruence|reflexivity]. Qed.
  Theorem lagrange_nodal m n r (p : poly F) pts i x : poly_of Lagrange m n r p -> generate_lagrange_points m r = Ok pts -> nth_error pts i = Some x ->
    call p x = Ok (map (fun c => nth i c 0) (p_cols p)).
  Proof.
    intros Hp Hpts Hi. rewrite lagrange_points_eq in Hpts. injection Hpts as <-. rewrite nth_error_map in Hi. destruct (nth_error (all_mi m r) i) as [nu|] eqn:En; [|discriminate]. injection Hi as <-.
    assert (Hin : In nu (all_mi m r)) by (apply nth_error_In in En; exact En). apply in_all_mi in Hin as [N1 N2].
    destruct (call_pv _ _ _ _ _ _ Hp (lagrange_point_length m r nu N1)) as [-> _]. destruct Hp as (P1 & P2 & P3 & _ & P5). unfold domain_dimension, degree in *. apply is_poly_valid in P1 as ((_ & HP) & _). rewrite P3, P5 in HP.
    f_equal. unfold pv. apply map_ext_in. intros c Hc. rewrite P2, P3, P5. cbn [val]. rewrite lval_nodal by (assumption || (apply HP, Hc)). unfold cf, cfl. rewrite (pos_nth_error _ _ i (NoDup_all_mi m r) En). reflexivity.
  Qed.
  Theorem lagrange_unisolvent b b' m n r s t (p q : poly F) pts : poly_of b m n s p -> poly_of b' m n t q -> (s <= r)%nat -> (t <= r)%nat ->
    generate_lagrange_points m r = Ok pts -> (forall x, In x pts -> call p x = call q x) -> forall x, length x = m -> call p x = call q x.
  Proof.
    intros Hp Hq Hs Ht Hpts H x Hx. rewrite lagrange_points_eq in Hpts. injection Hpts as <-. destruct (call_pv _ _ _ _ _ _ Hp Hx) as [Ep Lp], (call_pv _ _ _ _ _ _ Hq Hx) as [Eq Lq]. rewrite Ep, Eq. f_equal.
    apply (nth_ext _ _ 0 0); [congruence|]. intros k Hk. rewrite Lp in Hk.
    pose proof Hp as (P1 & P2 & P3 & P4 & P5). pose proof Hq as (Q1 & Q2 & Q3 & Q4 & Q5). unfold domain_dimension, target_dimension, degree in *. apply is_poly_valid in P1 as ((_ & HP) & _). apply is_poly_valid in Q1 as ((_ & HQ) & _). rewrite P3, P5 in HP. rewrite Q3, Q5 in HQ.
    assert (VP : forall y, nth k (pv p y) 0 = val b m s (nth k (p_cols p) []) y) by (intros y; unfold pv; rewrite P2, P3, P5; apply (map_nth_map (fun c => val b m s c y)); lia).
    assert (VQ : forall y, nth k (pv q y) 0 = val b' m t (nth k (p_cols q) []) y) by (intros y; unfold pv; rewrite Q2, Q3, Q5; apply (map_nth_map (fun c => val b' m t c y)); lia).
    rewrite VP, VQ.
    destruct (polydeg_elevate m s r _ Hs (polydeg_val b m s (nth k (p_cols p) []) ltac:(apply HP, nth_In; lia))) as (d & Hd & Ed).
    destruct (polydeg_elevate m t r _ Ht (polydeg_val b' m t (nth k (p_cols q) []) ltac:(apply HQ, nth_In; lia))) as (e & He & Ee).
    rewrite Ed, Ee by exact Hx. replace e with d; [reflexivity|]. apply (nodal_unique m r); [exact Hd|exact He|]. intros nu N1 N2.
    assert (Hl : length (generate_lagrange_point (F := F) m r nu) = m) by (apply lagrange_point_length; exact N1). rewrite <- Ed, <- Ee, <- VP, <- VQ by exact Hl.
    assert (Hc : call p (generate_lagrange_point m r nu) = call q (generate_lagrange_point m r nu)) by (apply H, in_map, in_all_mi; split; assumption).
    destruct (call_pv _ _ _ _ _ _ Hp Hl) as [Ep' _], (call_pv _ _ _ _ _ _ Hq Hl) as [Eq' _]. congruence.
  Qed.
  Theorem cache_entries n r d nu c mis : cached n r = Some d -> In (nu, c) d -> generate_all n r = Ok mis ->
    In nu mis /\ length c = length mis /\
    forall mu, In mu mis ->
      ksum (combine (map (fun pq : Z * nat => kofZ (F := F) (fst pq) / kofnat (snd pq)) c) mis)
        (fun ca => fst ca * mpow (map (fun a => kofnat a / kofnat r) mu) (snd ca)) = if mi_dec mu nu then 1 else 0.
  Proof.
    intros Hd Hin Hm. rewrite generate_all_eq in Hm. injection Hm as <-. destruct (table_entry_ok (F := F) n r d nu c Hd Hin) as (H1 & H2 & H3 & H4). destruct (cached_checked n r d Hd) as (_ & _ & Hr). split; [apply in_all_mi; split; assumption|]. split; [rewrite H3; apply dim_all_mi|].
    intros mu Hmu. apply in_all_mi in Hmu as [M1 M2]. rewrite <- (H4 mu M1 M2).
    assert (Ec : map (fun pq : Z * nat => kofZ (F := F) (fst pq) / kofnat (snd pq)) c = map cached_number c).
    { apply map_ext. intros [a [|[|k]]]; unfold cached_number; cbn [fst snd]; [reflexivity| |reflexivity]. rewrite kofnat_1. field. apply k1_neq_0. }
    rewrite Ec, (sum_cf n r (map cached_number c) (fun al => mpow (map (fun a => kofnat a / kofnat r) mu) al)) by (rewrite map_length; exact H3).
    unfold mval, generate_lagrange_point. destruct r; [congruence|reflexivity].
  Qed.
End Calls.

Theorem calls_derivative_real b m n r (p : poly RF) i : poly_of b m n r p -> (i < m)%nat ->
  exists q, partial_derivative p i = Ok q /\ poly_of b m n (r - 1) q /\
    forall x k, length x = m -> (k < n)%nat -> derivable_pt_lim (fun t => component p k (upd x i t)) (nth i x 0%R) (component q k x).
Proof.
  intros Hp Hi. destruct (calls_pderiv b m n r p i Hp Hi) as (q & Eq & Hq & H). exists q. split; [exact Eq|]. split; [exact Hq|]. intros x k Hx Hk. apply pderiv_real, H; assumption.
Qed.

Section Convex.
  Context {O : ofld}.
  Add Field Kfield17 : (kth O).
  Local Open Scope fld_scope.
  Lemma mpow_nonneg (x : list O) nu : (forall v, In v x -> kle 0 v) -> kle 0 (mpow x nu).
  Proof.
    revert nu. induction x as [|v x IH]; intros nu H; [apply klt_le, k01|]. destruct nu as [|k nu]; [apply klt_le, k01|]. cbn [mpow]. apply kle_mul; [apply kpow_nonneg, H; left; reflexivity|]. apply IH. intros w Hw. apply H. right. exact Hw.
  Qed.
  Lemma bern_nonneg r nu (x : list O) : (forall v, In v x -> kle 0 v) -> kle (ksum x (fun v => v)) 1 -> kle 0 (bern r nu x).
  Proof.
    intros H1 H2. unfold bern. apply kle_mul; [apply kofnat_nonneg|]. apply kle_mul; [apply mpow_nonneg, H1|]. apply kpow_nonneg. unfold bary0. apply kle_sub in H2. exact H2.
  Qed.
  Theorem bernstein_nonneg nu r (p : poly O) x v : basis_fn Bernstein nu r = Ok p -> (list_sum nu <= r)%nat -> length x = length nu ->
    (forall v, In v x -> kle 0 v) -> kle (ksum x (fun v => v)) 1 -> call p x = Ok [v] -> kle 0 v.
  Proof.
    intros Hp Hn Hx H1 H2 Hv. rewrite (basis_fn_value Bernstein nu r p x v Hp Hn Hx Hv). cbn [val]. rewrite bval_unit by (reflexivity || exact Hn). apply bern_nonneg; assumption.
  Qed.
  Theorem bernstein_hull m n r (p : poly O) x u lo hi k : poly_of Bernstein m n r p -> length x = m -> (forall v, In v x -> kle 0 v) -> kle (ksum x (fun v => v)) 1 -> call p x = Ok u -> (k < n)%nat ->
    (forall c, In c (nth k (p_cols p) []) -> kle lo c /\ kle c hi) -> kle lo (nth k u 0) /\ kle (nth k u 0) hi.
  Proof.
    intros Hp Hx H1 H2 Hu Hk HB. destruct (call_pv _ _ _ _ _ _ Hp Hx) as [E _]. rewrite Hu in E. injection E as ->. destruct Hp as (P1 & P2 & P3 & P4 & P5). unfold domain_dimension, target_dimension, degree in *. apply is_poly_valid in P1 as ((_ & HP) & _). rewrite P3, P5 in HP.
    unfold pv. rewrite P2, P3, P5. rewrite (map_nth_map (fun c => val Bernstein m r c x) (p_cols p) [] k 0) by lia. cbn [val]. set (c := nth k (p_cols p) []) in *. assert (Hc : length c = get_dimension r m) by (apply HP, nth_In; lia).
    pose proof (bern_partition m r x Hx) as HPU.
    assert (HCF : forall nu, In nu (all_mi m r) -> kle lo (cf m r c nu) /\ kle (cf m r c nu) hi).
    { intros nu Hn. apply HB. destruct (pos_in _ _ Hn) as [i Hi]. unfold cf, cfl. rewrite Hi. apply nth_In. rewrite Hc, dim_all_mi. apply (pos_bound _ _ _ Hi). }
    assert (HS : forall a : O, a = ksum (all_mi m r) (fun nu => bern r nu x * a)) by (intros a; rewrite ksum_scale_r, HPU; ring).
    split.
    - rewrite (HS lo). unfold bval. apply ksum_le. intros nu Hn. replace (cf m r c nu * bern r nu x) with (bern r nu x * cf m r c nu) by ring. apply kle_scale; [apply bern_nonneg; assumption|apply HCF, Hn].
    - rewrite (HS hi). unfold bval. apply ksum_le. intros nu Hn. replace (cf m r c nu * bern r nu x) with (bern r nu x * cf m r c nu) by ring. apply kle_scale; [apply bern_nonneg; assumption|apply HCF, Hn].
  Qed.
End Convex.
