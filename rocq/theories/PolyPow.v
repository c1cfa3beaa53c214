(** Powers of polynomial objects. *)
From Verif Require Import Base MultiIndex MultiIndexFacts MultiCapFacts MultiIndexCache Fld CodeGen CodeGenFacts LinSolve MultiCoef MultiCoefFacts LagrangeCache Unisolv Poly PolyFacts LagFacts PolyEval PolyOps PolyOpsB PolyDeriv PolyObj.
From Coq Require Import Field_theory Field.

Lemma mi_minus_unit n e i : length e = n -> i < n -> nth i e 0 <> 0 -> mi_minus e (e_i n i) = Ok (down e i).
Proof.
  intros <-. revert i. unfold mi_minus. induction e as [|a e IH]; intros i Hi Hn; cbn [length] in *; [lia|]. destruct i as [|i]; cbn [e_i combine forallb fst snd nth] in *.
  - destruct a as [|a]; [congruence|]. replace (1 <=? S a) with true by reflexivity. cbn [andb]. unfold down. cbn [nth upd]. rewrite mi_sub_cons.
    replace (forallb _ (combine e (repeat 0 (length e)))) with true by (symmetry; clear; induction e as [|b e IH]; [reflexivity|]; cbn; exact IH).
    do 2 f_equal. clear. induction e as [|b e IH]; [reflexivity|]. cbn [length repeat]. rewrite mi_sub_cons, IH. f_equal. lia.
  - specialize (IH i ltac:(lia) Hn). cbn [Nat.leb andb]. destruct (forallb _ _); [|discriminate]. injection IH as IH. rewrite mi_sub_cons, IH. unfold down. cbn [nth upd]. do 2 f_equal. lia.
Qed.

Lemma foldM_app {S A} (f : S -> A -> result S) l m : forall st, foldM f st (l ++ m) = (let* s := foldM f st l in foldM f s m).
Proof. induction l as [|a l IH]; intros st; [reflexivity|]. cbn [app foldM]. destruct (f st a); cbn [bind]; [apply IH|reflexivity]. Qed.
Lemma nsum0_repeat e : nsum e = 0 -> repeat 0 (length e) = e.
Proof. induction e as [|a e IH]; intros H; [reflexivity|]. rewrite nsum_cons in H. cbn [length repeat]. rewrite IH by lia. f_equal. lia. Qed.

Section Pow.
  Context {F : fld}.
  Add Field Kfield14 : (kth F).
  Local Open Scope fld_scope.

  (** *** Integer exponents *)
  Lemma pow_step (p : poly F) e : pow p (S (S e)) = (let* _ := assert_ (target_dimension p =? 1)%nat in let* q := pow p (S e) in mul p q).
  Proof. reflexivity. Qed.
  Theorem pow_ok (p : poly F) e : valid p -> length (p_cols p) = 1%nat -> (0 < p_m p -> (p_r p * e < 20)%nat) ->
    exists s, pow p e = Ok s /\ valid s /\ p_basis s = p_basis p /\ p_m s = p_m p /\ length (p_cols s) = 1%nat /\ p_r s = (p_r p * e)%nat /\
      forall x (u : F), length x = p_m p -> pv p x = [u] -> pv s x = [kpow u e].
  Proof.
    intros Hp Np He. induction e as [|[|e] IH].
    - cbn [pow]. unfold target_dimension. rewrite Np. cbn [Nat.eqb assert_ bind]. destruct (unit_polynomial_ok (F := F) (p_basis p) 0 (p_m p) 1) as (z & Ez & Z1 & Z2 & Z3 & Z4 & Z5 & Z6); [lia|lia|].
      exists z. split; [exact Ez|]. repeat (split; [assumption || lia|]). intros x u Hx _. rewrite (Z6 x Hx). reflexivity.
    - cbn [pow]. unfold target_dimension. rewrite Np. cbn [Nat.eqb assert_ bind]. exists p. rewrite valid_renew by exact Hp. repeat (split; [assumption || reflexivity || lia|]). intros x u Hx E. rewrite E. cbn [kpow]. f_equal. ring.
    - destruct IH as (q & Eq & Q1 & Q2 & Q3 & Q4 & Q5 & Q6); [intros Hm; specialize (He Hm); nia|]. rewrite pow_step, Eq. unfold target_dimension. rewrite Np. cbn [Nat.eqb assert_ bind].
      destruct (mul_ok p q Hp Q1 Q3 Np Q4 (fun _ => Q2)) as (s & Es & S1 & S2 & S3 & S4 & S5 & S6); [intros Hm; specialize (He Hm); rewrite Q5; lia|].
      exists s. repeat (split; [assumption || lia|]). intros x u Hx E. rewrite (S6 x u (kpow u (S e)) Hx E (Q6 x u Hx E)). reflexivity.
  Qed.

  Lemma getitem_ok (p : poly F) i : valid p -> (i < length (p_cols p))%nat ->
    exists s, getitem p i = Ok s /\ valid s /\ p_basis s = p_basis p /\ p_m s = p_m p /\ p_r s = p_r p /\ p_cols s = [nth i (p_cols p) []] /\
      forall x, length x = p_m p -> pv s x = [nth i (pv p x) 0].
  Proof.
    intros Hp Hi. pose proof Hp as ((HP1 & HP2) & HP3 & _). unfold getitem, target_dimension. replace (i <? length (p_cols p))%nat with true by (symmetry; apply Nat.ltb_lt; exact Hi). cbn [assert_ bind].
    assert (G : exists s, new_poly (p_basis p) [nth i (p_cols p) []] (Some (p_r p)) (p_m p) = Ok s /\ valid s /\ p_basis s = p_basis p /\ p_m s = p_m p /\ p_r s = p_r p /\ p_cols s = [nth i (p_cols p) []] /\
      forall x, length x = p_m p -> pv s x = [nth i (pv p x) 0]).
    { destruct (new_poly_ok (p_basis p) [nth i (p_cols p) []] (p_r p) (p_m p)) as (s & Es & Hv & R1 & R2 & R3 & R4); [apply rect1, HP2, nth_In, Hi|exact HP3|].
      exists s. repeat (split; [assumption|]). intros x Hx. unfold pv. rewrite R1, R2, R3, R4. cbn [map]. f_equal. symmetry. apply (map_nth_map (fun c => val (p_basis p) (p_m p) (p_r p) c x)). exact Hi. }
    destruct (Nat.eqb_spec (length (p_cols p)) 1) as [E|E].
    - destruct (p_cols p) as [|c [|]] eqn:Ec; cbn [length] in E, Hi; try lia. replace i with 0%nat in * by lia. exact G.
    - unfold get. rewrite (nth_error_nth' _ []) by exact Hi. cbn [bind]. exact G.
  Qed.

  (** *** Multi-index exponents *)
  Lemma nsum_skip e k : nsum (firstn k e) <= nsum e.
  Proof. revert k. induction e as [|a e IH]; intros [|k]; cbn [firstn nsum fold_right]; try lia. specialize (IH k). unfold nsum in IH. lia. Qed.
  Lemma firstn_S_nth {A} k (l : list A) d : k < length l -> firstn (S k) l = firstn k l ++ [nth k l d].
  Proof. revert k. induction l as [|a l IH]; intros [|k] H; cbn [length] in H; try lia; [reflexivity|]. cbn [firstn nth app]. f_equal. rewrite <- IH by lia. reflexivity. Qed.
  Lemma mpow_app (v w : list F) a b : length v = length a -> mpow (v ++ w) (a ++ b) = mpow v a * mpow w b.
  Proof. revert a. induction v as [|x v IH]; intros [|k a] E; try discriminate; cbn [app mpow]; [ring|]. rewrite IH by (cbn in E; lia). ring. Qed.
  Lemma pv_length (p : poly F) x : length (pv p x) = length (p_cols p). Proof. apply map_length. Qed.

  Lemma pow_mi_monomial_fold (p : poly F) e : valid p -> p_basis p = Monomial -> length e = length (p_cols p) -> (0 < p_m p -> (p_r p * nsum e < 20)%nat) ->
    forall k, (k <= length e)%nat -> forall one, valid one -> p_basis one = Monomial -> p_m one = p_m p -> length (p_cols one) = 1%nat -> p_r one = 0%nat -> (forall x, length x = p_m p -> pv one x = [1]) ->
    exists s, foldM (fun q i => let* pi := getitem p i in let* ei := get e i in let* f := pow pi ei in mul q f) one (seq 0 k) = Ok s /\
      valid s /\ p_basis s = Monomial /\ p_m s = p_m p /\ length (p_cols s) = 1%nat /\ p_r s = (p_r p * nsum (firstn k e))%nat /\
      forall x, length x = p_m p -> pv s x = [mpow (firstn k (pv p x)) (firstn k e)].
  Proof.
    intros Hp Hb Hl Hd k. induction k as [|k IH]; intros Hk one O1 O2 O3 O4 O5 O6.
    - exists one. cbn [seq foldM firstn nsum fold_right mpow]. repeat (split; [assumption || reflexivity || lia|]). exact O6.
    - destruct (IH ltac:(lia) one O1 O2 O3 O4 O5 O6) as (s & Es & S1 & S2 & S3 & S4 & S5 & S6). rewrite seq_S, foldM_app. cbn [Nat.add]. rewrite Es. cbn [bind foldM].
      destruct (getitem_ok p k Hp ltac:(lia)) as (g & Eg & G1 & G2 & G3 & G4 & G5 & G6). rewrite Eg. cbn [bind]. unfold get at 1. rewrite (nth_error_nth' _ 0%nat) by lia. cbn [bind].
      pose proof (nsum_skip e (S k)) as Hn. rewrite (firstn_S_nth k e 0%nat), nsum_app in Hn by lia. cbn [nsum fold_right] in Hn.
      destruct (pow_ok g (nth k e 0%nat)) as (f & Ef & F1 & F2 & F3 & F4 & F5 & F6); [exact G1|rewrite G5; reflexivity|rewrite G3, G4; intros Hm; specialize (Hd Hm); nia|]. rewrite Ef. cbn [bind].
      destruct (mul_ok s f) as (t & Et & T1 & T2 & T3 & T4 & T5 & T6); try assumption; try congruence; [rewrite S3, S5, F5, G4; intros Hm; specialize (Hd Hm); nia|].
      rewrite Et. cbn [bind]. exists t. split; [reflexivity|]. split; [exact T1|]. split; [congruence|]. split; [congruence|]. split; [exact T4|]. split; [rewrite T5, S5, F5, G4, (firstn_S_nth k e 0%nat), nsum_app by lia; cbn [nsum fold_right]; lia|].
      intros x Hx. rewrite (T6 x _ _ ltac:(congruence) (S6 x Hx) (F6 x _ ltac:(congruence) (G6 x Hx))). rewrite (firstn_S_nth k e 0%nat), (firstn_S_nth k (pv p x) 0), mpow_app by (rewrite ?firstn_length, ?pv_length; lia). cbn [mpow]. f_equal. ring.
  Qed.

  Lemma find_first (e : list nat) : nsum e <> 0%nat -> exists i, find (fun i => negb (nth i e 0%nat =? 0)%nat) (seq 0 (length e)) = Some i /\ (i < length e)%nat /\ nth i e 0%nat <> 0%nat.
  Proof.
    intros H. destruct (find _ (seq 0 (length e))) as [i|] eqn:E.
    - apply find_some in E as [E1 E2]. apply in_seq in E1. apply negb_true_iff, Nat.eqb_neq in E2. exists i. repeat split; [lia|exact E2].
    - exfalso. apply H. assert (G : forall i, (i < length e)%nat -> nth i e 0%nat = 0%nat).
      { intros i Hi. pose proof (find_none _ _ E i ltac:(apply in_seq; lia)) as G. cbn beta in G. apply negb_false_iff, Nat.eqb_eq in G. exact G. }
      clear -G. induction e as [|a e IH]; [reflexivity|]. rewrite nsum_cons, IH; [pose proof (G 0%nat) as G0; cbn in G0; lia|]. intros i Hi. apply (G (S i)). cbn. lia.
  Qed.
  Lemma mpow_down (v : list F) e i : length v = length e -> (i < length e)%nat -> nth i e 0%nat <> 0%nat -> mpow v e = nth i v 0 * mpow v (down e i).
  Proof.
    revert e i. induction v as [|x v IH]; intros [|k e] i E Hi Hn; cbn [length] in *; try lia. destruct i as [|i]; unfold down; cbn [nth upd mpow] in *.
    - destruct k as [|k]; [congruence|]. replace (S k - 1)%nat with k by lia. cbn [kpow]. ring.
    - rewrite (IH e i) by (assumption || lia). unfold down. ring.
  Qed.
  Lemma pow_mi_bernstein_ok (p : poly F) : valid p -> p_basis p = Bernstein -> length (p_cols p) <> 1%nat -> forall fuel e, length e = length (p_cols p) -> (nsum e <= fuel)%nat -> (0 < p_m p -> (p_r p * nsum e < 20)%nat) ->
    exists s, pow_mi_bernstein fuel p e = Ok s /\ valid s /\ p_basis s = Bernstein /\ p_m s = p_m p /\ length (p_cols s) = 1%nat /\ p_r s = (p_r p * nsum e)%nat /\
      forall x, length x = p_m p -> pv s x = [mpow (pv p x) e].
  Proof.
    intros Hp Hb H1. pose proof Hp as ((HP1 & HP2) & HP3 & _). induction fuel as [|fuel IH]; intros e He Hf Hd; cbn [pow_mi_bernstein]; unfold target_dimension; rewrite He, Nat.eqb_refl; cbn [assert_ bind]; unfold norm;
      destruct (Nat.eqb_spec (nsum e) 0) as [E0|E0]; try lia.
    1,2: destruct (new_poly_ok (F := F) Bernstein [[1]] 0 (p_m p)) as (s & Es & Hv & R1 & R2 & R3 & R4); [apply rect1; rewrite dim_all_mi, all_mi_r0; reflexivity|lia|];
      exists s; split; [exact Es|]; repeat (split; [first [assumption|rewrite R2; reflexivity|lia]|]); intros x Hx; unfold pv at 1; rewrite R1, R2, R3, R4; cbn [map]; f_equal;
      pose proof (one_column_val Bernstein 0 (p_m p) x Hx) as V; cbn [one_column] in V; rewrite dim_all_mi, all_mi_r0 in V; cbn [length repeat] in V; rewrite V;
      rewrite <- (nsum0_repeat e E0), mpow_zero; reflexivity.
    destruct (find_first e E0) as (i & Ei & Hi & Hn). rewrite He in Ei. rewrite Ei. rewrite unit_multiindex_eq by lia. cbn [bind].
    destruct (Nat.eqb_spec (length (p_cols p)) 1) as [|_]; [contradiction|]. unfold get. rewrite (nth_error_nth' _ []) by lia. cbn [bind].
    destruct (new_poly_ok Bernstein [nth i (p_cols p) []] (p_r p) (p_m p)) as (s & Es & Hv & R1 & R2 & R3 & R4); [apply rect1, HP2, nth_In; lia|exact HP3|]. rewrite Es. cbn [bind].
    rewrite mi_minus_unit by (assumption || lia). cbn [bind]. pose proof (down_sum e i Hi Hn) as Hds.
    destruct (IH (down e i)) as (q & Eq & Q1 & Q2 & Q3 & Q4 & Q5 & Q6); [rewrite down_length; exact He|lia|intros Hm; specialize (Hd Hm); nia|]. rewrite Eq. cbn [bind].
    destruct (mul_ok s q) as (t & Et & T1 & T2 & T3 & T4 & T5 & T6); try assumption; try congruence; [rewrite R2; reflexivity|rewrite R3, R4, Q5; intros Hm; specialize (Hd Hm); nia|].
    rewrite Et. exists t. split; [reflexivity|]. split; [exact T1|]. split; [congruence|]. split; [congruence|]. split; [exact T4|]. split; [rewrite T5, R3, Q5; nia|].
    intros x Hx. assert (Es1 : pv s x = [nth i (pv p x) 0]).
    { unfold pv. rewrite R1, R2, R3, R4, Hb. cbn [map]. f_equal. symmetry. apply (map_nth_map (fun c => val Bernstein (p_m p) (p_r p) c x)). lia. }
    rewrite (T6 x _ _ ltac:(congruence) Es1 (Q6 x Hx)). f_equal. symmetry. apply mpow_down; [rewrite pv_length; congruence|exact Hi|exact Hn].
  Qed.

  Lemma polydeg_mpow m r (fs : list (list F -> F)) e : length fs = length e -> (forall f, In f fs -> polydeg m r f) -> polydeg m (r * nsum e) (fun x => mpow (map (fun f => f x) fs) e).
  Proof.
    revert e. induction fs as [|f fs IH]; intros [|k e] E H; try discriminate; cbn [map mpow].
    - apply (polydeg_elevate m 0); [lia|]. apply (polydeg_const m 1).
    - rewrite nsum_cons, Nat.mul_add_distr_l. apply polydeg_mul; [apply polydeg_pow, H; left; reflexivity|]. apply IH; [cbn in E; lia|]. intros g Hg. apply H. right. exact Hg.
  Qed.

  Theorem pow_mi_ok (p : poly F) e : valid p -> length e = length (p_cols p) -> (p_basis p <> Monomial -> length (p_cols p) <> 1%nat) -> (0 < p_m p -> (p_r p * nsum e < 20)%nat) ->
    exists s, pow_mi p e = Ok s /\ valid s /\ p_basis s = p_basis p /\ p_m s = p_m p /\ length (p_cols s) = 1%nat /\ p_r s = (p_r p * nsum e)%nat /\
      forall x, length x = p_m p -> pv s x = [mpow (pv p x) e].
  Proof.
    intros Hp He H1 Hd. unfold pow_mi. destruct (p_basis p) eqn:Eb.
    - unfold target_dimension. rewrite He, Nat.eqb_refl. cbn [assert_ bind]. unfold monomial_basis_fn, zero_multiindex, norm. rewrite nsum_repeat0.
      destruct (basis_fn_ok (F := F) Monomial (repeat 0%nat (p_m p)) 0) as (one & Eo & O1 & O2 & O3 & O4 & O5); [rewrite nsum_repeat0; lia|lia|]. rewrite repeat_length in *. rewrite Eo. cbn [bind].
      destruct (pow_mi_monomial_fold p e Hp Eb He Hd (length e) (le_n _) one) as (s & Es & S1 & S2 & S3 & S4 & S5 & S6); try assumption; [rewrite O3; reflexivity| |].
      + intros x Hx. unfold pv. rewrite O2, O3, O4, O5. cbn [map val]. rewrite mval_0. unfold unit_column. rewrite cf_map by (rewrite ?repeat_length, ?nsum_repeat0; lia). destruct (mi_dec _ _); [reflexivity|congruence].
      + rewrite He in Es. exists s. split; [exact Es|]. split; [exact S1|]. split; [exact S2|]. split; [exact S3|]. split; [exact S4|]. rewrite firstn_all in S5. split; [exact S5|]. intros x Hx. rewrite (S6 x Hx), firstn_all, He, <- (pv_length p x), firstn_all. reflexivity.
    - apply pow_mi_bernstein_ok; try assumption; [apply H1; discriminate|apply le_n].
    - unfold target_dimension. rewrite He, Nat.eqb_refl. cbn [assert_ bind]. rewrite lagrange_points_eq. cbn [bind]. unfold norm.
      pose proof Hp as ((HP1 & HP2) & HP3 & _).
      rewrite (mapM_ok _ (fun x => mpow (pv p x) e)).
      + cbn [bind]. rewrite map_map. match goal with |- context [new_poly Lagrange [?c]] => destruct (new_poly_ok Lagrange [c] (p_r p * nsum e) (p_m p)) as (s & Es & Hv & R1 & R2 & R3 & R4) end; [apply rect1, map_all_mi_length|exact Hd|].
        exists s. split; [exact Es|]. split; [exact Hv|]. split; [exact R1|]. split; [exact R4|]. split; [rewrite R2; reflexivity|]. split; [exact R3|]. intros x Hx. unfold pv at 1. rewrite R1, R2, R3, R4. cbn [map val]. f_equal.
        apply (lval_interp (p_m p) (p_r p * nsum e) (fun y => mpow (pv p y) e)); [|exact Hx].
        apply (polydeg_ext _ _ (fun y => mpow (map (fun f => f y) (map (fun c => val (p_basis p) (p_m p) (p_r p) c) (p_cols p))) e)); [intros y Hy; rewrite map_map; reflexivity|].
        apply polydeg_mpow; [rewrite map_length; congruence|]. intros f Hf. apply in_map_iff in Hf as (c & <- & Hc). apply polydeg_val, HP2, Hc.
      + intros x Hx. apply in_map_iff in Hx as (mu & <- & Hmu). apply in_all_mi in Hmu as [M1 _]. rewrite call_ok by (assumption || (apply lagrange_point_length; exact M1)). cbn [bind].
        destruct (Nat.eqb_spec (length (p_cols p)) 1) as [E|_]; [exfalso; revert E; apply H1; discriminate|]. apply power_mpow. rewrite pv_length. congruence.
  Qed.
  (** Scalar valued polynomials and one-component exponents *)
  Theorem pow_mi_scalar_bernstein (p : poly F) e : p_basis p = Bernstein -> length (p_cols p) = 1%nat -> e <> 0%nat -> pow_mi p [e] = Err IndexError.
  Proof.
    intros Hb H1 He. unfold pow_mi. rewrite Hb. unfold norm. cbn [nsum fold_right]. rewrite Nat.add_0_r. destruct e as [|e]; [congruence|]. cbn [pow_mi_bernstein]. unfold target_dimension. rewrite H1. reflexivity.
  Qed.
  Theorem pow_mi_scalar_lagrange (p : poly F) e : valid p -> p_basis p = Lagrange -> length (p_cols p) = 1%nat -> pow_mi p [e] = Err TypeError.
  Proof.
    intros Hp Hb H1. unfold pow_mi. rewrite Hb. unfold target_dimension. rewrite H1. cbn [length Nat.eqb assert_ bind]. rewrite lagrange_points_eq. cbn [bind]. destruct (all_mi_nonempty (p_m p) (p_r p * norm [e])) as [l El].
    rewrite El. cbn [map mapM]. rewrite call_ok by (assumption || (apply lagrange_point_length, repeat_length)). reflexivity.
  Qed.
End Pow.
