(** Property C112: numbers as fractions. *)
From Coq Require Import Ascii String QArith Qabs Lia Lqa.
From Verif Require Import Base MultiIndex MultiIndexFacts StrUtils NumStr Prop_StrUtils.
Local Close Scope string_scope.
Local Close Scope Q_scope.
Local Open Scope list_scope.
Open Scope Z_scope.

(** ** Best approximations *)
Section Limit.
  Variables (N D M : Z).
  Hypotheses (HG : Z.gcd N D = 1) (HM : 1 <= M) (HD : M < D).
  Definition state (p0 q0 p1 q1 n d s : Z) : Prop :=
    (s = 1 \/ s = -1) /\ p1 * q0 - p0 * q1 = s /\ N = p1 * n + p0 * d /\ D = q1 * n + q0 * d /\ 0 < d < n /\ 0 <= q0 <= M /\ 1 <= q1 <= M /\ (q0 = 0 -> q1 = 1).
  Lemma limit_loop_ok fuel : forall p0 q0 p1 q1 n d s, state p0 q0 p1 q1 n d s -> 2 * M - q0 - q1 < Z.of_nat fuel ->
    exists p0' q0' p1' q1' n' d' s', limit_loop fuel M p0 q0 p1 q1 n d = Ok (p0', q0', p1', q1') /\ state p0' q0' p1' q1' n' d' s' /\ M < q0' + (n' / d') * q1'.
  Proof.
    induction fuel as [|fuel IH]; intros p0 q0 p1 q1 n d s H HF; pose proof H as (Hs & H1 & H2 & H3 & H4 & H5 & H6 & H7); [lia|]. cbn [limit_loop].
    replace (d =? 0) with false by (symmetry; apply Z.eqb_neq; lia). destruct (Z.ltb_spec M (q0 + n / d * q1)) as [L|L].
    - exists p0, q0, p1, q1, n, d, s. auto.
    - pose proof (Z.div_mod n d ltac:(lia)) as DM. pose proof (Z.mod_pos_bound n d ltac:(lia)) as MB. assert (A : 1 <= n / d) by (apply Z.div_le_lower_bound; lia). set (a := n / d) in *.
      replace (n - a * d) with (n mod d) by lia. set (r := n mod d) in *.
      assert (R : 0 < r).
      { destruct (Z.eq_dec r 0) as [Z0|Z0]; [|lia]. exfalso. assert (G : (d | Z.gcd N D)) by (apply Z.gcd_greatest; [exists (p1 * a + p0)|exists (q1 * a + q0)]; [rewrite H2|rewrite H3]; rewrite DM, Z0; ring).
        rewrite HG in G. apply Z.divide_pos_le in G; [|lia]. assert (d = 1) by lia. rewrite DM in H3. nia. }
      apply (IH p1 q1 (p0 + a * p1) (q0 + a * q1) d r (- s)); [|nia].
      unfold state. split; [lia|]. split; [rewrite <- H1; ring|]. split; [rewrite H2, DM; ring|]. split; [rewrite H3, DM; ring|]. split; [lia|]. split; [lia|]. split; [nia|]. intros; lia.
  Qed.
  Lemma limit_loop_start : exists p0 q0 p1 q1 n d s, limit_loop (2 * Z.to_nat M + 3) M 0 1 1 0 N D = Ok (p0, q0, p1, q1) /\ state p0 q0 p1 q1 n d s /\ M < q0 + (n / d) * q1.
  Proof.
    replace (2 * Z.to_nat M + 3)%nat with (S (2 * Z.to_nat M + 2)) by lia. cbn [limit_loop]. replace (D =? 0) with false by (symmetry; apply Z.eqb_neq; lia). rewrite Z.mul_0_r, Z.add_0_r. replace (M <? 1) with false by (symmetry; apply Z.ltb_ge; lia).
    pose proof (Z.div_mod N D ltac:(lia)) as DM. pose proof (Z.mod_pos_bound N D ltac:(lia)) as MB. set (a := N / D) in *. replace (N - a * D) with (N mod D) by lia. set (r := N mod D) in *.
    assert (R : 0 < r).
    { destruct (Z.eq_dec r 0) as [Z0|Z0]; [|lia]. exfalso. assert (G : (D | Z.gcd N D)) by (apply Z.gcd_greatest; [exists a; lia|exists 1; lia]). rewrite HG in G. apply Z.divide_pos_le in G; lia. }
    apply (limit_loop_ok _ 1 0 (0 + a * 1) 1 D r (-1)); [|lia]. unfold state. repeat split; try lia.
  Qed.
End Limit.
Lemma between (P Q p1 q1 p q s : Z) : (s = 1 \/ s = -1) -> p1 * Q - P * q1 = s -> 0 < Q -> 0 < q1 -> 0 < q < Q + q1 -> s * (p * Q - P * q) <= 0 \/ s * (p1 * q - p * q1) <= 0.
Proof.
  intros Hs E HQ Hq1 Hq. destruct (Z_le_gt_dec (s * (p * Q - P * q)) 0) as [L|L]; [now left|]. right. destruct (Z_le_gt_dec (s * (p1 * q - p * q1)) 0) as [L2|L2]; [exact L2|]. exfalso.
  assert (I : (s * (p * Q - P * q)) * q1 + (s * (p1 * q - p * q1)) * Q = q) by (transitivity (s * (p1 * Q - P * q1) * q); [ring|rewrite E; destruct Hs as [ -> | -> ]; ring]). nia.
Qed.
Lemma frac_ok p q : 0 < q -> fraction p q = Ok (Qred (p # Z.to_pos q)).
Proof. intros H. unfold fraction. replace (q =? 0) with false by (symmetry; apply Z.eqb_neq; lia). replace (0 <? q) with true by (symmetry; apply Z.ltb_lt; lia). reflexivity. Qed.
Lemma gcd_red x : Z.gcd (Qnum (Qred x)) (Z.pos (Qden (Qred x))) = 1.
Proof.
  destruct x as [p q]. unfold Qred. pose proof (Z.ggcd_gcd p (Z.pos q)) as G. pose proof (Z.ggcd_correct_divisors p (Z.pos q)) as C. destruct (Z.ggcd p (Z.pos q)) as [g [a b]]. cbn [fst snd] in *. destruct C as [C1 C2]. pose proof (Z.gcd_nonneg p (Z.pos q)) as G0. assert (Gz : g <> 0) by (intros ->; lia). assert (B : 0 < b) by nia.
  cbn [Qnum Qden]. rewrite Z2Pos.id by exact B. apply Z.mul_reg_l with g; [exact Gz|]. rewrite Z.mul_1_r. rewrite <- (Z.abs_eq g) at 1 by lia. rewrite <- Z.gcd_mul_mono_l. rewrite <- C1, <- C2. symmetry. exact G.
Qed.
(** a fraction with denominator at most [m] *)
Definition has_denominator (m : Z) (y : Q) : Prop := exists p q, (Z.pos q <= m)%Z /\ (y == p # q)%Q.
Lemma den_red_le p q : Z.pos (Qden (Qred (p # q))) <= Z.pos q.
Proof.
  unfold Qred. pose proof (Z.ggcd_correct_divisors p (Z.pos q)) as C. pose proof (Z.ggcd_gcd p (Z.pos q)) as G. destruct (Z.ggcd p (Z.pos q)) as [g [a b]]. cbn [fst snd Qden] in *. destruct C as [C1 C2]. pose proof (Z.gcd_nonneg p (Z.pos q)) as G0. assert (0 < g) by (destruct (Z.eq_dec g 0); [subst; lia|lia]). assert (0 < b) by nia. rewrite Z2Pos.id by assumption. nia.
Qed.
Ltac qabs := repeat match goal with |- context[Qabs ?e] => pattern (Qabs e); apply Qabs_case; intro end.
Lemma pick (b1 b2 x y : Q) : (b1 < x /\ x < b2 /\ (y <= b1 \/ b2 <= y) \/ x < b1 /\ b2 < x /\ (b1 <= y \/ y <= b2))%Q -> (Qabs (b2 - x) <= Qabs (b1 - x))%Q -> (Qabs (b2 - x) <= Qabs (y - x))%Q.
Proof. intros H. qabs; intros; destruct H as [(A & B & [C|C])|(A & B & [C|C])]; lra. Qed.
Lemma lt_frac (u v : Q) p q p' q' : (u == p # q)%Q -> (v == p' # q')%Q -> p * Z.pos q' < p' * Z.pos q -> (u < v)%Q.
Proof. intros -> -> H. exact H. Qed.
Lemma le_frac (u v : Q) p q p' q' : (u == p # q)%Q -> (v == p' # q')%Q -> p * Z.pos q' <= p' * Z.pos q -> (u <= v)%Q.
Proof. intros -> -> H. exact H. Qed.
Lemma limit_ok x m : 1 <= m -> exists r, limit_denominator x m = Ok r /\ Qred r = r /\ Z.pos (Qden r) <= m /\ forall y, has_denominator m y -> (Qabs (r - x) <= Qabs (y - x))%Q.
Proof.
  intros Hm. unfold limit_denominator. cbv zeta. replace (m <? 1) with false by (symmetry; apply Z.ltb_ge; lia). destruct (Z.leb_spec (Z.pos (Qden (Qred x))) m) as [L|L].
  - exists (Qred x). split; [reflexivity|]. split; [apply Qred_complete, Qred_correct|]. split; [exact L|]. intros y _. assert (E : (Qred x - x == 0)%Q) by (rewrite Qred_correct; ring). rewrite E. apply Qabs_nonneg.
  - set (N := Qnum (Qred x)) in *. set (D := Z.pos (Qden (Qred x))) in *.
    destruct (limit_loop_start N D m (gcd_red x) Hm L) as (p0 & q0 & p1 & q1 & n & d & s & E & (Hs & H1 & H2 & H3 & H4 & H5 & H6 & H7) & K). rewrite E. cbn [bind].
    replace (q1 =? 0) with false by (symmetry; apply Z.eqb_neq; lia). set (k := (m - q0) / q1).
    pose proof (Z.div_mod (m - q0) q1 ltac:(lia)) as DM. pose proof (Z.mod_pos_bound (m - q0) q1 ltac:(lia)) as MB. fold k in DM.
    assert (Kn : 0 <= k) by (apply Z.div_pos; lia). assert (Ka : k < n / d) by nia.
    set (P := p0 + k * p1). set (Q := q0 + k * q1). assert (HQ : 0 < Q) by (unfold Q; destruct (Z.eq_dec q0 0) as [Z0|Z0]; [specialize (H7 Z0); subst q1; lia|nia]). assert (HQm : Q <= m) by (unfold Q; nia). assert (HQs : m < Q + q1) by (unfold Q; nia).
    assert (DET : p1 * Q - P * q1 = s) by (unfold P, Q; rewrite <- H1; ring).
    assert (X1 : N * q1 - p1 * D = - s * d) by (rewrite H2, H3, <- H1; ring).
    assert (X2 : N * Q - P * D = s * (n - k * d)) by (unfold P, Q; rewrite H2, H3, <- H1; ring).
    assert (ND : 0 < n - k * d) by (pose proof (Z.div_mod n d ltac:(lia)) as DN; pose proof (Z.mod_pos_bound n d ltac:(lia)) as BN; assert (PN : 0 < d * (n / d - k)) by (apply Z.mul_pos_pos; lia); rewrite DN; lia).
    clearbody P Q k. rewrite !frac_ok by lia. cbn [bind]. set (b1 := Qred (P # Z.to_pos Q)). set (b2 := Qred (p1 # Z.to_pos q1)).
    assert (E1 : (b1 == P # Z.to_pos Q)%Q) by apply Qred_correct. assert (E2 : (b2 == p1 # Z.to_pos q1)%Q) by apply Qred_correct. assert (EX : (Qred x == x)%Q) by apply Qred_correct.
    assert (XN : (x == N # Qden (Qred x))%Q) by (transitivity (Qred x); [symmetry; exact EX|unfold Qeq, N; reflexivity]).
    assert (B : (s = 1 /\ (b1 < x)%Q /\ (x < b2)%Q) \/ (s = -1 /\ (x < b1)%Q /\ (b2 < x)%Q)).
    { assert (TQ : Z.pos (Z.to_pos Q) = Q) by (apply Z2Pos.id; exact HQ). assert (Tq : Z.pos (Z.to_pos q1) = q1) by (apply Z2Pos.id; lia).
      destruct Hs as [Hs|Hs]; rewrite Hs in X1, X2; [left|right]; (split; [exact Hs|split]); (eapply lt_frac; [first [exact E1|exact E2|exact XN]|first [exact XN|exact E1|exact E2]|]); rewrite ?TQ, ?Tq; fold D; clear - Hs X1 X2 ND H4 H5 H6; lia. }
    assert (OUT : forall y, has_denominator m y -> (s = 1 /\ ((y <= b1)%Q \/ (b2 <= y)%Q)) \/ (s = -1 /\ ((b1 <= y)%Q \/ (y <= b2)%Q))).
    { intros y (p & q & Hq & Ey). destruct (between P Q p1 q1 p (Z.pos q) s Hs DET HQ ltac:(lia) ltac:(lia)) as [L1|L1]; destruct Hs as [S1|S1]; rewrite S1 in L1; [left|right|left|right]; (split; [exact S1|]); [left|left|right|right]; (eapply le_frac; [first [exact E1|exact E2|exact Ey]|first [exact Ey|exact E1|exact E2]|]); rewrite !Z2Pos.id by lia; lia. }
    exists (if Qle_bool (Qabs (b2 - Qred x)) (Qabs (b1 - Qred x)) then b2 else b1). split; [reflexivity|]. split; [destruct (Qle_bool _ _); apply Qred_complete, Qred_correct|]. split.
    + destruct (Qle_bool _ _); [pose proof (den_red_le p1 (Z.to_pos q1))|pose proof (den_red_le P (Z.to_pos Q))]; rewrite Z2Pos.id in H by lia; fold b1 b2 in H; lia.
    + intros y Hy. specialize (OUT y Hy). destruct (Qle_bool (Qabs (b2 - Qred x)) (Qabs (b1 - Qred x))) eqn:C.
      * apply Qle_bool_iff in C. rewrite EX in C. apply (pick b1 b2 x y); [|exact C]. destruct B as [(S1 & B1 & B2)|(S1 & B1 & B2)], OUT as [(S2 & O)|(S2 & O)]; try lia; [left|right]; auto.
      * assert (C' : ~ (Qabs (b2 - Qred x) <= Qabs (b1 - Qred x))%Q) by (intros Q'; apply Qle_bool_iff in Q'; congruence). apply Qnot_le_lt in C'. rewrite EX in C'. apply (pick b2 b1 x y); [|apply Qlt_le_weak, C']. destruct B as [(S1 & B1 & B2)|(S1 & B1 & B2)], OUT as [(S2 & O)|(S2 & O)]; try lia; [right|left]; split; auto; split; auto; tauto.
Qed.
(** limit_denominator returns, in lowest terms, a fraction with the least distance among all fractions whose denominator is at most the bound. *)
Theorem C112_best : forall x m, (1 <= m -> exists r, limit_denominator x m = Ok r /\ Z.gcd (Qnum r) (Z.pos (Qden r)) = 1 /\ Z.pos (Qden r) <= m /\ forall y, has_denominator m y -> (Qabs (r - x) <= Qabs (y - x))%Q) /\
  (m < 1 -> limit_denominator x m = Err ValueError).
Proof.
  intros x m. split; intros Hm.
  - destruct (limit_ok x m Hm) as (r & E & RD & RM & B). exists r. split; [exact E|]. split; [rewrite <- RD; apply gcd_red|]. auto.
  - unfold limit_denominator. cbv zeta. replace (m <? 1) with true by (symmetry; apply Z.ltb_lt; lia). reflexivity.
Qed.
Print Assumptions C112_best.
Definition close_to (a y : Q) : Prop := (Qabs (y - a) < 1 # 10000000000)%Q.
Theorem C112_nice : forall f n, 1 <= n -> exists b, is_nice_fraction f n = Ok b /\ (b = true <-> exists y, has_denominator n y /\ close_to f y).
Proof.
  intros f n Hn. destruct (limit_ok f n Hn) as (r & E & RD & RM & B). unfold is_nice_fraction. rewrite E. cbn [bind]. eexists. split; [reflexivity|]. split.
  - intros H. exists r. split; [exists (Qnum r), (Qden r); split; [exact RM|destruct r; reflexivity]|]. unfold close_to. apply Qnot_le_lt. intros Q'. apply Bool.negb_true_iff in H. apply Qle_bool_iff in Q'. unfold nice_tolerance in H. change (10 ^ 10)%positive with 10000000000%positive in H. congruence.
  - intros (y & Hy & Cy). apply Bool.negb_true_iff. destruct (Qle_bool nice_tolerance (Qabs (r - f))) eqn:C; [|reflexivity]. apply Qle_bool_iff in C. specialize (B y Hy). unfold close_to in Cy. change nice_tolerance with (1 # 10000000000)%Q in C. lra.
Qed.
Print Assumptions C112_nice.

(** ** The strings *)
Definition numeral (s : str) (n : Z) : Prop := s <> [] /\ (forall c, In c s -> is_digit c) /\ Z.of_nat (denotes s) = n.
Inductive shows_unsigned : bool -> str -> Q -> Prop :=
| shows_natural l s n : numeral s n -> shows_unsigned l s (inject_Z n)
| shows_plain s t n m : numeral s n -> numeral t (Z.pos m) -> shows_unsigned false (s ++ lit " / " ++ t) (n # m)
| shows_latex s t n m : numeral s n -> numeral t (Z.pos m) -> shows_unsigned true (lit "\frac{" ++ s ++ lit "}{" ++ t ++ lit "}") (n # m).
(** [shows latex text v]: the text is a numeral or a fraction, possibly after a minus sign, and denotes [v] *)
Definition shows (l : bool) (text : str) (v : Q) : Prop := exists u w, shows_unsigned l u w /\ ((text = u /\ v == w)%Q \/ (text = lit "-" ++ u /\ v == - w)%Q).

Lemma str_nat_numeral z : 0 <= z -> numeral (str_nat (Z.to_nat z)) z.
Proof. intros H. destruct (C111_numerals (Z.to_nat z)) as (V & Dg & N & _). split; [exact N|]. split; [exact Dg|]. rewrite V. lia. Qed.
Lemma numeral_no_minus s n : numeral s n -> startswith (lit "-") s = false /\ (s = lit "0" -> n = 0) /\ (s = lit "1" -> n = 1).
Proof.
  intros (N & Dg & V). split; [|split].
  - destruct s as [|c s]; [contradiction|]. destruct (startswith (lit "-") (c :: s)) eqn:SW; [|reflexivity]. apply startswith_ok in SW as (b & SW). injection SW as -> _. pose proof (Dg _ (or_introl eq_refl)) as X. unfold is_digit in X. vm_compute in X. lia.
  - intros ->. cbn in V. lia.
  - intros ->. cbn in V. lia.
Qed.
(** the text of an integer or a fraction in lowest terms: its sign, and when it is 0 or 1 *)
Definition text_ok (l : bool) (text : str) (v : Q) : Prop :=
  shows l text v /\ (startswith (lit "-") text = true <-> v < 0)%Q /\ (text = lit "0" <-> v == 0)%Q /\ (text = lit "1" <-> v == 1)%Q.
Lemma text_ok_eq l t v w : (w == v)%Q -> text_ok l t v -> text_ok l t w.
Proof. intros E ((u & x & S1 & S2) & A & B & C). split; [exists u, x; split; [exact S1|rewrite E; exact S2]|rewrite E; auto]. Qed.
Lemma str_nat_value a b : str_nat a = str_nat b -> a = b.
Proof. intros H. destruct (C111_numerals a) as (Va & _). destruct (C111_numerals b) as (Vb & _). congruence. Qed.
Lemma str_int_ok l i : text_ok l (str_int i) (inject_Z i).
Proof.
  unfold str_int. destruct (Z.ltb_spec i 0) as [L|L].
  - split; [|split; [|split]].
    + exists (str_nat (Z.to_nat (- i))), (inject_Z (- i)). split; [apply shows_natural, str_nat_numeral; lia|right]. split; [reflexivity|]. rewrite <- inject_Z_opp, Z.opp_involutive. reflexivity.
    + split; [intros _|reflexivity]. change 0%Q with (inject_Z 0). rewrite <- Zlt_Qlt. exact L.
    + split; [discriminate|]. intros H. change 0%Q with (inject_Z 0) in H. apply (proj1 (inject_Z_injective _ _)) in H. lia.
    + split; [discriminate|]. intros H. change 1%Q with (inject_Z 1) in H. apply (proj1 (inject_Z_injective _ _)) in H. lia.
  - pose proof (str_nat_numeral i L) as NU. pose proof (numeral_no_minus _ _ NU) as (NM & _). split; [|split; [|split]].
    + exists (str_nat (Z.to_nat i)), (inject_Z i). split; [apply shows_natural, NU|left]. split; reflexivity.
    + rewrite NM. split; [discriminate|]. intros H. change 0%Q with (inject_Z 0) in H. rewrite <- Zlt_Qlt in H. lia.
    + split; intros H; [apply (str_nat_value _ 0%nat) in H; replace i with 0 by lia; reflexivity|]. change 0%Q with (inject_Z 0) in H. apply (proj1 (inject_Z_injective _ _)) in H. subst i. reflexivity.
    + split; intros H; [apply (str_nat_value _ 1%nat) in H; replace i with 1 by lia; reflexivity|]. change 1%Q with (inject_Z 1) in H. apply (proj1 (inject_Z_injective _ _)) in H. subst i. reflexivity.
Qed.
Lemma frac_not_int r : Z.gcd (Qnum r) (Z.pos (Qden r)) = 1 -> Z.pos (Qden r) <> 1 -> forall i, ~ (r == inject_Z i)%Q.
Proof.
  intros G H i E. destruct r as [p q]. unfold Qeq in E. cbn [Qnum Qden inject_Z] in *. rewrite Z.mul_1_r in E. assert (G' : (Z.pos q | Z.gcd p (Z.pos q))) by (apply Z.gcd_greatest; [exists i; exact E|exists 1; lia]). rewrite G in G'. apply Z.divide_pos_le in G'; lia.
Qed.
Lemma convert_ok f l : exists r text, limit_denominator f 1000 = Ok r /\ convert_float_to_fraction f l = Ok text /\ text_ok l text r.
Proof.
  destruct (limit_ok f 1000 ltac:(lia)) as (r & E & RD & RM & _). assert (G : Z.gcd (Qnum r) (Z.pos (Qden r)) = 1) by (rewrite <- RD; apply gcd_red). unfold convert_float_to_fraction. rewrite E. cbn [bind]. exists r. eexists. split; [reflexivity|]. split; [reflexivity|].
  destruct (Z.eqb_spec (Qnum r) 0) as [Z0|Z0].
  { assert (R0 : (r == inject_Z 0)%Q) by (destruct r as [p q]; cbn in Z0; subst p; unfold Qeq; cbn; lia). apply (text_ok_eq _ _ _ _ R0). exact (str_int_ok l 0). }
  destruct (Z.eqb_spec (Z.pos (Qden r)) 1) as [D1|D1].
  { assert (R0 : (r == inject_Z (Qnum r))%Q) by (destruct r as [p q]; cbn in D1 |- *; injection D1 as ->; reflexivity). apply (text_ok_eq _ _ _ _ R0). apply str_int_ok. }
  pose proof (frac_not_int r G D1) as NI. pose proof (NI 0) as NI0. pose proof (NI 1) as NI1. change (inject_Z 0) with 0%Q in NI0. change (inject_Z 1) with 1%Q in NI1.
  assert (SG : (r < 0)%Q <-> Qnum r < 0) by (destruct r as [p q]; unfold Qlt; cbn; lia).
  assert (DN : numeral (str_int (Z.pos (Qden r))) (Z.pos (Qden r))) by (unfold str_int; replace (Z.pos (Qden r) <? 0) with false by reflexivity; apply str_nat_numeral; lia).
  assert (RR : (r == Qnum r # Qden r)%Q) by (destruct r; reflexivity).
  destruct l.
  - destruct (Z.ltb_spec (Qnum r) 0) as [L|L].
    + split; [|split; [split; [intros _; apply SG, L|reflexivity]|split; (split; [discriminate|intros; contradiction])]].
      exists (lit "\frac{" ++ str_int (- Qnum r) ++ lit "}{" ++ str_int (Z.pos (Qden r)) ++ lit "}"), (- Qnum r # Qden r)%Q. split; [apply shows_latex; [|exact DN]|right; split; [reflexivity|]].
      * unfold str_int. replace (- Qnum r <? 0) with false by (symmetry; apply Z.ltb_ge; lia). apply str_nat_numeral. lia.
      * rewrite RR at 1. unfold Qeq. cbn [Qopp Qnum Qden]. ring.
    + split; [|split; [split; [discriminate|intros Q'; apply SG in Q'; lia]|split; (split; [discriminate|intros; contradiction])]].
      exists (lit "\frac{" ++ str_int (Qnum r) ++ lit "}{" ++ str_int (Z.pos (Qden r)) ++ lit "}"), (Qnum r # Qden r)%Q. split; [apply shows_latex; [|exact DN]|left; split; [reflexivity|exact RR]].
      unfold str_int. replace (Qnum r <? 0) with false by (symmetry; apply Z.ltb_ge; lia). apply str_nat_numeral. lia.
  - assert (NSP : forall s, s ++ lit " / " ++ str_int (Z.pos (Qden r)) = lit "0" \/ s ++ lit " / " ++ str_int (Z.pos (Qden r)) = lit "1" -> False).
    { intros s [H|H]; apply (f_equal (@length ascii)) in H; rewrite !app_length in H; cbn in H; lia. }
    destruct (Z.ltb_spec (Qnum r) 0) as [L|L].
    + split; [|split; [split; [intros _; apply SG, L|intros _; unfold str_int; replace (Qnum r <? 0) with true by (symmetry; apply Z.ltb_lt; lia); reflexivity]|split; (split; [intros H; exfalso; eapply NSP; eauto|intros; contradiction])]].
      exists (str_nat (Z.to_nat (- Qnum r)) ++ lit " / " ++ str_int (Z.pos (Qden r))), (- Qnum r # Qden r)%Q. split; [apply shows_plain; [apply str_nat_numeral; lia|exact DN]|right; split].
      * unfold str_int at 1. replace (Qnum r <? 0) with true by (symmetry; apply Z.ltb_lt; lia). reflexivity.
      * rewrite RR at 1. unfold Qeq. cbn [Qopp Qnum Qden]. ring.
    + assert (NU : numeral (str_int (Qnum r)) (Qnum r)) by (unfold str_int; replace (Qnum r <? 0) with false by (symmetry; apply Z.ltb_ge; lia); apply str_nat_numeral; lia).
      split; [|split; [split; [|intros Q'; apply SG in Q'; lia]|split; (split; [intros H; exfalso; eapply NSP; eauto|intros; contradiction])]].
      * exists (str_int (Qnum r) ++ lit " / " ++ str_int (Z.pos (Qden r))), (Qnum r # Qden r)%Q. split; [apply shows_plain; assumption|left; split; [reflexivity|exact RR]].
      * intros H. exfalso. destruct (numeral_no_minus _ _ NU) as (NM & _). destruct NU as (NE & _). apply startswith_ok in H as (b & H). destruct (str_int (Qnum r)) as [|c s]; [contradiction|]. injection H as -> _. assert (T : startswith (lit "-") (ascii_of_nat 45 :: s) = true) by (apply startswith_ok; exists s; reflexivity). change (ascii_of_nat 45) with "-"%char in T. congruence.
Qed.
Lemma close_unique (a u v : Q) : has_denominator 1000 u -> has_denominator 1000 v -> close_to a u -> close_to a v -> (u == v)%Q.
Proof.
  intros (p & q & Hq & Eu) (p' & q' & Hq' & Ev) Cu Cv. assert (C : (- (2 # 10000000000) < u - v)%Q /\ (u - v < 2 # 10000000000)%Q).
  { revert Cu Cv. unfold close_to. qabs; intros; split; lra. }
  rewrite Eu, Ev in *. clear - C Hq Hq'. unfold Qlt, Qeq, Qminus, Qplus, Qopp in *. cbn [Qnum Qden] in *. rewrite Pos2Z.inj_mul in C. destruct C as [C1 C2].
  assert (B : Z.pos q * Z.pos q' <= 1000000) by nia. nia.
Qed.
Lemma is_integer_ok a : is_integer a = true <-> exists i, (a == inject_Z i)%Q.
Proof.
  unfold is_integer. rewrite Qeq_bool_iff. split; [intros H; eexists; exact H|]. intros (i & H). rewrite H at 1. apply inject_Z_injective. destruct a as [p q]. unfold Qeq in H. cbn [Qnum Qden inject_Z] in H. unfold py_int. cbn [Qnum Qden]. rewrite Z.mul_1_r in H. subst p. rewrite Z.quot_mul by lia. reflexivity.
Qed.
Lemma has_denominator_le m m' y : m <= m' -> has_denominator m y -> has_denominator m' y.
Proof. intros H (p & q & Hq & E). exists p, q. split; [lia|exact E]. Qed.
Lemma has_denominator_int m i : 1 <= m -> has_denominator m (inject_Z i).
Proof. intros H. exists i, 1%positive. split; [lia|reflexivity]. Qed.
(** If there is a fraction with denominator at most [n] closer to the number than 1e-10, there is just one, and str_number shows it (up to n = 1000);
    otherwise it is [str] of the number. *)
Theorem C112_number : forall str_float a latex n, 1 <= n <= 1000 -> exists text, str_number str_float a latex true n = Ok text /\
  (forall y, has_denominator n y -> close_to a y -> text_ok latex text y) /\
  ((forall y, has_denominator n y -> ~ close_to a y) -> text = str_float a).
Proof.
  intros sf a l n Hn. unfold str_number. destruct (is_integer a) eqn:I.
  - apply is_integer_ok in I as IE. destruct IE as (i & E). eexists. split; [reflexivity|].
    assert (PI : py_int a = i). { unfold is_integer in I. apply Qeq_bool_iff in I. rewrite E in I at 1. symmetry. apply (proj1 (inject_Z_injective _ _)), I. }
    rewrite PI. assert (CA : close_to a (inject_Z i)). { unfold close_to. rewrite E. setoid_replace (inject_Z i - inject_Z i)%Q with 0%Q by ring. reflexivity. }
    split.
    + intros y Hy Cy. assert (EY : (y == inject_Z i)%Q) by (apply (close_unique a); [apply (has_denominator_le n); [lia|exact Hy]|apply has_denominator_int; lia|exact Cy|exact CA]).
      apply (text_ok_eq _ _ _ _ EY). apply str_int_ok.
    + intros H. exfalso. apply (H (inject_Z i)); [apply has_denominator_int; lia|exact CA].
  - destruct (C112_nice a n ltac:(lia)) as (b & E & HB). rewrite E. cbn [bind]. destruct b.
    + destruct (convert_ok a l) as (r & text & ER & ET & OK). exists text. split; [exact ET|]. destruct (limit_ok a 1000 ltac:(lia)) as (r' & ER' & RD & RM & B). rewrite ER in ER'. injection ER' as <-. split.
      * intros y Hy Cy. assert (HY : has_denominator 1000 y) by (apply (has_denominator_le n); [lia|exact Hy]).
        assert (EY : (y == r)%Q). { apply (close_unique a); [exact HY|exists (Qnum r), (Qden r); split; [exact RM|destruct r; reflexivity]|exact Cy|]. unfold close_to in *. specialize (B y HY). lra. }
        apply (text_ok_eq _ _ _ _ EY). exact OK.
      * intros H. exfalso. destruct (proj1 HB eq_refl) as (y & Hy & Cy). apply (H y Hy Cy).
    + eexists. split; [reflexivity|]. split; [|reflexivity]. intros y Hy Cy. exfalso. assert (Q' : false = true) by (apply HB; exists y; auto). discriminate.
Qed.
Print Assumptions C112_number.
(** Integers and, with prettify, fractions with denominator at most n are shown exactly. *)
Theorem C112_exact : forall str_float a latex n, 1 <= n <= 1000 -> has_denominator n a -> exists text, str_number str_float a latex true n = Ok text /\ text_ok latex text a.
Proof.
  intros sf a l n Hn H. destruct (C112_number sf a l n Hn) as (text & E & T & _). exists text. split; [exact E|]. apply T; [exact H|]. unfold close_to. setoid_replace (a - a)%Q with 0%Q by ring. reflexivity.
Qed.
Print Assumptions C112_exact.
Theorem C112_plain : forall str_float a latex n, exists text, str_number str_float a latex false n = Ok text /\ (forall i, (a == inject_Z i)%Q -> text_ok latex text a) /\ ((forall i, ~ (a == inject_Z i)%Q) -> text = str_float a).
Proof.
  intros sf a l n. unfold str_number. destruct (is_integer a) eqn:I; eexists; (split; [reflexivity|]).
  - apply is_integer_ok in I as IE. destruct IE as (i & E). assert (PI : py_int a = i). { unfold is_integer in I. apply Qeq_bool_iff in I. rewrite E in I at 1. symmetry. apply (proj1 (inject_Z_injective _ _)), I. } rewrite PI. split.
    + intros _ _. apply (text_ok_eq _ _ _ _ E). apply str_int_ok.
    + intros H. exfalso. apply (H i E).
  - split; [|reflexivity]. intros i E. exfalso. assert (Q' : is_integer a = true) by (apply is_integer_ok; exists i; exact E). congruence.
Qed.
Print Assumptions C112_plain.
(** Numbers that are not zero may be shown as 0. *)
Theorem C112_small_refuted : exists a, (~ a == 0)%Q /\ forall str_float latex, str_number str_float a latex true 10 = Ok (lit "0").
Proof. exists (1 # 2 ^ 40)%Q. split; [discriminate|]. intros sf [|]; vm_compute; reflexivity. Qed.
Print Assumptions C112_small_refuted.
(** For n above 1000 a number that is a fraction with denominator at most n is shown as another one. *)
Theorem C112_large_n_refuted : exists n a, 1 <= n /\ has_denominator n a /\ forall str_float, exists text y, str_number str_float a false true n = Ok text /\ shows false text y /\ ~ close_to a y.
Proof.
  exists 1024, (1 # 1024)%Q. split; [lia|]. split; [exists 1, 1024%positive; split; [lia|reflexivity]|]. intros sf. exists (lit "1 / 1000"), (1 # 1000)%Q. split; [vm_compute; reflexivity|]. split; [|unfold close_to; intros H; discriminate H].
  exists (lit "1 / 1000"), (1 # 1000)%Q. split; [|left; split; reflexivity]. apply (shows_plain (lit "1") (lit "1000")); (split; [discriminate|]; split; [|reflexivity]); intros c Hc; cbn in Hc; repeat destruct Hc as [ <- |Hc]; try destruct Hc; unfold is_digit; vm_compute; lia.
Qed.
Print Assumptions C112_large_n_refuted.

(** ** Arrays *)
Lemma join_splits x sep l : l <> [] -> (forall p, In p l -> ~ In x p) -> splits (x :: sep) (join (x :: sep) l) l.
Proof.
  induction l as [|p l IH]; intros N H; [contradiction|]. assert (LT : forall a b c, ~ In x p -> p ++ c = a ++ (x :: sep) ++ b -> (length p <= length a)%nat).
  { intros a b c Hp E. destruct (Nat.le_gt_cases (length p) (length a)) as [L|L]; [exact L|]. exfalso. destruct (app_split a ((x :: sep) ++ b) p c (eq_sym E) ltac:(lia)) as (e & -> & E2). destruct e as [|y e]; [rewrite app_nil_r in L; lia|]. injection E2 as <- _. apply Hp. apply in_or_app. right. now left. }
  destruct l as [|q l].
  - apply splits_last. intros (a & b & E). pose proof (LT a b [] (H p ltac:(now left))) as L. rewrite app_nil_r in L. specialize (L E). rewrite E, app_length in L. cbn in L. lia.
  - rewrite join_cons by discriminate. apply splits_cons; [|apply IH; [discriminate|intros; apply H; now right]]. intros a b E. apply (LT a b _ (H p ltac:(now left)) E).
Qed.
(** The text of an array of numbers is the list of their texts: it can be taken apart again if [str] of a number contains no comma. *)
Theorem C112_array : forall str_float a column style, a <> [] -> (forall x, ~ In (ascii_of_nat 44) (str_float x)) ->
  exists texts inner, str_number_array str_float a false column style = Ok (lit "[" ++ inner ++ lit "]") /\ Forall2 (fun x t => str_number str_float x false true 10 = Ok t) a texts /\ split inner (lit ", ") = Ok texts.
Proof.
  intros sf a col sty N HC. assert (M : exists texts, mapM (fun n => str_number sf n false true 10) a = Ok texts /\ Forall2 (fun x t => str_number sf x false true 10 = Ok t) a texts).
  { clear N. induction a as [|x a (ts & E & F)]; [exists []; auto|]. destruct (C112_number sf x false 10 ltac:(lia)) as (t & Et & _). exists (t :: ts). split; [cbn; rewrite Et; cbn; rewrite E; reflexivity|constructor; assumption]. }
  destruct M as (texts & E & F). exists texts, (join (lit ", ") texts). unfold str_number_array. rewrite E. cbn [bind]. split; [reflexivity|]. split; [exact F|].
  assert (NT : texts <> []) by (destruct F; [contradiction|discriminate]).
  assert (C : forall t, In t texts -> ~ In (ascii_of_nat 44) t).
  { assert (NS : forall z, 0 <= z -> ~ In (ascii_of_nat 44) (str_nat (Z.to_nat z))). { intros z Hz Q'. destruct (str_nat_numeral z Hz) as (_ & Dg & _). apply Dg in Q'. unfold is_digit in Q'. vm_compute in Q'. lia. }
    assert (NI : forall z, ~ In (ascii_of_nat 44) (str_int z)). { intros z. unfold str_int. destruct (Z.ltb_spec z 0); [|apply NS; assumption]. intros Q'. apply in_app_or in Q' as [Q'|Q']; [cbn in Q'; destruct Q' as [Q'|[]]; discriminate Q'|]. apply (NS (- z)) in Q'; [exact Q'|lia]. }
    intros t Ht. clear - F Ht HC NI. induction F as [|x t' a ts Hx F IH]; [destruct Ht|]. destruct Ht as [ -> |Ht]; [|apply IH, Ht]. unfold str_number in Hx. destruct (is_integer x); [injection Hx as <-; apply NI|]. destruct (is_nice_fraction x 10) as [b|] eqn:Eb; [|discriminate]. cbn [bind] in Hx. destruct b; [|injection Hx as <-; apply HC].
    unfold convert_float_to_fraction in Hx. destruct (limit_denominator x 1000) as [r|]; [|discriminate]. cbn [bind] in Hx. match type of Hx with Ok ?u = Ok ?v => assert (HV : v = u) by congruence; rewrite HV end. destruct (Qnum r =? 0); [cbn; intros [Q'|[]]; discriminate Q'|]. destruct (Z.pos (Qden r) =? 1); [apply NI|]. intros Q'. apply in_app_or in Q' as [Q'|Q']; [apply (NI _ Q')|]. apply in_app_or in Q' as [Q'|Q']; [cbn in Q'; repeat destruct Q' as [Q'|Q']; try discriminate Q'; exact Q'|apply (NI _ Q')]. }
  destruct (C111_pieces (join (lit ", ") texts) (lit ", ") ltac:(discriminate)) as (l & EL & _ & _ & U). rewrite EL. f_equal. symmetry. apply U. apply (join_splits (ascii_of_nat 44) (lit " ")); assumption.
Qed.
Print Assumptions C112_array.
Example C112_ex : str_number (fun _ => []) (3333333333333333 # 10000000000000000) true true 10 = Ok (lit "\frac{1}{3}") /\ limit_denominator (3141592653589793 # 1000000000000000) 1000 = Ok (355 # 113)%Q /\
  str_number_array (fun _ => []) [1 # 2; -5 # 1; -7 # 3]%Q false true [] = Ok (lit "[1 / 2, -5, -7 / 3]").
Proof. split; [|split]; vm_compute; reflexivity. Qed.
