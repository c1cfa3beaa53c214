(** The quadrature rules over the real numbers: exactness, and the error of
    the rules given by decimal numbers. *)
From Coq Require Import Reals Lra QArith Qabs Qreals Field_theory Field.
From Coquelicot Require Import Coquelicot.
From Verif Require Import Base MultiIndex MultiIndexFacts MultiCapFacts Fld FldInst CodeGen CodeGenFacts LinSolve Det Linalg VecFacts Simplicial SimplexGeo SimplexFacts AffineFacts SimplexInside MultiCoef MultiCoefFacts LagrangeCache Unisolv Poly PolyFacts LagFacts PolyEval PolyOps PolyOpsB PolyObj SubstFacts IntegralCache Integrate IntFacts HasInt SimplexInt IntReal Bases PolySimplex PolySimplexFacts PolySimplexMul HomogInt PolySimplexInt SimplexIntReal QHom Quadrature QuadFacts.
Close Scope Q_scope.
Close Scope R_scope.
Local Open Scope nat_scope.

Lemma kofQ_Q2R q : kofQ (F := RF) q = Q2R q.
Proof.
  assert (Z : forall z, kofZ (F := RF) z = IZR z).
  { intros [|p|p]; cbn [kofZ].
    - reflexivity.
    - rewrite kofnat_INR. apply INR_IPR || (rewrite <- positive_nat_Z; apply INR_IZR_INZ).
    - rewrite kofnat_INR. cbn. rewrite INR_IPR. reflexivity. }
  unfold kofQ, Q2R. rewrite !Z. reflexivity.
Qed.

(** ** decimal rules *)
Definition near_rule (m r : nat) (eps : Q) (rule : Q * list (Q * list Q)) : bool :=
  forallb (fun wp => length (snd wp) =? m)%nat (snd rule) && forallb (fun nu => Qle_bool (Qabs (moment (fst rule) (snd rule) nu - qmint nu)) eps) (all_mi m r).
Lemma near_rule_len m r eps rule : near_rule m r eps rule = true -> forall wp, In wp (snd rule) -> length (snd wp) = m.
Proof. intros H. apply andb_prop in H. destruct H as [H _]. rewrite forallb_forall in H. intros wp Hw. apply Nat.eqb_eq, H, Hw. Qed.
Definition rabs_sum (d : list R) : R := fold_right (fun c s => (Rabs c + s)%R) 0%R d.
Lemma rabs_sum_map {A} (l : list A) (f : A -> R) : rabs_sum (map f l) = fold_right (fun a s => (Rabs (f a) + s)%R) 0%R l.
Proof. unfold rabs_sum. induction l as [|a l IH]; [reflexivity|]. cbn [map fold_right]. rewrite IH. reflexivity. Qed.
Lemma near_sum (L : list (list nat)) (a u v : list nat -> R) eps : (forall nu, In nu L -> (Rabs (u nu - v nu) <= eps)%R) ->
  (Rabs (ksum (F := RF) L (fun nu => a nu * u nu)%R - ksum (F := RF) L (fun nu => a nu * v nu)%R) <= eps * rabs_sum (map a L))%R.
Proof.
  intros H. rewrite rabs_sum_map. induction L as [|nu L IH].
  - cbn. replace (0 - 0)%R with 0%R by ring. rewrite Rabs_R0. lra.
  - rewrite !ksum_cons. cbn [fold_right].
    assert (H1 : (Rabs (u nu - v nu) <= eps)%R) by (apply H; left; reflexivity). specialize (IH (fun x Hx => H x (or_intror Hx))).
    assert (H2 : (Rabs (a nu * (u nu - v nu)) <= eps * Rabs (a nu))%R).
    { rewrite Rabs_mult. pose proof (Rabs_pos (a nu)). nra. }
    match goal with |- (Rabs ?t <= _)%R => change t with ((a nu * u nu + ksum (F := RF) L (fun nu => a nu * u nu)%R) - (a nu * v nu + ksum (F := RF) L (fun nu => a nu * v nu)%R))%R end.
    match goal with |- (Rabs ?t <= _)%R => replace t with (a nu * (u nu - v nu) + (ksum (F := RF) L (fun nu => a nu * u nu)%R - ksum (F := RF) L (fun nu => a nu * v nu)%R))%R by ring end.
    eapply Rle_trans; [apply Rabs_triang|]. lra.
Qed.
Lemma near_rule_int m r eps rule d (g : list R -> R) : near_rule m r eps rule = true -> length d = get_dimension r m -> (forall x, length x = m -> g x = mval (F := RF) m r d x) ->
  exists I, has_int (F := RF) m g I /\ (Rabs (rule_value (F := RF) (fst rule) (snd rule) g - I) <= Q2R eps * rabs_sum d)%R.
Proof.
  intros H Hd G. pose proof (near_rule_len _ _ _ _ H) as HL. apply andb_prop in H. destruct H as [_ H2]. rewrite forallb_forall in H2.
  rewrite (rule_value_poly (F := RF) m r _ _ d _ HL G). exists (ksum (F := RF) (all_mi m r) (fun nu => cf (F := RF) m r d nu * mint (F := RF) nu)%K).
  split; [exists r, (cf (F := RF) m r d); split; [exact G|reflexivity]|].
  replace (rabs_sum d) with (rabs_sum (map (cf (F := RF) m r d) (all_mi m r))) by (f_equal; apply (map_cf (F := RF) m r d Hd)). apply (near_sum (all_mi m r) (cf (F := RF) m r d) (fun nu => kofQ (F := RF) (moment (fst rule) (snd rule) nu)) (mint (F := RF))).
  intros nu Hn. rewrite <- kofQ_mint, !kofQ_Q2R, <- Q2R_minus. specialize (H2 nu Hn). apply Qle_bool_iff in H2.
  apply Qle_Rle in H2. eapply Rle_trans; [|exact H2]. right.
  generalize (moment (fst rule) (snd rule) nu - qmint nu)%Q. intros q. apply Qabs_case; intros Hq; apply Qle_Rle in Hq; change (Q2R 0) with (0 * / 1)%R in Hq.
  - rewrite Rabs_pos_eq by lra. reflexivity.
  - rewrite Q2R_opp, Rabs_left1 by lra. reflexivity.
Qed.

(** The moments in integers over the common denominator [D], so that the check
    below is a small computation. *)
Definition zc (D : positive) (q : Q) : Z := (Qnum q * (Zpos D / Zpos (Qden q)))%Z.
Definition zok (D : positive) (q : Q) : bool := (Zpos (Qden q) * (Zpos D / Zpos (Qden q)) =? Zpos D)%Z.
Fixpoint zpow (x : Z) (n : nat) : Z := match n with O => 1%Z | S k => (x * zpow x k)%Z end.
Fixpoint zmpow (p : list Z) (nu : list nat) : Z := match p, nu with x :: p', a :: nu' => (zpow x a * zmpow p' nu')%Z | _, _ => 1%Z end.
Definition zsum (l : list (Z * list Z)) (nu : list nat) : Z := fold_right (fun wp s => (fst wp * zmpow (snd wp) nu + s)%Z) 0%Z l.
Fixpoint ppow (x : positive) (n : nat) : positive := match n with O => 1%positive | S k => (x * ppow x k)%positive end.
Definition near_rule_z (D : positive) (m r : nat) (eps : Q) (rule : Q * list (Q * list Q)) : bool :=
  forallb (fun wp => (length (snd wp) =? m)%nat && zok D (fst wp) && forallb (zok D) (snd wp)) (snd rule) &&
  (let zl := map (fun wp => (zc D (fst wp), map (zc D) (snd wp))) (snd rule) in
   forallb (fun nu => Qle_bool (Qabs (fst rule * (zsum zl nu # ppow D (S (nsum nu))) - qmint nu)) eps) (all_mi m r)).
Lemma zc_ok D q : zok D q = true -> (q == (zc D q # D))%Q.
Proof.
  unfold zok, zc. intros H. apply Z.eqb_eq in H. destruct q as [a b]. unfold Qeq. cbn [Qnum Qden] in *. rewrite <- H at 1. ring.
Qed.
Lemma zpow_ok D q n : zok D q = true -> (qpow q n == (zpow (zc D q) n # ppow D n))%Q.
Proof.
  intros H. induction n as [|n IH]; [reflexivity|]. cbn [qpow zpow ppow]. rewrite IH. rewrite (zc_ok D q H) at 1. reflexivity.
Qed.
Lemma ppow_add D a b : ppow D (a + b) = (ppow D a * ppow D b)%positive.
Proof. induction a as [|a IH]; [reflexivity|]. cbn [Nat.add ppow]. rewrite IH. apply Pos.mul_assoc. Qed.
Lemma zmpow_ok D p nu : length p = length nu -> forallb (zok D) p = true -> (qmpow p nu == (zmpow (map (zc D) p) nu # ppow D (nsum nu)))%Q.
Proof.
  revert nu. induction p as [|x p IH]; intros [|a nu] HL H; try discriminate HL; [reflexivity|]. cbn [forallb] in H. apply andb_prop in H. destruct H as [H1 H2].
  cbn [qmpow map zmpow]. rewrite (zpow_ok D x a H1), (IH nu ltac:(cbn in HL; lia) H2). change (nsum (a :: nu)) with (a + nsum nu). rewrite ppow_add. reflexivity.
Qed.
Lemma near_rule_z_ok D m r eps rule : near_rule_z D m r eps rule = true -> near_rule m r eps rule = true.
Proof.
  unfold near_rule_z, near_rule. intros H. apply andb_prop in H. destruct H as [H1 H2]. rewrite forallb_forall in H1, H2. apply andb_true_intro. split.
  - apply forallb_forall. intros wp Hw. specialize (H1 wp Hw). apply andb_prop in H1. destruct H1 as [H1 _]. apply andb_prop in H1. exact (proj1 H1).
  - apply forallb_forall. intros nu Hn. specialize (H2 nu Hn). apply Qle_bool_iff in H2. apply Qle_bool_iff.
    assert (Ln : length nu = m) by (apply in_all_mi in Hn; tauto).
    assert (E : (qsum (snd rule) (fun wp => fst wp * qmpow (snd wp) nu) == (zsum (map (fun wp => (zc D (fst wp), map (zc D) (snd wp))) (snd rule)) nu # ppow D (S (nsum nu))))%Q).
    { destruct rule as [c l]. cbn [snd] in *. clear H2. induction l as [|wp l IH]; [reflexivity|].
      cbn [qsum fold_right map]. fold (qsum l (fun wp => fst wp * qmpow (snd wp) nu)%Q). rewrite IH by (intros x Hx; apply H1; right; exact Hx).
      specialize (H1 wp (or_introl eq_refl)). apply andb_prop in H1. destruct H1 as [H1 H3]. apply andb_prop in H1. destruct H1 as [H1 H4]. apply Nat.eqb_eq in H1.
      rewrite (zmpow_ok D (snd wp) nu ltac:(lia) H3). rewrite (zc_ok D (fst wp) H4) at 1.
      unfold zsum at 2. cbn [fold_right fst snd]. fold (zsum (map (fun wp => (zc D (fst wp), map (zc D) (snd wp))) l) nu). cbn [ppow].
      unfold Qeq, Qplus, Qmult. cbn [Qnum Qden]. rewrite !Pos2Z.inj_mul. ring. }
    unfold moment. rewrite E. exact H2.
Qed.

Lemma tri_exact n : 1 <= n <= 3 -> exists rl, triangle_rule (Z.of_nat n) = Some rl /\ exact_rule 2 n rl = true.
Proof.
  intros H. destruct n as [|[|[|[|n]]]]; try lia; (eexists; split; [reflexivity|vm_compute; reflexivity]).
Qed.
Lemma tet_exact n : n = 1 \/ n = 3 -> exists rl, tetrahedron_rule (Z.of_nat n) = Some rl /\ exact_rule 3 n rl = true.
Proof. intros [H|H]; subst n; (eexists; split; [reflexivity|vm_compute; reflexivity]). Qed.
Lemma tri_near : exists rl, triangle_rule 4 = Some rl /\ near_rule 2 4 (1 # 1000000000000000) rl = true.
Proof. eexists; split; [reflexivity|apply (near_rule_z_ok 1000000000000000); vm_compute; reflexivity]. Qed.
Lemma tet_near n : n = 2 \/ n = 4 -> exists rl, tetrahedron_rule (Z.of_nat n) = Some rl /\ near_rule 3 n (1 # 100000000000000000) rl = true.
Proof. intros [H|H]; subst n; (eexists; split; [reflexivity|apply (near_rule_z_ok 100000000000000000000000000000000000); vm_compute; reflexivity]). Qed.
Lemma tri_none k : (k < 1 \/ 4 < k)%Z -> triangle_rule k = None.
Proof.
  intros H. unfold triangle_rule. replace (k =? 1)%Z with false by (symmetry; apply Z.eqb_neq; lia). replace (k =? 2)%Z with false by (symmetry; apply Z.eqb_neq; lia).
  replace (k =? 3)%Z with false by (symmetry; apply Z.eqb_neq; lia). replace (k =? 4)%Z with false by (symmetry; apply Z.eqb_neq; lia). reflexivity.
Qed.
Lemma tet_none k : (k < 1 \/ 4 < k)%Z -> tetrahedron_rule k = None.
Proof.
  intros H. unfold tetrahedron_rule. replace (k =? 1)%Z with false by (symmetry; apply Z.eqb_neq; lia). replace (k =? 2)%Z with false by (symmetry; apply Z.eqb_neq; lia).
  replace (k =? 3)%Z with false by (symmetry; apply Z.eqb_neq; lia). replace (k =? 4)%Z with false by (symmetry; apply Z.eqb_neq; lia). reflexivity.
Qed.

Section Rules.
  Context (m : nat) (rules : Z -> option (Q * list (Q * list Q))) (Hm : 2 <= m).
  Let unit_rule (f : callable RF) (n : Z) := apply_rule (rules n) f.

  Lemma unit_exact n f (g : list R -> R) rl : rules n = Some rl -> exact_rule m (Z.to_nat n) rl = true -> scalar_callable (F := RF) m f g -> polydeg (F := RF) m (Z.to_nat n) g ->
    exists I, unit_rule f n = Ok (Sc I) /\ simplex_int m 1 g I.
  Proof.
    intros E X S P. unfold unit_rule. rewrite E. destruct rl as [c l]. rewrite (apply_rule_eq (F := RF) m f g c l S (exact_rule_len _ _ _ X)). eexists. split; [reflexivity|].
    apply has_int_real. exact (exact_rule_int (F := RF) m _ (c, l) g X P).
  Qed.
  Lemma unit_near n f (g : list R -> R) rl d eps : rules n = Some rl -> near_rule m (Z.to_nat n) eps rl = true -> scalar_callable (F := RF) m f g ->
    length d = get_dimension (Z.to_nat n) m -> (forall x, length x = m -> g x = mval (F := RF) m (Z.to_nat n) d x) ->
    exists v I, unit_rule f n = Ok (Sc v) /\ simplex_int m 1 g I /\ (Rabs (v - I) <= Q2R eps * rabs_sum d)%R.
  Proof.
    intros E X S Hd G. unfold unit_rule. rewrite E. destruct rl as [c l]. rewrite (apply_rule_eq (F := RF) m f g c l S (near_rule_len _ _ _ _ X)).
    destruct (near_rule_int m _ eps (c, l) d g X Hd G) as (I & H1 & H2). exists (rule_value (F := RF) c l g), I. split; [reflexivity|]. split; [apply has_int_real, H1|exact H2].
  Qed.
  Lemma simplex_exact n f (g : list R -> R) rl vs : rules n = Some rl -> exact_rule m (Z.to_nat n) rl = true -> rows_of (F := RF) (S m) m vs -> is_univariate f = Ok false -> scalar_callable (F := RF) m f g ->
    polydeg (F := RF) m (Z.to_nat n) g -> exists I, quadrature_simplex_fixed (Q := RO) unit_rule f vs n = Ok (Sc I) /\ simplex_integral m vs g I.
  Proof.
    intros E X Hr U S P. destruct (simplex_rule_exact (Q := RO) m vs f g (Z.to_nat n) rl n unit_rule Hm Hr U S P) as (I & H1 & H2); [intros h; unfold unit_rule; rewrite E; reflexivity|exact X|].
    exists I. split; [exact H1|]. apply has_sint_real; assumption.
  Qed.
  Lemma simplex_near n f (g : list R -> R) rl vs d eps : rules n = Some rl -> near_rule m (Z.to_nat n) eps rl = true -> rows_of (F := RF) (S m) m vs -> is_univariate f = Ok false -> scalar_callable (F := RF) m f g ->
    length d = get_dimension (Z.to_nat n) m -> (forall x, length x = m -> g (simplex_point (Q := RO) m vs x) = mval (F := RF) m (Z.to_nat n) d x) ->
    exists v I, quadrature_simplex_fixed (Q := RO) unit_rule f vs n = Ok (Sc v) /\ simplex_integral m vs g I /\ (Rabs (v - I) <= Rabs (det (F := RF) m (edge (F := RF) vs)) * (Q2R eps * rabs_sum d))%R.
  Proof.
    intros E X Hr U S Hd G. destruct rl as [c l].
    destruct (near_rule_int m _ eps (c, l) d (fun x => g (simplex_point (Q := RO) m vs x)) X Hd G) as (I & H1 & H2).
    exists (Rabs (det (F := RF) m (edge (F := RF) vs)) * rule_value (F := RF) c l (fun x => g (simplex_point (Q := RO) m vs x)))%R, (Rabs (det (F := RF) m (edge (F := RF) vs)) * I)%R.
    split; [|split].
    - rewrite (simplex_rule (Q := RO) m vs f g c l n unit_rule Hm Hr U S); [|intros h; unfold unit_rule; rewrite E; reflexivity|exact (near_rule_len _ _ _ _ X)].
      rewrite kabs_Rabs. reflexivity.
    - apply has_sint_real; [exact Hr|]. exists I. split; [exact H1|]. rewrite kabs_Rabs. reflexivity.
    - cbn [fst snd] in H2. rewrite <- Rmult_minus_distr_l, Rabs_mult, Rabs_Rabsolu. apply Rmult_le_compat_l; [apply Rabs_pos|exact H2].
  Qed.
End Rules.

(** ** the interval *)
Local Open Scope R_scope.
Fixpoint rpoly (b : list R) (y : R) : R := match b with [] => 0 | c :: b' => c + y * rpoly b' y end.
Definition moment1 (k : nat) : R := (1 - (-1) ^ (S k)) / INR (S k).
Definition gauss_rule (deg : nat) (eps : R) (xw : list R * list R) : Prop :=
  length (snd xw) = length (fst xw) /\
  forall k, (k <= deg)%nat -> Rabs (fold_right Rplus 0 (map (fun i => nth i (snd xw) 0 * nth i (fst xw) 0 ^ k) (seq 0 (length (fst xw)))) - moment1 k) <= eps.

Lemma pow_RInt k : is_RInt (fun y => y ^ k) (-1) 1 (moment1 k).
Proof.
  pose (G := fun y : R => y ^ (S k) / INR (S k)).
  assert (D : forall y, is_derive G y (y ^ k)).
  { intros y. unfold G. auto_derive; [exact I|]. cbn [Nat.pred]. field. apply INR_S_neq. }
  replace (moment1 k) with (minus (G 1) (G (-1))).
  - apply (is_RInt_derive G (fun y => y ^ k)); intros y _; [apply D|]. apply (ex_derive_continuous (fun y => y ^ k)). auto_derive. exact I.
  - unfold G, moment1, minus, plus, opp. cbn -[pow INR]. rewrite pow1. field. apply INR_S_neq.
Qed.
Lemma sum_lin (l : list nat) (f : nat -> R) c : fold_right Rplus 0 (map (fun i => c * f i) l) = c * fold_right Rplus 0 (map f l).
Proof. induction l as [|a l IH]; cbn; [ring|]. rewrite IH. ring. Qed.
Lemma sum_add (l : list nat) (f g : nat -> R) : fold_right Rplus 0 (map (fun i => f i + g i) l) = fold_right Rplus 0 (map f l) + fold_right Rplus 0 (map g l).
Proof. induction l as [|a l IH]; cbn; [ring|]. rewrite IH. ring. Qed.
Lemma sum_ext_in (l : list nat) (f g : nat -> R) : (forall i, f i = g i) -> fold_right Rplus 0 (map f l) = fold_right Rplus 0 (map g l).
Proof. intros H. induction l as [|a l IH]; cbn; [ring|]. rewrite IH, H. reflexivity. Qed.

(** shifted moments: [y^k * b(y)] *)
Lemma poly_RInt b : forall k, exists J, is_RInt (fun y => y ^ k * rpoly b y) (-1) 1 J /\
  forall deg eps xw, gauss_rule deg eps xw -> (k + length b <= S deg)%nat -> 0 <= eps ->
    Rabs (fold_right Rplus 0 (map (fun i => nth i (snd xw) 0 * (nth i (fst xw) 0 ^ k * rpoly b (nth i (fst xw) 0))) (seq 0 (length (fst xw)))) - J) <= eps * rabs_sum b.
Proof.
  induction b as [|c b IH]; intros k.
  - exists 0. split.
    + apply (is_RInt_ext (fun _ => 0)); [intros; cbn; ring|]. evar_last; [apply is_RInt_const|]. unfold scal. cbn. unfold mult. cbn. ring.
    + intros deg eps xw H _ He. rewrite (sum_ext_in _ _ (fun i => 0 * 0)) by (intros; unfold rpoly; ring). rewrite (sum_lin _ (fun _ => 0)), Rmult_0_l, Rminus_0_r, Rabs_R0. unfold rabs_sum. cbn. lra.
  - destruct (IH (S k)) as (J & H1 & H2). exists (c * moment1 k + J). split.
    + apply (is_RInt_ext (fun y => plus (scal c (y ^ k)) (y ^ S k * rpoly b y))).
      * intros y _. unfold plus, scal. cbn. unfold mult. cbn. ring.
      * apply (is_RInt_plus (V := R_NormedModule)); [|exact H1]. apply (is_RInt_scal (V := R_NormedModule)), pow_RInt.
    + intros deg eps xw H Hl He. cbn [length] in Hl. specialize (H2 deg eps xw H ltac:(lia) He).
      destruct H as [_ H]. specialize (H k ltac:(lia)).
      rewrite (sum_ext_in _ _ (fun i => c * (nth i (snd xw) 0 * nth i (fst xw) 0 ^ k) + nth i (snd xw) 0 * (nth i (fst xw) 0 ^ S k * rpoly b (nth i (fst xw) 0)))) by (intros i; change (rpoly (c :: b) (nth i (fst xw) 0)) with (c + nth i (fst xw) 0 * rpoly b (nth i (fst xw) 0)); rewrite <- !tech_pow_Rmult; ring).
      rewrite sum_add, sum_lin. change (rabs_sum (c :: b)) with (Rabs c + rabs_sum b).
      match goal with |- Rabs (c * ?s + ?t - _) <= _ => replace (c * s + t - (c * moment1 k + J)) with (c * (s - moment1 k) + (t - J)) by ring end.
      eapply Rle_trans; [apply Rabs_triang|]. rewrite Rabs_mult. pose proof (Rabs_pos c). nra.
Qed.
Local Close Scope R_scope.

Ltac rring := match goal with |- @eq _ ?a ?b => change (@eq R a b) end; ring.
Section Interval.
  Context (gl : nat -> list RF * list RF).
  Local Open Scope R_scope.

  Lemma unit_interval_value f (g : R -> R) r : (forall x : R, c_run f [Sc (F := RF) x] = Ok (Sc (F := RF) (g x))) ->
    quadrature_unit_interval_fixed (F := RF) gl f r =
    Ok (Sc (F := RF) (/ 2 * fold_right Rplus 0 (map (fun i => nth i (snd (gl ((r + 2) / 2)%nat)) 0 * g ((nth i (fst (gl ((r + 2) / 2)%nat)) 0 + 1) / 2)) (seq 0 (length (fst (gl ((r + 2) / 2)%nat))))))).
  Proof.
    intros S. unfold quadrature_unit_interval_fixed, gauss_legendre_unit_interval. destruct (gl ((r + 2) / 2)%nat) as [x w]. cbn [fst snd]. rewrite map_length, seq_length.
    set (xg := map _ (seq 0 (length x))). set (wg := map _ (seq 0 (length x))).
    assert (A : forall l (s : R), (forall i, In i l -> (i < length x)%nat) ->
      foldM (fun integral i => let* y := c_run f [Sc (nth i xg (@k0 RF))] in np_add integral (np_scale (nth i wg (@k0 RF)) y)) (Sc (F := RF) s) l =
      Ok (Sc (F := RF) (s + / 2 * fold_right Rplus 0 (map (fun i => nth i w 0 * g ((nth i x 0 + 1) / 2)) l)))).
    { induction l as [|i l IH]; intros s Hl; cbn [foldM map fold_right].
      - f_equal. f_equal. rring.
      - assert (Hi : (i < length x)%nat) by (apply Hl; left; reflexivity).
        assert (X : nth i xg (@k0 RF) = (nth i x 0 + 1) / 2).
        { unfold xg. rewrite (nth_indep _ _ ((fun i => @kdiv RF (@kadd RF (nth i x (@k0 RF)) (@k1 RF)) (@kadd RF (@k1 RF) (@k1 RF))) 0%nat)) by (rewrite map_length, seq_length; exact Hi).
          rewrite (map_nth (fun i => @kdiv RF (@kadd RF (nth i x (@k0 RF)) (@k1 RF)) (@kadd RF (@k1 RF) (@k1 RF)))). rewrite seq_nth by exact Hi. change (0 + i)%nat with i. reflexivity. }
        assert (W : nth i wg (@k0 RF) = / 2 * nth i w 0).
        { unfold wg. rewrite (nth_indep _ _ ((fun i => @kmul RF (@kdiv RF (@k1 RF) (@kadd RF (@k1 RF) (@k1 RF))) (nth i w (@k0 RF))) 0%nat)) by (rewrite map_length, seq_length; exact Hi).
          rewrite (map_nth (fun i => @kmul RF (@kdiv RF (@k1 RF) (@kadd RF (@k1 RF) (@k1 RF))) (nth i w (@k0 RF)))). rewrite seq_nth by exact Hi. change (0 + i)%nat with i. cbn -[nth]. match goal with |- @eq _ ?a ?b => change (@eq R a b) end. field. }
        rewrite X, S, W. cbn [bind np_scale np_add]. rewrite IH by (intros; apply Hl; right; assumption). f_equal. f_equal. cbn -[nth fold_right]. rring. }
    etransitivity; [apply A; intros i Hi; apply in_seq in Hi; lia|]. f_equal. f_equal. cbn. rring.
  Qed.

  Lemma unit_interval_error f (g : R -> R) r b eps : gauss_rule (2 * ((r + 2) / 2) - 1) eps (gl ((r + 2) / 2)%nat) -> 0 <= eps ->
    (forall x : R, c_run f [Sc (F := RF) x] = Ok (Sc (F := RF) (g x))) -> (length b <= S r)%nat -> (forall y, g ((y + 1) / 2) = rpoly b y) ->
    exists v I, quadrature_unit_interval_fixed (F := RF) gl f r = Ok (Sc (F := RF) v) /\ is_RInt g 0 1 I /\ Rabs (v - I) <= / 2 * (eps * rabs_sum b).
  Proof.
    intros G He S Hb Hg. destruct (poly_RInt b 0) as (J & J1 & J2).
    eexists _, (/ 2 * J). split; [apply (unit_interval_value f g r S)|]. split.
    - apply (is_RInt_ext (fun x => scal (/ 2) (scal 2 (rpoly b (2 * x + - 1))))).
      + intros x _. rewrite <- Hg. replace ((2 * x + -1 + 1) / 2) with x by field. unfold scal. cbn. unfold mult. cbn. field.
      + apply (is_RInt_scal (V := R_NormedModule)). apply (is_RInt_comp_lin (V := R_NormedModule) (rpoly b) 2 (-1) 0 1).
        replace (2 * 0 + -1) with (-1) by ring. replace (2 * 1 + -1) with 1 by ring.
        apply (is_RInt_ext (fun y => y ^ 0 * rpoly b y)); [intros; cbn; ring|exact J1].
    - rewrite <- Rmult_minus_distr_l, Rabs_mult, (Rabs_right (/ 2)) by lra. apply Rmult_le_compat_l; [lra|].
      rewrite (sum_ext_in _ _ (fun i => nth i (snd (gl ((r + 2) / 2)%nat)) 0 * (nth i (fst (gl ((r + 2) / 2)%nat)) 0 ^ 0 * rpoly b (nth i (fst (gl ((r + 2) / 2)%nat)) 0)))) by (intros i; rewrite Hg; cbn [pow]; ring).
      apply (J2 _ eps _ G); [|exact He]. pose proof (Nat.div_mod (r + 2) 2 ltac:(lia)). pose proof (Nat.mod_upper_bound (r + 2) 2 ltac:(lia)). lia.
  Qed.

  Lemma interval_pull f (g : R -> R) a b : is_univariate f = Ok true -> (forall x : R, c_run f [Sc (F := RF) x] = Ok (Sc (F := RF) (g x))) -> forall r,
    exists h, (forall x : R, c_run h [Sc (F := RF) x] = Ok (Sc (F := RF) (g ((b - a) * x + a)))) /\
      quadrature_interval_fixed (Q := RO) gl f a b r = (let* v := quadrature_unit_interval_fixed (F := RF) gl h r in Ok (np_scale (F := RF) (Rabs (b - a)) v)).
  Proof.
    intros U S r. unfold quadrature_interval_fixed.
    match goal with |- context [@affine_transformation_from_unit ?F0 ?l] => assert (E : @affine_transformation_from_unit F0 l = Ok (Sc (F := F0) (b - a), Sc (F := F0) a)) by reflexivity end.
    change (@is_univariate RO f = Ok true) in U. rewrite E. cbn [bind]. unfold create_affine_map_callable. cbn [create_affine_map bind andb]. unfold composition. rewrite U.
    cbn [bind is_univariate c_sig length Nat.ltb Nat.leb assert_ Nat.eqb]. eexists. split; [|rewrite kabs_Rabs; reflexivity].
    intros x. cbn -[Rmult Rplus Rminus]. rewrite S. reflexivity.
  Qed.
End Interval.

Section Interval2.
  Context (gl : nat -> list RF * list RF).
  Local Open Scope R_scope.

  (** on the interval with the end points [a] and [b], in either order *)
  Lemma interval_error f (g : R -> R) r a b c eps : gauss_rule (2 * ((r + 2) / 2) - 1) eps (gl ((r + 2) / 2)%nat) -> 0 <= eps -> is_univariate f = Ok true ->
    (forall x : R, c_run f [Sc (F := RF) x] = Ok (Sc (F := RF) (g x))) -> (length c <= S r)%nat -> (forall y, g ((b - a) * ((y + 1) / 2) + a) = rpoly c y) -> a <> b ->
    exists v I, quadrature_interval_fixed (Q := RO) gl f a b r = Ok (Sc (F := RF) v) /\ is_RInt g (Rmin a b) (Rmax a b) I /\ Rabs (v - I) <= Rabs (b - a) / 2 * (eps * rabs_sum c).
  Proof.
    intros G He U S Hc Hg Hab. destruct (interval_pull gl f g a b U S r) as (h & Sh & Eh).
    destruct (unit_interval_error gl h (fun x => g ((b - a) * x + a)) r c eps G He Sh Hc Hg) as (v & I & E & HI & HE).
    exists (Rabs (b - a) * v), (Rabs (b - a) * I). split; [|split].
    - rewrite Eh, E. reflexivity.
    - assert (HJ : is_RInt g a b ((b - a) * I)).
      { assert (N : b - a <> 0) by lra.
        apply (is_RInt_ext (fun y => scal (b - a) (scal (/ (b - a)) (g ((b - a) * (/ (b - a) * y + - (a / (b - a))) + a))))).
        - intros y _. replace ((b - a) * (/ (b - a) * y + - (a / (b - a))) + a) with y by (field; lra). unfold scal. cbn. unfold mult. cbn. field. lra.
        - apply (is_RInt_scal (V := R_NormedModule)). apply (is_RInt_comp_lin (V := R_NormedModule) (fun x => g ((b - a) * x + a)) (/ (b - a)) (- (a / (b - a))) a b).
          replace (/ (b - a) * a + - (a / (b - a))) with 0 by (field; lra). replace (/ (b - a) * b + - (a / (b - a))) with 1 by (field; lra). exact HI. }
      destruct (Rlt_or_le a b) as [L|L].
      + rewrite Rmin_left, Rmax_right, Rabs_right by lra. exact HJ.
      + rewrite Rmin_right, Rmax_left, Rabs_left1 by lra. replace (- (b - a) * I) with (opp ((b - a) * I)) by (unfold opp; cbn; ring). apply (is_RInt_swap (V := R_NormedModule)), HJ.
    - rewrite <- Rmult_minus_distr_l, Rabs_mult, Rabs_Rabsolu. unfold Rdiv. rewrite Rmult_assoc. apply Rmult_le_compat_l; [apply Rabs_pos|exact HE].
  Qed.

  Fixpoint padd (p q : list R) : list R := match p, q with [], _ => q | _, [] => p | a :: p', b :: q' => a + b :: padd p' q' end.
  Lemma padd_val p : forall q y, rpoly (padd p q) y = rpoly p y + rpoly q y.
  Proof. induction p as [|a p IH]; intros [|b q] y; cbn; try ring. rewrite IH. ring. Qed.
  Lemma padd_len p : forall q, length (padd p q) = Nat.max (length p) (length q).
  Proof. induction p as [|a p IH]; intros [|b q]; cbn; try reflexivity. rewrite IH. reflexivity. Qed.
  Lemma pscale_val k p y : rpoly (map (Rmult k) p) y = k * rpoly p y.
  Proof. induction p as [|a p IH]; cbn; [ring|]. rewrite IH. ring. Qed.
  Lemma poly_affine s t p : exists q, length q = length p /\ forall y, rpoly p (s * y + t) = rpoly q y.
  Proof.
    induction p as [|a p (q & L & H)]; [exists []; split; reflexivity|].
    exists (padd [a] (padd (map (Rmult t) q) (0 :: map (Rmult s) q))). split.
    - rewrite !padd_len. cbn [length]. rewrite !map_length, L. lia.
    - intros y. rewrite !padd_val, pscale_val. cbn [rpoly]. rewrite pscale_val, H. ring.
  Qed.
  Lemma interval_exact f p r a b : gauss_rule (2 * ((r + 2) / 2) - 1) 0 (gl ((r + 2) / 2)%nat) -> is_univariate f = Ok true ->
    (forall x : R, c_run f [Sc (F := RF) x] = Ok (Sc (F := RF) (rpoly p x))) -> (length p <= S r)%nat -> a <> b ->
    exists I, quadrature_interval_fixed (Q := RO) gl f a b r = Ok (Sc (F := RF) I) /\ is_RInt (rpoly p) (Rmin a b) (Rmax a b) I.
  Proof.
    intros G U S Hc Hab. destruct (poly_affine ((b - a) / 2) ((b - a) / 2 + a) p) as (q & L & H).
    destruct (interval_error f (rpoly p) r a b q 0 G ltac:(lra) U S) as (v & I & E & HI & HE); [lia| |exact Hab|].
    - intros y. rewrite <- H. f_equal. field.
    - exists I. split; [|exact HI]. rewrite E. do 2 f_equal. rewrite Rmult_0_l, Rmult_0_r in HE. pose proof (Rabs_pos (v - I)).
      destruct (Req_dec v I) as [|N]; [assumption|]. pose proof (Rabs_pos_lt (v - I) ltac:(lra)). lra.
  Qed.
  Lemma unit_interval_exact f p r : gauss_rule (2 * ((r + 2) / 2) - 1) 0 (gl ((r + 2) / 2)%nat) ->
    (forall x : R, c_run f [Sc (F := RF) x] = Ok (Sc (F := RF) (rpoly p x))) -> (length p <= S r)%nat ->
    exists I, quadrature_unit_interval_fixed (F := RF) gl f r = Ok (Sc (F := RF) I) /\ is_RInt (rpoly p) 0 1 I.
  Proof.
    intros G S Hc. destruct (poly_affine (/ 2) (/ 2) p) as (q & L & H).
    destruct (unit_interval_error gl f (rpoly p) r q 0 G ltac:(lra) S) as (v & I & E & HI & HE); [lia| |].
    - intros y. rewrite <- H. f_equal. field.
    - exists I. split; [|exact HI]. rewrite E. do 2 f_equal. rewrite Rmult_0_l, Rmult_0_r in HE. pose proof (Rabs_pos (v - I)).
      destruct (Req_dec v I) as [|N]; [assumption|]. pose proof (Rabs_pos_lt (v - I) ltac:(lra)). lra.
  Qed.
End Interval2.
