(** Property C114 for the Lagrange basis of the unit simplex. *)
From Coq Require Import Ascii String Reals QArith Qcanon Qreals Qabs Lia Lra Factorial.
From Verif Require Import Base MultiIndex MultiIndexFacts Fld FldInst IntReal Poly CodeGen CodeGenFacts StrUtils Prop_StrUtils NumStr Prop_NumStr MultiCoef MultiCoefFacts MultiCapFacts LinSolve PolyFacts LagFacts PolyEval PolyOps PolyObj BasesCalls QHom QuadReal Latex LatexRead LatexFacts Prop_Latex LatexCompact Prop_LatexCompact LagrangeText.
Local Close Scope R_scope.
Local Close Scope Q_scope.
Local Close Scope Qc_scope.
Local Close Scope Z_scope.
Local Close Scope string_scope.
Local Open Scope nat_scope.
Local Open Scope list_scope.

(** ** The coefficients as rational and as real numbers *)
Lemma this_nat n : (this (kofnat (F := QcF) n) == inject_Z (Z.of_nat n))%Q.
Proof.
  induction n as [|n IH]; [reflexivity|]. rewrite kofnat_S. change (this (Qcplus (Q2Qc 1) (kofnat (F := QcF) n)) == inject_Z (Z.of_nat (S n)))%Q. unfold Qcplus. cbn [this Q2Qc]. rewrite !Qred_correct, IH, Nat2Z.inj_succ, <- Z.add_1_l, inject_Z_plus. reflexivity.
Qed.
Lemma this_Z z : (this (kofZ (F := QcF) z) == inject_Z z)%Q.
Proof.
  destruct z as [|p|p]; [reflexivity| |].
  - change (this (kofnat (F := QcF) (Pos.to_nat p)) == inject_Z (Z.pos p))%Q. rewrite this_nat, positive_nat_Z. reflexivity.
  - change (this (Qcopp (kofnat (F := QcF) (Pos.to_nat p))) == inject_Z (Z.neg p))%Q. unfold Qcopp. cbn [this Q2Qc]. rewrite Qred_correct, this_nat, positive_nat_Z. reflexivity.
Qed.
Definition row (r : nat) (nu mu : list nat) : Q := this (lag_coeff (F := QcF) r nu mu).
Lemma row_frac r nu mu : (row r nu mu == zcoef (lag_terms r nu) mu # Pos.of_nat (lag_den r nu))%Q.
Proof.
  unfold row, lag_coeff. change (this (Qcmult (kofZ (F := QcF) (zcoef (lag_terms r nu) mu)) (Qcinv (kofnat (F := QcF) (lag_den r nu)))) == zcoef (lag_terms r nu) mu # Pos.of_nat (lag_den r nu))%Q.
  unfold Qcmult, Qcinv. cbn [this Q2Qc]. rewrite !Qred_correct, this_Z, this_nat. pose proof (lag_den_pos r nu). destruct (lag_den r nu) as [|d]; [contradiction|]. rewrite Qmake_Qdiv. unfold Qdiv. replace (Z.pos (Pos.of_nat (S d))) with (Z.of_nat (S d)) by lia. reflexivity.
Qed.
Lemma phi_Z z : phi (F := RF) (kofZ z) = kofZ z.
Proof. destruct z as [|p|p]; cbn [kofZ]; [apply phi_0|apply phi_nat|]. exact (eq_trans (phi_opp (F := RF) (kofnat (F := QcF) (Pos.to_nat p))) (f_equal (@kopp RF) (phi_nat (F := RF) (Pos.to_nat p)))). Qed.
Lemma row_real r nu mu : Q2R (row r nu mu) = lag_coeff (F := RF) r nu mu.
Proof.
  unfold row. rewrite <- kofQ_Q2R. fold (phi (F := RF) (lag_coeff (F := QcF) r nu mu)). unfold lag_coeff.
  rewrite phi_div by (apply kofnat_neq, lag_den_pos). rewrite phi_Z, phi_nat. reflexivity.
Qed.
Lemma row_zero r nu mu : (row r nu mu == 0)%Q <-> zcoef (lag_terms r nu) mu = 0%Z.
Proof. rewrite row_frac. unfold Qeq. cbn [Qnum Qden]. lia. Qed.
Lemma row_near r nu mu : nsum nu <= r -> r <= 6 -> near (row r nu mu) (row r nu mu).
Proof.
  intros Hn Hr. split; [|split; [apply close_refl|reflexivity]]. exists (zcoef (lag_terms r nu) mu), (Pos.of_nat (lag_den r nu)). split; [|apply row_frac].
  pose proof (lag_den_le r nu Hn) as HD. pose proof (fact_le r 6 Hr) as HF. change (fact 6) with 720 in HF. pose proof (lag_den_pos r nu). lia.
Qed.
Section Origin.
  Context {F : fld}.
  Add Field Kfield85 : (kth F).
  Lemma point_origin m r : generate_lagrange_point (F := F) m r (repeat 0 m) = repeat 0%K m.
  Proof.
    unfold generate_lagrange_point. destruct r as [|r]; [reflexivity|]. induction m as [|m IH]; [reflexivity|]. cbn [repeat map]. rewrite IH. f_equal. rewrite kofnat_0. field. apply kofnat_neq. discriminate.
  Qed.
  Lemma zcoef_origin r nu : nsum nu <= r -> kofZ (F := F) (zcoef (lag_terms r nu) (repeat 0 (length nu))) = if mi_dec (repeat 0 (length nu)) nu then kofnat (lag_den r nu) else 0%K.
  Proof.
    intros Hn. rewrite <- (tv_node (F := F) r nu (repeat 0 (length nu))); [|apply repeat_length|rewrite nsum_repeat0; lia|exact Hn]. rewrite (zcoef_tv (length nu) r) by now apply lag_terms_deg. rewrite point_origin.
    rewrite <- (ksum_delta mi_dec (fun mu => kofZ (F := F) (zcoef (lag_terms r nu) mu)) (all_mi (length nu) r) (repeat 0 (length nu)) (NoDup_all_mi _ _)) by (apply in_all_mi; rewrite repeat_length, nsum_repeat0; lia).
    apply ksum_ext. intros mu Hmu. apply in_all_mi in Hmu as [M1 M2]. rewrite mpow_at_zero by exact M1. destruct (mi_dec mu (repeat 0 (length nu))); ring.
  Qed.
End Origin.
Lemma row_origin r nu : nsum nu <= r -> unit_or_zero (row r nu (repeat 0 (length nu))).
Proof.
  intros Hn. pose proof (zcoef_origin (F := QcF) r nu Hn) as E. pose proof (row_frac r nu (repeat 0 (length nu))) as R. pose proof (row_zero r nu (repeat 0 (length nu))) as Z. set (z := zcoef (lag_terms r nu) (repeat 0 (length nu))) in *. set (y := row r nu (repeat 0 (length nu))) in *.
  destruct (mi_dec (repeat 0 (length nu)) nu).
  - right. left. rewrite R. assert (E2 : (inject_Z z == inject_Z (Z.of_nat (lag_den r nu)))%Q) by (rewrite <- this_Z, <- this_nat, E; reflexivity). unfold Qeq, inject_Z in *. cbn [Qnum Qden] in *. pose proof (lag_den_pos r nu). lia.
  - left. apply Z. assert (E2 : (inject_Z z == 0)%Q) by (rewrite <- this_Z, E; reflexivity). unfold Qeq, inject_Z in E2. cbn [Qnum Qden] in E2. lia.
Qed.
Lemma row_list nu r c : nsum nu <= r -> get_lagrange_basis_fn_coefficients (F := QcF) nu r = Ok c -> map this c = map (row r nu) (all_mi (length nu) r).
Proof. intros Hn Hc. rewrite (lagrange_coefficients_int nu r c Hn Hc), map_map. reflexivity. Qed.
Lemma row_list_real nu r c : nsum nu <= r -> get_lagrange_basis_fn_coefficients (F := RF) nu r = Ok c -> c = map Q2R (map (row r nu) (all_mi (length nu) r)).
Proof. intros Hn Hc. rewrite (lagrange_coefficients_int nu r c Hn Hc), map_map. apply map_ext. intros mu. symmetry. apply row_real. Qed.

(** ** The text of a basis function *)
Lemma fn_latex nu r : length nu <= 9 -> nsum nu <= r -> r <= 9 -> lagrange_basis_fn_latex nu r = lagrange_latex_of (map (row r nu) (all_mi (length nu) r)) (all_mi (length nu) r).
Proof.
  intros Hm Hn Hr. unfold lagrange_basis_fn_latex, lagrange_basis_fn_monomial. destruct (lagrange_basis_fn_coefficients_ok (F := QcF) nu r Hn) as (c & Ec & Lc & _). rewrite Ec. cbn [bind].
  destruct (new_poly_ok (F := QcF) Monomial [c] r (length nu)) as (p & Ep & (_ & _ & Pc & _ & Pm)); [apply rect1, Lc|lia|]. rewrite Ep. cbn [bind]. rewrite Pc, Pm. cbn [hd]. rewrite (row_list nu r c Hn Ec), Lc.
  replace (mapM (generate (length nu) r) (seq 0 (get_dimension r (length nu)))) with (Ok (all_mi (length nu) r)); [reflexivity|]. symmetry.
  rewrite (mapM_ok _ (fun i => nth i (all_mi (length nu) r) [])) by (intros i Hi; apply in_seq in Hi; apply generate_nth; lia). f_equal. rewrite dim_all_mi. clear. generalize (all_mi (length nu) r) as l. intros l. induction l as [|a l IH]; [reflexivity|]. cbn [length seq map nth]. f_equal. rewrite <- seq_shift, map_map. exact IH.
Qed.
Lemma row_conditions nu r (x : list R) : length nu <= 9 -> nsum nu <= r -> r <= 6 -> length x = length nu ->
  let ys := map (row r nu) (all_mi (length nu) r) in
  length ys = get_dimension r (length nu) /\ Forall2 near ys ys /\ unit_or_zero (nth 0 ys 0%Q) /\ (exists y, In y ys /\ ~ (y == 0)%Q).
Proof.
  intros Hm Hn Hr Ex ys. split; [unfold ys; rewrite map_length, dim_all_mi; reflexivity|]. split.
  - unfold ys. induction (all_mi (length nu) r) as [|mu l IH]; constructor; [now apply row_near|exact IH].
  - split.
    + unfold ys. destruct (all_mi_nonempty (length nu) r) as (l & ->). cbn [map nth]. now apply row_origin.
    + destruct (Exists_dec (fun y => ~ (y == 0)%Q) ys) as [E|E]; [intros y; destruct (Qeq_dec y 0); [right|left]; tauto|apply Exists_exists in E; exact E|]. exfalso.
      pose proof (tv_node (F := RF) r nu nu eq_refl Hn Hn) as V. destruct (mi_dec nu nu) as [_|?]; [|contradiction]. rewrite (zcoef_tv (length nu) r) in V by now apply lag_terms_deg. apply (kofnat_neq (F := RF) (lag_den r nu) (lag_den_pos r nu)). rewrite <- V. apply ksum_zero. intros mu Hmu.
      assert (Z : zcoef (lag_terms r nu) mu = 0%Z). { apply row_zero. destruct (Qeq_dec (row r nu mu) 0) as [Q|Q]; [exact Q|]. exfalso. apply E, Exists_exists. exists (row r nu mu). split; [apply in_map, Hmu|exact Q]. }
      rewrite Z, kofZ_0. apply (Rmult_0_l).
Qed.
(** The Lagrange basis function of the multi-index nu as a product: t (t - 1) ... (t - n + 1) for t = r x_i, n = nu_i, and for t = r (1 - x_1 - ... - x_m), n = r - |nu|. *)
Definition falling (t : R) (n : nat) : R := fold_right Rmult 1%R (map (fun j => t - INR j)%R (seq 0 n)).
Definition lagrange_formula (r : nat) (nu : list nat) (x : list R) : R :=
  (fold_right Rmult 1 (map (fun p => falling (INR r * snd p) (fst p)) (combine nu x)) * falling (INR r * (1 - fold_right Rplus 0 x)) (r - nsum nu)
   / (fold_right Rmult 1 (map (fun e => INR (fact e)) nu) * INR (fact (r - nsum nu))))%R.
Lemma falling_ff t n : ff (F := RF) t n = falling t n.
Proof.
  induction n as [|n IH]; [reflexivity|]. unfold falling. rewrite seq_S, map_app, fold_right_app. cbn [map fold_right Nat.add ff]. rewrite fold_mul. fold (falling t n). rewrite IH, kofnat_INR, Rmult_1_r. reflexivity.
Qed.
Lemma fprod_falling r nu x : fprod (F := RF) r nu x = fold_right Rmult 1%R (map (fun p => falling (INR r * snd p) (fst p)) (combine nu x)).
Proof. revert x. induction nu as [|e nu IH]; intros [|v x]; try reflexivity. cbn [fprod combine map fold_right fst snd]. rewrite IH, falling_ff, kofnat_INR. reflexivity. Qed.
Lemma rows_value r nu x : length x = length nu -> nsum nu <= r -> mval (F := RF) (length nu) r (map Q2R (map (row r nu) (all_mi (length nu) r))) x = lagrange_formula r nu x.
Proof.
  intros Ex Hn. rewrite map_map, (mval_ext (F := RF) _ _ _ _ _ eq_refl). pose proof (tv_lag (F := RF) r nu x Ex Hn) as V. rewrite (zcoef_tv (F := RF) (length nu) r) in V by now apply lag_terms_deg.
  assert (N : kofnat (F := RF) (lag_den r nu) <> 0%K) by apply kofnat_neq, lag_den_pos.
  transitivity (kdiv (f := RF) (ksum (F := RF) (all_mi (length nu) r) (fun mu => kmul (kofZ (zcoef (lag_terms r nu) mu)) (mpow (F := RF) x mu))) (kofnat (F := RF) (lag_den r nu))).
  - change (ksum (F := RF) (all_mi (length nu) r) (fun mu => Q2R (row r nu mu) * mpow (F := RF) x mu)%R = (ksum (F := RF) (all_mi (length nu) r) (fun mu => kofZ (F := RF) (zcoef (lag_terms r nu) mu) * mpow (F := RF) x mu)%R * / kofnat (F := RF) (lag_den r nu))%R).
    rewrite <- (ksum_scale_r (F := RF)). apply ksum_ext. intros mu _. rewrite row_real. unfold lag_coeff. change (kofZ (F := RF) (zcoef (lag_terms r nu) mu) / kofnat (F := RF) (lag_den r nu) * mpow (F := RF) x mu = kofZ (F := RF) (zcoef (lag_terms r nu) mu) * mpow (F := RF) x mu * / kofnat (F := RF) (lag_den r nu))%R. unfold Rdiv. ring.
  - rewrite V. unfold lagrange_formula. rewrite fprod_falling, falling_ff. change (fold_right Rmult 1 (map (fun p => falling (INR r * snd p) (fst p)) (combine nu x)) * falling (kofnat (F := RF) r * bary0 (F := RF) x) (r - nsum nu) / kofnat (F := RF) (lag_den r nu) = fold_right Rmult 1 (map (fun p => falling (INR r * snd p) (fst p)) (combine nu x)) * falling (INR r * (1 - fold_right Rplus 0 x)) (r - nsum nu) / (fold_right Rmult 1 (map (fun e => INR (fact e)) nu) * INR (fact (r - nsum nu))))%R.
    rewrite !kofnat_INR. unfold lag_den. rewrite mult_INR. replace (INR (mi_factorial nu)) with (fold_right Rmult 1%R (map (fun e => INR (fact e)) nu)); [|clear; induction nu as [|a l IH]; [reflexivity|]; rewrite mi_factorial_cons, mult_INR; cbn [map fold_right]; rewrite IH; reflexivity].
    replace (bary0 (F := RF) x) with (1 - fold_right Rplus 0 x)%R; [reflexivity|]. unfold bary0. change (1 - fold_right Rplus 0 x = 1 - ksum (F := RF) x (fun v => v))%R. reflexivity.
Qed.
Theorem C114_lagrange_fn : forall nu r x, length nu <= 9 -> nsum nu <= r <= 6 -> length x = length nu ->
  exists text, lagrange_basis_fn_latex nu r = Ok text /\ latex_value x text = Ok (lagrange_formula r nu x).
Proof.
  intros nu r x Hm [Hn Hr] Ex. destruct (row_conditions nu r x Hm Hn Hr Ex) as (H1 & H2 & H3 & H4). rewrite fn_latex by lia.
  destruct (C114_lagrange_of _ _ r (length nu) x Hm ltac:(lia) H1 H2 H3 H4 Ex) as (text & E & V). exists text. split; [exact E|]. rewrite V, rows_value by assumption. reflexivity.
Qed.
Print Assumptions C114_lagrange_fn.

(** ** The expanded text of a polynomial *)
(** exactly one nonzero number *)
Definition only (ys : list Q) (i : nat) : Prop := i < length ys /\ ~ (nth i ys 0 == 0)%Q /\ forall j, j <> i -> (nth j ys 0 == 0)%Q.
Lemma several_or_only ys : (exists y, In y ys /\ ~ (y == 0)%Q) -> several ys \/ exists i, only ys i.
Proof.
  induction ys as [|y ys IH]; intros (z & Hz & NZ); [destruct Hz|].
  destruct (Exists_dec (fun y => ~ (y == 0)%Q) ys) as [E|E]; [intros y'; destruct (Qeq_dec y' 0); [right|left]; tauto| |].
  - apply Exists_exists in E. destruct (IH E) as [S|(i & O1 & O2 & O3)]; [left; now apply several_later|]. destruct (Qeq_dec y 0) as [Z|Z]; [|left; now apply several_here]. right. exists (S i). split; [cbn; lia|]. split; [exact O2|]. intros [|j] Hj; [exact Z|]. apply O3. lia.
  - assert (A : forall w, In w ys -> (w == 0)%Q). { intros w Hw. destruct (Qeq_dec w 0) as [Q|Q]; [exact Q|]. exfalso. apply E, Exists_exists. exists w. auto. }
    right. exists 0. split; [cbn; lia|]. split; [destruct Hz as [<-|Hz]; [exact NZ|elim NZ; apply A, Hz]|]. intros [|j] Hj; [lia|]. cbn [nth]. destruct (nth_in_or_default j ys 0%Q) as [H| ->]; [apply A, H|reflexivity].
Qed.
Lemma only_single ys : forall i, only ys i -> unit_or_zero (nth i ys 0%Q) -> single ys.
Proof.
  induction ys as [|y ys IH]; intros i (O1 & O2 & O3) U; [cbn in O1; lia|]. destruct i as [|i].
  - apply single_here; [exact U|exact O2|]. intros z Hz. apply (In_nth _ _ 0%Q) in Hz as (j & Hj & <-). exact (O3 (S j) ltac:(lia)).
  - apply single_later; [exact (O3 0 ltac:(lia))|]. apply (IH i); [|exact U]. split; [cbn in O1; lia|]. split; [exact O2|]. intros j Hj. exact (O3 (S j) ltac:(lia)).
Qed.
Lemma variable_length n i : n <> 1 -> 3 <= length (variable n i).
Proof.
  intros H. unfold variable. destruct (Nat.eqb_spec n 1); [contradiction|]. rewrite app_length. destruct (C111_numerals (S i)) as (V & _). destruct (str_nat (S i)) as [|d l] eqn:E; [|cbn; lia]. exfalso. clear - V. cbn in V. discriminate.
Qed.
Lemma monomial_length mi : length mi <> 1 -> nsum mi <> 0 -> 3 <= length (monomial_basis_fn_latex mi).
Proof.
  intros H N. unfold monomial_basis_fn_latex. destruct (power_parts mi) as [|p ps] eqn:EP; [exfalso; apply N; exact (no_parts (length mi) mi 0 EP)|].
  assert (HP : In p (power_parts mi)) by (rewrite EP; now left). unfold power_parts in HP. apply in_flat_map in HP as ((i & e) & _ & HP). cbn [fst snd] in HP. assert (L : 3 <= length p). { pose proof (variable_length (length mi) i H). destruct e as [|[|e]]; [destruct HP| |]; destruct HP as [<-|[]]; [assumption|rewrite app_length; lia]. }
  destruct ps; cbn [join]; [exact L|rewrite !app_length; lia].
Qed.
Lemma Ok_inj {A} (a b : A) : Ok a = Ok b -> a = b.
Proof. now intros [= ->]. Qed.
Lemma step_long t a mi t' : lag_step t (a, mi) = Ok t' -> length t <= length t' /\ (~ unit_or_zero a -> 3 <= length (monomial_basis_fn_latex mi) -> 3 < length t').
Proof.
  unfold lag_step. set (m := monomial_basis_fn_latex mi). clearbody m. destruct (Qeq_bool a 0) eqn:Q0; [intros [= <-]; split; [lia|]; intros U; elim U; left; now apply Qeq_bool_iff|].
  assert (G : forall (A : str) (t : list ascii), length t <= length (t ++ A)) by (intros; rewrite app_length; lia). assert (G2 : forall A B : str, 3 <= length m -> 3 < length (A ++ B ++ lit " " ++ m)) by (intros; rewrite !app_length; change (length (lit " ")) with 1; lia).
  destruct (Qeq_bool a 1) eqn:Q1.
  { intros E. split; [destruct t; apply Ok_inj in E; subst t'; [apply (G m [])|apply G]|]. intros U. elim U. right. left. now apply Qeq_bool_iff. }
  destruct (Qeq_bool a (-1)) eqn:Q2.
  { intros E. split; [destruct t; apply Ok_inj in E; subst t'; [apply (G _ [])|apply G]|]. intros U. elim U. right. right. now apply Qeq_bool_iff. }
  destruct t as [|b t].
  - destruct (convert_float_to_fraction a false) as [s|]; cbn [bind]; [intros E; apply Ok_inj in E; subst t'|discriminate]. split; [apply Nat.le_0_l|]. intros _. exact (G2 [] s).
  - assert (G3 : forall A B : str, 3 <= length m -> 3 < length ((b :: t) ++ A ++ B ++ lit " " ++ m)) by (intros A B H; rewrite app_length; specialize (G2 A B H); lia).
    destruct (negb (Qle_bool 0 a)); [destruct (convert_float_to_fraction (- a) false) as [s|]|destruct (convert_float_to_fraction a false) as [s|]]; cbn [bind]; try discriminate; intros E; apply Ok_inj in E; subst t'; (split; [apply (G _ (b :: t))|intros _; apply G3]).
Qed.
Lemma fold_long l : forall t t', foldM lag_step t l = Ok t' -> length t <= length t' /\ ((exists a mi, In (a, mi) l /\ ~ unit_or_zero a /\ 3 <= length (monomial_basis_fn_latex mi)) -> 3 < length t').
Proof.
  induction l as [|[a mi] l IH]; intros t t' E; cbn [foldM] in E; [injection E as <-; split; [lia|intros (a & mi & [] & _)]|]. destruct (lag_step t (a, mi)) as [t1|] eqn:E1; [|discriminate]. cbn [bind] in E. apply step_long in E1 as [S1 S2]. destruct (IH t1 t' E) as [L1 L2]. split; [lia|].
  intros (a' & mi' & [[= -> ->]|Hin] & U & M); [specialize (S2 U M); lia|]. apply L2. eauto.
Qed.
Lemma latex_of_long c mis text : lagrange_latex_of c mis = Ok text -> (exists a mi, In (a, mi) (combine c mis) /\ ~ unit_or_zero a /\ 3 <= length (monomial_basis_fn_latex mi)) -> 3 < length text.
Proof.
  unfold lagrange_latex_of. change (foldM _ [] (combine c mis)) with (foldM lag_step [] (combine c mis)). destruct (foldM lag_step [] (combine c mis)) as [t|] eqn:E; [|discriminate]. cbn [bind]. intros [= <-] H. pose proof (proj2 (fold_long _ _ _ E) H). destruct t; [cbn in *; lia|assumption].
Qed.
Lemma unit_or_zero_dec y : {unit_or_zero y} + {~ unit_or_zero y}.
Proof. unfold unit_or_zero. destruct (Qeq_dec y 0); [left; tauto|]. destruct (Qeq_dec y 1); [left; tauto|]. destruct (Qeq_dec y (-1)); [left; tauto|right; tauto]. Qed.
Lemma all_nth m r i : i < length (all_mi m r) -> length (nth i (all_mi m r) []) = m /\ nsum (nth i (all_mi m r) []) <= r /\ (i <> 0 -> nsum (nth i (all_mi m r) []) <> 0).
Proof.
  intros Hi. pose proof (nth_In (all_mi m r) [] Hi) as HI. pose proof (proj1 (in_all_mi _ _ _) HI) as [L S]. split; [exact L|]. split; [exact S|]. intros N Z. apply N. destruct (all_mi_nonempty m r) as (l & EL). pose proof (NoDup_all_mi m r) as ND. rewrite (NoDup_nth _ []) in ND. apply ND; [exact Hi|lia|]. rewrite EL at 2. cbn [nth]. apply nsum0_eq; [rewrite repeat_length; exact L|exact Z|apply nsum_repeat0].
Qed.
(** one variable, degree at least 2: at least two monomials *)
Lemma two_monomials r a i : 2 <= r -> a <= r -> ~ only (map (row r [a]) (all_mi 1 r)) i.
Proof.
  intros Hr Ha (O1 & O2 & O3). rewrite map_length in O1. assert (EX : exists b, 1 <= b <= 2 /\ b <> a) by (destruct (Nat.eq_dec a 1); [exists 2|exists 1]; lia). destruct EX as (b & Hb & Nb).
  assert (Hn : nsum [a] <= r) by (cbn; lia). pose proof (tv_node (F := RF) r [a] [b] eq_refl ltac:(cbn; lia) Hn) as V. destruct (mi_dec [b] [a]) as [E|_]; [injection E; lia|]. rewrite (zcoef_tv (length [a]) r) in V by now apply lag_terms_deg. cbn [length] in V.
  set (mu := nth i (all_mi 1 r) []) in *. assert (HI : In mu (all_mi 1 r)) by now apply nth_In.
  assert (ZO : forall mu', In mu' (all_mi 1 r) -> mu' <> mu -> zcoef (lag_terms r [a]) mu' = 0%Z). { intros mu' H' N. apply row_zero. apply (In_nth _ _ []) in H' as (j & Hj & <-). specialize (O3 j ltac:(intros ->; now apply N)). rewrite (nth_indep _ _ (row r [a] [])), map_nth in O3 by (rewrite map_length; exact Hj). exact O3. }
  assert (NZ : zcoef (lag_terms r [a]) mu <> 0%Z). { intros Z. apply O2. rewrite (nth_indep _ _ (row r [a] [])), map_nth by (rewrite map_length; exact O1). apply row_zero. exact Z. }
  set (p := generate_lagrange_point (F := RF) 1 r [b]) in *. assert (V2 : (kofZ (F := RF) (zcoef (lag_terms r [a]) mu) * mpow (F := RF) p mu)%R = 0%R).
  { refine (eq_trans _ V). rewrite <- (ksum_delta (F := RF) mi_dec (fun mu => (kofZ (F := RF) (zcoef (lag_terms r [a]) mu) * mpow (F := RF) p mu)%R) (all_mi 1 r) mu (NoDup_all_mi _ _) HI). apply ksum_ext. intros mu' H'. destruct (mi_dec mu' mu) as [->|N]; [reflexivity|]. rewrite (ZO mu' H' N), kofZ_0. symmetry. apply Rmult_0_l. }
  apply Rmult_integral in V2 as [V2|V2]; [exact (IntFacts.kofZ_neq (F := RF) _ NZ V2)|]. apply in_all_mi in HI as [L1 _]. destruct mu as [|k [|]]; try discriminate. unfold p, generate_lagrange_point in V2. destruct r as [|r]; [lia|]. cbn [map mpow] in V2.
  apply Rmult_integral in V2 as [V2|V2]; [|exact (R1_neq_R0 V2)]. refine (kpow_neq (F := RF) _ k _ V2). intros E. apply (kofnat_neq (F := RF) b); [lia|]. change (kofnat (F := RF) b / kofnat (F := RF) (S r) = 0)%R in E. assert (N : kofnat (F := RF) (S r) <> 0%R) by (apply (kofnat_neq (F := RF)); discriminate). change (kofnat (F := RF) b = 0%R). apply (Rmult_eq_compat_r (kofnat (F := RF) (S r))) in E. unfold Rdiv in E. rewrite Rmult_assoc, Rinv_l, Rmult_1_r, Rmult_0_l in E by exact N. exact E.
Qed.
Lemma fn_parts nu r x : length nu <= 9 -> nsum nu <= r -> r <= 6 -> length x = length nu ->
  exists text, lagrange_basis_fn_latex nu r = Ok text /\ means_expr x text (lagrange_formula r nu x) /\ (length text <= 3 -> means_term x text (lagrange_formula r nu x) /\ joinable text).
Proof.
  intros Hm Hn Hr Ex. destruct (row_conditions nu r x Hm Hn Hr Ex) as (H1 & H2 & H3 & H4). rewrite fn_latex by lia.
  destruct (lagrange_means x _ _ r (length nu) Hm ltac:(lia) Ex H1 H2 H3 H4) as (text & E & P & S1 & S2). rewrite rows_value in P, S1 by assumption. exists text. split; [exact E|]. split; [exact P|]. intros L.
  destruct (several_or_only _ H4) as [S|(i & O)]; [specialize (S2 S); lia|]. destruct (unit_or_zero_dec (nth i (map (row r nu) (all_mi (length nu) r)) 0%Q)) as [U|U]; [apply S1, (only_single _ i O U)|]. exfalso.
  assert (Ni : i <> 0) by (intros ->; contradiction). pose proof O as (O1 & O2 & O3). rewrite map_length in O1. destruct (all_nth (length nu) r i O1) as (L1 & L2 & L3). specialize (L3 Ni). set (mu := nth i (all_mi (length nu) r) []) in *.
  assert (EN : nth i (map (row r nu) (all_mi (length nu) r)) 0%Q = row r nu mu) by (rewrite (nth_indep _ _ (row r nu [])), map_nth by (rewrite map_length; exact O1); reflexivity). rewrite EN in U.
  destruct (Nat.eq_dec (length nu) 1) as [M1|M1].
  - destruct nu as [|a [|]]; try discriminate. cbn in Hn. destruct (le_lt_dec 2 r) as [G|G]; [exact (two_monomials r a i G ltac:(lia) O)|]. apply U. destruct r as [|[|]]; [exfalso; lia| |lia].
    assert (EM : mu = [1]). { destruct mu as [|k [|]]; try discriminate. cbn in L2, L3. f_equal. lia. }
    rewrite EM. unfold unit_or_zero. rewrite row_frac. destruct a as [|[|]]; [right; right; reflexivity|right; left; reflexivity|lia].
  - assert (HI : In mu (all_mi (length nu) r)) by now apply nth_In.
    assert (HC : In (row r nu mu, mu) (combine (map (row r nu) (all_mi (length nu) r)) (all_mi (length nu) r))) by (clear - HI; clearbody mu; induction (all_mi (length nu) r) as [|mu' l IH]; [destruct HI|]; cbn [map combine]; destruct HI as [->|HI]; [now left|right; now apply IH]).
    assert (G : 3 < length text); [|lia]. apply (latex_of_long _ _ _ E). exists (row r nu mu), mu. split; [exact HC|]. split; [exact U|]. apply monomial_length; [congruence|exact L3].
Qed.
Lemma fn_all r m x : m <= 9 -> r <= 6 -> length x = m -> forall l, (forall nu, In nu l -> length nu = m /\ nsum nu <= r) ->
  exists basis, mapM (fun mi => lagrange_basis_fn_latex mi r) l = Ok basis /\ length basis = length l /\
    Forall2 (fun b v => means_term x b v /\ joinable b) (map (fun b => if 3 <? length b then lit "(" ++ b ++ lit ")" else b) basis) (map (fun nu => lagrange_formula r nu x) l).
Proof.
  intros Hm Hr Ex. induction l as [|nu l IH]; intros H; [exists []; split; [reflexivity|]; split; [reflexivity|constructor]|]. destruct IH as (basis & E & L & FB); [intros; apply H; now right|]. destruct (H nu (or_introl eq_refl)) as [N1 N2].
  destruct (fn_parts nu r x) as (t & ET & P & S); [lia|exact N2|exact Hr|congruence|]. exists (t :: basis). cbn [mapM]. rewrite ET. cbn [bind]. rewrite E. split; [reflexivity|]. split; [cbn; lia|]. cbn [map]. constructor; [|exact FB].
  destruct (Nat.ltb_spec 3 (length t)) as [G|G]; [|apply S, G]. pose proof (atom_head x _ _ (paren_atom x _ _ P)) as Hd. split; [apply Hd|apply (head_joinable _ _ _ Hd)].
Qed.
(** The expanded text of a polynomial in the Lagrange basis denotes the sum of the coefficients times the basis functions. *)
Theorem C114_lagrange : forall str_float c ys r m x, m <= 9 -> r <= 6 -> length c = get_dimension r m -> Forall2 nice c ys -> length x = m ->
  exists text, lagrange_latex_str_expanded str_float c r m = Ok text /\
    latex_value x text = Ok (fold_right Rplus 0 (map (fun p => Q2R (fst p) * lagrange_formula r (snd p) x) (combine ys (all_mi m r))))%R.
Proof.
  intros sf c ys r m x Hm Hr Lc Hc Ex. destruct (coefficients_means sf x c ys Hc) as (texts & E1 & F1). destruct (fn_all r m x Hm Hr Ex (all_mi m r)) as (basis & EB & LB & FB); [intros nu H; now apply in_all_mi|].
  pose proof (Forall2_length _ _ _ F1) as L1. pose proof (Forall2_length _ _ _ Hc) as L2. rewrite map_length in L1. rewrite dim_all_mi in Lc.
  destruct (means_dot x texts _ _ _ F1 FB) as (text & E & MT); [rewrite map_length; exact (eq_trans L1 (eq_trans (eq_sym L2) (eq_trans Lc (eq_sym LB))))|]. exists text. split; [unfold lagrange_latex_str_expanded, lagrange_basis_latex; rewrite generate_all_eq; cbn [bind]; rewrite EB; cbn [bind]; unfold expanded; rewrite E1; cbn [bind]; exact E|]. apply means_value.
  refine (eq_ind _ (fun v => means_expr x text v) MT _ _). clear. generalize (all_mi m r) as l. revert ys. induction ys as [|y ys IH]; intros [|t ts]; try reflexivity. cbn [map combine fold_right fst snd]. rewrite <- IH. reflexivity.
Qed.
Print Assumptions C114_lagrange.
(** The product is the Lagrange basis function of the code, and the sum the value of the polynomial. *)
Theorem C114_lagrange_formula : forall nu r x, length x = length nu -> nsum nu <= r -> (0 < length nu -> r < 20) ->
  lagrange_formula r nu x = val (F := RF) Lagrange (length nu) r (unit_column (length nu) r nu) x /\
  forall mu, length mu = length nu -> nsum mu <= r -> lagrange_formula r nu (generate_lagrange_point (F := RF) (length nu) r mu) = if mi_dec mu nu then 1%R else 0%R.
Proof.
  intros nu r x Ex Hn Hr. destruct (mono_of_ok (F := RF) Lagrange (length nu) r nu ltac:(discriminate) eq_refl Hn Hr) as (_ & V & _). destruct (lagrange_basis_fn_coefficients_ok (F := RF) nu r Hn) as (c & Ec & Lc & HV). cbn [mono_of] in V. rewrite Ec in V.
  pose proof (row_list_real nu r c Hn Ec) as Er. split.
  - rewrite <- (V x Ex), Er. symmetry. now apply rows_value.
  - intros mu M1 M2. refine (eq_trans _ (HV mu M1 M2)). rewrite Er. symmetry. apply rows_value; [now apply lagrange_point_length|exact Hn].
Qed.
Print Assumptions C114_lagrange_formula.

(** ** The strings tell the Lagrange basis functions apart *)
Theorem C117_lagrange_injective : forall nu nu' r text, length nu = length nu' -> length nu <= 9 -> nsum nu <= r <= 6 -> nsum nu' <= r ->
  lagrange_basis_fn_latex nu r = Ok text -> lagrange_basis_fn_latex nu' r = Ok text -> nu = nu'.
Proof.
  intros nu nu' r text L H9 Hr Hr' E E'. set (x := generate_lagrange_point (F := RF) (length nu) r nu).
  assert (Lx : length x = length nu) by now apply lagrange_point_length.
  destruct (C114_lagrange_fn nu r x H9 Hr Lx) as (t & Et & Vt). destruct (C114_lagrange_fn nu' r x ltac:(lia) ltac:(lia) (eq_trans Lx L)) as (t' & Et' & Vt').
  assert (t = text) by congruence. assert (t' = text) by congruence. subst t t'. rewrite Vt in Vt'. injection Vt' as Q.
  assert (Q1 : lagrange_formula r nu x = 1%R) by (refine (eq_trans (proj2 (C114_lagrange_formula nu r x Lx ltac:(lia) ltac:(lia)) nu eq_refl ltac:(lia)) _); destruct (mi_dec nu nu); [reflexivity|congruence]).
  assert (Q2 : lagrange_formula r nu' x = if mi_dec nu nu' then 1%R else 0%R).
  { pose proof (proj2 (C114_lagrange_formula nu' r x (eq_trans Lx L) Hr' ltac:(lia)) nu L ltac:(lia)) as G. rewrite <- L in G. exact G. }
  destruct (mi_dec nu nu') as [D|D]; [exact D|]. exfalso. lra.
Qed.
Print Assumptions C117_lagrange_injective.
Theorem C117_lagrange_list : forall r n, n <= 9 -> r <= 6 ->
  exists texts, polynomial_basis_latex r n (lit "Lagrange") = Ok texts /\ length texts = get_dimension r n /\ NoDup texts /\
    forall i, i < get_dimension r n -> exists nu text, generate n r i = Ok nu /\ length nu = n /\ nth_error texts i = Some text /\ polynomial_basis_fn_latex nu r (lit "Lagrange") = Ok text.
Proof.
  intros r n Hn Hr. change (polynomial_basis_latex r n (lit "Lagrange")) with (lagrange_basis_latex r n). unfold lagrange_basis_latex. rewrite generate_all_eq. cbn [bind].
  destruct (mapM_ok_list (fun mi => lagrange_basis_fn_latex mi r) (all_mi n r)) as [texts ET].
  { intros nu Hnu. apply in_all_mi in Hnu as [L S]. destruct (C114_lagrange_fn nu r (repeat 0%R (length nu))) as (t & Et & _); [lia|lia|apply repeat_length|]. exists t. exact Et. }
  destruct (mapM_nth _ _ _ ET) as [L N]. exists texts. split; [exact ET|]. split; [rewrite L; symmetry; apply dim_all_mi|]. split.
  - refine (NoDup_mapM _ _ _ _ (NoDup_all_mi n r) ET). intros y z t Hy Hz Ey Ez. apply in_all_mi in Hy as [Ly Sy]. apply in_all_mi in Hz as [Lz Sz]. apply (C117_lagrange_injective y z r t); [congruence|lia|lia|lia|exact Ey|exact Ez].
  - intros i Hi. rewrite dim_all_mi in Hi. pose proof (nth_error_nth' (all_mi n r) [] Hi) as Ei. destruct (N i _ Ei) as (t & Et & Ft). exists (nth i (all_mi n r) []), t. split; [rewrite generate_eq, Ei; reflexivity|]. split; [now apply in_all_mi with (r := r), nth_In|]. auto.
Qed.
Print Assumptions C117_lagrange_list.

(** ** Examples *)
Example lagrange_text_ex : lagrange_basis_fn_latex [1; 0] 2 = Ok (lit "4 x_1 - 4 x_1^2 - 4 x_1 x_2") /\ lagrange_basis_fn_latex [2] 2 = Ok (lit "-x + 2 x^2").
Proof. split; vm_compute; reflexivity. Qed.
Example lagrange_fn_ex : exists text, lagrange_basis_fn_latex [1; 0] 2 = Ok text /\ latex_value [3; 5]%R text = Ok (-84)%R.
Proof.
  destruct (C114_lagrange_fn [1; 0] 2 [3; 5]%R) as (t & E & V); [cbn; lia|cbn; lia|reflexivity|]. exists t. split; [exact E|]. rewrite V. f_equal. unfold lagrange_formula, falling. cbn [map fold_right combine fst snd seq nsum Nat.sub Nat.add fact Nat.mul INR]. lra.
Qed.
Example lagrange_expanded_ex sf : exists text, lagrange_latex_str_expanded sf [1 # 2; 0; 3]%Q 2 1 = Ok text /\ latex_value [4]%R text = Ok (fold_right Rplus 0 (map (fun p => Q2R (fst p) * lagrange_formula 2 (snd p) [4]) (combine [1 # 2; 0; 3]%Q (all_mi 1 2))))%R.
Proof.
  apply C114_lagrange; [lia|lia|reflexivity| |reflexivity]. repeat constructor; try apply close_refl; [exists 1%Z, 2%positive|exists 0%Z, 1%positive|exists 3%Z, 1%positive]; (split; [lia|reflexivity]).
Qed.
Example lagrange_list_ex : polynomial_basis_latex 2 1 (lit "Lagrange") = Ok [lit "1 - 3 x + 2 x^2"; lit "4 x - 4 x^2"; lit "-x + 2 x^2"].
Proof. vm_compute. reflexivity. Qed.
