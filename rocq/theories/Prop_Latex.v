(** Property C114: the LaTeX strings of polynomials denote them. *)
From Coq Require Import Ascii String Reals QArith Qreals Qabs Lia Lra Factorial.
From Verif Require Import Base MultiIndex MultiIndexFacts Fld FldInst IntReal Poly CodeGen CodeGenFacts StrUtils Prop_StrUtils NumStr Prop_NumStr MultiCoef MultiCoefFacts MultiCapFacts LinSolve PolyFacts LagFacts PolyEval Latex LatexRead LatexFacts.
Local Close Scope R_scope.
Local Close Scope Q_scope.
Local Close Scope Z_scope.
Local Close Scope string_scope.
Local Open Scope nat_scope.
Local Open Scope list_scope.

Lemma Forall2_length {A B} (R : A -> B -> Prop) l l' : Forall2 R l l' -> length l = length l'.
Proof. induction 1; cbn; congruence. Qed.
Lemma fold_mul vs (w : R) : fold_right Rmult w vs = (fold_right Rmult 1 vs * w)%R.
Proof. induction vs as [|v vs IH]; cbn [fold_right]; [ring|]. rewrite IH. ring. Qed.
Lemma str_nat_digit n : n < 10 -> exists d, str_nat n = [d] /\ is_digit d /\ digit_of d = n.
Proof.
  intros H. destruct (C111_numerals n) as (V & Dg & _ & _ & L). apply L in H. destruct (str_nat n) as [|d [|? ?]]; try discriminate. exists d. split; [reflexivity|]. split; [apply Dg; now left|]. exact V.
Qed.

Section Parts.
  Context (x : list R).
  Notation TERM := (term (F := RF) [] x).
  Notation EXPR := (expr (F := RF) [] x).
  Notation FAC := (fac (F := RF) [] x).
  Notation ATOM := (atom (F := RF) [] x).
  Definition head_ok (s : str) (v : R) : Prop := means_term x s v /\ exists l, reads s l /\ starter l.
  Lemma head_joinable s v : head_ok s v -> joinable s.
  Proof. intros (_ & l & R & S). apply (joinable_head s l R S). Qed.
  Definition boundary_pow (t : str) : Prop := boundary t \/ exists t', t = "^"%char :: t'.
  Definition atom_ok (s : str) (v : R) : Prop := exists l c, (forall t, boundary_pow t -> scan Normal (s ++ t) = app_toks l (scan Normal t)) /\ starter l /\ read St0 l = (c, StF) /\ ATOM c v.
  Lemma atom_head s v : atom_ok s v -> head_ok s v.
  Proof.
    intros (l & c & R & S & E & P). assert (R' : reads s l) by (intros t B; apply R; left; exact B). split; [|exists l; auto]. exists l, c, StF. split; [exact R'|]. split; [exact E|]. split; [discriminate|]. cbn [flush]. rewrite app_nil_r. exact (te_fac (F := RF) [] x _ _ (fa_atom (F := RF) [] x _ _ P)).
  Qed.
  Lemma pow_head s v e : atom_ok s v -> e < 10 -> head_ok (s ++ lit "^" ++ str_nat e) (v ^ e)%R.
  Proof.
    intros (l & c & R & S & E & P) He. destruct (str_nat_digit e He) as (d & -> & Dd & V).
    assert (R' : reads (s ++ lit "^" ++ [d]) (l ++ [LPow e])).
    { intros t B. rewrite <- !app_assoc. rewrite R by (right; eexists; reflexivity). change (lit "^" ++ [d] ++ t) with ("^"%char :: d :: t). rewrite scan_pow by exact Dd. rewrite V, cons_tok_app, app_toks_app. reflexivity. }
    split; [|exists (l ++ [LPow e]); split; [exact R'|destruct l as [|[] l]; exact S || destruct S]].
    exists (l ++ [LPow e]), (c ++ [TPow e]), StF. split; [exact R'|]. split; [rewrite read_app, E; reflexivity|]. split; [discriminate|]. cbn [flush]. rewrite app_nil_r. rewrite <- kpow_pow. exact (te_fac (F := RF) [] x _ _ (fa_pow (F := RF) [] x _ _ e P)).
  Qed.
  Lemma variable_atom i n : n = length x -> i < n -> n < 10 -> atom_ok (variable n i) (nth i x 0%R).
  Proof.
    intros -> Hi Hn. unfold variable. destruct (Nat.eqb_spec (length x) 1) as [E|E].
    - exists [LVar 0], [TX]. split; [intros t B; change (lit "x" ++ t) with ("x"%char :: t); rewrite scan_x; [apply cons_tok_app|]; destruct t as [|c t]; [exact I|]; destruct B as [[ -> | -> ]|(t' & Q)]; try discriminate; injection Q as -> _; discriminate|].
      split; [exact I|]. split; [reflexivity|]. apply (at_x (F := RF) [] x). assert (i = 0) by lia. subst i. destruct x; [discriminate|reflexivity].
    - destruct (str_nat_digit (S i)) as (d & -> & Dd & V); [lia|]. exists [LVar (S i)], [TXi i]. split; [intros t B; rewrite <- app_assoc; change ([d] ++ t) with (d :: t); rewrite scan_var by exact Dd; rewrite V; apply cons_tok_app|].
      split; [exact I|]. split; [reflexivity|]. apply (at_xi (F := RF) [] x). apply (nth_error_nth' (A := R)). exact Hi.
  Qed.
  Lemma join_head_ok ps : ps <> [] -> forall vs, Forall2 head_ok ps vs -> head_ok (join (lit " ") ps) (fold_right Rmult 1 vs)%R.
  Proof.
    induction ps as [|p ps IH]; intros N vs H; [contradiction|]. inversion H as [|? v ? vs' Hp Hps]; subst. destruct ps as [|q ps].
    - inversion Hps; subst. cbn [join fold_right]. rewrite Rmult_1_r. exact Hp.
    - rewrite join_cons by discriminate. specialize (IH ltac:(discriminate) vs' Hps). destruct IH as (T & l & R & S). destruct Hp as (T' & l' & R' & S'). cbn [fold_right]. split; [apply (means_juxtapose x _ _ _ _ l); assumption|].
      exists (l' ++ l). split; [apply reads_space; assumption|]. destruct l' as [|[] l']; exact S' || destruct S'.
  Qed.
  Definition power_part (n : nat) (p : nat * nat) : list str := match snd p with O => [] | 1 => [variable n (fst p)] | e => [variable n (fst p) ++ lit "^" ++ str_nat e] end.
  Lemma power_parts_ok n L : n = length x -> n < 10 -> (forall p, In p L -> fst p < n /\ snd p < 10) ->
    exists vs, Forall2 head_ok (flat_map (power_part n) L) vs /\ fold_right Rmult 1%R vs = kprod (F := RF) L (fun p => kpow (F := RF) (nth (fst p) x 0%R) (snd p)).
  Proof.
    intros En Hn. induction L as [|[i e] L IH]; intros H; [exists []; split; [constructor|reflexivity]|]. destruct IH as (vs & F1 & F2); [intros; apply H; now right|]. destruct (H (i, e) (or_introl eq_refl)) as [Hi He]. cbn [fst snd] in *. cbn [flat_map].
    pose proof (variable_atom i n En Hi Hn) as A. change (kprod (F := RF) ((i, e) :: L) (fun p => kpow (F := RF) (nth (fst p) x 0%R) (snd p))) with (kpow (F := RF) (nth i x 0%R) e * kprod (F := RF) L (fun p => kpow (F := RF) (nth (fst p) x 0%R) (snd p)))%R. rewrite <- F2, kpow_pow.
    destruct e as [|[|e]]; cbn [power_part snd fst app].
    - exists vs. split; [exact F1|]. cbn [pow]. ring.
    - exists (nth i x 0%R :: vs). split; [constructor; [apply atom_head, A|exact F1]|]. cbn [fold_right pow]. ring.
    - exists ((nth i x 0 ^ S (S e))%R :: vs). split; [constructor; [apply pow_head; assumption|exact F1]|]. reflexivity.
  Qed.
  Lemma monomial_parts nu : length x = length nu -> length nu < 10 -> (forall e, In e nu -> e < 10) -> exists vs, Forall2 head_ok (power_parts nu) vs /\ fold_right Rmult 1%R vs = mpow (F := RF) x nu.
  Proof.
    intros E Hn He. destruct (power_parts_ok (length nu) (combine (seq 0 (length nu)) nu) (eq_sym E) Hn) as (vs & F1 & F2).
    - intros [i e] Hp. split; [apply in_combine_l, in_seq in Hp; cbn; lia|apply in_combine_r in Hp; apply He, Hp].
    - exists vs. split; [exact F1|]. rewrite F2. symmetry. apply (mpow_kprod (F := RF) x (length nu) nu eq_refl E).
  Qed.
  Lemma one_means : means_term x (lit "1") 1%R.
  Proof. apply (means_numeral x (lit "1")); [discriminate|]. intros c [ <- |[]]. nodigit. Qed.
  Lemma monomial_means nu : length x = length nu -> length nu < 10 -> (forall e, In e nu -> e < 10) -> means_term x (monomial_basis_fn_latex nu) (mpow (F := RF) x nu) /\ joinable (monomial_basis_fn_latex nu).
  Proof.
    intros E Hn He. destruct (monomial_parts nu E Hn He) as (vs & F1 & <-). unfold monomial_basis_fn_latex. destruct (power_parts nu) as [|p ps] eqn:EP.
    - inversion F1; subst. split; [exact one_means|constructor].
    - pose proof (join_head_ok (p :: ps) ltac:(discriminate) vs F1) as H. split; [apply H|apply (head_joinable _ _ H)].
  Qed.
  (** numbers *)
  Lemma numeral_means s n : numeral s n -> (0 <= n)%Z /\ means_term x s (IZR n).
  Proof. intros (N & Dg & V). split; [lia|]. rewrite <- V. rewrite <- INR_IZR_INZ. apply means_numeral; assumption. Qed.
  Lemma unsigned_means l s v : shows_unsigned l s v -> means_term x s (Q2R v).
  Proof.
    intros [l' s' n H|s' t n m H H'|s' t n m H H'].
    - replace (Q2R (inject_Z n)) with (IZR n) by (unfold Q2R; cbn [Qnum Qden inject_Z]; field). apply numeral_means, H.
    - destruct (numeral_means _ _ H) as (_ & l0 & c & st & R & E & N & P). destruct H' as (N' & Dg & V).
      exists (l0 ++ LSlash :: map (fun c => LDigit (digit_of c)) t), (c ++ flush st ++ [TDivide]), (StN (denotes t)). split; [apply (reads_op "/" LSlash s' t); [apply scan_slash|exact R|intros u _; apply reads_digits, Dg]|]. split.
      + rewrite read_app, E. cbn [fst snd read read_step]. rewrite read_numeral by assumption. cbn [fst snd]. rewrite app_nil_r. reflexivity.
      + split; [discriminate|]. cbn [flush]. rewrite <- !app_assoc. cbn [app]. rewrite app_assoc. replace (Q2R (n # m)) with (IZR n / INR (denotes t))%R.
        * apply (te_div (F := RF) [] x _ _ _ _ P (fa_atom (F := RF) [] x _ _ (at_num (F := RF) [] x _))). change (INR (denotes t) <> 0%R). apply not_0_INR. lia.
        * unfold Q2R. cbn [Qnum Qden]. rewrite INR_IZR_INZ, V. reflexivity.
    - destruct H as (N & Dg & V). destruct H' as (N' & Dg' & V'). exists [LFrac (denotes s') (denotes t)], [TL; TNum (INR (denotes s') : RF); TDivide; TNum (INR (denotes t) : RF); TR], StF. split.
      + intros u _. rewrite <- !app_assoc. rewrite scan_frac by assumption. apply cons_tok_app.
      + split; [reflexivity|]. split; [discriminate|]. cbn [flush]. rewrite app_nil_r. replace (Q2R (n # m)) with (INR (denotes s') / INR (denotes t))%R.
        * apply (te_fac (F := RF) [] x), (fa_atom (F := RF) [] x). apply (at_par (F := RF) [] x [TNum (INR (denotes s') : RF); TDivide; TNum (INR (denotes t) : RF)]). apply (ex_term (F := RF) [] x).
          apply (te_div (F := RF) [] x [TNum (INR (denotes s') : RF)] _ _ _ (te_fac (F := RF) [] x _ _ (fa_atom (F := RF) [] x _ _ (at_num (F := RF) [] x _))) (fa_atom (F := RF) [] x _ _ (at_num (F := RF) [] x _))). change (INR (denotes t) <> 0%R). apply not_0_INR. lia.
        * unfold Q2R. cbn [Qnum Qden]. rewrite !INR_IZR_INZ, V, V'. reflexivity.
  Qed.
  Lemma number_means l s v : shows l s v -> means_term x s (Q2R v).
  Proof.
    intros (u & w & H & [[ -> E]|[ -> E]]); apply unsigned_means in H; rewrite (Qeq_eqR _ _ E); [exact H|]. rewrite Q2R_opp. apply means_minus, H.
  Qed.
End Parts.

(** The text of a monomial denotes it, for at most nine variables and exponents up to nine. *)
Theorem C114_monomial_fn : forall nu x, length x = length nu -> length nu <= 9 -> (forall e, In e nu -> e <= 9) -> latex_value x (monomial_basis_fn_latex nu) = Ok (mpow (F := RF) x nu).
Proof. intros nu x E Hn He. apply means_value, means_te, monomial_means; [exact E|lia|]. intros e H. specialize (He e H). lia. Qed.
Print Assumptions C114_monomial_fn.

(** Coefficients within 1e-10 of fractions with denominator at most ten. *)
Definition nice (a y : Q) : Prop := has_denominator 10 y /\ close_to a y.
Lemma coefficients_means sf x (c ys : list Q) : Forall2 nice c ys -> exists texts, coefficient_strs sf c = Ok texts /\ Forall2 (means_term x) texts (map Q2R ys).
Proof.
  unfold coefficient_strs. induction 1 as [|a y c ys [H1 H2] H IH]; [exists []; split; [reflexivity|constructor]|]. destruct IH as (texts & E & F). destruct (C112_number sf a true 10 ltac:(lia)) as (text & ET & T & _).
  exists (text :: texts). cbn [mapM]. rewrite ET. cbn [bind]. rewrite E. cbn [bind]. split; [reflexivity|]. cbn [map]. constructor; [|exact F]. apply (number_means x true). destruct (T y H1 H2) as [S _]. exact S.
Qed.
Lemma in_nsum nu e : In e nu -> e <= nsum nu.
Proof. induction nu as [|d nu IH]; intros H; [destruct H|]. change (nsum (d :: nu)) with (d + nsum nu). destruct H as [ -> |H]; [lia|]. specialize (IH H). lia. Qed.
Lemma sum_mval m r (v : list R) (x : list R) f : length v = get_dimension r m -> ksum (F := RF) (combine v (map f (all_mi m r))) (fun p => fst p * snd p)%R = ksum (F := RF) (all_mi m r) (fun nu => (cf (F := RF) m r v nu * f nu)%R).
Proof.
  intros E. change (dot (F := RF) v (map f (all_mi m r)) = ksum (F := RF) (all_mi m r) (fun nu => (cf (F := RF) m r v nu * f nu)%R)). rewrite dot_comm. apply (dot_map (F := RF) f (all_mi m r) v); [apply NoDup_all_mi|]. exact (eq_trans E (dim_all_mi r m)).
Qed.
(** latex_str of a polynomial in the monomial basis denotes the polynomial with these fractions as coefficients. *)
Theorem C114_monomial : forall str_float c ys r m x, m <= 9 -> r <= 9 -> length c = get_dimension r m -> Forall2 nice c ys -> length x = m ->
  exists text, latex_str str_float c r m = Ok text /\ latex_value x text = Ok (mval (F := RF) m r (map Q2R ys) x).
Proof.
  intros sf c ys r m x Hm Hr Ec Hc Ex. destruct (coefficients_means sf x c ys Hc) as (texts & E1 & F1). unfold latex_str, monomial_basis_latex. rewrite E1, generate_all_eq. cbn [bind].
  assert (F2 : Forall2 (fun b v => means_term x b v /\ joinable b) (map monomial_basis_fn_latex (all_mi m r)) (map (mpow (F := RF) x) (all_mi m r))).
  { assert (G : forall nu, In nu (all_mi m r) -> means_term x (monomial_basis_fn_latex nu) (mpow (F := RF) x nu) /\ joinable (monomial_basis_fn_latex nu)).
    { intros nu Hnu. apply in_all_mi in Hnu as [Hl Hs]. apply monomial_means; [congruence|lia|]. intros e He. apply in_nsum in He. lia. }
    revert G. generalize (all_mi m r). induction l as [|nu l IH]; intros G; cbn [map]; constructor; [apply G; now left|apply IH; intros; apply G; now right]. }
  pose proof (Forall2_length _ _ _ F1) as L1. pose proof (Forall2_length _ _ _ Hc) as L2. rewrite map_length in L1.
  destruct (means_dot x texts (map monomial_basis_fn_latex (all_mi m r)) _ _ F1 F2) as (text & E & MT); [rewrite map_length, <- dim_all_mi; congruence|].
  exists text. split; [exact E|]. apply means_value. assert (LV : length (map Q2R ys) = get_dimension r m) by (rewrite map_length; congruence). pose proof (sum_mval m r (map Q2R ys) x (mpow (F := RF) x) LV) as S. unfold mval. exact (eq_ind _ (fun v => means_expr x text v) MT _ S).
Qed.
Print Assumptions C114_monomial.

(** ** Bernstein basis *)
Section Bernstein.
  Context (x : list R).
  Lemma inner_means k : k <= length x -> length x < 10 -> means_expr x (lit "1" ++ concat (map (fun i => lit " - " ++ variable (length x) i) (seq 0 k))) (1 - ksum (F := RF) (seq 0 k) (fun i => nth i x 0%R))%R.
  Proof.
    induction k as [|k IH]; intros Hk Hx.
    - cbn [seq map concat]. change (ksum (F := RF) [] (fun i => nth i x 0%R)) with 0%R. rewrite Rminus_0_r, app_nil_r. apply means_te, one_means.
    - specialize (IH ltac:(lia) Hx). rewrite seq_S, map_app, concat_app, ksum_app, app_assoc. cbn [map concat Nat.add]. rewrite app_nil_r. rewrite ksum_cons, ksum_nil. set (s := lit "1" ++ concat (map (fun i => lit " - " ++ variable (length x) i) (seq 0 k))) in *. set (v := ksum (F := RF) (seq 0 k) (fun i => nth i x 0%R)) in *.
      replace (1 - @kadd RF v (@kadd RF (nth k x 0%R) (@k0 RF)))%R with ((1 - v) + - nth k x 0)%R by (change (1 - v + - nth k x 0 = 1 - (v + (nth k x 0 + 0)))%R; ring).
      assert (V : means_term x (lit "-" ++ variable (length x) k) (- nth k x 0)%R) by (apply means_minus; apply (atom_head x), variable_atom; [reflexivity|lia|lia]).
      apply means_te in V. destruct IH as (l & c & st & R & E & N & P). destruct V as (l' & c' & st' & R' & E' & N' & P'). apply reads_minus_inv in R' as (l2 & -> & R2). cbn [read read_step flush app] in E'. destruct (read St0 l2) as [c2 st2] eqn:E2. injection E' as <- ->.
      exists (l ++ LMinus :: l2), (c ++ flush st ++ TMinus :: c2), st'. split; [apply (reads_op "-" LMinus s (variable (length x) k)); [apply scan_minus|exact R|exact R2]|]. split.
      + rewrite read_app, E. cbn [fst snd read read_step]. rewrite E2. cbn [fst snd]. rewrite <- !app_assoc. reflexivity.
      + split; [exact N'|]. rewrite <- !app_assoc. cbn [app]. rewrite app_assoc. apply (expr_minus (F := RF) [] x _ _ P' _ eq_refl _ _ P).
  Qed.
  Lemma paren_atom s v : means_expr x s v -> atom_ok x (lit "(" ++ s ++ lit ")") v.
  Proof.
    intros (l & c & st & R & E & N & P). exists (LL :: l ++ [LR]), (TL :: (c ++ flush st) ++ [TR]). split; [intros t _; rewrite <- !app_assoc; apply reads_paren, R|]. split; [exact I|]. split; [cbn [read read_step flush times app]; rewrite read_app, E; cbn [fst snd read read_step app]; rewrite !app_nil_r, <- !app_assoc; reflexivity|]. apply (at_par (F := RF) [] x _ _ P).
  Qed.
  Lemma no_parts n nu : forall b, flat_map (power_part n) (combine (seq b (length nu)) nu) = [] -> nsum nu = 0.
  Proof. induction nu as [|e nu IH]; intros b Q; [reflexivity|]. cbn [length seq combine flat_map] in Q. apply app_eq_nil in Q as [Q1 Q2]. destruct e as [|[|e]]; try discriminate. exact (IH (S b) Q2). Qed.
  Definition first_numeric (s : str) : option bool := match s with [] => None | c :: _ => Some (isnumeric c) end.
  Lemma starter_first s l : reads s l -> starter l -> first_numeric s = Some false.
  Proof.
    intros R S. specialize (R [] I). rewrite app_nil_r in R. cbn [scan app_toks] in R. rewrite app_nil_r in R. destruct s as [|c s]; [injection R as <-; destruct S|]. cbn [first_numeric]. destruct (isnumeric c) eqn:E; [|reflexivity]. exfalso. rewrite scan_digit in R.
    - destruct (scan Normal s); [injection R as <-; destruct S|discriminate].
    - unfold isnumeric in E. apply andb_prop in E as [E1 E2]. apply Nat.leb_le in E1. apply Nat.ltb_lt in E2. split; assumption.
  Qed.
  Lemma bernstein_means nu r : length x = length nu -> length nu < 10 -> nsum nu <= r -> 1 <= r < 10 ->
    exists text, bernstein_basis_fn_latex nu r = Ok text /\ means_term x text (bern (F := RF) r nu x) /\ (joinable text /\ first_numeric text = Some false \/ first_numeric text = Some true).
  Proof.
    intros E Hn Hs Hr. unfold bernstein_basis_fn_latex, bernstein_factor. rewrite general_to_exact_norm_ok by exact Hs. cbn [bind]. unfold norm. change (nsum nu) with (nsum nu).
    set (part := lit "(1" ++ _ ++ lit ")"). assert (A : atom_ok x part (bary0 (F := RF) x)).
    { pose proof (inner_means (length x) (le_n _) ltac:(lia)) as H. apply paren_atom in H. rewrite <- !app_assoc in H. pose proof (f_equal (fun v : R => (1 - v)%R) (ksum_nth (F := RF) x)) as KN. apply (fun H => eq_ind _ (fun v => atom_ok x _ v) H _ KN) in H. rewrite E in H. exact H. }
    destruct (monomial_parts x nu E Hn) as (vs & F1 & F2); [intros e He; apply in_nsum in He; lia|].
    set (tail := match r - nsum nu with 0 => [] | 1 => [part] | _ => [part ++ lit "^" ++ str_nat (r - nsum nu)] end).
    assert (T : exists ws, Forall2 (head_ok x) tail ws /\ fold_right Rmult 1%R ws = kpow (F := RF) (bary0 (F := RF) x) (r - nsum nu)).
    { rewrite kpow_pow. unfold tail. destruct (r - nsum nu) as [|[|e]] eqn:Ee.
      - exists []. split; [constructor|reflexivity].
      - exists [bary0 (F := RF) x : R]. split; [constructor; [apply atom_head, A|constructor]|]. cbn [fold_right pow]. reflexivity.
      - exists [((bary0 (F := RF) x : R) ^ S (S e))%R]. split; [constructor; [apply pow_head; [exact A|lia]|constructor]|]. cbn [fold_right]. apply Rmult_1_r. }
    destruct T as (ws & T1 & T2). assert (NE : power_parts nu ++ tail <> []).
    { intros Q. apply app_eq_nil in Q as [Q1 Q2]. unfold tail in Q2. destruct (r - nsum nu) as [|[|e]] eqn:Ee; try discriminate. assert (Z : nsum nu = 0); [|lia]. clear - Q1.
      exact (no_parts (length nu) nu 0 Q1). }
    pose proof (join_head_ok x _ NE (vs ++ ws) (Forall2_app F1 T1)) as H. assert (EV : fold_right Rmult 1%R (vs ++ ws) = (mpow (F := RF) x nu * kpow (F := RF) (bary0 (F := RF) x) (r - nsum nu))%R).
    { rewrite fold_right_app, fold_mul, F2, T2. reflexivity. }
    rewrite EV in H. clear EV. set (text := join (lit " ") (power_parts nu ++ tail)) in *.
    set (cst := fact _ / _). assert (EC : INR cst = M (F := RF) r nu).
    { unfold cst. change (norm ((r - nsum nu) :: nu)) with (nsum ((r - nsum nu) :: nu)). rewrite <- mnom_fact, Nat.div_mul; [unfold M; rewrite kofnat_INR; reflexivity|]. intros Q. pose proof (mnom_fact ((r - nsum nu) :: nu)) as MF. rewrite Q, Nat.mul_0_r in MF. pose proof (fact_neq_0 (nsum ((r - nsum nu) :: nu))). congruence. }
    unfold bern. fold tail text.
    assert (HB : forall u : str, means_term x u (INR cst * (mpow (F := RF) x nu * kpow (F := RF) (bary0 (F := RF) x) (r - nsum nu)))%R -> means_term x u (@kmul RF (M (F := RF) r nu) (@kmul RF (mpow (F := RF) x nu) (kpow (F := RF) (bary0 (F := RF) x) (r - nsum nu))))) by (intros u Hu; rewrite EC in Hu; exact Hu).
    destruct (Nat.eqb_spec cst 1) as [C1|C1].
    - exists text. split; [reflexivity|]. split; [apply HB; rewrite C1; change (INR 1) with 1%R; rewrite Rmult_1_l; apply H|]. left. split; [apply (head_joinable _ _ _ H)|]. destruct H as (_ & l & R & S). apply (starter_first _ l R S).
    - exists (str_nat cst ++ lit " " ++ text). split; [reflexivity|]. destruct (C111_numerals cst) as (V & Dg & N & _). split.
      + apply HB. rewrite <- V at 2. destruct H as (H & l & R & S). apply (means_juxtapose x _ _ _ _ l); [apply means_numeral; assumption|exact H|exact R|exact S].
      + right. destruct (str_nat cst) as [|d t]; [contradiction|]. cbn [app first_numeric]. f_equal. apply isnumeric_ok, Dg. now left.
  Qed.
  Lemma expanded_means bs bv : Forall2 (fun b v => means_term x b v /\ (joinable b /\ first_numeric b = Some false \/ first_numeric b = Some true)) bs bv -> forall cs cv, Forall2 (means_term x) cs cv -> length cs = length bs -> forall s u, means_expr x s u ->
    exists text, foldM (fun res p => let '(c, b) := p in match b with [] => Err IndexError | b0 :: _ => Ok (str_sum res (if isnumeric b0 then str_product c b (lit "\cdot") else str_product c b [])) end) s (combine cs bs) = Ok text /\
      means_expr x text (u + ksum (F := RF) (combine cv bv) (fun p => fst p * snd p)%R)%R.
  Proof.
    induction 1 as [|b w bs bv [Hb J] Hbs IH]; intros cs cv Hc E s u Hs.
    - destruct Hc; [|discriminate]. exists s. split; [reflexivity|]. cbn [combine]. change (ksum (F := RF) [] (fun p : R * R => fst p * snd p)%R) with 0%R. rewrite Rplus_0_r. exact Hs.
    - destruct Hc as [|c v cs cv Hc1 Hc2]; [discriminate|]. cbn [combine]. change (ksum (F := RF) ((v, w) :: combine cv bv) (fun p => fst p * snd p)%R) with (v * w + ksum (F := RF) (combine cv bv) (fun p => fst p * snd p)%R)%R. rewrite <- Rplus_assoc.
      cbn [foldM]. destruct b as [|b0 b']; [destruct J as [[_ J]|J]; discriminate|]. cbn [bind]. apply IH; [exact Hc2|cbn in E; lia|]. apply means_sum; [exact Hs|]. apply means_te. destruct (isnumeric b0) eqn:I.
      + apply means_product; auto.
      + apply means_product; auto. right. split; [reflexivity|]. destruct J as [[J _]|J]; [exact J|]. cbn [first_numeric] in J. congruence.
  Qed.
End Bernstein.
(** The text of a Bernstein basis function of degree one to nine on at most nine variables denotes it. *)
Theorem C114_bernstein_fn : forall nu r x, length x = length nu -> length nu <= 9 -> nsum nu <= r -> 1 <= r <= 9 ->
  exists text, bernstein_basis_fn_latex nu r = Ok text /\ latex_value x text = Ok (bern (F := RF) r nu x).
Proof. intros nu r x E Hn Hs Hr. destruct (bernstein_means x nu r E ltac:(lia) Hs ltac:(lia)) as (text & ET & MT & _). exists text. split; [exact ET|]. apply means_value, means_te, MT. Qed.
Print Assumptions C114_bernstein_fn.
Theorem C114_bernstein : forall str_float c ys r m x, m <= 9 -> 1 <= r <= 9 -> length c = get_dimension r m -> Forall2 nice c ys -> length x = m ->
  exists text, bernstein_latex_str_expanded str_float c r m = Ok text /\ latex_value x text = Ok (bval (F := RF) m r (map Q2R ys) x).
Proof.
  intros sf c ys r m x Hm Hr Ec Hc Ex. destruct (coefficients_means sf x c ys Hc) as (texts & E1 & F1). unfold bernstein_latex_str_expanded, bernstein_basis_latex. rewrite E1, generate_all_eq. cbn [bind].
  assert (F2 : exists bs, mapM (fun mi => bernstein_basis_fn_latex mi r) (all_mi m r) = Ok bs /\ length bs = length (all_mi m r) /\ Forall2 (fun b v => means_term x b v /\ (joinable b /\ first_numeric b = Some false \/ first_numeric b = Some true)) bs (map (fun nu => bern (F := RF) r nu x) (all_mi m r))).
  { assert (G : forall nu, In nu (all_mi m r) -> length nu = m /\ nsum nu <= r) by (intros nu Hnu; apply in_all_mi in Hnu; exact Hnu).
    revert G. generalize (all_mi m r). induction l as [|nu l IH]; intros G; [exists []; repeat split; constructor|]. destruct IH as (bs & E & L & F2); [intros; apply G; now right|]. destruct (G nu (or_introl eq_refl)) as [Hl Hs].
    destruct (bernstein_means x nu r) as (text & ET & MT); [congruence|lia|exact Hs|lia|]. exists (text :: bs). cbn [mapM]. rewrite ET. cbn [bind]. rewrite E. split; [reflexivity|]. split; [cbn; lia|]. cbn [map]. constructor; [exact MT|exact F2]. }
  destruct F2 as (bs & E2 & L & F2). rewrite E2. cbn [bind]. unfold bernstein_expanded. pose proof (Forall2_length _ _ _ F1) as L1. pose proof (Forall2_length _ _ _ Hc) as L2. rewrite map_length in L1.
  destruct (expanded_means x bs _ F2 texts _ F1) with (s := lit "0") (u := 0%R) as (text & E & MT); [rewrite L, <- dim_all_mi; congruence|apply means_te; apply (means_numeral x (lit "0")); [discriminate|intros ? [ <- |[]]; nodigit]|].
  exists text. split; [exact E|]. apply means_value. assert (LV : length (map Q2R ys) = get_dimension r m) by (rewrite map_length; congruence). pose proof (sum_mval m r (map Q2R ys) x (fun nu => bern (F := RF) r nu x) LV) as S. unfold bval. rewrite Rplus_0_l in MT. exact (eq_ind _ (fun v => means_expr x text v) MT _ S).
Qed.
Print Assumptions C114_bernstein.

(** ** Lagrange basis *)
Definition unit_or_zero (y : Q) : Prop := (y == 0 \/ y == 1 \/ y == -1)%Q.
(** Numbers within 1e-10 of fractions with denominator at most 1000, where 0, 1 and -1 are exact. *)
Definition near (c y : Q) : Prop := has_denominator 1000 y /\ close_to c y /\ (unit_or_zero y -> c == y)%Q.
Lemma close_refl c : close_to c c.
Proof. unfold close_to. setoid_replace (c - c)%Q with 0%Q by ring. reflexivity. Qed.
Lemma near_int c y i : near c y -> (c == inject_Z i)%Q -> (y == inject_Z i)%Q.
Proof.
  intros (H1 & H2 & _) E. apply (close_unique c); [exact H1|apply has_denominator_int; lia|exact H2|]. unfold close_to. rewrite E. setoid_replace (inject_Z i - inject_Z i)%Q with 0%Q by ring. reflexivity.
Qed.
Lemma convert_near c y : has_denominator 1000 y -> close_to c y -> exists text, convert_float_to_fraction c false = Ok text /\ shows false text y.
Proof.
  intros H1 H2. destruct (convert_ok c false) as (r & text & ER & ET & OK). exists text. split; [exact ET|]. destruct (limit_ok c 1000 ltac:(lia)) as (r' & ER' & RD & RM & B). rewrite ER in ER'. injection ER' as <-.
  assert (EY : (y == r)%Q). { apply (close_unique c); [exact H1|exists (Qnum r), (Qden r); split; [exact RM|destruct r; reflexivity]|exact H2|]. specialize (B y H1). unfold close_to in *. apply (Qle_lt_trans _ _ _ B H2). }
  apply (text_ok_eq _ _ _ _ EY) in OK. apply OK.
Qed.
Section Lagrange.
  Context (x : list R).
  Definition lag_step (text : str) (p : Q * list nat) : result str :=
    let '(c, mi) := p in
    let m := monomial_basis_fn_latex mi in
    if Qeq_bool c 0 then Ok text
    else match text with
    | [] => if Qeq_bool c 1 then Ok m else if Qeq_bool c (-1) then Ok (lit "-" ++ m) else let* s := convert_float_to_fraction c false in Ok (s ++ lit " " ++ m)
    | _ => if Qeq_bool c 1 then Ok (text ++ lit " + " ++ m) else if Qeq_bool c (-1) then Ok (text ++ lit " - " ++ m)
      else if negb (Qle_bool 0 c) then let* s := convert_float_to_fraction (- c) false in Ok (text ++ lit " - " ++ s ++ lit " " ++ m)
      else let* s := convert_float_to_fraction c false in Ok (text ++ lit " + " ++ s ++ lit " " ++ m)
    end.
  Definition mono_ok (y : Q) (mi : list nat) : Prop := length mi = length x /\ length x < 10 /\ nsum mi < 10 /\ (nsum mi = 0 -> unit_or_zero y).
  Lemma means_nonempty s v : means_expr x s v -> s <> [].
  Proof. intros (l & c & st & R & E & N & _) ->. specialize (R [] I). cbn in R. rewrite app_nil_r in R. injection R as <-. cbn in E. injection E as <- <-. contradiction. Qed.
  Lemma monomial_head mi : length mi = length x -> length x < 10 -> nsum mi < 10 -> nsum mi <> 0 -> head_ok x (monomial_basis_fn_latex mi) (mpow (F := RF) x mi).
  Proof.
    intros E Hx Hn N. destruct (monomial_parts x mi) as (vs & F1 & <-); [congruence|lia|intros e He; apply in_nsum in He; lia|]. unfold monomial_basis_fn_latex. destruct (power_parts mi) as [|p ps] eqn:EP.
    - exfalso. apply N. exact (no_parts (length mi) mi 0 EP).
    - apply join_head_ok; [discriminate|exact F1].
  Qed.
  Lemma append_plus text s u w : means_expr x text u -> means_term x s w -> means_expr x (text ++ lit " + " ++ s) (u + w)%R.
  Proof.
    intros (l & c & st & H & E & N & P) Hs. apply means_te in Hs as (l' & c' & st' & H' & E' & N' & P').
    exists (l ++ LPlus :: l'), (c ++ flush st ++ TPlus :: c'), st'. split; [apply (reads_op "+" LPlus text s); [apply scan_plus|exact H|exact H']|]. split.
    - rewrite read_app, E. cbn [fst snd read read_step]. rewrite E'. cbn [fst snd]. rewrite <- !app_assoc. reflexivity.
    - split; [exact N'|]. rewrite <- !app_assoc. cbn [app]. rewrite app_assoc. apply (expr_plus (F := RF) [] x _ w P' _ u P).
  Qed.
  Lemma append_minus text s u w : means_expr x text u -> means_term x s w -> means_expr x (text ++ lit " - " ++ s) (u + - w)%R.
  Proof.
    intros (l & c & st & H & E & N & P) (l' & c' & st' & H' & E' & N' & P').
    exists (l ++ LMinus :: l'), (c ++ flush st ++ TMinus :: c'), st'. split; [apply (reads_op "-" LMinus text s); [apply scan_minus|exact H|exact H']|]. split.
    - rewrite read_app, E. cbn [fst snd read read_step]. rewrite E'. cbn [fst snd]. rewrite <- !app_assoc. reflexivity.
    - split; [exact N'|]. rewrite <- !app_assoc. cbn [app]. rewrite app_assoc. apply (ex_sub (F := RF) [] x _ _ _ _ P P').
  Qed.
  Lemma lag_zero text c y mi : near c y -> (y == 0)%Q -> lag_step text (c, mi) = Ok text.
  Proof. intros (_ & _ & H) Z. unfold lag_step. replace (Qeq_bool c 0) with true; [reflexivity|]. symmetry. apply Qeq_bool_iff. rewrite H by (now left). exact Z. Qed.
  Lemma append_length text s : s <> [] -> forall op : ascii, length text + 3 <= length (text ++ (" "%char :: op :: " "%char :: s)).
  Proof. intros N op. rewrite app_length. cbn [length]. lia. Qed.
  Lemma lag_nonzero c y mi : near c y -> ~ (y == 0)%Q -> mono_ok y mi ->
    (exists s, lag_step [] (c, mi) = Ok s /\ means_term x s (Q2R y * mpow (F := RF) x mi)%R /\ (unit_or_zero y -> joinable s)) /\
    forall text, text <> [] -> exists t, lag_step text (c, mi) = Ok t /\ length text + 3 <= length t /\ forall u, means_expr x text u -> means_expr x t (u + Q2R y * mpow (F := RF) x mi)%R.
  Proof.
    intros NE NZ (E & Hx & Hn & HU). destruct (monomial_means x mi) as [MM MJ]; [congruence|lia|intros e He; apply in_nsum in He; lia|]. set (m := monomial_basis_fn_latex mi) in *. set (w := mpow (F := RF) x mi) in *. pose proof (means_nonempty _ _ (means_te _ _ _ MM)) as NM.
    pose proof NE as (H1 & H2 & H3). unfold lag_step. fold m. replace (Qeq_bool c 0) with false by (symmetry; apply not_true_is_false; intros Q; apply Qeq_bool_iff in Q; apply NZ; apply (near_int c y 0 NE Q)).
    destruct (Qeq_bool c 1) eqn:Q1.
    { apply Qeq_bool_iff in Q1. pose proof (near_int c y 1 NE Q1) as Y1. assert (V : Q2R y = 1%R) by (rewrite (Qeq_eqR _ _ Y1); unfold Q2R; cbn [Qnum Qden inject_Z]; field). rewrite V, Rmult_1_l. split; [exists m; auto|]. intros [|a text] NT; [contradiction|]. eexists. split; [reflexivity|]. split; [apply append_length, NM|]. intros u Hu. apply append_plus; assumption. }
    destruct (Qeq_bool c (-1)) eqn:Q2.
    { apply Qeq_bool_iff in Q2. pose proof (near_int c y (-1) NE Q2) as Y1. assert (V : Q2R y = (-1)%R) by (rewrite (Qeq_eqR _ _ Y1); unfold Q2R; cbn [Qnum Qden inject_Z]; field). rewrite V. replace (-1 * w)%R with (- w)%R by (change (- (w : R) = -1 * (w : R))%R; ring). split; [exists (lit "-" ++ m); split; [reflexivity|]; split; [apply means_minus, MM|intros _; apply joinable_minus, MJ]|]. intros [|a text] NT; [contradiction|]. eexists. split; [reflexivity|]. split; [apply append_length, NM|]. intros u Hu. apply append_minus; assumption. }
    assert (NU : ~ unit_or_zero y).
    { intros [U|[U|U]]; [contradiction| |]; assert (EC : (c == y)%Q) by (apply H3; unfold unit_or_zero; tauto); rewrite U in EC; apply Qeq_bool_iff in EC; congruence. }
    assert (HD : head_ok x m w) by (apply monomial_head; try assumption; intros Z; apply NU, HU, Z). destruct HD as (_ & l & RM & SM).
    assert (J : forall s v, shows false s v -> means_term x (s ++ lit " " ++ m) (Q2R v * w)%R) by (intros s v Hs; apply (means_juxtapose x _ _ _ _ l); [apply (number_means x false), Hs|exact MM|exact RM|exact SM]).
    destruct (convert_near c y H1 H2) as (s & ES & SS). destruct (convert_near (- c) (- y)) as (s' & ES' & SS').
    { destruct H1 as (p & q & Hq & EY). exists (- p)%Z, q. split; [exact Hq|]. rewrite EY. reflexivity. }
    { unfold close_to in *. setoid_replace (- y - - c)%Q with (- (y - c))%Q by ring. rewrite Qabs_opp. exact H2. }
    split.
    - exists (s ++ lit " " ++ m). rewrite ES. split; [reflexivity|]. split; [apply J, SS|]. intros U. contradiction.
    - intros [|a text] NT; [contradiction|]. destruct (negb (Qle_bool 0 c)).
      + rewrite ES'. cbn [bind]. eexists. split; [reflexivity|]. split; [apply append_length; destruct s'; discriminate|]. intros u Hu. replace (u + Q2R y * w)%R with (u + - (Q2R (- y) * w))%R by (rewrite Q2R_opp; change (u + - (- Q2R y * (w : R)) = u + Q2R y * (w : R))%R; ring). apply append_minus; [exact Hu|apply J, SS'].
      + rewrite ES. cbn [bind]. eexists. split; [reflexivity|]. split; [apply append_length; destruct s; discriminate|]. intros u Hu. apply append_plus; [exact Hu|apply J, SS].
  Qed.
  Definition total (ys : list Q) (mis : list (list nat)) : R := ksum (F := RF) (combine (map Q2R ys) (map (mpow (F := RF) x) mis)) (fun p => fst p * snd p)%R.
  Lemma total_cons y ys mi mis : total (y :: ys) (mi :: mis) = (Q2R y * mpow (F := RF) x mi + total ys mis)%R.
  Proof. reflexivity. Qed.
  Lemma zero_R y : (y == 0)%Q -> Q2R y = 0%R.
  Proof. intros H. rewrite (Qeq_eqR _ _ H). unfold Q2R. cbn. field. Qed.
  Lemma lag_rest c ys : Forall2 near c ys -> forall mis, Forall2 mono_ok ys mis -> forall text, text <> [] ->
    exists t, foldM lag_step text (combine c mis) = Ok t /\ length text <= length t /\ ((exists y, In y ys /\ ~ (y == 0)%Q) -> length text + 3 <= length t) /\ ((forall y, In y ys -> (y == 0)%Q) -> t = text) /\
      forall u, means_expr x text u -> means_expr x t (u + total ys mis)%R.
  Proof.
    induction 1 as [|a y c ys Hy Hys IH]; intros mis HM text NT.
    - inversion HM; subst. exists text. split; [reflexivity|]. split; [lia|]. split; [intros (y & [] & _)|]. split; [reflexivity|]. intros u Hu. change (total [] []) with 0%R. rewrite Rplus_0_r. exact Hu.
    - inversion HM as [|? mi ? mis' M1 M2]; subst. cbn [combine foldM]. destruct (Qeq_dec y 0) as [Z|Z].
      + rewrite (lag_zero text a y mi Hy Z). cbn [bind]. destruct (IH mis' M2 text NT) as (t & E & L & L3 & LZ & P). exists t. split; [exact E|]. split; [exact L|]. split; [intros (y' & [ <- |Hy'] & NZ); [contradiction|apply L3; exists y'; auto]|]. split; [intros H; apply LZ; intros y' Hy'; apply H; now right|].
        intros u Hu. rewrite total_cons, (zero_R y Z), Rmult_0_l, Rplus_0_l. apply P, Hu.
      + destruct (lag_nonzero a y mi Hy Z M1) as [_ ST]. destruct (ST text NT) as (t1 & E1 & L1 & P1). rewrite E1. cbn [bind]. assert (NT1 : t1 <> []) by (intros ->; cbn in L1; lia). destruct (IH mis' M2 t1 NT1) as (t & E & L & L3 & LZ & P). exists t. split; [exact E|]. split; [lia|]. split; [lia|]. split; [intros H; destruct (Z (H y (or_introl eq_refl)))|].
        intros u Hu. rewrite total_cons, <- Rplus_assoc. apply P, P1, Hu.
  Qed.
  (** the nonzero coefficients: one that is 1 or -1, or at least two *)
  Inductive single : list Q -> Prop :=
  | single_here y ys : unit_or_zero y -> ~ (y == 0)%Q -> (forall z, In z ys -> (z == 0)%Q) -> single (y :: ys)
  | single_later y ys : (y == 0)%Q -> single ys -> single (y :: ys).
  Inductive several : list Q -> Prop :=
  | several_here y ys : ~ (y == 0)%Q -> (exists z, In z ys /\ ~ (z == 0)%Q) -> several (y :: ys)
  | several_later y ys : several ys -> several (y :: ys).
  Lemma lag_all c ys : Forall2 near c ys -> forall mis, Forall2 mono_ok ys mis -> (exists y, In y ys /\ ~ (y == 0)%Q) ->
    exists t, foldM lag_step [] (combine c mis) = Ok t /\ means_expr x t (total ys mis) /\ (single ys -> means_term x t (total ys mis) /\ joinable t) /\ (several ys -> 3 < length t).
  Proof.
    induction 1 as [|a y c ys Hy Hys IH]; intros mis HM (z & Hz & NZ); [destruct Hz|]. inversion HM as [|? mi ? mis' M1 M2]; subst. cbn [combine foldM]. destruct (Qeq_dec y 0) as [Z|Z].
    - rewrite (lag_zero [] a y mi Hy Z). cbn [bind]. destruct (IH mis' M2) as (t & E & P & S1 & S2); [destruct Hz as [ <- |Hz]; [contradiction|exists z; auto]|]. exists t. split; [exact E|]. rewrite total_cons, (zero_R y Z), Rmult_0_l, Rplus_0_l. split; [exact P|]. split.
      + intros S. inversion S; subst; [contradiction|auto].
      + intros S. inversion S; subst; [contradiction|auto].
    - destruct (lag_nonzero a y mi Hy Z M1) as [(s & E1 & P1 & J1) _]. rewrite E1. cbn [bind]. pose proof (means_nonempty _ _ (means_te _ _ _ P1)) as NS. destruct (lag_rest c ys Hys mis' M2 s NS) as (t & E & L & L3 & LZ & P). exists t. split; [exact E|]. split; [rewrite total_cons; apply P, means_te, P1|]. split.
      + intros S. inversion S as [? ? U _ AZ|]; subst; [|contradiction]. rewrite (LZ AZ). rewrite total_cons. replace (total ys mis') with 0%R; [rewrite Rplus_0_r; split; [exact P1|apply J1, U]|]. clear - AZ M2. revert AZ. induction M2 as [|z mi ys mis _ _ IH]; intros AZ; [reflexivity|]. rewrite total_cons, (zero_R z) by (apply AZ; now left). rewrite <- IH by (intros; apply AZ; now right). ring.
      + intros S. inversion S as [? ? _ EX|? ? S']; subst.
        * specialize (L3 EX). destruct s; [contradiction|]. cbn [length] in L3. lia.
        * assert (EX : exists z, In z ys /\ ~ (z == 0)%Q). { clear - S'. induction S' as [z ys NZ _|z ys _ IH]; [exists z; split; [now left|exact NZ]|]. destruct IH as (w & Hw & NW). exists w. split; [now right|exact NW]. }
          specialize (L3 EX). destruct s; [contradiction|]. cbn [length] in L3. lia.
  Qed.
End Lagrange.
Lemma single_nonzero ys : single ys -> exists y, In y ys /\ ~ (y == 0)%Q.
Proof. induction 1 as [y ys _ NZ _|y ys _ _ (w & Hw & NW)]; [exists y|exists w]; (split; [first [now left|now right]|assumption]). Qed.
Lemma several_nonzero ys : several ys -> exists y, In y ys /\ ~ (y == 0)%Q.
Proof. induction 1 as [y ys NZ _|y ys _ (w & Hw & NW)]; [exists y|exists w]; (split; [first [now left|now right]|assumption]). Qed.
(** A basis function given by its coefficients in the monomial basis: the text denotes the polynomial with the fractions near the coefficients,
    if the constant coefficient is 0, 1 or -1 (on the unit simplex it is the value at the first node). *)
Lemma mono_all (x : list R) m r ys : m < 10 -> r < 10 -> length x = m -> length ys = get_dimension r m -> unit_or_zero (nth 0 ys 0%Q) -> Forall2 (mono_ok x) ys (all_mi m r).
Proof.
  intros Hm Hr Ex El HU. destruct (all_mi_nonempty m r) as (l & EL). assert (G : forall mi, In mi (all_mi m r) -> length mi = m /\ nsum mi <= r) by (intros mi H; apply in_all_mi in H; exact H). rewrite dim_all_mi in El. pose proof (NoDup_all_mi m r) as ND. rewrite EL in *. destruct ys as [|y ys]; [discriminate|]. constructor.
  - destruct (G (repeat 0 m) (or_introl eq_refl)) as [G1 G2]. split; [congruence|]. split; [lia|]. split; [lia|]. intros _. exact HU.
  - inversion ND as [|? ? N1 N2]; subst. cbn [length] in El. injection El as El. assert (G' : forall mi, In mi l -> length mi = length x /\ nsum mi <= r /\ nsum mi <> 0).
    { intros mi H. destruct (G mi (or_intror H)) as [G1 G2]. split; [exact G1|]. split; [exact G2|]. intros Z. apply N1. replace (repeat 0 (length x)) with mi; [exact H|]. rewrite <- G1. clear - Z. induction mi as [|e mi IH]; [reflexivity|]. change (nsum (e :: mi)) with (e + nsum mi) in Z. cbn [length repeat]. f_equal; [lia|apply IH; lia]. }
    clear - G' El Hm Hr. revert ys El. induction l as [|mi l IH]; intros [|y ys] El; try discriminate; constructor.
    + destruct (G' mi (or_introl eq_refl)) as (G1 & G2 & G3). split; [exact G1|]. split; [exact Hm|]. split; [lia|]. intros Z. contradiction.
    + apply IH; [intros; apply G'; now right|cbn in El; lia].
Qed.
Lemma lagrange_means x c ys r m : m <= 9 -> r <= 9 -> length x = m -> length c = get_dimension r m -> Forall2 near c ys -> unit_or_zero (nth 0 ys 0%Q) -> (exists y, In y ys /\ ~ (y == 0)%Q) ->
  exists text, lagrange_latex_of c (all_mi m r) = Ok text /\ means_expr x text (mval (F := RF) m r (map Q2R ys) x) /\ (single ys -> means_term x text (mval (F := RF) m r (map Q2R ys) x) /\ joinable text) /\ (several ys -> 3 < length text).
Proof.
  intros Hm Hr Ex Ec Hc HU EX. pose proof (Forall2_length _ _ _ Hc) as L. destruct (lag_all x c ys Hc (all_mi m r)) as (t & E & P & S1 & S2); [apply mono_all; [lia|lia|exact Ex|congruence|exact HU]|exact EX|].
  assert (LV : length (map Q2R ys) = get_dimension r m) by (rewrite map_length; congruence). pose proof (sum_mval m r (map Q2R ys) x (mpow (F := RF) x) LV) as SV.
  exists t. split; [unfold lagrange_latex_of; change (foldM _ [] (combine c (all_mi m r))) with (foldM lag_step [] (combine c (all_mi m r))); rewrite E; cbn [bind]; pose proof (means_nonempty _ _ _ P); destruct t; [contradiction|reflexivity]|].
  unfold mval. split; [exact (eq_ind _ (fun v => means_expr x t v) P _ SV)|]. split; [intros S; exact (eq_ind _ (fun v => means_term x t v /\ joinable t) (S1 S) _ SV)|exact S2].
Qed.
Theorem C114_lagrange_of : forall c ys r m x, m <= 9 -> r <= 9 -> length c = get_dimension r m -> Forall2 near c ys -> unit_or_zero (nth 0 ys 0%Q) -> (exists y, In y ys /\ ~ (y == 0)%Q) -> length x = m ->
  exists text, lagrange_latex_of c (all_mi m r) = Ok text /\ latex_value x text = Ok (mval (F := RF) m r (map Q2R ys) x).
Proof. intros c ys r m x Hm Hr Ec Hc HU EX Ex. destruct (lagrange_means x c ys r m) as (t & E & P & _); try assumption. exists t. split; [exact E|]. apply means_value, P. Qed.
Print Assumptions C114_lagrange_of.
(** The expanded text of a polynomial given by basis functions (each with its fractions), none of them a multiple, other than by 1 or -1, of one monomial. *)
Theorem C114_expanded : forall str_float c ys rows ts r m x, m <= 9 -> r <= 9 -> length x = m -> Forall2 nice c ys ->
  Forall2 (fun row zs => length row = get_dimension r m /\ Forall2 near row zs /\ unit_or_zero (nth 0 zs 0%Q) /\ (single zs \/ several zs)) rows ts -> length c = length rows ->
  exists basis text, mapM (fun row => lagrange_latex_of row (all_mi m r)) rows = Ok basis /\ expanded str_float c basis = Ok text /\
    latex_value x text = Ok (ksum (F := RF) (combine ys ts) (fun p => Q2R (fst p) * mval (F := RF) m r (map Q2R (snd p)) x)%R).
Proof.
  intros sf c ys rows ts r m x Hm Hr Ex Hc HR El. destruct (coefficients_means sf x c ys Hc) as (texts & E1 & F1).
  assert (B : exists basis, mapM (fun row => lagrange_latex_of row (all_mi m r)) rows = Ok basis /\ length basis = length rows /\ Forall2 (fun b v => means_term x b v /\ joinable b) (map (fun b => if 3 <? length b then lit "(" ++ b ++ lit ")" else b) basis) (map (fun zs => mval (F := RF) m r (map Q2R zs) x) ts)).
  { clear - HR Hm Hr Ex. induction HR as [|row zs rows ts (H1 & H2 & H3 & H4) HR IH]; [exists []; repeat split; constructor|]. destruct IH as (basis & E & L & F).
    assert (EX : exists y, In y zs /\ ~ (y == 0)%Q).
    { destruct H4 as [S|S]; [apply single_nonzero, S|apply several_nonzero, S]. }
    destruct (lagrange_means x row zs r m Hm Hr Ex H1 H2 H3 EX) as (t & ET & P & S1 & S2). exists (t :: basis). cbn [mapM]. rewrite ET. cbn [bind]. rewrite E. split; [reflexivity|]. split; [cbn; lia|]. cbn [map]. constructor; [|exact F].
    destruct (Nat.ltb_spec 3 (length t)) as [G|G].
    - pose proof (atom_head x _ _ (paren_atom x _ _ P)) as H. split; [apply H|apply (head_joinable _ _ _ H)].
    - destruct H4 as [S|S]; [apply S1, S|]. specialize (S2 S). lia. }
  destruct B as (basis & EB & LB & FB). pose proof (Forall2_length _ _ _ F1) as L1. pose proof (Forall2_length _ _ _ Hc) as L2. rewrite map_length in L1.
  destruct (means_dot x texts _ _ _ F1 FB) as (text & E & MT); [rewrite map_length; exact (eq_trans L1 (eq_trans (eq_sym L2) (eq_trans El (eq_sym LB))))|]. exists basis, text. split; [exact EB|]. split; [unfold expanded; rewrite E1; cbn [bind]; exact E|]. apply means_value.
  refine (eq_ind _ (fun v => means_expr x text v) MT _ _). clear. revert ts. induction ys as [|y ys IH]; intros [|t ts]; try reflexivity. cbn [map combine]. rewrite !ksum_cons, IH. reflexivity.
Qed.
Print Assumptions C114_expanded.

(** ** Findings *)
(** An exponent of two digits is not put in braces: x^10 is shown as x to the power 1 times 0. *)
Theorem C114_exponent_refuted : exists nu x, length nu <= 9 /\ length x = length nu /\ latex_value x (monomial_basis_fn_latex nu) = Ok 0%R /\ mpow (F := RF) x nu = 1024%R.
Proof.
  exists [10], [2%R]. split; [cbn; lia|]. split; [reflexivity|]. split.
  - change (latex_value [2%R] (monomial_basis_fn_latex [10])) with (run_code (F := RF) [] [2%R] [TX; TPow 1; TTimes; TNum (INR 0 : RF)]). replace (Ok 0%R) with (Ok (2 ^ 1 * INR 0)%R) by (f_equal; cbn; ring). rewrite <- kpow_pow.
    apply (run_expr (F := RF) [] [2%R] [TX; TPow 1; TTimes; TNum (INR 0 : RF)]). apply (ex_term (F := RF)). apply (te_mul (F := RF) [] [2%R] [TX; TPow 1] _ [TNum (INR 0 : RF)] (INR 0)); [|apply (fa_atom (F := RF)), (at_num (F := RF))]. apply (te_fac (F := RF)). apply (fa_pow (F := RF) [] [2%R] [TX] 2%R 1). apply (at_x (F := RF)). reflexivity.
  - cbn [mpow]. rewrite kpow_pow. change (2 ^ 10 * 1 = 1024)%R. lra.
Qed.
Print Assumptions C114_exponent_refuted.
(** Nor is an index of two digits: x_10 is shown as x_1 times 0. *)
Theorem C114_variable_refuted : exists nu x, (forall e, In e nu -> e <= 9) /\ length x = length nu /\ latex_value x (monomial_basis_fn_latex nu) = Ok 0%R /\ mpow (F := RF) x nu = 1%R.
Proof.
  exists [0; 0; 0; 0; 0; 0; 0; 0; 0; 1], (repeat 1%R 10). split; [intros e He; cbn in He; lia|]. split; [reflexivity|]. split.
  - change (latex_value (repeat 1%R 10) (monomial_basis_fn_latex [0; 0; 0; 0; 0; 0; 0; 0; 0; 1])) with (run_code (F := RF) [] (repeat 1%R 10) [TXi 0; TTimes; TNum (INR 0 : RF)]). replace (Ok 0%R) with (Ok (1 * INR 0)%R) by (f_equal; cbn; ring).
    apply (run_expr (F := RF) [] (repeat 1%R 10) [TXi 0; TTimes; TNum (INR 0 : RF)]). apply (ex_term (F := RF)). apply (te_mul (F := RF) [] (repeat 1%R 10) [TXi 0] _ [TNum (INR 0 : RF)] (INR 0)); [|apply (fa_atom (F := RF)), (at_num (F := RF))]. apply (te_fac (F := RF)), (fa_atom (F := RF)), (at_xi (F := RF)). reflexivity.
  - change (repeat 1%R 10) with [1; 1; 1; 1; 1; 1; 1; 1; 1; 1]%R. cbn [mpow]. rewrite !kpow_pow. change (1 * (1 * (1 * (1 * (1 * (1 * (1 * (1 * (1 * (1 ^ 1 * 1))))))))) = 1)%R. lra.
Qed.
Print Assumptions C114_variable_refuted.
(** The basis function of degree zero has no text, and the expanded text of a constant raises IndexError. *)
Theorem C114_bernstein_constant_refuted : exists nu, bernstein_basis_fn_latex nu 0 = Ok [] /\ forall str_float, bernstein_latex_str_expanded str_float [1%Q] 0 (length nu) = Err IndexError.
Proof. exists [0]. split; [vm_compute; reflexivity|]. intros sf. vm_compute. reflexivity. Qed.
Print Assumptions C114_bernstein_constant_refuted.
(** A basis function shown by at most three characters gets no parentheses: with the basis of the simplex with vertices 0 and 1/2,
    the text of the polynomial 6 x is read as 32 x. *)
Theorem C114_lagrange_simplex_refuted : exists row, (forall t : R, mval (F := RF) 1 1 (map Q2R row) [t] = 2 * t)%R /\ exists basis, lagrange_latex_of row (all_mi 1 1) = Ok basis /\
  forall str_float, exists text, expanded str_float [3%Q] [basis] = Ok text /\ forall t : R, latex_value [t] text = Ok (32 * t)%R.
Proof.
  exists [0; 2]%Q. split.
  - intros t. unfold mval, cf, cfl. replace (all_mi 1 1) with [[0]; [1]] by reflexivity. rewrite !ksum_cons, ksum_nil. cbn [mpow map]. rewrite !kpow_pow. change (Q2R 0 * (t ^ 0 * 1) + (Q2R 2 * (t ^ 1 * 1) + 0) = 2 * t)%R. unfold Q2R. cbn [Qnum Qden]. field.
  - exists (lit "2 x"). split; [vm_compute; reflexivity|]. intros sf. exists (lit "3 2 x"). split; [vm_compute; reflexivity|]. intros t.
    change (latex_value [t] (lit "3 2 x")) with (run_code (F := RF) [] [t] [TNum (INR 32 : RF); TTimes; TX]). replace (32 * t)%R with (INR 32 * t)%R by (rewrite INR_IZR_INZ; reflexivity).
    apply (run_expr (F := RF) [] [t] [TNum (INR 32 : RF); TTimes; TX]). apply (ex_term (F := RF)). apply (te_mul (F := RF) [] [t] [TNum (INR 32 : RF)] _ [TX] t); [apply (te_fac (F := RF)), (fa_atom (F := RF)), (at_num (F := RF))|apply (fa_atom (F := RF)), (at_x (F := RF))]. reflexivity.
Qed.
Print Assumptions C114_lagrange_simplex_refuted.

(** ** Examples *)
Example monomial_ex : monomial_basis_fn_latex [2; 0; 1] = lit "x_1^2 x_3". Proof. vm_compute. reflexivity. Qed.
Example monomial_value_ex : latex_value [3; 5; 7]%R (monomial_basis_fn_latex [2; 0; 1]) = Ok 63%R.
Proof. rewrite C114_monomial_fn; [|reflexivity|cbn; lia|intros e He; cbn in He; lia]. cbn [mpow]. rewrite !kpow_pow. f_equal. change (3 ^ 2 * (5 ^ 0 * (7 ^ 1 * 1)) = 63)%R. lra. Qed.
Lemma exact_nice y : has_denominator 10 y -> nice y y. Proof. intros H. split; [exact H|apply close_refl]. Qed.
Example polynomial_ex sf : latex_str sf [1 # 2; -3; 0; 1]%Q 3 1 = Ok (lit "\frac{1}{2} - 3 x + x^3"). Proof. vm_compute. reflexivity. Qed.
Example polynomial_value_ex sf : exists text, latex_str sf [1 # 2; -3; 0; 1]%Q 3 1 = Ok text /\ latex_value [2%R] text = Ok (mval (F := RF) 1 3 (map Q2R [1 # 2; -3; 0; 1]%Q) [2%R]).
Proof.
  apply C114_monomial; [lia|lia|reflexivity| |reflexivity]. repeat constructor; try apply close_refl; [exists 1%Z, 2%positive|exists (-3)%Z, 1%positive|exists 0%Z, 1%positive|exists 1%Z, 1%positive]; (split; [lia|reflexivity]).
Qed.
Example bernstein_ex : bernstein_basis_fn_latex [1; 2] 4 = Ok (lit "12 x_1 x_2^2 (1 - x_1 - x_2)"). Proof. vm_compute. reflexivity. Qed.
Example bernstein_value_ex : exists text, bernstein_basis_fn_latex [1; 2] 4 = Ok text /\ latex_value [2; 3]%R text = Ok (bern (F := RF) 4 [1; 2] [2; 3]%R).
Proof. apply C114_bernstein_fn; cbn; lia || reflexivity. Qed.
Example bernstein_polynomial_ex sf : bernstein_latex_str_expanded sf [1; -2; 1 # 3]%Q 2 1 = Ok (lit "(1 - x)^2 - 2 \cdot 2 x (1 - x) + \frac{1}{3} x^2"). Proof. vm_compute. reflexivity. Qed.
Example lagrange_ex : lagrange_latex_of [0; 4; -4]%Q (all_mi 1 2) = Ok (lit "4 x - 4 x^2"). Proof. vm_compute. reflexivity. Qed.
Lemma exact_near y : has_denominator 1000 y -> near y y. Proof. intros H. split; [exact H|]. split; [apply close_refl|reflexivity]. Qed.
Example lagrange_value_ex : exists text, lagrange_latex_of [0; 4; -4]%Q (all_mi 1 2) = Ok text /\ latex_value [3%R] text = Ok (mval (F := RF) 1 2 (map Q2R [0; 4; -4]%Q) [3%R]).
Proof.
  apply C114_lagrange_of; [lia|lia|reflexivity| |left; reflexivity|exists 4%Q; split; [cbn; tauto|discriminate]|reflexivity].
  repeat constructor; try apply close_refl; [exists 0%Z, 1%positive|exists 4%Z, 1%positive|exists (-4)%Z, 1%positive]; (split; [lia|reflexivity]).
Qed.
Example expanded_ex sf : expanded sf [5; 1 # 2]%Q [lit "1 - x"; lit "x"] = Ok (lit "5 (1 - x) + \frac{1}{2} x"). Proof. vm_compute. reflexivity. Qed.
Example expanded_value_ex sf : exists basis text, mapM (fun row => lagrange_latex_of row (all_mi 1 1)) [[1; -1]; [0; 1]]%Q = Ok basis /\ expanded sf [5; 1 # 2]%Q basis = Ok text /\
  latex_value [3%R] text = Ok (ksum (F := RF) (combine [5; 1 # 2]%Q [[1; -1]; [0; 1]]%Q) (fun p => Q2R (fst p) * mval (F := RF) 1 1 (map Q2R (snd p)) [3%R])%R).
Proof.
  assert (N : forall z, near (inject_Z z) (inject_Z z)) by (intros z; apply exact_near; exists z, 1%positive; split; [lia|reflexivity]).
  apply (C114_expanded sf [5; 1 # 2]%Q [5; 1 # 2]%Q [[1; -1]; [0; 1]]%Q [[1; -1]; [0; 1]]%Q 1 1 [3%R]); [lia|lia|reflexivity| | |reflexivity].
  - repeat constructor; try apply close_refl; [exists 5%Z, 1%positive|exists 1%Z, 2%positive]; (split; [lia|reflexivity]).
  - constructor; [|constructor; [|constructor]].
    + split; [reflexivity|]. split; [constructor; [apply (N 1%Z)|constructor; [apply (N (-1)%Z)|constructor]]|]. split; [right; left; reflexivity|]. right. apply several_here; [discriminate|]. exists (-1)%Q. split; [now left|discriminate].
    + split; [reflexivity|]. split; [constructor; [apply (N 0%Z)|constructor; [apply (N 1%Z)|constructor]]|]. split; [left; reflexivity|]. left. apply single_later; [reflexivity|]. apply single_here; [right; left; reflexivity|discriminate|intros z []].
Qed.
