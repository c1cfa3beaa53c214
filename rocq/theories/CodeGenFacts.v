(** Generated source is well formed and evaluates to the polynomial. *)
From Verif Require Import Base MultiIndex MultiIndexFacts Fld CodeGen.
From Coq Require Import Field.

Section Facts.
  Context {F : fld}.
  Add Field Kfield2 : (kth F).
  Local Open Scope fld_scope.
  Context (a x : list F).

  (** Derivations of the grammar with the value of the expression. *)
  Inductive atom : code F -> F -> Prop :=
  | at_num v : atom [TNum v] v
  | at_x v : nth_error x 0 = Some v -> atom [TX] v
  | at_xi i v : nth_error x i = Some v -> atom [TXi i] v
  | at_a i v : nth_error a i = Some v -> atom [TA i] v
  | at_par ts v : expr ts v -> atom (TL :: ts ++ [TR]) v
  with fac : code F -> F -> Prop :=
  | fa_atom ts v : atom ts v -> fac ts v
  | fa_pow ts v n : atom ts v -> fac (ts ++ [TPow n]) (kpow v n)
  | fa_neg ts v : fac ts v -> fac (TMinus :: ts) (- v)
  with term : code F -> F -> Prop :=
  | te_fac ts v : fac ts v -> term ts v
  | te_mul ts v us w : term ts v -> fac us w -> term (ts ++ TTimes :: us) (v * w)
  | te_div ts v us w : term ts v -> fac us w -> w <> 0 -> term (ts ++ TDivide :: us) (v / w)
  with expr : code F -> F -> Prop :=
  | ex_term ts v : term ts v -> expr ts v
  | ex_add ts v us w : expr ts v -> term us w -> expr (ts ++ TPlus :: us) (v + w)
  | ex_sub ts v us w : expr ts v -> term us w -> expr (ts ++ TMinus :: us) (v - w).

  Scheme atom_mut := Induction for atom Sort Prop
    with fac_mut := Induction for fac Sort Prop
    with term_mut := Induction for term Sort Prop
    with expr_mut := Induction for expr Sort Prop.
  Combined Scheme grammar_mut from atom_mut, fac_mut, term_mut, expr_mut.

  Definition no_pow (rest : code F) : Prop := match rest with TPow _ :: _ => False | _ => True end.
  Definition no_mul (rest : code F) : Prop := match rest with (TPow _ | TTimes | TDivide) :: _ => False | _ => True end.
  Definition no_add (rest : code F) : Prop := match rest with (TPow _ | TTimes | TDivide | TPlus | TMinus) :: _ => False | _ => True end.

  Lemma patom_S f ts : patom a x (S f) ts = match ts with
        | TNum v :: ts' => Ok (v, ts') | TX :: ts' => look x 0 ts' | TXi i :: ts' => look x i ts' | TA i :: ts' => look a i ts'
        | TL :: ts' => let* p := pexpr a x f ts' in match snd p with TR :: ts'' => Ok (fst p, ts'') | _ => Err SyntaxError end
        | _ => Err SyntaxError end.
  Proof. destruct ts as [|[]]; reflexivity. Qed.
  Lemma pfactor_S f ts : pfactor a x (S f) ts = match ts with
        | TMinus :: ts' => let* p := pfactor a x f ts' in Ok (- fst p, snd p)
        | _ => let* p := patom a x f ts in match snd p with TPow n :: ts' => Ok (kpow (fst p) n, ts') | _ => Ok p end end.
  Proof. destruct ts as [|[]]; reflexivity. Qed.

  Lemma pterm_S f ts : pterm a x (S f) ts = let* p := pfactor a x f ts in tloop a x f (fst p) (snd p).
  Proof. reflexivity. Qed.
  Lemma pexpr_S f ts : pexpr a x (S f) ts = let* p := pterm a x f ts in sloop a x f (fst p) (snd p).
  Proof. reflexivity. Qed.
  Lemma tloop_times f acc ts : tloop a x (S f) acc (TTimes :: ts) = let* p := pfactor a x f ts in tloop a x f (acc * fst p) (snd p).
  Proof. reflexivity. Qed.
  Lemma tloop_divide f acc ts : tloop a x (S f) acc (TDivide :: ts) = let* p := pfactor a x f ts in
    if kdec (fst p) 0 then Err ZeroDivisionError else tloop a x f (acc / fst p) (snd p).
  Proof. reflexivity. Qed.
  Lemma sloop_plus f acc ts : sloop a x (S f) acc (TPlus :: ts) = let* p := pterm a x f ts in sloop a x f (acc + fst p) (snd p).
  Proof. reflexivity. Qed.
  Lemma sloop_minus f acc ts : sloop a x (S f) acc (TMinus :: ts) = let* p := pterm a x f ts in sloop a x f (acc - fst p) (snd p).
  Proof. reflexivity. Qed.

  Lemma atom_not_minus ts v : atom ts v -> exists t us, ts = t :: us /\ match t with TMinus => False | _ => True end.
  Proof. intros H; destruct H; eexists; eexists; (split; [reflexivity|exact I]). Qed.

  Lemma parse_ok :
    (forall ts v, atom ts v -> forall f rest, 4 * length ts <= f -> patom a x f (ts ++ rest) = Ok (v, rest)) /\
    (forall ts v, fac ts v -> forall f rest, 4 * length ts + 1 <= f -> no_pow rest -> pfactor a x f (ts ++ rest) = Ok (v, rest)) /\
    (forall ts v, term ts v -> 1 <= length ts /\ forall f rest, 4 * length ts + 2 <= f -> no_pow rest ->
       exists f', f <= f' + 4 * length ts /\ pterm a x f (ts ++ rest) = tloop a x f' v rest) /\
    (forall ts v, expr ts v -> 1 <= length ts /\ forall f rest, 4 * length ts + 3 <= f -> no_mul rest ->
       exists f', f <= f' + 4 * length ts /\ pexpr a x f (ts ++ rest) = sloop a x f' v rest).
  Proof.
    assert (PL : forall ts v, fac ts v -> 1 <= length ts).
    { intros ts v H. induction H as [ts v H|ts v n H|ts v H IH].
      - destruct (atom_not_minus _ _ H) as (t & us & -> & _). cbn [length]. lia.
      - rewrite app_length. cbn [length]. lia.
      - cbn [length]. lia. }
    apply grammar_mut.
    - intros v f rest Hf. destruct f; [cbn [length] in Hf; lia|]. reflexivity.
    - intros v H f rest Hf. destruct f; [cbn [length] in Hf; lia|]. rewrite patom_S. cbn [app]. unfold look. rewrite H. reflexivity.
    - intros i v H f rest Hf. destruct f; [cbn [length] in Hf; lia|]. rewrite patom_S. cbn [app]. unfold look. rewrite H. reflexivity.
    - intros i v H f rest Hf. destruct f; [cbn [length] in Hf; lia|]. rewrite patom_S. cbn [app]. unfold look. rewrite H. reflexivity.
    - intros ts v H [H1 IH] f rest Hf. cbn [length] in Hf. rewrite app_length in Hf. cbn [length] in Hf. destruct f; [lia|].
      rewrite patom_S. cbn [app]. rewrite <- app_assoc. cbn [app].
      destruct (IH f (TR :: rest)) as (f' & Hf' & ->); [lia|exact I|]. destruct f'; [lia|]. cbn [sloop bind snd fst]. reflexivity.
    - intros ts v H IH f rest Hf Hr. destruct f; [lia|]. rewrite pfactor_S. destruct (atom_not_minus _ _ H) as (t & us & E & Ht).
      assert (E' : patom a x f (ts ++ rest) = Ok (v, rest)) by (apply IH; lia). rewrite E in *. cbn [app] in *.
      destruct t; try contradiction; rewrite E'; cbn [bind snd fst]; destruct rest as [|[]]; try reflexivity; contradiction.
    - intros ts v n H IH f rest Hf Hr. rewrite app_length in Hf. cbn [length] in Hf. destruct f; [lia|]. rewrite pfactor_S, <- app_assoc. cbn [app].
      destruct (atom_not_minus _ _ H) as (t & us & E & Ht).
      assert (E' : patom a x f (ts ++ TPow n :: rest) = Ok (v, TPow n :: rest)) by (apply IH; lia). rewrite E in *. cbn [app] in *.
      destruct t; try contradiction; rewrite E'; reflexivity.
    - intros ts v H IH f rest Hf Hr. cbn [length] in Hf. destruct f; [lia|]. rewrite pfactor_S. cbn [app]. rewrite IH by (assumption || lia). reflexivity.
    - intros ts v H IH. pose proof (PL _ _ H). split; [lia|]. intros f rest Hf Hr. destruct f; [lia|]. exists f. split; [lia|].
      rewrite pterm_S, IH by (assumption || lia). reflexivity.
    - intros ts v us w H [H1 IH] HF IHF. pose proof (PL _ _ HF). rewrite app_length. cbn [length]. split; [lia|]. intros f rest Hf Hr. rewrite <- app_assoc. cbn [app].
      destruct (IH f (TTimes :: us ++ rest)) as (f' & Hf' & ->); [lia|exact I|]. destruct f'; [lia|]. exists f'. split; [lia|].
      rewrite tloop_times, IHF by (assumption || lia). reflexivity.
    - intros ts v us w H [H1 IH] HF IHF Hw. pose proof (PL _ _ HF). rewrite app_length. cbn [length]. split; [lia|]. intros f rest Hf Hr. rewrite <- app_assoc. cbn [app].
      destruct (IH f (TDivide :: us ++ rest)) as (f' & Hf' & ->); [lia|exact I|]. destruct f'; [lia|]. exists f'. split; [lia|].
      rewrite tloop_divide, IHF by (assumption || lia). cbn [bind fst snd]. destruct (kdec w 0); [contradiction|reflexivity].
    - intros ts v H [H1 IH]. split; [lia|]. intros f rest Hf Hr. destruct f; [lia|]. exists f. split; [lia|]. rewrite pexpr_S.
      destruct (IH f rest) as (f' & Hf' & ->); [lia|destruct rest as [|[]]; try exact I; contradiction|]. destruct f'; [lia|].
      assert (E : tloop a x (S f') v rest = Ok (v, rest)) by (destruct rest as [|[]]; try reflexivity; contradiction). rewrite E. reflexivity.
    - intros ts v us w H [H1 IH] HT [HT1 IHT]. rewrite app_length. cbn [length]. split; [lia|]. intros f rest Hf Hr. rewrite <- app_assoc. cbn [app].
      destruct (IH f (TPlus :: us ++ rest)) as (f' & Hf' & ->); [lia|exact I|]. destruct f'; [lia|]. exists f'. split; [lia|]. rewrite sloop_plus.
      destruct (IHT f' rest) as (f2 & Hf2 & ->); [lia|destruct rest as [|[]]; try exact I; contradiction|]. destruct f2; [lia|].
      assert (E : tloop a x (S f2) w rest = Ok (w, rest)) by (destruct rest as [|[]]; try reflexivity; contradiction). rewrite E. reflexivity.
    - intros ts v us w H [H1 IH] HT [HT1 IHT]. rewrite app_length. cbn [length]. split; [lia|]. intros f rest Hf Hr. rewrite <- app_assoc. cbn [app].
      destruct (IH f (TMinus :: us ++ rest)) as (f' & Hf' & ->); [lia|exact I|]. destruct f'; [lia|]. exists f'. split; [lia|]. rewrite sloop_minus.
      destruct (IHT f' rest) as (f2 & Hf2 & ->); [lia|destruct rest as [|[]]; try exact I; contradiction|]. destruct f2; [lia|].
      assert (E : tloop a x (S f2) w rest = Ok (w, rest)) by (destruct rest as [|[]]; try reflexivity; contradiction). rewrite E. reflexivity.
  Qed.
  Theorem run_expr ts v : expr ts v -> run_code a x ts = Ok v.
  Proof.
    intros H. destruct parse_ok as (_ & _ & _ & P). destruct (P ts v H) as [H1 P']. unfold run_code.
    destruct (P' (4 * length ts + 8)%nat []) as (f' & Hf & E); [lia|exact I|]. rewrite app_nil_r in E. rewrite E. destruct f'; [lia|]. reflexivity.
  Qed.
  Lemma expr_det ts v w : expr ts v -> expr ts w -> v = w.
  Proof. intros H1 H2. apply run_expr in H1, H2. congruence. Qed.

  (** Shape lemmas. *)
  Lemma fac_expr ts v : fac ts v -> expr ts v. Proof. intros H. apply ex_term, te_fac, H. Qed.
  Lemma expr_num u v : expr [TNum u] v -> v = u.
  Proof. intros H. apply (expr_det [TNum u]); [exact H|apply fac_expr, fa_atom, at_num]. Qed.
  Lemma expr_is_num u ts v : expr ts v -> is_num u ts = true -> v = u.
  Proof.
    intros H E. destruct ts as [|[w| | | | | | | | | |] [|]]; try discriminate. cbn in E. destruct (kdec w u) as [->|]; [|discriminate]. apply expr_num. exact H.
  Qed.
  Lemma fac_cons_minus ts v : fac (TMinus :: ts) v -> exists w, fac ts w /\ v = - w.
  Proof.
    intros H. remember (TMinus :: ts) as us eqn:E. destruct H as [us v H|us v n H|us v H].
    - subst us. destruct (atom_not_minus _ _ H) as (t & us & [= <- _] & []).
    - destruct (atom_not_minus _ _ H) as (t & us' & -> & Ht). cbn [app] in E. injection E as -> _. destruct Ht.
    - injection E as ->. eauto.
  Qed.
  Lemma term_nonempty ts v : term ts v -> ts <> [].
  Proof. destruct parse_ok as (_ & _ & P & _). intros H ->. destruct (P _ _ H) as [H1 _]. cbn in H1. lia. Qed.
  Lemma expr_nonempty ts v : expr ts v -> ts <> [].
  Proof. destruct parse_ok as (_ & _ & _ & P). intros H ->. destruct (P _ _ H) as [H1 _]. cbn in H1. lia. Qed.
  Lemma term_cons_minus ts v : term (TMinus :: ts) v -> exists w, term ts w /\ v = - w.
  Proof.
    intros H. remember (TMinus :: ts) as us eqn:E. revert ts E. induction H as [us v H|us v us' w H IH HF|us v us' w H IH HF Hw]; intros ts E.
    - rewrite E in H. destruct (fac_cons_minus _ _ H) as (w & Hw & Ew). exists w. split; [apply te_fac; exact Hw|exact Ew].
    - destruct us as [|t us]; [destruct (term_nonempty _ _ H eq_refl)|]. cbn [app] in E. injection E as -> <-.
      destruct (IH us eq_refl) as (w' & Hw' & ->). exists (w' * w). split; [apply te_mul; assumption|ring].
    - destruct us as [|t us]; [destruct (term_nonempty _ _ H eq_refl)|]. cbn [app] in E. injection E as -> <-.
      destruct (IH us eq_refl) as (w' & Hw' & ->). exists (w' / w). split; [apply te_div; assumption|field; exact Hw].
  Qed.
  Lemma term_minus ts v : term ts v -> term (TMinus :: ts) (- v).
  Proof.
    intros H. induction H as [ts v H|ts v us w H IH HF|ts v us w H IH HF Hw].
    - apply te_fac, fa_neg, H.
    - replace (- (v * w)) with (- v * w) by ring. apply (te_mul _ _ us w IH HF).
    - replace (- (v / w)) with (- v / w) by (field; exact Hw). apply (te_div _ _ us w IH HF Hw).
  Qed.
  Lemma expr_plus us w : expr us w -> forall ts v, expr ts v -> expr (ts ++ TPlus :: us) (v + w).
  Proof.
    intros H. induction H as [us w H|us w us' w' H IH HT|us w us' w' H IH HT]; intros ts v HE.
    - apply ex_add; assumption.
    - change (ts ++ TPlus :: us ++ TPlus :: us') with (ts ++ (TPlus :: us) ++ TPlus :: us'). rewrite app_assoc.
      replace (v + (w + w')) with (v + w + w') by ring. apply ex_add; [apply IH; exact HE|exact HT].
    - change (ts ++ TPlus :: us ++ TMinus :: us') with (ts ++ (TPlus :: us) ++ TMinus :: us'). rewrite app_assoc.
      replace (v + (w - w')) with (v + w - w') by ring. apply ex_sub; [apply IH; exact HE|exact HT].
  Qed.
  Lemma expr_minus us w : expr us w -> forall us0, us = TMinus :: us0 -> forall ts v, expr ts v -> expr (ts ++ TMinus :: us0) (v + w).
  Proof.
    intros H. induction H as [us w H|us w us' w' H IH HT|us w us' w' H IH HT]; intros us0 E ts v HE.
    - rewrite E in H. destruct (term_cons_minus _ _ H) as (w0 & H0 & ->). replace (v + - w0) with (v - w0) by ring. apply ex_sub; assumption.
    - destruct us as [|t us]; [destruct (expr_nonempty _ _ H eq_refl)|]. cbn [app] in E. injection E as -> <-.
      change (ts ++ TMinus :: us ++ TPlus :: us') with (ts ++ (TMinus :: us) ++ TPlus :: us'). rewrite app_assoc.
      replace (v + (w + w')) with (v + w + w') by ring. apply ex_add; [apply (IH us eq_refl); exact HE|exact HT].
    - destruct us as [|t us]; [destruct (expr_nonempty _ _ H eq_refl)|]. cbn [app] in E. injection E as -> <-.
      change (ts ++ TMinus :: us ++ TMinus :: us') with (ts ++ (TMinus :: us) ++ TMinus :: us'). rewrite app_assoc.
      replace (v + (w - w')) with (v + w - w') by ring. apply ex_sub; [apply (IH us eq_refl); exact HE|exact HT].
  Qed.
  Lemma term_times us w : term us w -> forall ts v, term ts v -> term (ts ++ TTimes :: us) (v * w).
  Proof.
    intros H. induction H as [us w H|us w us' w' H IH HF|us w us' w' H IH HF Hw]; intros ts v HE.
    - apply te_mul; assumption.
    - change (ts ++ TTimes :: us ++ TTimes :: us') with (ts ++ (TTimes :: us) ++ TTimes :: us'). rewrite app_assoc.
      replace (v * (w * w')) with (v * w * w') by ring. apply te_mul; [apply IH; exact HE|exact HF].
    - change (ts ++ TTimes :: us ++ TDivide :: us') with (ts ++ (TTimes :: us) ++ TDivide :: us'). rewrite app_assoc.
      replace (v * (w / w')) with (v * w / w') by (field; exact Hw). apply te_div; [apply IH; exact HE|exact HF|exact Hw].
  Qed.
  Lemma unsigned_term ts v : expr ts v -> has_sign ts = false -> term ts v.
  Proof.
    intros H E. destruct H as [ts v H|ts v us w H HT|ts v us w H HT]; [exact H| |]; unfold has_sign in E; rewrite existsb_app in E;
      apply orb_false_iff in E as [_ E]; discriminate.
  Qed.

  (** The string builders. *)
  Lemma str_number_ok c : fac (str_number c) c.
  Proof.
    unfold str_number. destruct (kneg c); [|apply fa_atom, at_num]. replace c with (- - c) at 2 by ring. apply fa_neg, fa_atom, at_num.
  Qed.
  Lemma str_sum_ok s t v w : expr s v -> expr t w -> expr (str_sum s t) (v + w).
  Proof.
    intros H1 H2. unfold str_sum, is0. destruct (is_num 0 s) eqn:E1.
    - rewrite (expr_is_num _ _ _ H1 E1). replace (0 + w) with w by ring. exact H2.
    - destruct (is_num 0 t) eqn:E2.
      + rewrite (expr_is_num _ _ _ H2 E2). replace (v + 0) with v by ring. exact H1.
      + destruct (starts_minus t) eqn:E3.
        * destruct t as [|[] t]; try discriminate. cbn [tl]. apply (expr_minus _ _ H2 t eq_refl _ _ H1).
        * apply expr_plus; assumption.
  Qed.
  Lemma str_multi_sum_ok (l : list (code F * F)) : (forall p, In p l -> expr (fst p) (snd p)) ->
    expr (str_multi_sum (map fst l)) (ksum l snd).
  Proof.
    unfold str_multi_sum. intros H.
    assert (G : forall l s v, (forall p, In p l -> expr (fst p) (snd p)) -> expr s v -> expr (fold_left str_sum (map fst l) s) (v + ksum l snd)).
    { clear. induction l as [|p l IH]; intros s v H HE; cbn [map fold_left].
      - rewrite ksum_nil. replace (v + 0) with v by ring. exact HE.
      - rewrite ksum_cons. replace (v + (snd p + ksum l snd)) with (v + snd p + ksum l snd) by ring. apply IH.
        + intros q Hq. apply H. right. exact Hq.
        + apply str_sum_ok; [exact HE|apply H; left; reflexivity]. }
    replace (ksum l snd) with (0 + ksum l snd) by ring. apply G; [exact H|apply fac_expr, fa_atom, at_num].
  Qed.
  Lemma str_product_fuel_ok f : forall s t v w, length s + length t < f -> term s v -> term t w -> term (str_product_fuel f s t) (v * w).
  Proof.
    induction f as [|f IH]; intros s t v w Hf H1 H2; [lia|]. cbn [str_product_fuel]. unfold is0, is1.
    destruct (is_num 0 s) eqn:E1.
    { cbn [orb]. rewrite (expr_is_num _ _ _ (ex_term _ _ H1) E1). replace (0 * w) with (0 : F) by ring. apply te_fac, fa_atom, at_num. }
    destruct (is_num 0 t) eqn:E2.
    { cbn [orb]. rewrite (expr_is_num _ _ _ (ex_term _ _ H2) E2). replace (v * 0) with (0 : F) by ring. apply te_fac, fa_atom, at_num. }
    cbn [orb]. destruct (is_num 1 s) eqn:E3.
    { rewrite (expr_is_num _ _ _ (ex_term _ _ H1) E3). replace (1 * w) with w by ring. exact H2. }
    destruct (is_num 1 t) eqn:E4.
    { rewrite (expr_is_num _ _ _ (ex_term _ _ H2) E4). replace (v * 1) with v by ring. exact H1. }
    destruct (starts_minus s) eqn:E5.
    - destruct s as [|[] s]; try discriminate. cbn [tl length] in *. destruct (term_cons_minus _ _ H1) as (v' & Hv & ->).
      destruct (starts_minus t) eqn:E6.
      + destruct t as [|[] t]; try discriminate. cbn [tl length] in *. destruct (term_cons_minus _ _ H2) as (w' & Hw & ->).
        replace (- v' * - w') with (v' * w') by ring. apply IH; [lia|assumption|assumption].
      + replace (- v' * w) with (- (v' * w)) by ring. apply term_minus, IH; [lia|assumption|assumption].
    - destruct (starts_minus t) eqn:E6.
      + destruct t as [|[] t]; try discriminate. cbn [tl length] in *. destruct (term_cons_minus _ _ H2) as (w' & Hw & ->).
        replace (v * - w') with (- (v * w')) by ring. apply term_minus, IH; [lia|assumption|assumption].
      + apply term_times; assumption.
  Qed.
  Lemma str_product_ok s t v w : term s v -> term t w -> term (str_product s t) (v * w).
  Proof. apply str_product_fuel_ok. lia. Qed.
  Lemma str_multi_product_ok {A} (l : list A) (c : A -> code F) (f : A -> F) : (forall p, In p l -> term (c p) (f p)) ->
    term (str_multi_product (map c l)) (kprod l f).
  Proof.
    unfold str_multi_product. intros H.
    assert (G : forall l s v, (forall p, In p l -> term (c p) (f p)) -> term s v -> term (fold_left str_product (map c l) s) (v * kprod l f)).
    { clear. induction l as [|p l IH]; intros s v H HE; cbn [map fold_left].
      - cbn [kprod fold_right]. replace (v * 1) with v by ring. exact HE.
      - rewrite kprod_cons. replace (v * (f p * kprod l f)) with (v * f p * kprod l f) by ring. apply IH.
        + intros q Hq. apply H. right. exact Hq.
        + apply str_product_ok; [exact HE|apply H; left; reflexivity]. }
    replace (kprod l f) with (1 * kprod l f) by ring. apply G; [exact H|apply te_fac, fa_atom, at_num].
  Qed.
  Lemma str_exponent_ok s v e : atom s v -> fac (str_exponent s e) (kpow v e).
  Proof.
    intros H. unfold str_exponent, is0. destruct (is_num 0 s) eqn:E.
    - rewrite (expr_is_num _ _ _ (fac_expr _ _ (fa_atom _ _ H)) E). destruct e as [|e]; [apply fa_atom, at_num|]. rewrite kpow_0 by discriminate. apply fa_atom, at_num.
    - destruct e as [|[|e]].
      + apply fa_atom, at_num.
      + cbn [kpow]. replace (v * 1) with v by ring. apply fa_atom, H.
      + apply fa_pow, H.
  Qed.
  Lemma str_dot_product_ok (cs bs : list (code F)) (cv bv : list F) : Forall2 term cs cv -> Forall2 term bs bv -> length cs = length bs ->
    exists ts, str_dot_product cs bs = Ok ts /\ expr ts (ksum (combine cv bv) (fun p => fst p * snd p)).
  Proof.
    intros Hc Hb E. unfold str_dot_product. rewrite E, Nat.eqb_refl. eexists. split; [reflexivity|].
    assert (G : forall cs cv, Forall2 term cs cv -> forall bs bv, Forall2 term bs bv -> length cs = length bs -> forall s v, expr s v ->
      expr (fold_left (fun res p => str_sum res (str_product (fst p) (snd p))) (combine cs bs) s) (v + ksum (combine cv bv) (fun p => fst p * snd p))).
    { clear. induction 1 as [|c v cs cv H1 H2 IH]; intros bs bv Hb E s u Hs.
      - cbn [combine fold_left]. rewrite ksum_nil. replace (u + 0) with u by ring. exact Hs.
      - destruct Hb as [|b w bs bv Hb1 Hb2]; [discriminate|]. cbn [combine fold_left fst snd]. rewrite ksum_cons. cbn [fst snd].
        rewrite (F_R (kth F)).(Radd_assoc). apply IH; [exact Hb2|cbn in E; lia|]. apply str_sum_ok; [exact Hs|]. apply ex_term, str_product_ok; assumption. }
    rewrite <- ((F_R (kth F)).(Radd_0_l) (ksum _ _)). apply G; [exact Hc|exact Hb|exact E|apply fac_expr, fa_atom, at_num].
  Qed.

  (** Basis functions. *)
  Definition vars_ok (m : nat) : Prop := length x = m.
  Lemma variable_ok m i : i < m -> vars_ok m -> atom (variable m i) (nth i x 0).
  Proof.
    intros Hi Hm. unfold variable, vars_ok in *. destruct (Nat.eqb_spec m 1) as [E|E].
    - replace i with 0%nat by lia. apply at_x. apply nth_error_nth'. lia.
    - apply at_xi. apply nth_error_nth'. lia.
  Qed.
  Lemma mpow_kprod (m : nat) nu : length nu = m -> vars_ok m -> mpow x nu = kprod (combine (seq 0 m) nu) (fun p => kpow (nth (fst p) x 0) (snd p)).
  Proof.
    intros Hn Hm. unfold vars_ok in Hm.
    assert (G : forall k (y : list F) nu, length y = length nu -> (forall i, i < length y -> nth (k + i) x 0 = nth i y 0) ->
       mpow y nu = kprod (combine (seq k (length nu)) nu) (fun p => kpow (nth (fst p) x 0) (snd p))).
    { clear. intros k y. revert k. induction y as [|v y IH]; intros k [|e nu] E H; try discriminate; [reflexivity|].
      cbn [mpow length seq combine]. rewrite kprod_cons. cbn [fst snd]. pose proof (H 0%nat ltac:(cbn; lia)) as H0. rewrite Nat.add_0_r in H0. rewrite H0. cbn [nth]. f_equal.
      apply IH; [cbn in E; lia|]. intros i Hi. pose proof (H (S i) ltac:(cbn; lia)) as H1. cbn [nth] in H1. rewrite <- H1. f_equal. lia. }
    rewrite (G 0%nat x nu); [rewrite Hn; reflexivity|lia|]. intros i _. reflexivity.
  Qed.

  Definition nonzero_entries (nu : list nat) : list (nat * nat) :=
    filter (fun p => negb (snd p =? 0)) (combine (seq 0 (length nu)) nu).
  Fixpoint pleqb (l m : list (nat * nat)) : bool :=
    match l, m with
    | [], [] => true
    | (i, j) :: l', (p, q) :: m' => (i =? p) && (j =? q) && pleqb l' m'
    | _, _ => false
    end.
  Lemma pleqb_eq l : forall m, pleqb l m = true -> l = m.
  Proof.
    induction l as [|[i j] l IH]; intros [|[p q] m] H; cbn [pleqb] in H; try discriminate; [reflexivity|].
    apply andb_true_iff in H as [H H3]. apply andb_true_iff in H as [H1 H2]. apply Nat.eqb_eq in H1, H2. rewrite H1, H2, (IH m H3). reflexivity.
  Qed.
  Lemma cache_check : forallb (fun e => pleqb (snd e) (nonzero_entries (fst e))) monomial_code_cache = true.
  Proof. vm_compute. reflexivity. Qed.
  Lemma cache_lookup_in nu l v : cache_lookup nu l = Some v -> In (nu, v) l.
  Proof.
    induction l as [|[k w] l IH]; cbn [cache_lookup]; [discriminate|]. destruct (leqb nu k) eqn:E.
    - apply leqb_eq in E. intros [= ->]. left. congruence.
    - intros H. right. auto.
  Qed.
  Lemma cache_lookup_ok nu l : cache_lookup nu monomial_code_cache = Some l -> l = nonzero_entries nu.
  Proof.
    intros H. apply cache_lookup_in in H. pose proof cache_check as C. rewrite forallb_forall in C. specialize (C _ H). cbn [fst snd] in C. apply pleqb_eq. exact C.
  Qed.
  Lemma kprod_nonzero (l : list (nat * nat)) : kprod (filter (fun p => negb (snd p =? 0)) l) (fun p => kpow (nth (fst p) x 0) (snd p)) =
    kprod l (fun p => kpow (nth (fst p) x 0) (snd p)).
  Proof.
    induction l as [|[i e] l IH]; [reflexivity|]. cbn [filter snd]. rewrite kprod_cons. destruct (Nat.eqb_spec e 0) as [->|]; cbn [negb].
    - rewrite IH. cbn [fst snd kpow]. ring.
    - rewrite kprod_cons, IH. reflexivity.
  Qed.
  Lemma cache_text_ok m l : vars_ok m -> (forall p, In p l -> fst p < m /\ snd p <> 0%nat) ->
    term (cache_text m l) (kprod l (fun p => kpow (nth (fst p) x 0) (snd p))).
  Proof.
    intros Hm. assert (HF : forall p, fst p < m /\ snd p <> 0%nat ->
      fac (variable m (fst p) ++ match snd p with 1%nat => [] | e => [TPow e] end) (kpow (nth (fst p) x 0) (snd p))).
    { intros [i e] [Hi He]. cbn [fst snd] in *. pose proof (variable_ok m i Hi Hm) as HV. destruct e as [|[|e]]; [congruence| |].
      - rewrite app_nil_r. cbn [kpow]. replace (nth i x 0 * 1) with (nth i x 0) by ring. apply fa_atom, HV.
      - apply fa_pow. exact HV. }
    induction l as [|p l IH]; intros H.
    - apply te_fac, fa_atom, at_num.
    - rewrite kprod_cons. pose proof (HF p (H p (or_introl eq_refl))) as Hp. destruct l as [|q l].
      + cbn [cache_text kprod fold_right]. rewrite (Rmul_comm (F_R (kth F))), (Rmul_1_l (F_R (kth F))). apply te_fac. exact Hp.
      + change (@cache_text F m (p :: q :: l)) with ((variable m (fst p) ++ match snd p with 1%nat => [] | e => [TPow e] end) ++ TTimes :: @cache_text F m (q :: l)).
        apply term_times; [apply IH; intros p' Hp'; apply H; right; exact Hp'|apply te_fac; exact Hp].
  Qed.
  Lemma monomial_fn_ok m nu : length nu = m -> vars_ok m -> term (generate_monomial_basis_fn nu) (mpow x nu).
  Proof.
    intros Hn Hm. rewrite (mpow_kprod m nu Hn Hm). unfold generate_monomial_basis_fn. rewrite Hn. destruct (cache_lookup nu monomial_code_cache) as [l|] eqn:E.
    - apply cache_lookup_ok in E. rewrite <- kprod_nonzero. unfold nonzero_entries in E. rewrite Hn in E. rewrite <- E. apply cache_text_ok; [exact Hm|].
      intros [i e] Hp. rewrite E in Hp. apply filter_In in Hp as [Hp Hz]. cbn [fst snd] in *. split.
      + apply in_combine_l in Hp. apply in_seq in Hp. lia.
      + intros ->. discriminate.
    - destruct (Nat.eqb_spec m 1) as [E1|E1].
      + rewrite E1 in *. destruct nu as [|e [|]]; try discriminate. cbn [seq combine hd]. rewrite kprod_cons. cbn [kprod fold_right fst snd].
        rewrite (Rmul_comm (F_R (kth F))), (Rmul_1_l (F_R (kth F))). apply te_fac, str_exponent_ok, at_x, nth_error_nth'. unfold vars_ok in Hm. lia.
      + apply str_multi_product_ok. intros [i e] Hp. apply in_combine_l in Hp. apply in_seq in Hp. cbn [fst snd]. apply te_fac, str_exponent_ok, at_xi, nth_error_nth'.
        unfold vars_ok in Hm. lia.
  Qed.

  (** 1 - x_1 - ... - x_m *)
  Definition bary0 : F := 1 - ksum x (fun v => v).
  Lemma ksum_nth (l : list F) : ksum (seq 0 (length l)) (fun i => nth i l 0) = ksum l (fun v => v).
  Proof.
    induction l as [|v l IH]; [reflexivity|]. cbn [length seq]. rewrite <- seq_shift, !ksum_cons, ksum_map. cbn [nth]. rewrite IH. reflexivity.
  Qed.
  Lemma barycentric_fn_ok m r nu : length nu = m -> vars_ok m ->
    term (generate_barycentric_basis_fn r nu) (mpow x nu * kpow bary0 (r - nsum nu)).
  Proof.
    intros Hn Hm. unfold generate_barycentric_basis_fn. rewrite Hn. pose proof Hm as Hm'. unfold vars_ok in Hm'. destruct (Nat.eqb_spec m 1) as [E1|E1].
    - rewrite E1 in *. destruct nu as [|e [|]]; try discriminate. unfold bary0. destruct x as [|x0 [|]] eqn:Ex; try discriminate.
      rewrite <- Ex in *. cbn [hd]. apply str_product_ok.
      + replace (mpow x [e]) with (kpow x0 e) by (rewrite Ex; cbn [mpow]; ring). apply te_fac, str_exponent_ok, at_x. rewrite Ex. reflexivity.
      + replace (nsum [e]) with e by (cbn; lia). apply te_fac, str_exponent_ok. replace (1 - ksum x (fun v => v)) with (1 - x0) by (rewrite Ex; rewrite ksum_cons, ksum_nil; ring).
        apply (at_par [TNum 1; TMinus; TX]). apply (ex_sub [TNum 1] 1 [TX] x0); [apply fac_expr, fa_atom, at_num|apply te_fac, fa_atom, at_x; rewrite Ex; reflexivity].
    - apply str_product_ok.
      + rewrite (mpow_kprod m nu Hn Hm). apply str_multi_product_ok. intros [i e] Hp. apply in_combine_l in Hp. apply in_seq in Hp. cbn [fst snd].
        apply te_fac, str_exponent_ok, at_xi, nth_error_nth'. lia.
      + apply te_fac, str_exponent_ok, at_par.
        pose (l := ([TNum 1], 1) :: map (fun i => ([TMinus; TXi i], - nth i x 0)) (seq 0 m) : list (code F * F)).
        replace ([TNum 1] :: map (fun i => [TMinus; TXi i]) (seq 0 m)) with (map fst l) by (unfold l; cbn [map fst]; rewrite map_map; reflexivity).
        replace bary0 with (ksum l snd).
        * apply str_multi_sum_ok. intros p [<-|Hp]; [apply fac_expr, fa_atom, at_num|]. apply in_map_iff in Hp as (i & <- & Hi). apply in_seq in Hi. cbn [fst snd].
          apply fac_expr, fa_neg, fa_atom, at_xi, nth_error_nth'. lia.
        * unfold l, bary0. rewrite ksum_cons, ksum_map. cbn [snd]. rewrite ksum_opp. rewrite <- Hm', ksum_nth. ring.
  Qed.

  Lemma Forall2_map_term {A} (c : A -> code F) (f : A -> F) l : (forall p, In p l -> term (c p) (f p)) -> Forall2 term (map c l) (map f l).
  Proof.
    induction l as [|p l IH]; intros H; cbn [map]; constructor; [apply H; left; reflexivity|]. apply IH. intros q Hq. apply H. right. exact Hq.
  Qed.

  (** Horner's scheme. *)
  Fixpoint horner_val (x0 : F) (cv : list F) : F := match cv with [] => 0 | c :: cv' => c + x0 * horner_val x0 cv' end.
  Lemma horner_val_sum x0 cv : forall k, ksum (combine cv (seq k (length cv))) (fun p => fst p * kpow x0 (snd p)) = kpow x0 k * horner_val x0 cv.
  Proof.
    induction cv as [|c cv IH]; intros k; cbn [length seq combine horner_val]; [rewrite ksum_nil; ring|]. rewrite ksum_cons, IH. cbn [fst snd kpow]. ring.
  Qed.
  Lemma horner_rec_ok x0 cs cv : nth_error x 0 = Some x0 -> Forall2 term cs cv -> cs <> [] -> term (horner_rec cs) (x0 * horner_val x0 cv).
  Proof.
    intros Hx H. assert (TXok : term [TX] x0) by (apply te_fac, fa_atom, at_x; exact Hx). induction H as [|c v cs cv H1 H2 IH]; intros Hne; [congruence|]. clear Hne.
    cbn [horner_val]. destruct H2 as [|c' v' cs cv H2 H3].
    - cbn [horner_rec horner_val]. replace (x0 * (v + x0 * 0)) with (x0 * v) by ring. apply str_product_ok; assumption.
    - specialize (IH ltac:(discriminate)). change (horner_rec (c :: c' :: cs)) with
        (let nested := str_sum c (horner_rec (c' :: cs)) in if is0 nested then [TNum 0] else if is1 nested then [TX]
         else if has_sign nested then str_product [TX] (TL :: nested ++ [TR]) else str_product [TX] nested). cbv zeta.
      remember (x0 * horner_val x0 (v' :: cv)) as h eqn:Eh. pose proof (str_sum_ok _ _ _ _ (ex_term _ _ H1) (ex_term _ _ IH)) as HN.
      remember (str_sum c (horner_rec (c' :: cs))) as nested eqn:En. unfold is0, is1. destruct (is_num 0 nested) eqn:E0.
      { rewrite (expr_is_num _ _ _ HN E0). replace (x0 * 0) with (0 : F) by ring. apply te_fac, fa_atom, at_num. }
      destruct (is_num 1 nested) eqn:E1.
      { rewrite (expr_is_num _ _ _ HN E1). replace (x0 * 1) with x0 by ring. exact TXok. }
      destruct (has_sign nested) eqn:E2.
      + apply str_product_ok; [exact TXok|]. apply te_fac, fa_atom, at_par. exact HN.
      + apply str_product_ok; [exact TXok|]. apply unsigned_term; assumption.
  Qed.
  Lemma horner_ok x0 cs cv : nth_error x 0 = Some x0 -> Forall2 term cs cv -> cs <> [] -> expr (horner cs) (horner_val x0 cv).
  Proof.
    intros Hx H Hne. destruct H as [|c v cs cv H1 H2]; [congruence|]. destruct H2 as [|c' v' cs cv H2 H3].
    - cbn [horner horner_val]. replace (v + x0 * 0) with v by ring. apply ex_term, H1.
    - change (horner (c :: c' :: cs)) with (str_sum c (horner_rec (c' :: cs))). cbn [horner_val]. apply str_sum_ok; [apply ex_term, H1|]. apply ex_term.
      apply (horner_rec_ok x0 (c' :: cs) (v' :: cv) Hx); [constructor; assumption|discriminate].
  Qed.

  Lemma all_mi_1 r : all_mi 1 r = map (fun k => [k]) (seq 0 (S r)).
  Proof.
    assert (H : forall i, nth_error (all_mi 1 r) i = nth_error (map (fun k => [k]) (seq 0 (S r))) i); [|].
    2:{ revert H. generalize (all_mi 1 r) (map (fun k => [k]) (seq 0 (S r))). intros l m. revert m. induction l as [|p l IH]; intros [|q m] H; try (specialize (H 0%nat); discriminate); [reflexivity|].
        f_equal; [specialize (H 0%nat); injection H as ->; reflexivity|]. apply IH. intros i. exact (H (S i)). }
    intros i. cbn [all_mi]. cbn [flat_map]. rewrite app_nil_r. replace (r - nsum [])%nat with r by (cbn; lia). reflexivity.
  Qed.

  Theorem monomial_code_ok m r cs cv : vars_ok m -> Forall2 term cs cv -> length cs = length (all_mi m r) ->
    exists ts, monomial_code m r cs = Ok ts /\ run_code a x ts = Ok (ksum (combine cv (all_mi m r)) (fun p => fst p * mpow x (snd p))).
  Proof.
    intros Hm Hc Hl. assert (Hlv : length cv = length cs) by (clear -Hc; induction Hc; cbn; congruence). unfold monomial_code. destruct (Nat.eqb_spec m 1) as [E1|E1].
    - rewrite E1 in *. pose proof Hm as Hm'. unfold vars_ok in Hm'. destruct x as [|x0 [|]] eqn:Ex; try discriminate. eexists. split; [reflexivity|]. rewrite <- Ex in *. apply run_expr.
      replace (ksum _ _) with (horner_val x0 cv).
      + apply horner_ok; [rewrite Ex; reflexivity|exact Hc|]. intros ->. rewrite all_mi_1 in Hl. discriminate.
      + rewrite all_mi_1 in *. rewrite map_length, seq_length in Hl. rewrite <- Hl, <- Hlv.
        replace (combine cv (map (fun k => [k]) (seq 0 (length cv)))) with (map (fun p => (fst p, [snd p])) (combine cv (seq 0 (length cv)))).
        * rewrite ksum_map. cbn [fst snd]. transitivity (kpow x0 0 * horner_val x0 cv); [cbn [kpow]; ring|]. rewrite <- horner_val_sum. apply ksum_ext. intros [c e] _. cbn [fst snd].
          rewrite Ex. cbn [mpow]. ring.
        * generalize (seq 0 (length cv)). clear. induction cv as [|c cv IH]; intros [|k l]; cbn [combine map]; try reflexivity. cbn [fst snd]. f_equal. apply IH.
    - unfold generate_monomial_basis. rewrite generate_all_eq. cbn [bind].
      destruct (str_dot_product_ok cs (map generate_monomial_basis_fn (all_mi m r)) cv (map (mpow x) (all_mi m r)) Hc) as (ts & E & HE).
      + apply Forall2_map_term. intros nu Hnu. apply in_all_mi in Hnu as [Hnu _]. apply (monomial_fn_ok m); assumption.
      + rewrite map_length. exact Hl.
      + exists ts. split; [exact E|]. apply run_expr. replace (ksum _ _) with (ksum (combine cv (map (mpow x) (all_mi m r))) (fun p => fst p * snd p)); [exact HE|].
        replace (combine cv (map (mpow x) (all_mi m r))) with (map (fun p => (fst p, mpow x (snd p))) (combine cv (all_mi m r))); [rewrite ksum_map; reflexivity|].
        generalize (all_mi m r). clear. induction cv as [|c cv IH]; intros [|k l]; cbn [combine map]; try reflexivity. cbn [fst snd]. f_equal. apply IH.
  Qed.
  Theorem barycentric_code_ok m r cs cv : vars_ok m -> Forall2 term cs cv -> length cs = length (all_mi m r) ->
    exists ts, barycentric_code m r cs = Ok ts /\
      run_code a x ts = Ok (ksum (combine cv (all_mi m r)) (fun p => fst p * (mpow x (snd p) * kpow bary0 (r - nsum (snd p))))).
  Proof.
    intros Hm Hc Hl. unfold barycentric_code, generate_barycentric_basis. rewrite generate_all_eq. cbn [bind].
    pose (f := fun nu => mpow x nu * kpow bary0 (r - nsum nu)).
    destruct (str_dot_product_ok cs (map (generate_barycentric_basis_fn r) (all_mi m r)) cv (map f (all_mi m r)) Hc) as (ts & E & HE).
    - apply Forall2_map_term. intros nu Hnu. apply in_all_mi in Hnu as [Hnu _]. apply (barycentric_fn_ok m); assumption.
    - rewrite map_length. exact Hl.
    - exists ts. split; [exact E|]. apply run_expr. replace (ksum _ _) with (ksum (combine cv (map f (all_mi m r))) (fun p => fst p * snd p)); [exact HE|].
      replace (combine cv (map f (all_mi m r))) with (map (fun p => (fst p, f (snd p))) (combine cv (all_mi m r))); [rewrite ksum_map; reflexivity|].
      generalize (all_mi m r). clear. induction cv as [|c cv IH]; intros [|k l]; cbn [combine map]; try reflexivity. cbn [fst snd]. f_equal. apply IH.
  Qed.
  Lemma coeff_numbers_ok (c : list F) : Forall2 term (map str_number c) c.
  Proof. induction c as [|v c IH]; cbn [map]; constructor; [apply te_fac, str_number_ok|exact IH]. Qed.
  Lemma coeff_names_ok n : n = length a -> Forall2 term (coeff_names n) a.
  Proof.
    intros ->. unfold coeff_names.
    assert (G : forall l k, (forall i, i < length l -> nth_error a (k + i) = nth_error l i) -> Forall2 term (map (fun i => [TA i]) (seq k (length l))) l).
    { clear. induction l as [|v l IH]; intros k H; cbn [length seq map]; constructor.
      - apply te_fac, fa_atom, at_a. specialize (H 0%nat ltac:(cbn; lia)). rewrite Nat.add_0_r in H. exact H.
      - apply IH. intros i Hi. specialize (H (S i) ltac:(cbn; lia)). cbn [nth_error] in H. rewrite <- H. f_equal. lia. }
    apply G. intros i _. reflexivity.
  Qed.
End Facts.
