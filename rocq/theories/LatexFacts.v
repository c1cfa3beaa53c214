(** Facts about the reading of LaTeX strings. *)
From Coq Require Import Ascii String Reals QArith Qreals Lia Lra.
From Verif Require Import Base MultiIndex MultiIndexFacts Fld FldInst IntReal CodeGen CodeGenFacts StrUtils Prop_StrUtils NumStr Prop_NumStr MultiCoef MultiCoefFacts Latex LatexRead.
Local Close Scope R_scope.
Local Close Scope Q_scope.
Local Close Scope Z_scope.
Local Close Scope string_scope.
Local Open Scope nat_scope.
Local Open Scope list_scope.

Definition app_toks (l : list ltok) (r : option (list ltok)) : option (list ltok) := match r with Some l' => Some (l ++ l') | None => None end.
Definition boundary (t : str) : Prop := match t with [] => True | c :: _ => c = " "%char \/ c = ")"%char end.
Definition reads (s : str) (l : list ltok) : Prop := forall t, boundary t -> scan Normal (s ++ t) = app_toks l (scan Normal t).

Lemma isnumeric_ok c : is_digit c -> isnumeric c = true.
Proof. intros [H1 H2]. unfold isnumeric. apply andb_true_intro. split; [apply Nat.leb_le, H1|apply Nat.ltb_lt, H2]. Qed.
Lemma digit_neq c a : is_digit c -> ~ is_digit a -> (if ascii_dec c a then true else false) = false.
Proof. intros H N. destruct (ascii_dec c a) as [ -> |Q]; [contradiction|reflexivity]. Qed.
Ltac nodigit := unfold is_digit; vm_compute; lia.
Lemma scan_digit c t : is_digit c -> scan Normal (c :: t) = cons_tok (LDigit (digit_of c)) (scan Normal t).
Proof. intros H. cbn [scan]. destruct (ascii_dec c " ") as [ -> |Q]; [exfalso; revert H; nodigit|]. rewrite (isnumeric_ok c H). reflexivity. Qed.
Lemma scan_space t : scan Normal (" "%char :: t) = scan Normal t. Proof. reflexivity. Qed.
Lemma scan_plus t : scan Normal ("+"%char :: t) = cons_tok LPlus (scan Normal t). Proof. reflexivity. Qed.
Lemma scan_minus t : scan Normal ("-"%char :: t) = cons_tok LMinus (scan Normal t). Proof. reflexivity. Qed.
Lemma scan_slash t : scan Normal ("/"%char :: t) = cons_tok LSlash (scan Normal t). Proof. reflexivity. Qed.
Lemma scan_L t : scan Normal ("("%char :: t) = cons_tok LL (scan Normal t). Proof. reflexivity. Qed.
Lemma scan_R t : scan Normal (")"%char :: t) = cons_tok LR (scan Normal t). Proof. reflexivity. Qed.
Lemma scan_cdot t : scan Normal (lit "\cdot " ++ t) = cons_tok LCdot (scan Normal t). Proof. reflexivity. Qed.
Lemma starts_false p s : (forall b, s = p ++ b -> False) -> startswith p s = false.
Proof. intros H. destruct (startswith p s) eqn:S; [|reflexivity]. apply startswith_ok in S as (b & S). destruct (H b S). Qed.
Lemma scan_x t : match t with [] => True | c :: _ => c <> "_"%char end -> scan Normal ("x"%char :: t) = cons_tok (LVar 0) (scan Normal t).
Proof.
  intros H. destruct t as [|c t]; [reflexivity|].
  assert (S1 : startswith (lit "x_{") ("x"%char :: c :: t) = false) by (apply starts_false; intros b S; injection S; intros; subst; contradiction).
  assert (S2 : startswith (lit "x_") ("x"%char :: c :: t) = false) by (apply starts_false; intros b S; injection S; intros; subst; contradiction).
  change (scan Normal ("x"%char :: c :: t)) with (if startswith (lit "x_{") ("x"%char :: c :: t) then scan (Skip 2 (Subscript 0)) (c :: t) else if startswith (lit "x_") ("x"%char :: c :: t) then match t with d :: _ => if isnumeric d then cons_tok (LVar (digit_of d)) (scan (Skip 2 Normal) (c :: t)) else None | _ => None end else cons_tok (LVar 0) (scan Normal (c :: t))).
  rewrite S1, S2. reflexivity.
Qed.
Lemma scan_var d t : is_digit d -> scan Normal (lit "x_" ++ d :: t) = cons_tok (LVar (digit_of d)) (scan Normal t).
Proof.
  intros H. change (lit "x_" ++ d :: t) with ("x"%char :: "_"%char :: d :: t).
  assert (S1 : startswith (lit "x_{") ("x"%char :: "_"%char :: d :: t) = false) by (apply starts_false; intros b S; injection S; intros; subst; revert H; nodigit).
  change (scan Normal ("x"%char :: "_"%char :: d :: t)) with (if startswith (lit "x_{") ("x"%char :: "_"%char :: d :: t) then scan (Skip 2 (Subscript 0)) ("_"%char :: d :: t) else if isnumeric d then cons_tok (LVar (digit_of d)) (scan Normal t) else None).
  rewrite S1, (isnumeric_ok d H). reflexivity.
Qed.
Lemma scan_pow d t : is_digit d -> scan Normal ("^"%char :: d :: t) = cons_tok (LPow (digit_of d)) (scan Normal t).
Proof.
  intros H. assert (S1 : startswith (lit "^{") ("^"%char :: d :: t) = false) by (apply starts_false; intros b S; injection S; intros; subst; revert H; nodigit).
  change (scan Normal ("^"%char :: d :: t)) with (if startswith (lit "^{") ("^"%char :: d :: t) then scan (Skip 1 (Exponent 0)) (d :: t) else if isnumeric d then cons_tok (LPow (digit_of d)) (scan Normal t) else None).
  rewrite S1, (isnumeric_ok d H). reflexivity.
Qed.
Definition from (n : nat) (s : str) : nat := fold_left (fun a c => 10 * a + value_digit c) s n.
Lemma scan_numerator s : (forall c, In c s -> is_digit c) -> forall n t, scan (Numerator n) (s ++ t) = scan (Numerator (from n s)) t.
Proof. induction s as [|c s IH]; intros H n t; [reflexivity|]. cbn [app scan]. rewrite (isnumeric_ok c) by (apply H; now left). rewrite IH by (intros; apply H; now right). reflexivity. Qed.
Lemma scan_denominator s : (forall c, In c s -> is_digit c) -> forall k n t, scan (Denominator k n) (s ++ t) = scan (Denominator k (from n s)) t.
Proof. induction s as [|c s IH]; intros H k n t; [reflexivity|]. cbn [app scan]. rewrite (isnumeric_ok c) by (apply H; now left). rewrite IH by (intros; apply H; now right). reflexivity. Qed.
Lemma scan_frac a b t : (forall c, In c a -> is_digit c) -> (forall c, In c b -> is_digit c) ->
  scan Normal (lit "\frac{" ++ a ++ lit "}{" ++ b ++ lit "}" ++ t) = cons_tok (LFrac (denotes a) (denotes b)) (scan Normal t).
Proof.
  intros Ha Hb. change (scan Normal (lit "\frac{" ++ a ++ lit "}{" ++ b ++ lit "}" ++ t)) with (scan (Numerator 0) (a ++ lit "}{" ++ b ++ lit "}" ++ t)).
  rewrite (scan_numerator a Ha). change (from 0 a) with (denotes a). change (scan (Numerator (denotes a)) (lit "}{" ++ b ++ lit "}" ++ t)) with (scan (Denominator (denotes a) 0) (b ++ lit "}" ++ t)).
  rewrite (scan_denominator b Hb). reflexivity.
Qed.

Lemma app_toks_nil r : app_toks [] r = r. Proof. destruct r; reflexivity. Qed.
Lemma app_toks_cons t l r : app_toks (t :: l) r = cons_tok t (app_toks l r). Proof. destruct r; reflexivity. Qed.
Lemma app_toks_app l l' r : app_toks (l ++ l') r = app_toks l (app_toks l' r). Proof. destruct r; cbn; [rewrite <- app_assoc|]; reflexivity. Qed.
Lemma cons_tok_app t r : cons_tok t r = app_toks [t] r. Proof. destruct r; reflexivity. Qed.
Lemma reads_digits s : (forall c, In c s -> is_digit c) -> forall t, scan Normal (s ++ t) = app_toks (map (fun c => LDigit (digit_of c)) s) (scan Normal t).
Proof. induction s as [|c s IH]; intros H t; [rewrite app_toks_nil; reflexivity|]. cbn [app map]. rewrite scan_digit by (apply H; now left). rewrite IH by (intros; apply H; now right). rewrite app_toks_cons. reflexivity. Qed.
Lemma reads_space s s' l l' : reads s l -> reads s' l' -> reads (s ++ lit " " ++ s') (l ++ l').
Proof. intros H H' t B. rewrite <- !app_assoc. rewrite H by (now left). change (lit " " ++ s' ++ t) with (" "%char :: s' ++ t). rewrite scan_space, H' by exact B. rewrite app_toks_app. reflexivity. Qed.
Lemma reads_op c k s s' l l' : (forall t, scan Normal (c :: t) = cons_tok k (scan Normal t)) -> reads s l -> reads s' l' -> reads (s ++ (" "%char :: c :: " "%char :: s')) (l ++ k :: l').
Proof. intros C H H' t B. rewrite <- !app_assoc. cbn [app]. rewrite H by (now left). rewrite scan_space, C, scan_space, H' by exact B. rewrite app_toks_app, app_toks_cons. reflexivity. Qed.
Lemma reads_cdot s s' l l' : reads s l -> reads s' l' -> reads (s ++ lit " " ++ lit "\cdot" ++ lit " " ++ s') (l ++ LCdot :: l').
Proof. intros H H' t B. rewrite <- !app_assoc. rewrite H by (now left). change (lit " " ++ lit "\cdot" ++ lit " " ++ s' ++ t) with (" "%char :: lit "\cdot " ++ (s' ++ t)). rewrite scan_space, scan_cdot, H' by exact B. rewrite app_toks_app, app_toks_cons. reflexivity. Qed.
Lemma reads_minus s l : reads s l -> reads (lit "-" ++ s) (LMinus :: l).
Proof. intros H t B. change ((lit "-" ++ s) ++ t) with ("-"%char :: s ++ t). rewrite scan_minus, H by exact B. rewrite app_toks_cons. reflexivity. Qed.
Lemma reads_minus_inv s l : reads (lit "-" ++ s) l -> exists l', l = LMinus :: l' /\ reads s l'.
Proof.
  intros H. pose proof (H [] I) as H0. rewrite app_nil_r in H0. change (lit "-" ++ s) with ("-"%char :: s) in *. rewrite scan_minus in H0. cbn [scan app_toks] in H0. rewrite app_nil_r in H0. destruct (scan Normal s) as [l'|] eqn:E; [|discriminate]. injection H0 as <-. exists l'. split; [reflexivity|].
  intros t B. specialize (H t B). change (("-"%char :: s) ++ t) with ("-"%char :: s ++ t) in H. rewrite scan_minus, app_toks_cons in H. destruct (scan Normal (s ++ t)), (app_toks l' (scan Normal t)); cbn in H; congruence.
Qed.
Lemma reads_paren s l : reads s l -> forall t, scan Normal (lit "(" ++ s ++ lit ")" ++ t) = app_toks (LL :: l ++ [LR]) (scan Normal t).
Proof. intros H t. change (lit "(" ++ s ++ lit ")" ++ t) with ("("%char :: s ++ (")"%char :: t)). rewrite scan_L, H by (now right). rewrite scan_R. destruct (scan Normal t); cbn [cons_tok app_toks]; [cbn [app]; rewrite <- app_assoc|]; reflexivity. Qed.
Lemma reads_unique s l l' : reads s l -> reads s l' -> l = l'.
Proof. intros H H'. specialize (H [] I). specialize (H' [] I). rewrite H in H'. cbn in H'. rewrite !app_nil_r in H'. congruence. Qed.

Lemma read_app l : forall st l', read st (l ++ l') = (fst (read st l) ++ fst (read (snd (read st l)) l'), snd (read (snd (read st l)) l')).
Proof.
  induction l as [|t l IH]; intros st l'; cbn [app read fst snd]; [destruct (read st l'); reflexivity|]. destruct (read_step st t) as [c s]. rewrite IH. destruct (read s l) as [c1 s1]. cbn [fst snd]. rewrite <- app_assoc. reflexivity.
Qed.
Definition starter (l : list ltok) : Prop := match l with LVar _ :: _ | LFrac _ _ :: _ | LL :: _ => True | _ => False end.
Lemma read_starter l st : starter l -> read st l = (flush st ++ times st ++ fst (read St0 l), snd (read St0 l)).
Proof.
  destruct l as [|t l]; [intros []|]. destruct t; intros []; cbn [read read_step]; destruct (read _ l) as [c s]; cbn [fst snd flush times app]; rewrite <- !app_assoc; reflexivity.
Qed.
Lemma read_digits s : (forall c, In c s -> is_digit c) -> forall n, read (StN n) (map (fun c => LDigit (digit_of c)) s) = ([], StN (from n s)).
Proof. induction s as [|c s IH]; intros H n; [reflexivity|]. cbn [map read read_step]. rewrite IH by (intros; apply H; now right). reflexivity. Qed.
Lemma read_numeral s : s <> [] -> (forall c, In c s -> is_digit c) -> read St0 (map (fun c => LDigit (digit_of c)) s) = ([], StN (denotes s)).
Proof. intros N H. destruct s as [|c s]; [contradiction|]. cbn [map read read_step]. rewrite read_digits by (intros; apply H; now right). reflexivity. Qed.

Section Means.
  Context (x : list R).
  Notation TERM := (term (F := RF) [] x).
  Notation EXPR := (expr (F := RF) [] x).
  Notation FAC := (fac (F := RF) [] x).
  Definition means_expr (s : str) (v : R) : Prop := exists l c st, reads s l /\ read St0 l = (c, st) /\ st <> St0 /\ EXPR (c ++ flush st) v.
  Definition means_term (s : str) (v : R) : Prop := exists l c st, reads s l /\ read St0 l = (c, st) /\ st <> St0 /\ TERM (c ++ flush st) v.
  Lemma means_value s v : means_expr s v -> latex_value x s = Ok v.
  Proof. intros (l & c & st & H & E & _ & P). unfold latex_value. specialize (H [] I). rewrite app_nil_r in H. rewrite H. cbn [scan app_toks]. rewrite app_nil_r, E. exact (run_expr (F := RF) [] x _ v P). Qed.
  Lemma means_te s v : means_term s v -> means_expr s v.
  Proof. intros (l & c & st & H & E & N & P). exists l, c, st. split; [exact H|]. split; [exact E|]. split; [exact N|]. exact (ex_term (F := RF) [] x _ v P). Qed.
  Lemma means_numeral s : s <> [] -> (forall c, In c s -> is_digit c) -> means_term s (INR (denotes s)).
  Proof.
    intros N H. exists (map (fun c => LDigit (digit_of c)) s), [], (StN (denotes s)). split; [intros t _; apply reads_digits, H|]. split; [apply read_numeral; assumption|]. split; [discriminate|]. exact (te_fac (F := RF) [] x _ _ (fa_atom (F := RF) [] x _ _ (at_num (F := RF) [] x _))).
  Qed.
  Lemma means_digit d v : is_digit d -> means_expr [d] v -> v = INR (digit_of d).
  Proof.
    intros Hd (l & c & st & H & E & _ & P). assert (L : l = [LDigit (digit_of d)]).
    { apply (reads_unique [d]); [exact H|]. intros t _. apply (reads_digits [d]). intros c' [ <- |[]]. exact Hd. }
    subst l. cbn in E. injection E as <- <-. cbn [app flush] in P. exact (expr_num (F := RF) [] x _ _ P).
  Qed.
  Lemma means_zero v : means_expr (lit "0") v -> v = 0%R.
  Proof. intros H. apply means_digit in H; [exact H|nodigit]. Qed.
  Lemma means_one v : means_expr (lit "1") v -> v = 1%R.
  Proof. intros H. apply means_digit in H; [exact H|nodigit]. Qed.
  Lemma str_eqb_ok s t : str_eqb s t = true -> s = t.
  Proof. unfold str_eqb. destruct (list_eq_dec ascii_dec s t); congruence. Qed.
  Lemma minus_head s : startswith (lit "-") s = true -> s = lit "-" ++ tl s.
  Proof. intros H. apply startswith_ok in H as (b & ->). reflexivity. Qed.
  Lemma means_minus s v : means_term s v -> means_term (lit "-" ++ s) (- v)%R.
  Proof.
    intros (l & c & st & H & E & N & P). exists (LMinus :: l), (TMinus :: c), st. split; [apply reads_minus, H|]. split; [cbn [read read_step flush app]; rewrite E; reflexivity|]. split; [exact N|]. apply (term_minus (F := RF) [] x _ v). exact P.
  Qed.
  Lemma means_minus_inv s v : means_term (lit "-" ++ s) v -> means_term s (- v)%R.
  Proof.
    intros (l & c & st & H & E & N & P). apply reads_minus_inv in H as (l' & -> & H). cbn [read read_step flush app] in E. destruct (read St0 l') as [c' st'] eqn:E'. injection E as <- ->. cbn [app] in P. apply (term_cons_minus (F := RF)) in P as (w & P & EV). exists l', c', st. split; [exact H|]. split; [exact E'|]. split; [exact N|]. replace (- v)%R with w; [exact P|]. rewrite EV. symmetry. exact (Ropp_involutive w).
  Qed.
  Lemma means_sum s t v w : means_expr s v -> means_expr t w -> means_expr (str_sum s t) (v + w)%R.
  Proof.
    intros Hs Ht. unfold str_sum. destruct (str_eqb s (lit "0")) eqn:E0; [apply str_eqb_ok in E0; subst s; apply means_zero in Hs; subst v; rewrite Rplus_0_l; exact Ht|].
    destruct (str_eqb t (lit "0")) eqn:E1; [apply str_eqb_ok in E1; subst t; apply means_zero in Ht; subst w; rewrite Rplus_0_r; exact Hs|].
    destruct Hs as (l & c & st & H & E & N & P). destruct Ht as (l' & c' & st' & H' & E' & N' & P'). destruct (startswith (lit "-") t) eqn:M.
    - pose proof (minus_head t M) as EM. rewrite EM in H'. apply reads_minus_inv in H' as (l2 & -> & H2). cbn [read read_step flush app] in E'. destruct (read St0 l2) as [c2 st2] eqn:E2. injection E' as <- ->.
      exists (l ++ LMinus :: l2), (c ++ flush st ++ TMinus :: c2), st'. split; [apply (reads_op "-" LMinus s (tl t)); [apply scan_minus|exact H|exact H2]|]. split.
      + rewrite read_app, E. cbn [fst snd read read_step]. rewrite E2. cbn [fst snd]. rewrite <- !app_assoc. reflexivity.
      + split; [exact N'|]. rewrite <- !app_assoc. cbn [app]. rewrite app_assoc. apply (expr_minus (F := RF) [] x _ w P' _ eq_refl _ v P).
    - exists (l ++ LPlus :: l'), (c ++ flush st ++ TPlus :: c'), st'. split; [apply (reads_op "+" LPlus s t); [apply scan_plus|exact H|exact H']|]. split.
      + rewrite read_app, E. cbn [fst snd read read_step]. rewrite E'. cbn [fst snd]. rewrite <- !app_assoc. reflexivity.
      + split; [exact N'|]. rewrite <- !app_assoc. cbn [app]. rewrite app_assoc. apply (expr_plus (F := RF) [] x _ w P' _ v P).
  Qed.
  (** strings that may stand after another factor *)
  Inductive joinable : str -> Prop :=
  | joinable_0 : joinable (lit "0")
  | joinable_1 : joinable (lit "1")
  | joinable_head s l : reads s l -> starter l -> joinable s
  | joinable_minus s : joinable s -> joinable (lit "-" ++ s).
  Lemma joinable_minus_inv s : joinable (lit "-" ++ s) -> joinable s.
  Proof.
    intros H. inversion H as [E|E|s' l R S E|s' J E]; subst.
    - apply reads_minus_inv in R as (l' & -> & _). destruct S.
    - exact J.
  Qed.
  Lemma means_juxtapose s t v w l' : means_term s v -> means_term t w -> reads t l' -> starter l' -> means_term (s ++ lit " " ++ t) (v * w)%R.
  Proof.
    intros (l & c & st & H & E & N & P) (l2 & c' & st' & H2 & E' & N' & P') H' S. rewrite (reads_unique _ _ _ H2 H') in E'. clear H2 l2.
    exists (l ++ l'), (c ++ flush st ++ TTimes :: c'), st'. split; [apply reads_space; assumption|]. split.
    - rewrite read_app, E. cbn [fst snd]. rewrite (read_starter l' st S), E'. cbn [fst snd]. destruct st; [contradiction| |]; reflexivity.
    - split; [exact N'|]. rewrite <- !app_assoc. cbn [app]. rewrite app_assoc. apply (term_times (F := RF) [] x _ w P' _ v P).
  Qed.
  Lemma means_cdot s t v w : means_term s v -> means_term t w -> means_term (s ++ lit " " ++ lit "\cdot" ++ lit " " ++ t) (v * w)%R.
  Proof.
    intros (l & c & st & H & E & N & P) (l' & c' & st' & H' & E' & N' & P').
    exists (l ++ LCdot :: l'), (c ++ flush st ++ TTimes :: c'), st'. split; [apply reads_cdot; assumption|]. split.
    - rewrite read_app, E. cbn [fst snd read read_step]. rewrite E'. cbn [fst snd]. rewrite <- !app_assoc. reflexivity.
    - split; [exact N'|]. rewrite <- !app_assoc. cbn [app]. rewrite app_assoc. apply (term_times (F := RF) [] x _ w P' _ v P).
  Qed.
  Lemma means_product_fuel mc f : forall s t v w, length s + length t < f -> means_term s v -> means_term t w -> (mc = lit "\cdot" \/ mc = [] /\ joinable t) -> means_term (str_product_fuel f s t mc) (v * w)%R.
  Proof.
    induction f as [|f IH]; intros s t v w Hf Hs Ht J; [lia|]. cbn [str_product_fuel].
    destruct (str_eqb s (lit "0")) eqn:E0; [apply str_eqb_ok in E0; subst s; pose proof (means_zero _ (means_te _ _ Hs)); subst v; rewrite Rmult_0_l; exact Hs|].
    destruct (str_eqb t (lit "0")) eqn:E1; [apply str_eqb_ok in E1; subst t; pose proof (means_zero _ (means_te _ _ Ht)); subst w; rewrite Rmult_0_r; exact Ht|]. cbn [orb].
    destruct (str_eqb s (lit "1")) eqn:E2; [apply str_eqb_ok in E2; subst s; pose proof (means_one _ (means_te _ _ Hs)); subst v; rewrite Rmult_1_l; exact Ht|].
    destruct (str_eqb t (lit "1")) eqn:E3; [apply str_eqb_ok in E3; subst t; pose proof (means_one _ (means_te _ _ Ht)); subst w; rewrite Rmult_1_r; exact Hs|].
    destruct (startswith (lit "-") s) eqn:Ms; [pose proof (minus_head s Ms) as Es|]; (destruct (startswith (lit "-") t) eqn:Mt; [pose proof (minus_head t Mt) as Et|]).
    - replace (v * w)%R with (- v * - w)%R by ring. apply IH; [rewrite Es, Et in Hf; rewrite !app_length in Hf; cbn in Hf; lia|apply means_minus_inv; rewrite <- Es; exact Hs|apply means_minus_inv; rewrite <- Et; exact Ht|]. destruct J as [J|[J1 J2]]; [left; exact J|right; split; [exact J1|apply joinable_minus_inv; rewrite <- Et; exact J2]].
    - replace (v * w)%R with (- (- v * w))%R by ring. apply means_minus, IH; [rewrite Es in Hf; rewrite !app_length in Hf; cbn in Hf; lia|apply means_minus_inv; rewrite <- Es; exact Hs|exact Ht|exact J].
    - replace (v * w)%R with (- (v * - w))%R by ring. apply means_minus, IH; [rewrite Et in Hf; rewrite !app_length in Hf; cbn in Hf; lia|exact Hs|apply means_minus_inv; rewrite <- Et; exact Ht|]. destruct J as [J|[J1 J2]]; [left; exact J|right; split; [exact J1|apply joinable_minus_inv; rewrite <- Et; exact J2]].
    - destruct J as [ -> |[ -> J]].
      + change (negb (str_eqb (lit "\cdot") [])) with true. cbn iota. apply means_cdot; assumption.
      + change (negb (str_eqb [] [])) with false. cbn iota. destruct J as [| |t l R S|t J]; [discriminate E1|discriminate E3|apply (means_juxtapose s t v w l); assumption|discriminate Mt].
  Qed.
  Lemma means_product s t v w mc : means_term s v -> means_term t w -> (mc = lit "\cdot" \/ mc = [] /\ joinable t) -> means_term (str_product s t mc) (v * w)%R.
  Proof. intros. apply means_product_fuel; auto. Qed.
  (** the dot product of two lists *)
  Lemma means_dot cs bs cv bv : Forall2 means_term cs cv -> Forall2 (fun b v => means_term b v /\ joinable b) bs bv -> length cs = length bs ->
    exists text, str_dot_product cs bs [] = Ok text /\ means_expr text (ksum (F := RF) (combine cv bv) (fun p => fst p * snd p)%R).
  Proof.
    intros Hc Hb E. unfold str_dot_product. rewrite E, Nat.eqb_refl. eexists. split; [reflexivity|].
    assert (G : forall cs cv, Forall2 means_term cs cv -> forall bs bv, Forall2 (fun b v => means_term b v /\ joinable b) bs bv -> length cs = length bs -> forall s v, means_expr s v ->
      means_expr (fold_left (fun res p => str_sum res (str_product (fst p) (snd p) [])) (combine cs bs) s) (v + ksum (F := RF) (combine cv bv) (fun p => fst p * snd p)%R)%R).
    { clear. induction 1 as [|c v cs cv H1 H2 IH]; intros bs bv Hb E s u Hs.
      - cbn [combine fold_left]. change (ksum (F := RF) (combine [] bv) (fun p => fst p * snd p)%R) with 0%R. rewrite Rplus_0_r. exact Hs.
      - destruct Hb as [|b w bs bv [Hb1 Jb] Hb2]; [discriminate|]. cbn [combine fold_left fst snd]. rewrite ksum_cons. cbn [fst snd].
        change (u + @kadd RF (v * w)%R (ksum (F := RF) (combine cv bv) (fun p => fst p * snd p)%R))%R with (u + (v * w + ksum (F := RF) (combine cv bv) (fun p => fst p * snd p)%R))%R. rewrite <- Rplus_assoc.
        apply IH; [exact Hb2|cbn in E; lia|]. apply means_sum; [exact Hs|]. apply means_te, means_product; auto. }
    assert (Z : means_expr (lit "0") 0%R); [|pose proof (G cs cv Hc bs bv Hb E _ _ Z) as G'; rewrite Rplus_0_l in G'; exact G']. apply means_te. apply (means_numeral (lit "0")); [discriminate|]. intros c [ <- |[]]. nodigit.
  Qed.
End Means.
