(** Properties of the compact LaTeX strings and of the strings of all basis functions. *)
From Coq Require Import Ascii String QArith Qcanon.
From Verif Require Import Base MultiIndex MultiIndexFacts StrUtils NumStr Fld FldInst MultiCoef Poly PolyFacts PolyOps Latex LatexCompact Prop_StrUtils.
Local Close Scope string_scope.
Local Close Scope Q_scope.
Local Close Scope Qc_scope.
Local Open Scope nat_scope.
Local Open Scope list_scope.

(** ** Unique decomposition of strings *)
Section Span.
  Context (P : ascii -> Prop).
  Definition stops (s : str) : Prop := match s with [] => True | c :: _ => ~ P c end.
  Lemma span_eq a : forall a' s s', (forall c, In c a -> P c) -> (forall c, In c a' -> P c) -> stops s -> stops s' -> a ++ s = a' ++ s' -> a = a' /\ s = s'.
  Proof.
    induction a as [|c a IH]; intros [|c' a'] s s' Ha Ha' Hs Hs' E; cbn [app] in E.
    - auto.
    - exfalso. subst s. exact (Hs (Ha' c' (or_introl eq_refl))).
    - exfalso. subst s'. exact (Hs' (Ha c (or_introl eq_refl))).
    - injection E as <- E. destruct (IH a' s s') as [-> ->]; auto; intros d Hd; [apply Ha|apply Ha']; now right.
  Qed.
End Span.
Lemma str_nat_digits n c : In c (str_nat n) -> is_digit c.
Proof. apply (C111_numerals n). Qed.
Lemma str_nat_inj a b : str_nat a = str_nat b -> a = b.
Proof. intros E. rewrite <- (proj1 (C111_numerals a)), <- (proj1 (C111_numerals b)), E. reflexivity. Qed.
Lemma str_nat_app a b s s' : stops is_digit s -> stops is_digit s' -> str_nat a ++ s = str_nat b ++ s' -> a = b /\ s = s'.
Proof. intros H H' E. apply (span_eq is_digit) in E; [|apply str_nat_digits|apply str_nat_digits|exact H|exact H']. destruct E as [E ->]. apply str_nat_inj in E. auto. Qed.
Ltac nodigit := cbn; unfold is_digit; vm_compute; lia.

(** numbers separated by ", " and closed by ")" *)
Lemma tuple_body nu : forall nu' s s', join (lit ", ") (map str_nat nu) ++ lit ")" ++ s = join (lit ", ") (map str_nat nu') ++ lit ")" ++ s' -> nu = nu' /\ s = s'.
Proof.
  assert (NE : forall a s s', str_nat a ++ s = lit ")" ++ s' -> False).
  { intros a s s' E. destruct (C111_numerals a) as (_ & D & N & _). destruct (str_nat a) as [|c t]; [contradiction|]. specialize (D c (or_introl eq_refl)). injection E as -> _. revert D. nodigit. }
  induction nu as [|a nu IH]; intros [|b nu'] s s' E; cbn [map join] in E.
  - injection E. auto.
  - exfalso. symmetry in E. destruct (map str_nat nu'); rewrite ?app_assoc_reverse in E; apply NE in E; exact E.
  - exfalso. destruct (map str_nat nu); rewrite ?app_assoc_reverse in E; apply NE in E; exact E.
  - destruct nu as [|a2 nu]; destruct nu' as [|b2 nu']; cbn [map] in *.
    + apply str_nat_app in E as [-> E]; [|nodigit|nodigit]. injection E. auto.
    + rewrite <- !app_assoc in E. apply str_nat_app in E as [-> E]; [|nodigit|nodigit]. discriminate E.
    + rewrite <- !app_assoc in E. apply str_nat_app in E as [-> E]; [|nodigit|nodigit]. discriminate E.
    + rewrite <- !app_assoc in E. apply str_nat_app in E as [-> E]; [|nodigit|nodigit]. apply app_inv_head in E. apply (IH (b2 :: nu')) in E as [E ->]. injection E as -> ->. auto.
Qed.
Lemma str_tuple_general nu : length nu <> 1 -> str_tuple nu = lit "(" ++ join (lit ", ") (map str_nat nu) ++ lit ")".
Proof. destruct nu as [|a [|b nu]]; [reflexivity| |reflexivity]. intros H. now contradiction H. Qed.
Lemma str_tuple_app nu nu' s s' : length nu <> 1 -> length nu' <> 1 -> str_tuple nu ++ s = str_tuple nu' ++ s' -> nu = nu' /\ s = s'.
Proof. intros H H' E. rewrite !str_tuple_general in E by assumption. rewrite <- !app_assoc in E. apply app_inv_head in E. exact (tuple_body _ _ _ _ E). Qed.
Lemma single_or (nu : list nat) : (exists a, nu = [a]) \/ length nu <> 1.
Proof. destruct nu as [|a [|b nu]]; [right; discriminate|left; now exists a|right; discriminate]. Qed.

Definition compact_power (e : nat) : str := match e with 0 => lit "1" | 1 => lit "x" | _ => lit "x^" ++ str_nat e end.
Lemma monomial_one e : monomial_basis_fn_latex_compact [e] = compact_power e.
Proof. destruct e as [|[|e]]; reflexivity. Qed.
Lemma monomial_many nu : length nu <> 1 -> monomial_basis_fn_latex_compact nu = lit "x^{" ++ str_tuple nu ++ lit "}".
Proof. destruct nu as [|a [|b nu]]; intros H; [reflexivity|now contradiction H|]. cbn [monomial_basis_fn_latex_compact]. destruct a as [|[|a]]; reflexivity. Qed.
Lemma compact_power_inj a b : compact_power a = compact_power b -> a = b.
Proof.
  destruct a as [|[|a]]; destruct b as [|[|b]]; cbn [compact_power]; intros E; try reflexivity; try discriminate E. apply app_inv_head in E. exact (str_nat_inj _ _ E).
Qed.
Lemma compact_power_many e s : compact_power e = lit "x^{" ++ s -> False.
Proof.
  destruct e as [|[|e]]; cbn [compact_power]; intros E; try discriminate E. destruct (C111_numerals (S (S e))) as (_ & D & N & _). destruct (str_nat (S (S e))) as [|c t]; [contradiction|]. specialize (D c (or_introl eq_refl)). injection E as -> _. revert D. nodigit.
Qed.
Lemma monomial_compact_inj nu nu' : monomial_basis_fn_latex_compact nu = monomial_basis_fn_latex_compact nu' -> nu = nu'.
Proof.
  destruct (single_or nu) as [[a ->]|H]; destruct (single_or nu') as [[b ->]|H']; rewrite ?monomial_one, ?(monomial_many nu), ?(monomial_many nu') by assumption; intros E.
  - f_equal. exact (compact_power_inj _ _ E).
  - exfalso. exact (compact_power_many _ _ E).
  - exfalso. symmetry in E. exact (compact_power_many _ _ E).
  - apply app_inv_head in E. now apply str_tuple_app in E.
Qed.
Lemma letter_one c e r : letter_compact c [e] r = c ++ lit "_{" ++ str_nat e ++ lit ", " ++ str_nat r ++ lit "}(x)".
Proof. reflexivity. Qed.
Lemma letter_many c nu r : length nu <> 1 -> letter_compact c nu r = c ++ lit "_{" ++ str_tuple nu ++ lit ", " ++ str_nat r ++ lit "}(x)".
Proof. destruct nu as [|a [|b nu]]; intros H; [reflexivity|now contradiction H|reflexivity]. Qed.
Lemma digit_not_tuple a nu s s' : length nu <> 1 -> str_nat a ++ s = str_tuple nu ++ s' -> False.
Proof. intros H E. rewrite str_tuple_general in E by assumption. destruct (C111_numerals a) as (_ & D & N & _). destruct (str_nat a) as [|c t]; [contradiction|]. specialize (D c (or_introl eq_refl)). injection E as -> _. revert D. nodigit. Qed.
Lemma letter_inj c nu nu' r r' : letter_compact c nu r = letter_compact c nu' r' -> nu = nu' /\ r = r'.
Proof.
  assert (R : forall s s' : nat, lit ", " ++ str_nat s ++ lit "}(x)" = lit ", " ++ str_nat s' ++ lit "}(x)" -> s = s').
  { intros s s' E. apply app_inv_head in E. apply str_nat_app in E; [tauto|nodigit|nodigit]. }
  destruct (single_or nu) as [[a ->]|H]; destruct (single_or nu') as [[b ->]|H']; rewrite ?letter_one, ?(letter_many c nu), ?(letter_many c nu') by assumption; intros E; apply app_inv_head, app_inv_head in E.
  - apply str_nat_app in E as [-> E]; [|nodigit|nodigit]. auto.
  - exfalso. exact (digit_not_tuple _ _ _ _ H' E).
  - exfalso. symmetry in E. exact (digit_not_tuple _ _ _ _ H E).
  - apply str_tuple_app in E as [-> E]; auto.
Qed.

(** ** C117: compact strings *)
Definition known (basis : str) : Prop := basis = lit "monomial" \/ basis = lit "Lagrange" \/ basis = lit "Bernstein".
(** A compact string tells the basis, the multi-index with its length, and, for the bases that depend on it, the degree. *)
Theorem C117_compact_injective : forall basis basis' nu nu' r r' text,
  polynomial_basis_fn_latex_compact nu r basis = Ok text -> polynomial_basis_fn_latex_compact nu' r' basis' = Ok text ->
  basis = basis' /\ nu = nu' /\ (basis <> lit "monomial" -> r = r').
Proof.
  intros b b' nu nu' r r' t. unfold polynomial_basis_fn_latex_compact, str_eqb.
  assert (L1 : forall nu r nu' r', lagrange_basis_fn_latex_compact nu r = bernstein_basis_fn_latex_compact nu' r' -> False).
  { clear. intros nu r nu' r'. unfold lagrange_basis_fn_latex_compact, bernstein_basis_fn_latex_compact, letter_compact. destruct nu as [|a [|b nu]]; destruct nu' as [|a' [|b' nu']]; intros E; discriminate E. }
  assert (L2 : forall nu c nu' r', c = lit "l" \/ c = lit "b" -> monomial_basis_fn_latex_compact nu = letter_compact c nu' r' -> False).
  { clear. intros nu c nu' r' Hc. destruct (single_or nu) as [[a ->]|H]; [rewrite monomial_one|rewrite monomial_many by assumption]; unfold letter_compact; destruct nu' as [|a' [|b' nu']]; destruct Hc as [-> | ->]; try (intros E; discriminate E); destruct a as [|[|a]]; intros E; discriminate E. }
  destruct (list_eq_dec ascii_dec b (lit "monomial")) as [->|N1].
  - intros [= <-]. destruct (list_eq_dec ascii_dec b' (lit "monomial")) as [->|_]; [intros [= E]; apply monomial_compact_inj in E; subst; tauto|].
    destruct (list_eq_dec ascii_dec b' (lit "Lagrange")) as [_|_]; [intros [= E]; exfalso; symmetry in E; exact (L2 _ _ _ _ (or_introl eq_refl) E)|].
    destruct (list_eq_dec ascii_dec b' (lit "Bernstein")) as [_|_]; [intros [= E]; exfalso; symmetry in E; exact (L2 _ _ _ _ (or_intror eq_refl) E)|discriminate].
  - destruct (list_eq_dec ascii_dec b (lit "Lagrange")) as [->|N2].
    + intros [= <-]. destruct (list_eq_dec ascii_dec b' (lit "monomial")) as [_|_]; [intros [= E]; exfalso; exact (L2 _ _ _ _ (or_introl eq_refl) E)|].
      destruct (list_eq_dec ascii_dec b' (lit "Lagrange")) as [->|_]; [intros [= E]; apply letter_inj in E as [-> ->]; auto|].
      destruct (list_eq_dec ascii_dec b' (lit "Bernstein")) as [_|_]; [intros [= E]; exfalso; symmetry in E; exact (L1 _ _ _ _ E)|discriminate].
    + destruct (list_eq_dec ascii_dec b (lit "Bernstein")) as [->|N3]; [|discriminate].
      intros [= <-]. destruct (list_eq_dec ascii_dec b' (lit "monomial")) as [_|_]; [intros [= E]; exfalso; exact (L2 _ _ _ _ (or_intror eq_refl) E)|].
      destruct (list_eq_dec ascii_dec b' (lit "Lagrange")) as [_|_]; [intros [= E]; exfalso; exact (L1 _ _ _ _ E)|].
      destruct (list_eq_dec ascii_dec b' (lit "Bernstein")) as [->|_]; [intros [= E]; apply letter_inj in E as [-> ->]; auto|discriminate].
Qed.
Print Assumptions C117_compact_injective.

(** The list of compact strings: one for each multi-index, in their order, without repetitions. *)
Theorem C117_compact_list : forall r n basis, known basis ->
  exists texts, polynomial_basis_latex_compact r n basis = Ok texts /\ length texts = get_dimension r n /\ NoDup texts /\
    forall i, i < get_dimension r n -> exists nu text, generate n r i = Ok nu /\ length nu = n /\ nth_error texts i = Some text /\ polynomial_basis_fn_latex_compact nu r basis = Ok text.
Proof.
  intros r n b Hb.
  assert (G : forall f : list nat -> str, (forall x y, f x = f y -> x = y) -> (forall nu, polynomial_basis_fn_latex_compact nu r b = Ok (f nu)) -> polynomial_basis_latex_compact r n b = (let* mis := generate_all n r in Ok (map f mis)) ->
    exists texts, polynomial_basis_latex_compact r n b = Ok texts /\ length texts = get_dimension r n /\ NoDup texts /\
    forall i, i < get_dimension r n -> exists nu text, generate n r i = Ok nu /\ length nu = n /\ nth_error texts i = Some text /\ polynomial_basis_fn_latex_compact nu r b = Ok text).
  { intros f Hf E1 E2. exists (map f (all_mi n r)). rewrite E2, generate_all_eq. split; [reflexivity|]. split; [rewrite map_length; symmetry; apply dim_all_mi|]. split.
    - apply FinFun.Injective_map_NoDup; [exact Hf|apply NoDup_all_mi].
    - intros i Hi. exists (nth i (all_mi n r) []), (f (nth i (all_mi n r) [])). rewrite dim_all_mi in Hi. split; [rewrite generate_eq, (nth_error_nth' _ [] Hi); reflexivity|]. split; [now apply in_all_mi with (r := r), nth_In|].
      split; [apply map_nth_error, nth_error_nth', Hi|apply E1]. }
  destruct Hb as [-> | [-> | ->]].
  - apply (G monomial_basis_fn_latex_compact monomial_compact_inj); reflexivity.
  - apply (G (fun nu => lagrange_basis_fn_latex_compact nu r)); [intros x y E; apply letter_inj in E; tauto|reflexivity|reflexivity].
  - apply (G (fun nu => bernstein_basis_fn_latex_compact nu r)); [intros x y E; apply letter_inj in E; tauto|reflexivity|reflexivity].
Qed.
Print Assumptions C117_compact_list.
Theorem C117_unknown_basis : forall basis, ~ known basis -> forall nu r n,
  polynomial_basis_fn_latex nu r basis = Err ValueError /\ polynomial_basis_fn_latex_compact nu r basis = Err ValueError /\
  polynomial_basis_latex r n basis = Err ValueError /\ polynomial_basis_latex_compact r n basis = Err ValueError.
Proof.
  intros b H nu r n. unfold known in H. unfold polynomial_basis_fn_latex, polynomial_basis_fn_latex_compact, polynomial_basis_latex, polynomial_basis_latex_compact, str_eqb.
  destruct (list_eq_dec ascii_dec b (lit "monomial")); [tauto|]. destruct (list_eq_dec ascii_dec b (lit "Lagrange")); [tauto|]. destruct (list_eq_dec ascii_dec b (lit "Bernstein")); [tauto|]. auto.
Qed.
Print Assumptions C117_unknown_basis.

(** ** C117: full strings *)
Definition sp : ascii := ascii_of_nat 32.
Definition word (p : str) : Prop := (forall c, In c p -> c <> sp) /\ exists t, p = lit "x" ++ t.
(** what follows the powers: nothing, or one more part that opens with a parenthesis *)
Definition tail_ok (T : list str) : Prop := T = [] \/ exists t, T = [lit "(" ++ t].
Lemma join_cons p l : join (lit " ") (p :: l) = p ++ match l with [] => [] | _ => lit " " ++ join (lit " ") l end.
Proof. destruct l; [symmetry; apply app_nil_r|reflexivity]. Qed.
Lemma join_words P : forall P' T T', Forall word P -> Forall word P' -> tail_ok T -> tail_ok T' -> join (lit " ") (P ++ T) = join (lit " ") (P' ++ T') -> P = P' /\ T = T'.
Proof.
  assert (X : forall P T, tail_ok T -> P <> [] -> Forall word P -> exists t, join (lit " ") (P ++ T) = lit "x" ++ t).
  { clear P. intros [|p P] T _ H W; [contradiction|]. inversion W as [|? ? [_ [t ->]] _]; subst. cbn [app]. rewrite join_cons. exists (t ++ match P ++ T with [] => [] | _ => lit " " ++ join (lit " ") (P ++ T) end). reflexivity. }
  assert (Y : forall T t, tail_ok T -> join (lit " ") T = lit "x" ++ t -> False) by (intros T t [-> | [u ->]] E; discriminate E).
  induction P as [|p P IH]; intros [|p' P'] T T' W W' HT HT' E.
  - split; [reflexivity|]. cbn [app] in E. destruct HT as [-> | [t ->]]; destruct HT' as [-> | [t' ->]]; cbn [join] in E; try reflexivity; try discriminate E. now rewrite E.
  - exfalso. destruct (X (p' :: P') T' HT' ltac:(discriminate) W') as [t Et]. rewrite Et in E. exact (Y T t HT E).
  - exfalso. destruct (X (p :: P) T HT ltac:(discriminate) W) as [t Et]. rewrite Et in E. symmetry in E. exact (Y T' t HT' E).
  - pose proof (Forall_inv W) as [Hp [u Eu]]. pose proof (Forall_inv_tail W) as WP. pose proof (Forall_inv W') as [Hp' [u' Eu']]. pose proof (Forall_inv_tail W') as WP'. cbn [app] in E. rewrite !join_cons in E.
    apply (span_eq (fun c => c <> sp)) in E; [|exact Hp|exact Hp'|destruct (P ++ T); cbn; [exact I|unfold sp; intros K; now apply K]|destruct (P' ++ T'); cbn; [exact I|unfold sp; intros K; now apply K]].
    destruct E as [-> E].
    assert (E2 : join (lit " ") (P ++ T) = join (lit " ") (P' ++ T')).
    { destruct (P ++ T) as [|q l]; destruct (P' ++ T') as [|q' l']; try discriminate E; [reflexivity|]. apply app_inv_head in E. exact E. }
    destruct (IH P' T T' WP WP' HT HT' E2) as [-> ->]. auto.
Qed.

Definition parts_from (n i : nat) (nu : list nat) : list str :=
  flat_map (fun p => match snd p with O => [] | 1 => [variable n (fst p)] | e => [variable n (fst p) ++ lit "^" ++ str_nat e] end) (combine (seq i (length nu)) nu).
Lemma parts_cons n i e nu : parts_from n i (e :: nu) = match e with O => [] | 1 => [variable n i] | _ => [variable n i ++ lit "^" ++ str_nat e] end ++ parts_from n (S i) nu.
Proof. unfold parts_from. cbn [length seq combine flat_map fst snd]. destruct e as [|[|e]]; reflexivity. Qed.
Definition power_text (e : nat) : str := match e with 1 => [] | _ => lit "^" ++ str_nat e end.
Lemma parts_cons' n i e nu : parts_from n i (e :: nu) = match e with O => [] | _ => [variable n i ++ power_text e] end ++ parts_from n (S i) nu.
Proof. rewrite parts_cons. destruct e as [|[|e]]; [reflexivity| |reflexivity]. cbn [power_text]. rewrite app_nil_r. reflexivity. Qed.
Lemma power_text_inj a b : a <> 0 -> b <> 0 -> power_text a = power_text b -> a = b.
Proof. destruct a as [|[|a]]; destruct b as [|[|b]]; intros Ha Hb E; try (now contradiction Ha); try (now contradiction Hb); try reflexivity; try discriminate E. unfold power_text in E. apply app_inv_head in E. exact (str_nat_inj _ _ E). Qed.
Lemma power_text_stops e : stops is_digit (power_text e).
Proof. destruct e as [|[|e]]; [nodigit|exact I|nodigit]. Qed.
Lemma variable_many n i : n <> 1 -> variable n i = lit "x_" ++ str_nat (S i).
Proof. intros H. unfold variable. destruct (Nat.eqb_spec n 1); [contradiction|reflexivity]. Qed.
Lemma in_parts n nu : n <> 1 -> forall i q, In q (parts_from n i nu) -> exists j e, i <= j /\ e <> 0 /\ q = variable n j ++ power_text e.
Proof.
  intros Hn. induction nu as [|e nu IH]; intros i q H; [contradiction|]. rewrite parts_cons' in H. apply in_app_iff in H as [H|H].
  - destruct e as [|e]; [contradiction|]. destruct H as [<-|[]]. exists i, (S e). auto.
  - destruct (IH (S i) q H) as (j & e' & Hj & H'). exists j, e'. split; [lia|exact H'].
Qed.
Lemma part_inj n i j e e' : n <> 1 -> e <> 0 -> e' <> 0 -> variable n i ++ power_text e = variable n j ++ power_text e' -> i = j /\ e = e'.
Proof.
  intros Hn He He' E. rewrite !variable_many in E by assumption. rewrite <- !app_assoc in E. apply app_inv_head in E. apply str_nat_app in E as [E1 E2]; [|apply power_text_stops|apply power_text_stops].
  injection E1 as ->. apply power_text_inj in E2; auto.
Qed.
Lemma parts_inj n nu : n <> 1 -> forall i nu', length nu = length nu' -> parts_from n i nu = parts_from n i nu' -> nu = nu'.
Proof.
  intros Hn. induction nu as [|e nu IH]; intros i [|e' nu'] L E; try discriminate L; [reflexivity|]. injection L as L. rewrite !parts_cons' in E.
  assert (K : forall a b l l', a <> 0 -> [variable n i ++ power_text a] ++ l = parts_from n (S i) l' -> b = 0 -> False).
  { intros a b l l' Ha Q _. assert (I : In (variable n i ++ power_text a) (parts_from n (S i) l')) by (rewrite <- Q; now left). destruct (in_parts n l' Hn (S i) _ I) as (j & f & Hj & Hf & Ef). apply part_inj in Ef as [-> _]; auto. lia. }
  destruct e as [|e]; destruct e' as [|e'].
  - f_equal. exact (IH (S i) nu' L E).
  - exfalso. symmetry in E. exact (K (S e') 0 _ _ ltac:(discriminate) E eq_refl).
  - exfalso. exact (K (S e) 0 _ _ ltac:(discriminate) E eq_refl).
  - pose proof (f_equal (hd []) E) as E1. pose proof (f_equal (@tl str) E) as E2. cbn [app hd tl] in E1, E2. apply part_inj in E1 as [_ ->]; [|exact Hn|discriminate|discriminate]. f_equal. exact (IH (S i) nu' L E2).
Qed.
Lemma power_parts_inj nu nu' : length nu = length nu' -> power_parts nu = power_parts nu' -> nu = nu'.
Proof.
  intros L E. destruct (single_or nu) as [[a ->]|H].
  - destruct nu' as [|b [|]]; try discriminate L. f_equal. change (power_parts [a]) with (parts_from 1 0 [a]) in E. change (power_parts [b]) with (parts_from 1 0 [b]) in E. rewrite !parts_cons' in E.
    destruct a as [|a]; destruct b as [|b]; try discriminate E; [reflexivity|]. apply (f_equal (hd [])) in E. cbn [app hd] in E. apply app_inv_head in E. apply power_text_inj in E; [exact E|discriminate|discriminate].
  - apply (parts_inj (length nu) nu H 0 nu' L). unfold power_parts in E. unfold parts_from. rewrite <- L in E. rewrite <- L. exact E.
Qed.
Lemma no_space_digits s : (forall c, In c s -> is_digit c) -> forall c, In c s -> c <> sp.
Proof. intros H c Hc ->. specialize (H _ Hc). revert H. nodigit. Qed.
Lemma parts_words n nu : forall i, Forall word (parts_from n i nu).
Proof.
  assert (V : forall i, (forall c, In c (variable n i) -> c <> sp) /\ exists t, variable n i = lit "x" ++ t).
  { intros i. unfold variable. destruct (n =? 1); [split; [intros c [<-|[]]; discriminate|now exists []]|]. split; [|exists (lit "_" ++ str_nat (S i)); reflexivity].
    intros c Hc. apply in_app_iff in Hc as [[<-|[<-|[]]]|Hc]; [discriminate|discriminate|]. exact (no_space_digits _ (str_nat_digits _) _ Hc). }
  assert (W : forall e c, In c (power_text e) -> c <> sp).
  { intros e c Hc. destruct e as [|[|e]]; unfold power_text in Hc; [|contradiction|]; apply in_app_iff in Hc as [[<-|[]]|Hc]; try discriminate; exact (no_space_digits _ (str_nat_digits _) _ Hc). }
  induction nu as [|e nu IH]; intros i; [constructor|]. rewrite parts_cons'. apply Forall_app. split; [|apply IH]. destruct e as [|e]; constructor; [|constructor]. destruct (V i) as [V1 [t Et]]. split.
  - intros c Hc. apply in_app_iff in Hc as [Hc|Hc]; [exact (V1 c Hc)|exact (W _ c Hc)].
  - rewrite Et. exists (t ++ power_text (S e)). reflexivity.
Qed.
Lemma monomial_join nu : monomial_basis_fn_latex nu = match power_parts nu with [] => lit "1" | _ => join (lit " ") (power_parts nu ++ []) end.
Proof. unfold monomial_basis_fn_latex. destruct (power_parts nu); [reflexivity|now rewrite app_nil_r]. Qed.
Lemma words_x P T : tail_ok T -> P <> [] -> Forall word P -> exists t, join (lit " ") (P ++ T) = lit "x" ++ t.
Proof. intros _ H W. destruct P as [|p P]; [contradiction|]. inversion W as [|? ? [_ [t ->]] _]; subst. cbn [app]. rewrite join_cons. exists (t ++ match P ++ T with [] => [] | _ => lit " " ++ join (lit " ") (P ++ T) end). reflexivity. Qed.
Lemma power_parts_words nu : Forall word (power_parts nu).
Proof. apply (parts_words (length nu) nu 0). Qed.

(** Among the monomials in the same number of variables the string tells the exponents, of any size. *)
Theorem C117_monomial_injective : forall nu nu', length nu = length nu' -> monomial_basis_fn_latex nu = monomial_basis_fn_latex nu' -> nu = nu'.
Proof.
  intros nu nu' L E. apply power_parts_inj; [exact L|]. rewrite !monomial_join in E. pose proof (power_parts_words nu) as W. pose proof (power_parts_words nu') as W'.
  destruct (power_parts nu) as [|p P]; destruct (power_parts nu') as [|p' P']; [reflexivity| | |].
  - destruct (words_x (p' :: P') [] (or_introl eq_refl) ltac:(discriminate) W') as [t Et]. rewrite Et in E. discriminate E.
  - destruct (words_x (p :: P) [] (or_introl eq_refl) ltac:(discriminate) W) as [t Et]. rewrite Et in E. discriminate E.
  - apply join_words in E; [tauto|exact W|exact W'|now left|now left].
Qed.
Print Assumptions C117_monomial_injective.

Definition rest_parts (n e : nat) : list str :=
  let part := lit "(1" ++ concat (map (fun i => lit " - " ++ variable n i) (seq 0 n)) ++ lit ")" in
  match e with O => [] | 1 => [part] | _ => [part ++ lit "^" ++ str_nat e] end.
Lemma rest_tail n e : tail_ok (rest_parts n e).
Proof.
  destruct e as [|[|e]]; [now left| |]; right; cbn [rest_parts].
  - exists (lit "1" ++ concat (map (fun i => lit " - " ++ variable n i) (seq 0 n)) ++ lit ")"). reflexivity.
  - exists ((lit "1" ++ concat (map (fun i => lit " - " ++ variable n i) (seq 0 n)) ++ lit ")") ++ lit "^" ++ str_nat (S (S e))). reflexivity.
Qed.
Lemma rest_inj n a b : rest_parts n a = rest_parts n b -> a = b.
Proof.
  unfold rest_parts. set (part := lit "(1" ++ _). clearbody part. destruct a as [|[|a]]; destruct b as [|[|b]]; intros E; try reflexivity; try discriminate E; injection E as E.
  - exfalso. rewrite <- (app_nil_r part) in E at 1. apply app_inv_head in E. discriminate E.
  - exfalso. symmetry in E. rewrite <- (app_nil_r part) in E at 1. apply app_inv_head in E. discriminate E.
  - apply app_inv_head in E. injection E as E. exact (str_nat_inj _ _ E).
Qed.
Definition bern_text (c : nat) (body : str) : str := if c =? 1 then body else str_nat c ++ lit " " ++ body.
Lemma bernstein_text nu r text : bernstein_basis_fn_latex nu r = Ok text -> norm nu <= r /\ exists c, text = bern_text c (join (lit " ") (power_parts nu ++ rest_parts (length nu) (r - norm nu))).
Proof.
  unfold bernstein_basis_fn_latex, bernstein_factor, general_to_exact_norm. destruct (Nat.leb_spec (norm nu) r) as [H|H]; [|discriminate]. cbn [bind]. intros [= <-]. split; [exact H|]. eexists. reflexivity.
Qed.
Lemma bern_text_inj c c' b b' : stops is_digit b -> stops is_digit b' -> bern_text c b = bern_text c' b' -> b = b'.
Proof.
  unfold bern_text. intros H H'. destruct (Nat.eqb_spec c 1) as [_|N]; destruct (Nat.eqb_spec c' 1) as [_|N']; intros E; [exact E| | |].
  - exfalso. destruct (C111_numerals c') as (_ & D & Z & _). destruct (str_nat c') as [|d t]; [contradiction|]. subst b. exact (H (D d (or_introl eq_refl))).
  - exfalso. destruct (C111_numerals c) as (_ & D & Z & _). destruct (str_nat c) as [|d t]; [contradiction|]. subst b'. exact (H' (D d (or_introl eq_refl))).
  - apply str_nat_app in E as [_ E]; [|nodigit|nodigit]. now apply app_inv_head in E.
Qed.
Lemma body_stops P T : Forall word P -> tail_ok T -> stops is_digit (join (lit " ") (P ++ T)).
Proof.
  intros W HT. destruct P as [|p P].
  - destruct HT as [-> | [t ->]]; [exact I|]. nodigit.
  - destruct (words_x (p :: P) T HT ltac:(discriminate) W) as [t ->]. nodigit.
Qed.
(** The same for Bernstein basis functions; the string tells the degree too. *)
Theorem C117_bernstein_injective : forall nu nu' r r' text, length nu = length nu' -> bernstein_basis_fn_latex nu r = Ok text -> bernstein_basis_fn_latex nu' r' = Ok text -> nu = nu' /\ r = r'.
Proof.
  intros nu nu' r r' text L E E'. apply bernstein_text in E as (H & c & E). apply bernstein_text in E' as (H' & c' & E'). subst text.
  apply bern_text_inj in E'; [|apply body_stops; [apply power_parts_words|apply rest_tail]|apply body_stops; [apply power_parts_words|apply rest_tail]].
  apply join_words in E' as [E1 E2]; [|apply power_parts_words|apply power_parts_words|apply rest_tail|apply rest_tail]. apply power_parts_inj in E1; [|exact L]. subst nu'. apply rest_inj in E2. split; [reflexivity|lia].
Qed.
Print Assumptions C117_bernstein_injective.
Lemma mapM_ok_list {A B} (f : A -> result B) l : (forall a, In a l -> exists b, f a = Ok b) -> exists bs, mapM f l = Ok bs.
Proof.
  induction l as [|a l IH]; intros H; [now exists []|]. cbn [mapM]. destruct (H a (or_introl eq_refl)) as [b ->]. destruct IH as [bs ->]; [intros; apply H; now right|]. cbn [bind]. eauto.
Qed.
Lemma mapM_nth {A B} (f : A -> result B) l : forall bs, mapM f l = Ok bs -> length bs = length l /\ forall i a, nth_error l i = Some a -> exists b, nth_error bs i = Some b /\ f a = Ok b.
Proof.
  induction l as [|a l IH]; intros bs E; cbn [mapM] in E; [injection E as <-; split; [reflexivity|intros [|i] ? ?; discriminate]|].
  destruct (f a) as [b|] eqn:Ea; [|discriminate]. cbn [bind] in E. destruct (mapM f l) as [bs'|]; [|discriminate]. cbn [bind] in E. injection E as <-. destruct (IH bs' eq_refl) as [L N]. split; [cbn; congruence|].
  intros [|i] x Hx; cbn in Hx; [injection Hx as <-; now exists b|exact (N i x Hx)].
Qed.
Lemma NoDup_mapM {A B} (f : A -> result B) l bs : (forall x y b, In x l -> In y l -> f x = Ok b -> f y = Ok b -> x = y) -> NoDup l -> mapM f l = Ok bs -> NoDup bs.
Proof.
  intros HI HN E. destruct (mapM_nth f l bs E) as [L N]. apply NoDup_nth_error. intros i j Hi Hij. rewrite L in Hi.
  destruct (nth_error l i) as [x|] eqn:Ex; [|apply nth_error_None in Ex; lia]. destruct (N i x Ex) as (b & Eb & Fb).
  assert (Hj : j < length l). { rewrite <- L. apply nth_error_Some. rewrite <- Hij, Eb. discriminate. }
  destruct (nth_error l j) as [y|] eqn:Ey; [|apply nth_error_None in Ey; lia]. destruct (N j y Ey) as (b' & Eb' & Fb'). assert (b' = b) by congruence. subst b'.
  assert (x = y) by (apply (HI x y b); [exact (nth_error_In _ _ Ex)|exact (nth_error_In _ _ Ey)|exact Fb|exact Fb']). subst y. apply (proj1 (NoDup_nth_error l) HN); congruence.
Qed.
(** The full strings of the monomial and the Bernstein basis, in the order of the multi-indices, without repetitions. *)
Theorem C117_full_list : forall r n basis, basis = lit "monomial" \/ basis = lit "Bernstein" ->
  exists texts, polynomial_basis_latex r n basis = Ok texts /\ length texts = get_dimension r n /\ NoDup texts /\
    forall i, i < get_dimension r n -> exists nu text, generate n r i = Ok nu /\ length nu = n /\ nth_error texts i = Some text /\ polynomial_basis_fn_latex nu r basis = Ok text.
Proof.
  intros r n b Hb.
  assert (E : polynomial_basis_latex r n b = mapM (fun nu => polynomial_basis_fn_latex nu r b) (all_mi n r)).
  { destruct Hb as [-> | ->]; unfold polynomial_basis_latex, polynomial_basis_fn_latex.
    - replace (str_eqb (lit "monomial") (lit "monomial")) with true by reflexivity. unfold monomial_basis_latex. rewrite generate_all_eq. cbn [bind]. generalize (all_mi n r). induction l as [|a l IH]; [reflexivity|]. cbn [map mapM bind]. rewrite <- IH. reflexivity.
    - replace (str_eqb (lit "Bernstein") (lit "monomial")) with false by reflexivity. replace (str_eqb (lit "Bernstein") (lit "Lagrange")) with false by reflexivity. replace (str_eqb (lit "Bernstein") (lit "Bernstein")) with true by reflexivity.
      unfold bernstein_basis_latex. rewrite generate_all_eq. reflexivity. }
  rewrite E. destruct (mapM_ok_list (fun nu => polynomial_basis_fn_latex nu r b) (all_mi n r)) as [texts ET].
  { intros nu Hnu. apply in_all_mi in Hnu as [_ Hs]. destruct Hb as [-> | ->]; [eexists; reflexivity|]. unfold polynomial_basis_fn_latex. replace (str_eqb (lit "Bernstein") (lit "monomial")) with false by reflexivity. replace (str_eqb (lit "Bernstein") (lit "Lagrange")) with false by reflexivity. replace (str_eqb (lit "Bernstein") (lit "Bernstein")) with true by reflexivity.
    unfold bernstein_basis_fn_latex, bernstein_factor, general_to_exact_norm. change (norm nu) with (nsum nu). destruct (Nat.leb_spec (nsum nu) r); [cbn [bind]; eauto|lia]. }
  destruct (mapM_nth _ _ _ ET) as [L N]. exists texts. split; [exact ET|]. split; [rewrite L; symmetry; apply dim_all_mi|]. split.
  - refine (NoDup_mapM _ _ _ _ (NoDup_all_mi n r) ET). intros x y t Hx Hy Ex Ey. apply in_all_mi in Hx as [Lx _]. apply in_all_mi in Hy as [Ly _]. destruct Hb as [-> | ->].
    + assert (Q : forall z, polynomial_basis_fn_latex z r (lit "monomial") = Ok (monomial_basis_fn_latex z)) by reflexivity. rewrite Q in Ex, Ey. apply C117_monomial_injective; congruence.
    + assert (Q : forall z, polynomial_basis_fn_latex z r (lit "Bernstein") = bernstein_basis_fn_latex z r) by reflexivity. rewrite Q in Ex, Ey. exact (proj1 (C117_bernstein_injective x y r r t ltac:(congruence) Ex Ey)).
  - intros i Hi. rewrite dim_all_mi in Hi. pose proof (nth_error_nth' (all_mi n r) [] Hi) as Ei. destruct (N i _ Ei) as (t & Et & Ft). exists (nth i (all_mi n r) []), t. split; [rewrite generate_eq, Ei; reflexivity|]. split; [now apply in_all_mi with (r := r), nth_In|]. auto.
Qed.
Print Assumptions C117_full_list.

Example C117_ex : polynomial_basis_fn_latex_compact [1; 1; 1] 3 (lit "Bernstein") = Ok (lit "b_{(1, 1, 1), 3}(x)") /\
  polynomial_basis_latex_compact 2 1 (lit "monomial") = Ok [lit "1"; lit "x"; lit "x^2"] /\
  polynomial_basis_latex_compact 1 2 (lit "Lagrange") = Ok [lit "l_{(0, 0), 1}(x)"; lit "l_{(1, 0), 1}(x)"; lit "l_{(0, 1), 1}(x)"] /\
  polynomial_basis_latex 2 2 (lit "Bernstein") = Ok [lit "(1 - x_1 - x_2)^2"; lit "2 x_1 (1 - x_1 - x_2)"; lit "x_1^2"; lit "2 x_2 (1 - x_1 - x_2)"; lit "2 x_1 x_2"; lit "x_2^2"] /\
  polynomial_basis_fn_latex [1; 1] 3 (lit "Lagrange") = Ok (lit "27 x_1 x_2 - 27 x_1^2 x_2 - 27 x_1 x_2^2") /\
  polynomial_basis_fn_latex [2] 3 (lit "Lagrange") = Ok (lit "-9 / 2 x + 18 x^2 - 27 / 2 x^3").
Proof. repeat split; vm_compute; reflexivity. Qed.
