(** Property C124: names and docstrings of generated functions. *)
From Coq Require Import Ascii String ZArith Lia.
From Verif Require Import Base StrUtils NumStr CodeWriter SourceFiles GenNames Prop_StrUtils Prop_LatexCompact Prop_Latex Prop_CodeWriter.
Local Close Scope string_scope.
Local Open Scope list_scope.
Local Open Scope char_scope.

(** ** Names *)
Definition letter (c : ascii) : Prop := (97 <= nat_of_ascii c <= 122 \/ 65 <= nat_of_ascii c <= 90)%nat \/ c = "_".
(** a Python identifier (with ASCII characters) *)
Definition identifier (s : str) : Prop := exists c r, s = c :: r /\ letter c /\ forall d, In d r -> letter d \/ is_digit d.
Lemma name_chars s : (forall d, In d s -> letter d \/ is_digit d) -> forall c, letter c -> identifier (c :: s).
Proof. intros H c Hc. exists c, s. auto. Qed.
Definition word (s : str) : Prop := forall d, In d s -> letter d \/ is_digit d.
Lemma word_app a b : word a -> word b -> word (a ++ b).
Proof. intros A B d Hd. apply in_app_iff in Hd as [Hd|Hd]; auto. Qed.
Lemma word_nat n : word (str_nat n).
Proof. intros d Hd. right. exact (str_nat_digits n d Hd). Qed.
Ltac letters := let d := fresh in let H := fresh in intros d H; left; repeat (destruct H as [<-|H]; [first [right; reflexivity|left; left; vm_compute; lia]|]); contradiction.
Lemma hash_text h : generate_function_specific_name h = str_nat (Z.to_nat (Z.abs h)).
Proof.
  unfold generate_function_specific_name, str_int. destruct (Z.ltb_spec h 0) as [L|L].
  - destruct (Z.ltb_spec (h * -1) 0); [lia|]. f_equal. lia.
  - destruct (Z.ltb_spec h 0); [lia|]. f_equal. lia.
Qed.
Lemma word_family f : word (family_text f).
Proof. destruct f; letters. Qed.
(** Every name is a Python identifier, for all hash values, also negative ones. *)
Theorem C124_identifiers : forall f m r h, identifier (general_name f m r) /\ identifier (specific_name f m r h).
Proof.
  intros f m r h. assert (G : word (general_name f m r)) by (unfold general_name; apply word_app; [apply word_family|]; apply word_app; [letters|]; apply word_app; apply word_nat). split.
  - assert (X : exists c s, general_name f m r = c :: s /\ letter c) by (destruct f; unfold general_name; cbn [family_text lit list_ascii_of_string app]; do 2 eexists; (split; [reflexivity|]); left; left; vm_compute; lia). destruct X as (c & s & E & L). rewrite E in G |- *. apply name_chars; [intros d Hd; apply G; right; exact Hd|exact L].
  - assert (W : word (specific_name f m r h)).
    { unfold specific_name. rewrite hash_text. apply word_app; [letters|]. apply word_app; [apply word_family|]. apply word_app; [letters|]. apply word_app; [apply word_nat|]. apply word_app; [apply word_nat|]. apply word_app; [letters|apply word_nat]. }
    unfold specific_name in *. cbn [lit list_ascii_of_string app] in *. apply name_chars; [intros d Hd; apply W; right; exact Hd|]. left. left. vm_compute. lia.
Qed.
Print Assumptions C124_identifiers.
Lemma two_numbers m r m' r' s s' : m < 10 -> m' < 10 -> stops is_digit s -> stops is_digit s' -> str_nat m ++ str_nat r ++ s = str_nat m' ++ str_nat r' ++ s' -> m = m' /\ r = r' /\ s = s'.
Proof.
  intros H H' S S' E. destruct (str_nat_digit m H) as (d & Ed & _ & Vd), (str_nat_digit m' H') as (d' & Ed' & _ & Vd'). rewrite Ed, Ed' in E. cbn [app] in E. assert (Q : d = d') by congruence. assert (Q2 : str_nat r ++ s = str_nat r' ++ s') by congruence. apply str_nat_app in Q2; [|assumption|assumption]. subst d'. split; [congruence|exact Q2].
Qed.
Lemma family_inj f f' s s' : family_text f ++ lit "_polynomial_" ++ s = family_text f' ++ lit "_polynomial_" ++ s' -> f = f' /\ s = s'.
Proof. destruct f, f'; cbn; intros E; try discriminate E; split; try reflexivity; congruence. Qed.
(** For domains of dimension less than ten (of both functions) the names are unique: a name determines the basis, the dimension, the degree
    and, for specific coefficients, the absolute value of the hash value. Names of the two kinds never agree. *)
Theorem C124_general_names : forall f m r f' m' r', m < 10 -> m' < 10 -> (general_name f m r = general_name f' m' r' <-> f = f' /\ m = m' /\ r = r').
Proof.
  intros f m r f' m' r' H H'. split; [|intros (-> & -> & ->); reflexivity]. intros E. apply family_inj in E as [-> E]. rewrite <- (app_nil_r (str_nat r)), <- (app_nil_r (str_nat r')) in E. apply two_numbers in E as (-> & -> & _); try assumption; try exact I. auto.
Qed.
Print Assumptions C124_general_names.
Theorem C124_specific_names : forall f m r h f' m' r' h', m < 10 -> m' < 10 -> (specific_name f m r h = specific_name f' m' r' h' <-> f = f' /\ m = m' /\ r = r' /\ (h = h' \/ h = - h')%Z).
Proof.
  intros f m r h f' m' r' h' H H'. unfold specific_name. rewrite !hash_text. split.
  - intros E. apply app_inv_head in E. apply family_inj in E as [-> E]. apply two_numbers in E as (-> & -> & E); try assumption; try (cbn; unfold is_digit; vm_compute; lia). apply app_inv_head in E. apply str_nat_inj in E. repeat split; try reflexivity. lia.
  - intros (-> & -> & -> & Q). replace (Z.abs h) with (Z.abs h') by lia. reflexivity.
Qed.
Print Assumptions C124_specific_names.
Theorem C124_kinds : forall f m r f' m' r' h, general_name f m r <> specific_name f' m' r' h.
Proof. intros f m r f' m' r' h E. destruct f; discriminate E. Qed.
Print Assumptions C124_kinds.
(** From dimension ten on two functions of one family can have the same name. *)
Theorem C124_general_refuted : forall f, exists m r m' r', m <> m' /\ r <> r' /\ general_name f m r = general_name f m' r'.
Proof. intros f. exists 1, 12, 11, 2. repeat split; discriminate. Qed.
Print Assumptions C124_general_refuted.

(** ** Docstrings *)
Inductive piece : Type := Text (s : str) | Hole (name : str).
Definition piece_text (p : piece) : str := match p with Text s => s | Hole name => "<" :: name ++ [">"] end.
Definition render (ps : list piece) : str := concat (map piece_text ps).
Definition proper (p : piece) : Prop := match p with Text s => ~ In "<" s | Hole name => ~ In "<" name /\ ~ In ">" name end.
Definition fill (h new : str) (p : piece) : piece := match p with Hole name => if list_eq_dec ascii_dec h name then Text new else p | Text _ => p end.
Lemma replace_text old new c : ~ In "<" c -> forall t, str_replace ("<" :: old) new 0 (c ++ t) = c ++ str_replace ("<" :: old) new 0 t.
Proof.
  induction c as [|x c IH]; intros H t; [reflexivity|]. cbn [app str_replace starts_with]. destruct (Ascii.eqb_spec "<" x) as [E|E]; [exfalso; apply H; left; symmetry; exact E|]. cbn [andb]. rewrite IH; [reflexivity|]. intros C. apply H. right. exact C.
Qed.
Lemma replace_skip old new k : forall a t, length a = k -> str_replace old new k (a ++ t) = str_replace old new 0 t.
Proof. induction k as [|k IH]; intros [|x a] t L; try discriminate; [reflexivity|]. cbn [app str_replace]. apply IH. injection L; auto. Qed.
Lemma hole_starts h : ~ In ">" h -> forall g t, ~ In ">" g -> starts_with (h ++ [">"]) (g ++ ">" :: t) = if list_eq_dec ascii_dec h g then true else false.
Proof.
  induction h as [|x h IH]; intros Hh [|y g] t Hg; cbn [app starts_with].
  - reflexivity.
  - destruct (Ascii.eqb_spec ">" y) as [E|E]; [exfalso; apply Hg; left; symmetry; exact E|]. reflexivity.
  - destruct (Ascii.eqb_spec x ">") as [E|E]; [exfalso; apply Hh; left; exact E|]. reflexivity.
  - rewrite IH by (intros C; first [apply Hh; right; exact C|apply Hg; right; exact C]). destruct (Ascii.eqb_spec x y) as [->|E]; destruct (list_eq_dec ascii_dec h g) as [Q|Q]; destruct (list_eq_dec ascii_dec (_ :: h) (_ :: g)) as [R|R]; try reflexivity; exfalso; congruence.
Qed.
Lemma replace_render h new ps : ~ In ">" h -> Forall proper ps -> str_replace ("<" :: h ++ [">"]) new 0 (render ps) = render (map (fill h new) ps).
Proof.
  intros Hh. induction 1 as [|p ps P PS IH]; [reflexivity|]. unfold render in *. cbn [map concat]. destruct p as [s|g]; cbn [piece_text fill].
  - rewrite replace_text by exact P. rewrite IH. reflexivity.
  - destruct P as [P1 P2]. cbn [app str_replace starts_with]. rewrite Ascii.eqb_refl. cbn [andb]. rewrite <- app_assoc. cbn [app]. rewrite hole_starts by assumption. destruct (list_eq_dec ascii_dec h g) as [->|N].
    + cbn [piece_text]. f_equal. change (">" :: concat (map piece_text ps)) with ([">"] ++ concat (map piece_text ps)). rewrite app_assoc, replace_skip by (cbn [length]; lia). exact IH.
    + cbn [piece_text app]. rewrite <- app_assoc. cbn [app]. f_equal. rewrite replace_text by exact P1. f_equal. change (">" :: concat (map piece_text ps)) with ([">"] ++ concat (map piece_text ps)). rewrite replace_text by (cbn; intuition discriminate). rewrite IH. reflexivity.
Qed.
Lemma fill_proper h new ps : ~ In "<" new -> Forall proper ps -> Forall proper (map (fill h new) ps).
Proof. intros H. induction 1 as [|p ps P PS IH]; constructor; [|exact IH]. destruct p as [s|g]; [exact P|]. cbn [fill]. destruct (list_eq_dec ascii_dec h g); [exact H|exact P]. Qed.
Lemma nat_no_bracket n : ~ In "<" (str_nat n).
Proof. intros C. apply str_nat_digits in C. unfold is_digit in C. vm_compute in C. lia. Qed.
(** the words of the text *)
Definition kind_text (m : nat) : str := if (m =? 1)%nat then lit "univariate" else if (m =? 2)%nat then lit "bivariate" else if (m =? 3)%nat then lit "trivariate" else lit "multivariate".
Definition place_text (m : nat) : str := lit " on the unit " ++ (if (m =? 1)%nat then lit "interval" else if (m =? 2)%nat then lit "triangle" else if (m =? 3)%nat then lit "tetrahedron" else lit "simplex").
Definition coefficients_text (m : nat) : str :=
  if (m =? 1)%nat then lit "a_i`." else lit "a_{\nu_i}`, where
    :math:`\nu_i` is the i:th multi-index in the sequence of all multi-indices of dimension " ++ str_nat m ++ lit " with norm
    :math:`\leq r` (see :func:`polynomials_on_simplices.algebra.multiindex.generate` function).".
(** a formula of one line stays on the line of the directive, one of several lines is a block indented by four spaces *)
Definition formula_text (lines : list str) : str := match lines with [l] => lit " " ++ l | _ => newline :: concat (map (fun l => newline :: lit "    " ++ l) lines) end.
Definition docstring_text (m r : nat) (basis : str) (lines : list str) : str :=
  lit "r""""""
Evaluate a " ++ kind_text m ++ lit " degree " ++ str_nat r ++ lit " " ++ basis ++ lit " polynomial" ++ (if list_eq_dec ascii_dec basis (lit "monomial") then [] else place_text m) ++ lit ".

.. math::" ++ formula_text lines ++ lit ".

:param a: Coefficient in front of each " ++ basis ++ lit " base polynomial, :math:`\text{a}[i] = " ++ coefficients_text m ++ lit "
:param x: Point where the polynomial should be evaluated.
:return: Value of the polynomial.
""""""".
Definition univariate_pieces : list piece := [Text (lit "r""""""
Evaluate a univariate degree "); Hole (lit "R"); Text (lit " "); Hole (lit "BASE"); Text (lit " polynomial"); Hole (lit "DOMAIN"); Text (lit ".

.. math::"); Hole (lit "LATEX_STR"); Text (lit ".

:param a: Coefficient in front of each "); Hole (lit "BASE"); Text (lit " base polynomial, :math:`\text{a}[i] = a_i`.
:param x: Point where the polynomial should be evaluated.
:return: Value of the polynomial.
""""""")].
Definition multivariate_pieces : list piece := [Text (lit "r""""""
Evaluate a "); Hole (lit "MULTIVARIATE"); Text (lit " degree "); Hole (lit "R"); Text (lit " "); Hole (lit "BASE"); Text (lit " polynomial"); Hole (lit "DOMAIN"); Text (lit ".

.. math::"); Hole (lit "LATEX_STR"); Text (lit ".

:param a: Coefficient in front of each "); Hole (lit "BASE"); Text (lit " base polynomial, :math:`\text{a}[i] = a_{\nu_i}`, where
    :math:`\nu_i` is the i:th multi-index in the sequence of all multi-indices of dimension "); Hole (lit "DIM"); Text (lit " with norm
    :math:`\leq r` (see :func:`polynomials_on_simplices.algebra.multiindex.generate` function).
:param x: Point where the polynomial should be evaluated.
:return: Value of the polynomial.
""""""")].

Lemma template_univariate : template_docstring_univariate = render univariate_pieces.
Proof. vm_compute. reflexivity. Qed.
Lemma template_multivariate : template_docstring_multivariate = render multivariate_pieces.
Proof. vm_compute. reflexivity. Qed.
Ltac no_bracket := let C := fresh in intros C; vm_compute in C; repeat (destruct C as [C|C]; [discriminate C|]); exact C.
Ltac pieces_proper := repeat (apply Forall_cons; [first [no_bracket|split; no_bracket]|]); apply Forall_nil.
Lemma univariate_proper : Forall proper univariate_pieces.
Proof. pieces_proper. Qed.
Lemma multivariate_proper : Forall proper multivariate_pieces.
Proof. pieces_proper. Qed.
Lemma formula_many a l : l <> [] -> [newline; newline] ++ lit "    " ++ join ([newline] ++ lit "    ") (a :: l) = formula_text (a :: l).
Proof.
  intros N. assert (G : forall l a, [newline] ++ lit "    " ++ join ([newline] ++ lit "    ") (a :: l) = concat (map (fun l => newline :: lit "    " ++ l) (a :: l))).
  { clear. induction l as [|b l IH]; intros a; [cbn; rewrite app_nil_r; reflexivity|]. change (concat (map (fun l => newline :: lit "    " ++ l) (a :: b :: l))) with ((newline :: lit "    " ++ a) ++ concat (map (fun l => newline :: lit "    " ++ l) (b :: l))). rewrite <- (IH b). change (join ([newline] ++ lit "    ") (a :: b :: l)) with (a ++ ([newline] ++ lit "    ") ++ join ([newline] ++ lit "    ") (b :: l)). cbn [app]. rewrite <- !app_assoc. reflexivity. }
  destruct l as [|b l]; [contradiction|]. unfold formula_text. rewrite <- G. reflexivity.
Qed.
Lemma hole_text (h : string) : lit (String "<" (h ++ ">")%string) = "<" :: lit h ++ [">"].
Proof. cbn [lit list_ascii_of_string]. f_equal. induction h as [|c h IH]; [reflexivity|]. cbn. f_equal. exact IH. Qed.
Lemma latex_lines lines : lines <> [] -> (forall l, In l lines -> one_line l) -> existsb (Ascii.eqb newline) (join [newline] lines) = negb (length lines =? 1)%nat.
Proof.
  intros N H. destruct lines as [|a [|b l]]; [contradiction| |].
  - cbn [join length Nat.eqb negb]. destruct (existsb _ a) eqn:E; [|reflexivity]. apply existsb_exists in E as (c & Hc & E). apply Ascii.eqb_eq in E. subst c. contradiction (H a (or_introl eq_refl) Hc).
  - cbn [length Nat.eqb negb]. apply existsb_exists. exists newline. split; [|apply Ascii.eqb_refl]. change (join [newline] (a :: b :: l)) with (a ++ [newline] ++ join [newline] (b :: l)). apply in_app_iff. right. left. reflexivity.
Qed.
(** The docstring of a generated function: every placeholder of the templates is filled, by nothing else, for every dimension, degree, formula
    (also one that contains a placeholder) and name of a basis without the character <. *)
Theorem C124_docstring : forall m r basis lines, ~ In "<" basis -> lines <> [] -> (forall l, In l lines -> one_line l) ->
  generate_docstring m r basis (join [newline] lines) = Ok (docstring_text m r basis lines).
Proof.
  intros m r basis lines Hb N H. unfold generate_docstring. rewrite latex_lines, split_lines by assumption. cbn [bind].
  set (domain := if list_eq_dec ascii_dec basis (lit "monomial") then [] else place_text m).
  set (start := if (m =? 1)%nat then _ else _).
  assert (S : exists ps, start = render ps /\ Forall proper ps /\ ps = (if (m =? 1)%nat then univariate_pieces else map (fill (lit "DIM") (str_nat m)) (map (fill (lit "MULTIVARIATE") (multivariate_text m)) multivariate_pieces))).
  { eexists. split; [|split; [|reflexivity]]; unfold start; destruct (m =? 1)%nat; [exact template_univariate| |exact univariate_proper|].
    - rewrite template_multivariate. change (lit "<MULTIVARIATE>") with ("<" :: lit "MULTIVARIATE" ++ [">"]). change (lit "<DIM>") with ("<" :: lit "DIM" ++ [">"]). rewrite replace_render by (first [no_bracket|exact multivariate_proper]). apply replace_render; [no_bracket|]. apply fill_proper; [|exact multivariate_proper]. destruct m as [|[|[|[|m]]]]; no_bracket.
    - apply fill_proper; [apply nat_no_bracket|]. apply fill_proper; [|exact multivariate_proper]. destruct m as [|[|[|[|m]]]]; no_bracket. }
  destruct S as (ps & -> & P & Eps).
  change (lit "<R>") with ("<" :: lit "R" ++ [">"]). change (lit "<BASE>") with ("<" :: lit "BASE" ++ [">"]). change (lit "<DOMAIN>") with ("<" :: lit "DOMAIN" ++ [">"]). change (lit "<LATEX_STR>") with ("<" :: lit "LATEX_STR" ++ [">"]).
  rewrite (replace_render (lit "R")) by (first [no_bracket|exact P]). apply (fill_proper (lit "R") (str_nat r) ps (nat_no_bracket r)) in P.
  rewrite (replace_render (lit "BASE")) by (first [no_bracket|exact P]). apply (fill_proper (lit "BASE") basis _ Hb) in P.
  assert (Hd : ~ In "<" domain) by (unfold domain, place_text; destruct (list_eq_dec ascii_dec basis (lit "monomial")); [intros []|]; destruct m as [|[|[|[|m]]]]; no_bracket).
  set (q := if str_eqb basis (lit "monomial") then _ else _).
  assert (Q : q = render (map (fill (lit "DOMAIN") domain) (map (fill (lit "BASE") basis) (map (fill (lit "R") (str_nat r)) ps)))).
  { unfold q, domain, str_eqb. destruct (list_eq_dec ascii_dec basis (lit "monomial")); rewrite replace_render by (first [no_bracket|exact P]); [reflexivity|]. f_equal. f_equal. f_equal. destruct m as [|[|[|[|m]]]]; reflexivity. }
  rewrite Q. clear q Q. apply (fill_proper (lit "DOMAIN") domain _ Hd) in P. rewrite !(replace_render (lit "LATEX_STR")) by (first [no_bracket|exact P]).
  replace (if negb (length lines =? 1)%nat then Ok (render (map (fill (lit "LATEX_STR") ([newline; newline] ++ lit "    " ++ join ([newline] ++ lit "    ") lines)) (map (fill (lit "DOMAIN") domain) (map (fill (lit "BASE") basis) (map (fill (lit "R") (str_nat r)) ps)))))
    else Ok (render (map (fill (lit "LATEX_STR") (lit " " ++ join [newline] lines)) (map (fill (lit "DOMAIN") domain) (map (fill (lit "BASE") basis) (map (fill (lit "R") (str_nat r)) ps))))))
    with (@Ok str (render (map (fill (lit "LATEX_STR") (formula_text lines)) (map (fill (lit "DOMAIN") domain) (map (fill (lit "BASE") basis) (map (fill (lit "R") (str_nat r)) ps))))))
    by (destruct lines as [|a [|b l]]; [contradiction|reflexivity|rewrite formula_many by discriminate; reflexivity]).
  f_equal. rewrite Eps. unfold docstring_text. fold domain. unfold render.
  assert (K : m = 1 \/ (m =? 1)%nat = false /\ multivariate_text m = kind_text m) by (destruct m as [|[|[|[|m]]]]; auto).
  destruct K as [->|[E K]].
  - reflexivity.
  - rewrite <- K. unfold coefficients_text. rewrite E, <- !app_assoc. reflexivity.
Qed.
Print Assumptions C124_docstring.
(** No placeholder is left. *)
Theorem C124_filled : forall m r basis latex doc, ~ In "<" basis -> ~ In "<" latex -> generate_docstring m r basis latex = Ok doc -> ~ In "<" doc.
Proof.
  intros m r basis latex doc Hb Hl E.
  assert (L : exists lines, lines <> [] /\ (forall l, In l lines -> one_line l) /\ latex = join [newline] lines).
  { clear. induction latex as [|c s (lines & N & H & ->)]; [exists [[]]; split; [discriminate|split; [intros l [<-|[]] []|reflexivity]]|]. destruct (ascii_dec c newline) as [->|D].
    - exists ([] :: lines). split; [discriminate|]. split; [intros l [<-|Hl]; [intros []|auto]|]. destruct lines; [contradiction|reflexivity].
    - destruct lines as [|a l]; [contradiction|]. exists ((c :: a) :: l). split; [discriminate|]. split; [|destruct l; reflexivity]. intros x [<-|Hx]; [intros [C|C]; [contradiction|exact (H a (or_introl eq_refl) C)]|apply H; right; exact Hx]. }
  destruct L as (lines & N & H & ->). rewrite C124_docstring in E by assumption. injection E as <-.
  assert (F : ~ In "<" (formula_text lines)).
  { assert (G : forall l, In l lines -> ~ In "<" l).
    { clear - Hl. induction lines as [|a [|b l] IH]; intros x Hx; [contradiction|destruct Hx as [<-|[]]; exact Hl|]. change (join [newline] (a :: b :: l)) with (a ++ [newline] ++ join [newline] (b :: l)) in Hl. rewrite !in_app_iff in Hl. destruct Hx as [<-|Hx]; [tauto|]. apply IH; [tauto|exact Hx]. }
    unfold formula_text. destruct lines as [|a [|b l]]; [contradiction| |].
    - rewrite in_app_iff. intros [C|C]; [revert C; no_bracket|exact (G a (or_introl eq_refl) C)].
    - intros [C|C]; [discriminate C|]. apply in_concat in C as (t & Ht & C). apply in_map_iff in Ht as (x & <- & Hx). destruct C as [C|C]; [discriminate C|]. apply in_app_iff in C as [C|C]; [revert C; no_bracket|exact (G x Hx C)]. }
  unfold docstring_text. rewrite !in_app_iff. intros C.
  repeat (destruct C as [C|C]; [first [revert C; no_bracket|exact (Hb C)|exact (F C)|exact (nat_no_bracket _ C)|revert C; unfold kind_text; destruct m as [|[|[|[|m]]]]; no_bracket|
    revert C; unfold place_text; destruct (list_eq_dec ascii_dec basis (lit "monomial")); [intros []|destruct m as [|[|[|[|m]]]]; no_bracket]|
    revert C; unfold coefficients_text; destruct (m =? 1)%nat; [no_bracket|rewrite !in_app_iff; intros [C|[C|C]]; [revert C; no_bracket|exact (nat_no_bracket _ C)|revert C; no_bracket]]]|]).
  revert C. no_bracket.
Qed.
Print Assumptions C124_filled.

(** ** Examples *)
Example C124_ex_names : general_name Lagrange 2 10 = lit "lagrange_polynomial_210" /\ specific_name Monomial 1 3 (-42) = lit "eval_monomial_polynomial_13_42".
Proof. split; reflexivity. Qed.
Example C124_ex_docstring : exists doc, generate_docstring 2 1 (lit "Lagrange") (join [newline] [lit "p(x) ="; lit "<R> + 1"]) = Ok doc /\ firstn 62 (skipn 5 doc) = lit "Evaluate a bivariate degree 1 Lagrange polynomial on the unit ".
Proof. eexists. split; [vm_compute; reflexivity|]. vm_compute. reflexivity. Qed.
