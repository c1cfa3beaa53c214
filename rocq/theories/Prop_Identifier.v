(** Property C121: the identifiers of polynomial bases. *)
From Coq Require Import Ascii String ZArith Lia.
From Verif Require Import Base StrUtils Prop_StrUtils NumStr Prop_NumStr CodeWriter Prop_CodeWriter LatexCompact Prop_LatexCompact Poly Prop_Repr Identifier.
Local Close Scope string_scope.
Local Close Scope Z_scope.
Local Open Scope list_scope.

(** ** Words and brackets of a text *)
Inductive token := Open | Close | Word (w : str).
Inductive kind := Sep | Bra | Ket | Other.
Definition kind_of (c : ascii) : kind :=
  match nat_of_ascii c with 10 | 32 | 44 => Sep | 91 => Bra | 93 => Ket | _ => Other end.
Definition flushw (w : str) : list token := match w with [] => [] | _ => [Word w] end.
Fixpoint tokens (w s : str) : list token :=
  match s with
  | [] => flushw w
  | c :: s =>
    match kind_of c with
    | Sep => flushw w ++ tokens [] s
    | Bra => flushw w ++ Open :: tokens [] s
    | Ket => flushw w ++ Close :: tokens [] s
    | Other => tokens (w ++ [c]) s
    end
  end.
Lemma tokens_sep s : forall w c s', kind_of c = Sep -> tokens w (s ++ c :: s') = tokens w s ++ tokens [] s'.
Proof.
  induction s as [|d s IH]; intros w c s' Hc; cbn [app tokens]; [rewrite Hc; reflexivity|].
  destruct (kind_of d); rewrite ?(IH _ c s' Hc), <- ?app_assoc; reflexivity.
Qed.
Definition plain (s : str) : Prop := s <> [] /\ forall c, In c s -> kind_of c = Other.
Lemma tokens_plain s : forall w t, (forall c, In c s -> kind_of c = Other) -> tokens w (s ++ t) = tokens (w ++ s) t.
Proof.
  induction s as [|d s IH]; intros w t H; [rewrite app_nil_r; reflexivity|]. cbn [app tokens]. rewrite (H d) by (left; reflexivity). rewrite IH by (intros; apply H; right; assumption). rewrite <- app_assoc. reflexivity.
Qed.
Lemma flush_plain s : plain s -> flushw s = [Word s]. Proof. intros [N _]. destruct s; [contradiction|reflexivity]. Qed.
(** a character that ends a word *)
Definition ends (t : str) : Prop := match t with [] => True | c :: _ => kind_of c <> Other end.
Lemma tokens_end w t : ends t -> tokens w t = flushw w ++ tokens [] t.
Proof. destruct t as [|c t]; intros H; cbn [tokens flushw]; [rewrite app_nil_r; reflexivity|]. cbn [ends] in H. destruct (kind_of c); [reflexivity..|contradiction]. Qed.
Lemma tokens_word s t : plain s -> ends t -> tokens [] (s ++ t) = Word s :: tokens [] t.
Proof. intros P H. rewrite tokens_plain by apply P. cbn [app]. rewrite tokens_end by exact H. rewrite flush_plain by exact P. reflexivity. Qed.
Lemma tokens_spaces n t : tokens [] (spaces n ++ t) = tokens [] t.
Proof. induction n as [|n IH]; [reflexivity|]. exact IH. Qed.
Lemma tokens_lines ts : tokens [] (document ts) = flat_map (tokens []) ts.
Proof. induction ts as [|t ts IH]; [reflexivity|]. rewrite document_cons, tokens_sep, IH by reflexivity. reflexivity. Qed.
Lemma indented_tokens s t n : indented (lit "    ") n s t -> tokens [] t = tokens [] s.
Proof.
  intros [(-> & _ & ->)|(_ & ->)]; [reflexivity|]. induction n as [|n IH]; [reflexivity|]. cbn [repeat concat]. rewrite <- app_assoc. exact IH.
Qed.
Lemma consists_tokens s ls : consists_of s ls -> tokens [] s = flat_map (tokens []) ls.
Proof.
  intros (N & _ & [ -> |(E & _)]); [apply tokens_lines|]. rewrite <- tokens_lines, <- E, tokens_sep by reflexivity. cbn [tokens flushw]. rewrite app_nil_r. reflexivity.
Qed.
Definition comma : ascii := ","%char.
Lemma comma_document ls : In comma (document ls) <-> exists l, In l ls /\ In comma l.
Proof.
  induction ls as [|l ls IH]; [split; [intros []|intros (l & [] & _)]|]. rewrite document_cons, in_app_iff. cbn [In]. rewrite IH. split.
  - intros [H|[H|(l' & H1 & H2)]]; [exists l; auto|discriminate H|exists l'; auto].
  - intros (l' & [<-|H1] & H2); [auto|]. right. right. exists l'. auto.
Qed.
Lemma indented_comma s t n : indented (lit "    ") n s t -> (In comma t <-> In comma s).
Proof.
  intros [(-> & _ & ->)|(_ & ->)]; [tauto|]. rewrite in_app_iff. split; [intros [H|H]; [exfalso|exact H]|auto]. apply in_concat in H as (x & Hx & H). apply repeat_spec in Hx as ->. repeat (destruct H as [H|H]; [discriminate H|]). exact H.
Qed.
Lemma consists_comma s ls : consists_of s ls -> (In comma s <-> In comma (document ls)).
Proof. intros (_ & _ & [ -> |(<- & _)]); [tauto|]. rewrite in_app_iff. split; [auto|]. intros [H|[H|[]]]; [exact H|discriminate H]. Qed.
Lemma lines_comma ls ts : Forall2 (indented (lit "    ") 1) ls ts -> (In comma (document ts) <-> In comma (document ls)).
Proof.
  intros H. rewrite !comma_document. induction H as [|l t ls ts H HT IH]; [tauto|]. split; intros (x & [<-|Hx] & C).
  - exists l. split; [left; reflexivity|]. apply (indented_comma _ _ _ H), C.
  - destruct (proj1 IH (ex_intro _ x (conj Hx C))) as (y & Hy & D). exists y. split; [right|]; assumption.
  - exists t. split; [left; reflexivity|]. apply (indented_comma _ _ _ H), C.
  - destruct (proj2 IH (ex_intro _ x (conj Hx C))) as (y & Hy & D). exists y. split; [right|]; assumption.
Qed.
(** The identifier has the words of the text of the vertices, between those of the name and the parenthesis. *)
Lemma identifier_ok name s : name <> [] -> ~ In newline name -> s <> [] -> exists id, unique_identifier_simplex name s = Ok id /\ In newline id /\ (~ In comma name -> (In comma id <-> In comma s)) /\
  ((forall c, In c name -> kind_of c = Other) -> tokens [] id = Word (name ++ lit "(") :: tokens [] s ++ [Word (lit ")")]).
Proof.
  intros Nn Ln N. destruct (consists_of_total s N) as (ls & C). assert (T : exists ts, Forall2 (indented (lit "    ") 1) ls ts).
  { clear C. induction ls as [|l ls (ts & IH)]; [exists []; constructor|]. destruct (indented_total (lit "    ") 1 l) as (t & Ht). exists (t :: ts). constructor; assumption. }
  destruct T as (ts & HT). unfold unique_identifier_simplex. rewrite (wl_ok new_writer (name ++ lit "(") (name ++ lit "(")) by (right; split; [intros [Q _]; destruct name; discriminate Q|reflexivity]).
  set (w := inc_indent (with_code new_writer (code new_writer ++ (name ++ lit "(") ++ [newline]))). rewrite (wc_ok w s ls ts C HT). cbn [bind].
  set (w2 := dec_indent (with_code w (code w ++ document ts))). rewrite (wl_ok w2 (lit ")") (lit ")")) by (right; split; [intros [Q _]; discriminate Q|reflexivity]). eexists. split; [reflexivity|].
  assert (E : code (with_code w2 (code w2 ++ lit ")" ++ [newline])) = (name ++ lit "(") ++ newline :: document ts ++ lit ")" ++ newline :: []).
  { unfold w2, w. cbn [with_code code inc_indent dec_indent new_writer reset]. rewrite <- !app_assoc. reflexivity. }
  rewrite E. split; [apply in_or_app; right; left; reflexivity|]. split.
  { intros HC. rewrite !in_app_iff. cbn [In]. rewrite !in_app_iff. rewrite (consists_comma s ls C), <- (lines_comma ls ts HT). split; [|tauto]. intros [[H|[H|[]]]|[H|[H|[[H|[]]|[H|[]]]]]]; try discriminate H; [contradiction|exact H]. }
  intros HN.
  assert (PN : plain (name ++ lit "(")) by (split; [destruct name; discriminate|]; intros c Hc; apply in_app_or in Hc as [Hc|[<-|[]]]; [apply HN, Hc|reflexivity]).
  rewrite tokens_sep by reflexivity. replace (tokens [] (name ++ lit "(")) with [Word (name ++ lit "(")] by (rewrite <- (app_nil_r (name ++ lit "(")) at 2; rewrite tokens_word by (assumption || exact I); reflexivity). cbn [app]. f_equal.
  assert (X : tokens [] (document ts ++ lit ")" ++ [newline]) = flat_map (tokens []) ts ++ [Word (lit ")")]).
  { clear. induction ts as [|t ts IH]; [reflexivity|]. rewrite document_cons, <- app_assoc. cbn [app]. change (tokens [] (t ++ newline :: (document ts ++ lit ")" ++ [newline])) = flat_map (tokens []) (t :: ts) ++ [Word (lit ")")]). rewrite tokens_sep, IH by reflexivity. cbn [flat_map]. rewrite <- app_assoc. reflexivity. }
  change (tokens [] (document ts ++ lit ")" ++ [newline]) = tokens [] s ++ [Word (lit ")")]). rewrite X. f_equal. rewrite (consists_tokens s ls C). clear - HT. induction HT as [|l t ls ts H HT IH]; [reflexivity|]. cbn [flat_map]. rewrite IH, (indented_tokens _ _ _ H). reflexivity.
Qed.

(** ** The words of nested lists and arrays *)
Definition row_tokens (row : list str) : list token := Open :: map Word row ++ [Close].
Definition nested_tokens (rows : list (list str)) : list token := Open :: flat_map row_tokens rows ++ [Close].
Lemma words_inj r : forall r' t t', map Word r ++ Close :: t = map Word r' ++ Close :: t' -> r = r' /\ t = t'.
Proof.
  induction r as [|a r IH]; intros [|b r'] t t' H; cbn [map app] in H; injection H; intros; subst; try discriminate; [auto|]. destruct (IH r' t t') as [-> ->]; auto.
Qed.
Lemma nested_inj rows rows' t t' : nested_tokens rows ++ t = nested_tokens rows' ++ t' -> rows = rows' /\ t = t'.
Proof.
  unfold nested_tokens. intros H. cbn [app] in H. injection H as H. rewrite <- !app_assoc in H. cbn [app] in H. revert rows' H. induction rows as [|r rows IH]; intros [|r' rows'] H; cbn [flat_map app] in H; unfold row_tokens in H; cbn [app] in H; try discriminate H.
  - injection H as H. auto.
  - injection H as H. rewrite <- !app_assoc in H. cbn [app] in H. apply words_inj in H as [-> H]. apply IH in H as [-> ->]. auto.
Qed.
Lemma join_cons2 (sep a b : str) l : join sep (a :: b :: l) = a ++ sep ++ join sep (b :: l). Proof. reflexivity. Qed.
(** elements joined by a separator *)
Lemma tokens_join {A} (sep : str) (f : A -> str) (g : A -> list token) l t : (forall u, ends (sep ++ u) /\ tokens [] (sep ++ u) = tokens [] u) -> ends t ->
  (forall a u, In a l -> ends u -> tokens [] (f a ++ u) = g a ++ tokens [] u) -> tokens [] (join sep (map f l) ++ t) = flat_map g l ++ tokens [] t.
Proof.
  intros HS HT H. induction l as [|a [|b l] IH]; [reflexivity| |].
  - cbn [map join flat_map]. rewrite H by (try assumption; left; reflexivity). rewrite app_nil_r. reflexivity.
  - cbn [map]. rewrite join_cons2, <- !app_assoc. rewrite H by (try apply HS; left; reflexivity). rewrite (proj2 (HS _)). cbn [map] in IH. rewrite IH by (intros; apply H; [right|]; assumption). cbn [flat_map]. rewrite <- !app_assoc. reflexivity.
Qed.
Lemma comma_sep u : ends (lit ", " ++ u) /\ tokens [] (lit ", " ++ u) = tokens [] u. Proof. split; [cbn; discriminate|reflexivity]. Qed.
Lemma space_sep u : ends (lit " " ++ u) /\ tokens [] (lit " " ++ u) = tokens [] u. Proof. split; [cbn; discriminate|reflexivity]. Qed.
Lemma line_sep u : ends ((newline :: lit " ") ++ u) /\ tokens [] ((newline :: lit " ") ++ u) = tokens [] u. Proof. split; [cbn; discriminate|reflexivity]. Qed.
Lemma flat_word {A} (f : A -> str) l : flat_map (fun a => [Word (f a)]) l = map Word (map f l). Proof. induction l as [|a l IH]; [reflexivity|]. cbn. rewrite IH. reflexivity. Qed.
Lemma flat_rows {A} (f : A -> list str) l : flat_map (fun a => row_tokens (f a)) l = flat_map row_tokens (map f l). Proof. induction l as [|a l IH]; [reflexivity|]. cbn. rewrite IH. reflexivity. Qed.
Lemma nested_ok {A} (show : A -> str) vs : (forall a, plain (show a)) -> tokens [] (str_nested show vs) = nested_tokens (map (map show) vs).
Proof.
  intros P. unfold str_nested, nested_tokens. change (lit "[" ++ ?x) with ("["%char :: x). cbn [tokens kind_of]. change (tokens [] ("["%char :: ?x)) with (Open :: tokens [] x). f_equal.
  rewrite (tokens_join (lit ", ") _ (fun row => row_tokens (map show row)) vs (lit "]") comma_sep); [rewrite flat_rows; reflexivity|cbn; discriminate|].
  intros row u _ Hu. change ((lit "[" ++ ?x) ++ u) with ("["%char :: x ++ u). change (tokens [] ("["%char :: ?x)) with (Open :: tokens [] x). unfold row_tokens. cbn [app]. f_equal. rewrite <- !app_assoc.
  rewrite (tokens_join (lit ", ") show (fun a => [Word (show a)]) row (lit "]" ++ u) comma_sep); [rewrite flat_word; reflexivity|cbn; discriminate|]. intros a v _ Hv. apply tokens_word; auto.
Qed.
(** a cell: a word with spaces around it *)
Definition cell (core text : str) : Prop := plain core /\ exists n m, text = spaces n ++ core ++ spaces m.
Lemma cells_ok {A} (core text : A -> str) vs : (forall row a, In row vs -> In a row -> cell (core a) (text a)) -> tokens [] (str_cells (map (map text) vs)) = nested_tokens (map (map core) vs).
Proof.
  intros P. unfold str_cells, nested_tokens. change (tokens [] (lit "[" ++ ?x)) with (Open :: tokens [] x). f_equal. rewrite map_map.
  rewrite (tokens_join (newline :: lit " ") _ (fun row => row_tokens (map core row)) vs (lit "]") line_sep); [rewrite flat_rows; reflexivity|cbn; discriminate|].
  intros row u Hr Hu. change ((lit "[" ++ ?x) ++ u) with ("["%char :: x ++ u). change (tokens [] ("["%char :: ?x)) with (Open :: tokens [] x). unfold row_tokens. cbn [app]. f_equal. rewrite <- !app_assoc.
  rewrite (tokens_join (lit " ") text (fun a => [Word (core a)]) row (lit "]" ++ u) space_sep); [rewrite flat_word; reflexivity|cbn; discriminate|].
  intros a v Ha Hv. destruct (P row a Hr Ha) as (PC & n & m & ->). rewrite <- !app_assoc, tokens_spaces. rewrite tokens_word; [cbn [app]; rewrite tokens_spaces; reflexivity|exact PC|]. destruct m; [exact Hv|cbn; discriminate].
Qed.
Lemma digit_plain c : is_digit c -> kind_of c = Other.
Proof.
  unfold is_digit, kind_of. generalize (nat_of_ascii c). intros n H. assert (Q : In n (seq 48 10)) by (apply in_seq; lia). cbn in Q. decompose [or] Q; subst; try reflexivity; contradiction.
Qed.
Lemma str_nat_plain n : plain (str_nat n).
Proof. split; [apply (proj1 (proj2 (proj2 (str_nat_fuel_ok (S n) n ltac:(lia)))))|]. intros c Hc. apply digit_plain. exact (str_nat_digits n c Hc). Qed.
Lemma str_int_plain z : plain (str_int z).
Proof.
  unfold str_int. destruct (z <? 0)%Z; [|apply str_nat_plain]. destruct (str_nat_plain (Z.to_nat (- z))) as [_ H]. split; [discriminate|]. intros c [<-|Hc]; [reflexivity|apply H, Hc].
Qed.
Lemma map_map_inj {A} (f : A -> str) vs : forall vs', (forall a b, f a = f b -> a = b) -> map (map f) vs = map (map f) vs' -> vs = vs'.
Proof.
  intros vs' H. assert (R : forall r r', map f r = map f r' -> r = r') by (induction r as [|a r IH]; intros [|b r'] E; try discriminate; [reflexivity|]; injection E as E1 E2; f_equal; auto).
  revert vs'. induction vs as [|r vs IH]; intros [|r' vs'] E; try discriminate; [reflexivity|]. injection E as E1 E2. f_equal; auto.
Qed.

Ltac text_nonempty := first [discriminate | let H := fresh in intros H; discriminate (f_equal (@length ascii) H) | unfold str_nested, str_int_array, str_float_array, str_cells; discriminate].

(** ** Identifiers *)
Definition family (b : basis) : Prop := b <> Monomial.
Definition simplex_identifier (b : basis) (vertices : str) : result str :=
  match b with
  | Monomial => Err TypeError
  | Bernstein => unique_identifier_bernstein_basis_simplex vertices
  | Lagrange => unique_identifier_lagrange_basis_simplex vertices
  end.
Lemma simplex_identifier_ok b s : family b -> s <> [] -> exists id, simplex_identifier b s = Ok id /\ In newline id /\ (In comma id <-> In comma s) /\ tokens [] id = Word (unique_identifier b ++ lit "(") :: tokens [] s ++ [Word (lit ")")].
Proof.
  intros Hb N. destruct b; [contradiction| |];
    [destruct (identifier_ok (lit "Bernstein") s) as (id & E & I & C & T)|destruct (identifier_ok (lit "Lagrange") s) as (id & E & I & C & T)]; try discriminate; try exact N;
    try (intros Q; repeat (destruct Q as [Q|Q]; [discriminate Q|]); exact Q); exists id; (split; [exact E|]); (split; [exact I|]); (split; [apply C; intros Q; repeat (destruct Q as [Q|Q]; [discriminate Q|]); exact Q|]); apply T; intros c Q; repeat (destruct Q as [<-|Q]; [reflexivity|]); contradiction.
Qed.
(** equal identifiers: the same basis, and the same words in the texts of the vertices *)
Lemma identifier_inj b b' s s' id rows rows' : family b -> family b' -> s <> [] -> s' <> [] -> simplex_identifier b s = Ok id -> simplex_identifier b' s' = Ok id ->
  tokens [] s = nested_tokens rows -> tokens [] s' = nested_tokens rows' -> b = b' /\ rows = rows'.
Proof.
  intros Hb Hb' N N' E E' T T'. destruct (simplex_identifier_ok b s Hb N) as (i & Ei & _ & _ & Ti). destruct (simplex_identifier_ok b' s' Hb' N') as (i' & Ei' & _ & _ & Ti'). assert (i = i') by congruence. subst i'. rewrite Ti in Ti'. rewrite T, T' in Ti'.
  pose proof (f_equal (hd Open) Ti') as H1. pose proof (f_equal (@tl token) Ti') as H2. cbn [hd tl] in H1, H2. split.
  - destruct b, b'; try reflexivity; try contradiction; exfalso; discriminate H1.
  - apply nested_inj in H2 as [H2 _]. exact H2.
Qed.
(** The identifier of a basis on a simplex is no identifier of a basis without a simplex, whatever the vertices. *)
Theorem C121_unit : forall b b' s id, simplex_identifier b s = Ok id -> id <> unique_identifier b'.
Proof.
  intros b b' s id E C. assert (Hb : family b) by (destruct b; [discriminate E|discriminate|discriminate]). assert (N : s <> []) by (intros ->; destruct b; discriminate E).
  destruct (simplex_identifier_ok b s Hb N) as (i & Ei & I & _). assert (i = id) by congruence. subst i id. destruct b'; cbn in I; repeat (destruct I as [I|I]; [discriminate I|]); exact I.
Qed.
Print Assumptions C121_unit.
Theorem C121_unit_distinct : forall b b', unique_identifier b = unique_identifier b' -> b = b'.
Proof. intros [] [] H; try reflexivity; discriminate H. Qed.
Print Assumptions C121_unit_distinct.
(** Vertices in nested lists, of coordinates whose representations differ and contain no space, newline, comma or square bracket (Python
    ints and floats): every such simplex has an identifier, and equal identifiers mean the same basis and the same vertices. *)
Theorem C121_lists : forall A (show : A -> str), (forall a c, In c (show a) -> ~ In c [newline; " "%char; ","%char; "["%char; "]"%char]) -> (forall a, show a <> []) -> (forall a b, show a = show b -> a = b) ->
  forall b vs, b <> Monomial -> exists id, simplex_identifier b (str_nested show vs) = Ok id /\
    forall b' vs', simplex_identifier b' (str_nested show vs') = Ok id -> b = b' /\ vs = vs'.
Proof.
  intros A show HC HN HI b vs Hb. assert (P : forall a, plain (show a)).
  { intros a. split; [apply HN|]. intros c Hc. pose proof (HC a c Hc) as Q. unfold kind_of. destruct c as [[] [] [] [] [] [] [] []]; try reflexivity; exfalso; apply Q; cbn; auto 6. }
  destruct (simplex_identifier_ok b (str_nested show vs) Hb ltac:(text_nonempty)) as (id & E & _). exists id. split; [exact E|]. intros b' vs' E'. assert (Hb' : family b') by (destruct b'; [discriminate E'|discriminate|discriminate]).
  destruct (identifier_inj b b' (str_nested show vs) (str_nested show vs') id _ _ Hb Hb' ltac:(text_nonempty) ltac:(text_nonempty) E E' (nested_ok show vs P) (nested_ok show vs' P)) as [H1 H2]. split; [exact H1|]. exact (map_map_inj show vs vs' HI H2).
Qed.
Print Assumptions C121_lists.
Lemma int_array_tokens vs : tokens [] (str_int_array vs) = nested_tokens (map (map str_int) vs).
Proof.
  unfold str_int_array, int_cells. set (w := width _). clearbody w. rewrite map_map. rewrite (map_ext _ (map (fun z => spaces (w - length (str_int z)) ++ str_int z))) by (intros r; apply map_map). apply cells_ok. intros _ z _ _. split; [apply str_int_plain|]. exists (w - length (str_int z)), 0. rewrite app_nil_r. reflexivity.
Qed.
(** the same for arrays of integers *)
Theorem C121_int_arrays : forall b vs, b <> Monomial -> exists id, simplex_identifier b (str_int_array vs) = Ok id /\
  forall b' vs', simplex_identifier b' (str_int_array vs') = Ok id -> b = b' /\ vs = vs'.
Proof.
  intros b vs Hb. destruct (simplex_identifier_ok b (str_int_array vs) Hb ltac:(text_nonempty)) as (id & E & _). exists id. split; [exact E|]. intros b' vs' E'. assert (Hb' : family b') by (destruct b'; [discriminate E'|discriminate|discriminate]).
  destruct (identifier_inj b b' (str_int_array vs) (str_int_array vs') id _ _ Hb Hb' ltac:(text_nonempty) ltac:(text_nonempty) E E' (int_array_tokens vs) (int_array_tokens vs')) as [H1 H2]. split; [exact H1|]. exact (map_map_inj str_int vs vs' str_int_inj H2).
Qed.
Print Assumptions C121_int_arrays.

(** ** Arrays of floats *)
Definition float_text (r : Z) : str := whole_text r ++ lit "." ++ fraction_text 8 (Z.abs r mod 10 ^ 8)%Z.
Lemma fraction_digits k : forall f, (0 <= f < 10 ^ Z.of_nat k)%Z -> forall c, In c (fraction_text k f) -> is_digit c.
Proof.
  induction k as [|k IH]; intros f Hf c; [intros []|]. cbn [fraction_text]. destruct (f =? 0)%Z; [intros []|]. assert (P : (0 < 10 ^ Z.of_nat k)%Z) by (apply Z.pow_pos_nonneg; lia). rewrite Nat2Z.inj_succ, Z.pow_succ_r in Hf by lia.
  assert (Q : (0 <= f / 10 ^ Z.of_nat k < 10)%Z) by (split; [apply Z.div_pos; lia|apply Z.div_lt_upper_bound; lia]). intros [<-|Hc]; [|apply (IH (f mod 10 ^ Z.of_nat k)%Z); [apply Z.mod_pos_bound; exact P|exact Hc]].
  unfold is_digit. rewrite nat_ascii_embedding by lia. lia.
Qed.
Lemma fraction_inj k : forall f g, (0 <= f < 10 ^ Z.of_nat k)%Z -> (0 <= g < 10 ^ Z.of_nat k)%Z -> fraction_text k f = fraction_text k g -> f = g.
Proof.
  induction k as [|k IH]; intros f g Hf Hg E; [change (10 ^ Z.of_nat 0)%Z with 1%Z in *; lia|]. cbn [fraction_text] in E. assert (P : (0 < 10 ^ Z.of_nat k)%Z) by (apply Z.pow_pos_nonneg; lia). rewrite Nat2Z.inj_succ, Z.pow_succ_r in Hf, Hg by lia.
  destruct (Z.eqb_spec f 0) as [F|F], (Z.eqb_spec g 0) as [G|G]; try discriminate E; [congruence|].
  assert (Qf : (0 <= f / 10 ^ Z.of_nat k < 10)%Z) by (split; [apply Z.div_pos; lia|apply Z.div_lt_upper_bound; lia]). assert (Qg : (0 <= g / 10 ^ Z.of_nat k < 10)%Z) by (split; [apply Z.div_pos; lia|apply Z.div_lt_upper_bound; lia]).
  apply (f_equal (fun l => match l with c :: t => (nat_of_ascii c, t) | [] => (0, []) end)) in E. injection E as E1 E2. rewrite !nat_ascii_embedding in E1 by lia.
  apply IH in E2; [|apply Z.mod_pos_bound; exact P|apply Z.mod_pos_bound; exact P]. rewrite (Z.div_mod f (10 ^ Z.of_nat k)), (Z.div_mod g (10 ^ Z.of_nat k)) by lia. assert ((f / 10 ^ Z.of_nat k = g / 10 ^ Z.of_nat k)%Z) by lia. congruence.
Qed.
Lemma whole_plain r : plain (whole_text r).
Proof.
  unfold whole_text. destruct (str_nat_plain (Z.to_nat (Z.abs r / 10 ^ 8))) as [N H]. destruct (r <? 0)%Z; [|split; [exact N|exact H]]. split; [discriminate|]. intros c [<-|Hc]; [reflexivity|apply H, Hc].
Qed.
Lemma float_plain r : plain (float_text r).
Proof.
  unfold float_text. destruct (whole_plain r) as [N H]. split; [destruct (whole_text r); [contradiction|discriminate]|]. intros c Hc. apply in_app_or in Hc as [Hc|[<-|Hc]]; [apply H, Hc|reflexivity|]. apply digit_plain. refine (fraction_digits 8 _ _ c Hc). apply Z.mod_pos_bound. reflexivity.
Qed.
Lemma whole_no_dot r : ~ In "."%char (whole_text r).
Proof.
  intros H. unfold whole_text in H. apply in_app_or in H as [H|H]; [destruct (r <? 0)%Z; [destruct H as [H|[]]; discriminate H|destruct H]|]. apply str_nat_digits in H. unfold is_digit in H. cbn in H. lia.
Qed.
Lemma float_inj r r' : float_text r = float_text r' -> r = r'.
Proof.
  unfold float_text. intros H. apply (split_eq "."%char) in H as [H1 H2]; [|apply whole_no_dot|apply whole_no_dot]. apply fraction_inj in H2; [|apply Z.mod_pos_bound; reflexivity|apply Z.mod_pos_bound; reflexivity].
  assert (S : (r <? 0)%Z = (r' <? 0)%Z /\ Z.to_nat (Z.abs r / 10 ^ 8) = Z.to_nat (Z.abs r' / 10 ^ 8)).
  { assert (G : forall n s, str_nat n = lit "-" ++ s -> False) by (intros n s Q; assert (D : is_digit "-"%char) by (apply (str_nat_digits n); rewrite Q; left; reflexivity); unfold is_digit in D; cbn in D; lia).
    unfold whole_text in H1. destruct (r <? 0)%Z, (r' <? 0)%Z; cbn [app] in H1; [| | |].
    - injection H1 as H1. apply str_nat_inj in H1. auto.
    - exfalso. exact (G _ _ (eq_sym H1)).
    - exfalso. exact (G _ _ H1).
    - apply str_nat_inj in H1. auto. }
  destruct S as [S1 S2]. assert (D : (Z.abs r / 10 ^ 8 = Z.abs r' / 10 ^ 8)%Z) by (apply Z2Nat.inj; [apply Z.div_pos; lia|apply Z.div_pos; lia|exact S2]).
  assert (AB : Z.abs r = Z.abs r') by (rewrite (Z.div_mod (Z.abs r) (10 ^ 8)), (Z.div_mod (Z.abs r') (10 ^ 8)) by lia; congruence). destruct (Z.ltb_spec r 0), (Z.ltb_spec r' 0); try discriminate S1; lia.
Qed.
Lemma float_array_tokens vs : tokens [] (str_float_array vs) = nested_tokens (map (map float_text) (map (map round8) vs)).
Proof.
  unfold str_float_array, float_cells. set (wl_ := width _). set (wr := width _). clearbody wl_ wr. rewrite map_map. rewrite (map_ext (fun x => map float_text (map round8 x)) (map (fun z => float_text (round8 z)))) by (intros r; apply map_map).
  apply cells_ok. intros _ z _ _. split; [apply float_plain|]. exists (wl_ - length (whole_text (round8 z))), (wr - length (fraction_text 8 (Z.abs (round8 z) mod 10 ^ 8)%Z)). unfold float_text. rewrite <- !app_assoc. reflexivity.
Qed.
(** Arrays of floats: equal identifiers mean the same basis and vertices that agree when rounded to 8 decimals. *)
Theorem C121_float_arrays : forall b vs, b <> Monomial -> exists id, simplex_identifier b (str_float_array vs) = Ok id /\
  forall b' vs', simplex_identifier b' (str_float_array vs') = Ok id <-> b = b' /\ map (map round8) vs = map (map round8) vs'.
Proof.
  intros b vs Hb. destruct (simplex_identifier_ok b (str_float_array vs) Hb ltac:(text_nonempty)) as (id & E & _). exists id. split; [exact E|]. intros b' vs'. split.
  - intros E'. assert (Hb' : family b') by (destruct b'; [discriminate E'|discriminate|discriminate]).
    destruct (identifier_inj b b' (str_float_array vs) (str_float_array vs') id _ _ Hb Hb' ltac:(text_nonempty) ltac:(text_nonempty) E E' (float_array_tokens vs) (float_array_tokens vs')) as [H1 H2]. split; [exact H1|]. exact (map_map_inj float_text _ _ float_inj H2).
  - intros [<- H]. rewrite <- E. f_equal. assert (G : forall us, float_cells us = let rs := map (map round8) us in
      let wholes := map (map whole_text) rs in let fractions := map (map (fun r => fraction_text 8 (Z.abs r mod 10 ^ 8)%Z)) rs in
      map (map (fun r => spaces (width wholes - length (whole_text r)) ++ whole_text r ++ lit "." ++ fraction_text 8 (Z.abs r mod 10 ^ 8)%Z ++ spaces (width fractions - length (fraction_text 8 (Z.abs r mod 10 ^ 8)%Z)))) rs).
    { intros us. unfold float_cells. cbv zeta. rewrite !map_map. rewrite (map_ext (fun x => map whole_text (map round8 x)) (map (fun z => whole_text (round8 z)))) by (intros x; apply map_map).
      rewrite (map_ext (fun x => map (fun r => fraction_text 8 (Z.abs r mod 10 ^ 8)%Z) (map round8 x)) (map (fun z => fraction_text 8 (Z.abs (round8 z) mod 10 ^ 8)%Z))) by (intros x; exact (map_map round8 (fun r => fraction_text 8 (Z.abs r mod 10 ^ 8)%Z) x)). apply map_ext. intros x. rewrite map_map. reflexivity. }
    unfold str_float_array. rewrite !G, H. reflexivity.
Qed.
Print Assumptions C121_float_arrays.
(** Two different simplices with the same identifier: a corner at 1.0 and one at 1.000000001. *)
Theorem C121_float_arrays_refuted : exists vs vs' : list (list Z), vs <> vs' /\ length vs = length vs' /\ forall b, simplex_identifier b (str_float_array vs) = simplex_identifier b (str_float_array vs').
Proof.
  exists [[0; 0]; [1000000000; 0]; [0; 1000000000]]%Z, [[0; 0]; [1000000001; 0]; [0; 1000000000]]%Z. split; [discriminate|]. split; [reflexivity|]. intros b. vm_compute. reflexivity.
Qed.
Print Assumptions C121_float_arrays_refuted.
(** The same vertices in a list and in an array: the identifiers differ (for simplices other than a point), so polynomials on them cannot be added. *)
Theorem C121_list_array_refuted : forall b v w vs, b <> Monomial -> simplex_identifier b (str_nested str_int (v :: w :: vs)) <> simplex_identifier b (str_int_array (v :: w :: vs)).
Proof.
  intros b v w vs Hb E. destruct (simplex_identifier_ok b (str_nested str_int (v :: w :: vs)) Hb ltac:(text_nonempty)) as (i & Ei & _ & C & _). destruct (simplex_identifier_ok b (str_int_array (v :: w :: vs)) Hb ltac:(text_nonempty)) as (i' & Ei' & _ & C' & _).
  assert (i = i') by congruence. subst i'. assert (H : In comma (str_int_array (v :: w :: vs))).
  { apply C', C. unfold str_nested. cbn [map]. rewrite join_cons2. apply in_or_app. right. apply in_or_app. left. apply in_or_app. right. left. reflexivity. }
  revert H. generalize (v :: w :: vs). clear. intros vs H.
  assert (J : forall sep l, ~ In comma sep -> In comma (join sep l) -> exists x, In x l /\ In comma x).
  { intros sep l NS. induction l as [|a [|b l] IH]; [intros []|intros Q; exists a; split; [left; reflexivity|exact Q]|]. rewrite join_cons2. intros Q. apply in_app_or in Q as [Q|Q]; [exists a; split; [left; reflexivity|exact Q]|]. apply in_app_or in Q as [Q|Q]; [contradiction|]. destruct (IH Q) as (x & Hx & Cx). exists x. split; [right|]; assumption. }
  unfold str_int_array, str_cells in H. apply in_app_or in H as [[H|[]]|H]; [discriminate H|]. apply in_app_or in H as [H|[H|[]]]; [|discriminate H]. apply J in H as (x & Hx & Cx); [|intros [Q|[Q|[]]]; discriminate Q]. apply in_map_iff in Hx as (row & <- & Hrow).
  apply in_app_or in Cx as [[Q|[]]|Cx]; [discriminate Q|]. apply in_app_or in Cx as [Cx|[Q|[]]]; [|discriminate Q]. apply J in Cx as (y & Hy & Cy); [|intros [Q|[]]; discriminate Q]. unfold int_cells in Hrow. apply in_map_iff in Hrow as (texts & <- & Ht). apply in_map_iff in Ht as (zs & <- & _). apply in_map_iff in Hy as (t & <- & Hz). apply in_map_iff in Hz as (z & <- & _).
  apply in_app_or in Cy as [Cy|Cy]; [apply repeat_spec in Cy; discriminate Cy|]. apply (str_int_plain z) in Cy. discriminate Cy.
Qed.
Print Assumptions C121_list_array_refuted.

(** ** Examples *)
Example C121_ex : simplex_identifier Bernstein (str_int_array [[0; 0]; [10; 0]; [0; -1]]%Z) = Ok (lit "Bernstein(" ++ newline :: lit "    [[ 0  0]" ++ newline :: lit "     [10  0]" ++ newline :: lit "     [ 0 -1]]" ++ newline :: lit ")" ++ [newline]).
Proof. vm_compute. reflexivity. Qed.
Example C121_ex_float : str_float_array [[0; 0]; [1250000000; 0]; [0; -500000000]]%Z = lit "[[ 0.    0.  ]" ++ newline :: lit " [ 1.25  0.  ]" ++ newline :: lit " [ 0.   -0.5 ]]".
Proof. vm_compute. reflexivity. Qed.
(** the hypotheses of C121_lists hold for integers *)
Example C121_ex_list : exists id, simplex_identifier Lagrange (str_nested str_int [[0; 0]; [1; 0]; [0; 1]]%Z) = Ok id /\ forall b' vs', simplex_identifier b' (str_nested str_int vs') = Ok id -> Lagrange = b' /\ [[0; 0]; [1; 0]; [0; 1]]%Z = vs'.
Proof.
  apply C121_lists; [|intros z; apply (str_int_plain z)|exact str_int_inj|discriminate]. intros z c Hc Q. apply (str_int_plain z) in Hc. repeat (destruct Q as [<-|Q]; [discriminate Hc|]). exact Q.
Qed.
