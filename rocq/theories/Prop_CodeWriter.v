(** Properties of the code writer. *)
From Coq Require Import Ascii String ZArith Lia.
From Verif Require Import Base StrUtils Prop_StrUtils NumStr Prop_NumStr CodeWriter.
Local Close Scope string_scope.
Local Close Scope Z_scope.
Local Open Scope list_scope.

(** ** What a program that writes code is expected to produce *)
Inductive command := Line (s : str) | Indent | Dedent | Block (s : str).
Definition execute (w : writer) (c : command) : result writer :=
  match c with Line s => Ok (wl w s) | Indent => Ok (inc_indent w) | Dedent => Ok (dec_indent w) | Block s => wc w s end.
Definition run (w : writer) (p : list command) : result writer := foldM execute w p.

Definition one_line (s : str) : Prop := ~ In newline s.
Definition all_spaces (s : str) : Prop := forall c, In c s -> c = ascii_of_nat 32.
(** [t] is [s] after [d] times the indent; a blank line gets no trailing spaces *)
Definition indented (ind : str) (d : nat) (s t : str) : Prop :=
  (s = [] /\ all_spaces ind /\ t = []) \/ (~ (s = [] /\ all_spaces ind) /\ t = concat (repeat ind d) ++ s).
(** the text with these lines *)
Definition document (l : list str) : str := concat (map (fun x => x ++ [newline]) l).
(** [s] consists of the lines [l]; the newline after the last one may be missing if the last line is not blank *)
Definition consists_of (s : str) (l : list str) : Prop := l <> [] /\ (forall x, In x l -> one_line x) /\ (s = document l \/ (s ++ [newline] = document l /\ last l [] <> [])).
Inductive renders (ind : str) : nat -> list command -> list str -> Prop :=
| renders_nil d : renders ind d [] []
| renders_line d s t p l : one_line s -> indented ind d s t -> renders ind d p l -> renders ind d (Line s :: p) (t :: l)
| renders_indent d p l : renders ind (S d) p l -> renders ind d (Indent :: p) l
| renders_dedent d p l : renders ind d p l -> renders ind (S d) (Dedent :: p) l
| renders_block d s ls ts p l : consists_of s ls -> Forall2 (indented ind d) ls ts -> renders ind d p l -> renders ind d (Block s :: p) (ts ++ l).

Lemma spaces_ok s : contains_only_spaces s = true <-> all_spaces s.
Proof.
  unfold contains_only_spaces, str_eqb, all_spaces. destruct (list_eq_dec ascii_dec _ []) as [E|E]; split; intros H; try reflexivity; try discriminate.
  - intros c Hc. destruct (ascii_dec c (ascii_of_nat 32)) as [Q|Q]; [exact Q|]. exfalso. assert (I : In c []) by (rewrite <- E; apply filter_In; split; [exact Hc|]; destruct (ascii_dec c _); [contradiction|reflexivity]). destruct I.
  - exfalso. apply E. clear E. induction s as [|c s IH]; [reflexivity|]. cbn [filter]. destruct (ascii_dec c (ascii_of_nat 32)) as [Q|Q]; [apply IH; intros; apply H; now right|]. exfalso. apply Q, H. now left.
Qed.
Lemma str_eqb_nil s : str_eqb s [] = true <-> s = [].
Proof. unfold str_eqb. destruct (list_eq_dec ascii_dec s []); split; congruence. Qed.
(** two writers that differ in the code only *)
Definition with_code (w : writer) (c : str) : writer := Writer (indent_depth w) c (scope w) (indent w) (scope_delimiter w).
Lemma wl_ok w s t : indented (indent w) (Z.to_nat (indent_depth w)) s t -> wl w s = with_code w (code w ++ t ++ [newline]).
Proof.
  intros H. unfold wl. destruct H as [(E & S & ->)|(N & ->)].
  - rewrite (proj2 (str_eqb_nil s) E), (proj2 (spaces_ok _) S). reflexivity.
  - replace (negb (str_eqb s []) || negb (contains_only_spaces (indent w))) with true; [unfold el, bl, al, with_code, str_mul; cbn; rewrite <- !app_assoc; reflexivity|].
    symmetry. destruct (str_eqb s []) eqn:E; [|reflexivity]. destruct (contains_only_spaces (indent w)) eqn:C; [|reflexivity]. exfalso. apply N. split; [apply str_eqb_nil, E|apply spaces_ok, C].
Qed.
Lemma indented_total ind d s : exists t, indented ind d s t.
Proof.
  destruct (contains_only_spaces ind) eqn:C; [apply spaces_ok in C|]; [destruct s as [|c s]; [exists []; left; auto|]|]; (eexists; right; split; [|reflexivity]).
  - intros [Q _]. discriminate Q.
  - intros [_ Q]. apply spaces_ok in Q. congruence.
Qed.
Lemma indented_unique ind d s t t' : indented ind d s t -> indented ind d s t' -> t = t'.
Proof. intros [(A & B & ->)|(N & ->)] [(A' & B' & ->)|(N' & ->)]; auto; exfalso; auto. Qed.
Lemma document_cons x l : document (x :: l) = x ++ newline :: document l.
Proof. unfold document. cbn. rewrite <- app_assoc. reflexivity. Qed.
Lemma document_app l l' : document (l ++ l') = document l ++ document l'.
Proof. unfold document. rewrite map_app, concat_app. reflexivity. Qed.
Lemma document_join l : l <> [] -> document l = join [newline] l ++ [newline].
Proof.
  induction l as [|x [|y l] IH]; intros N; [contradiction|unfold document; cbn; rewrite app_nil_r; reflexivity|]. rewrite document_cons, join_cons by discriminate. rewrite IH by discriminate. rewrite <- !app_assoc. reflexivity.
Qed.
Lemma wl_lines ls : forall w ts, Forall2 (indented (indent w) (Z.to_nat (indent_depth w))) ls ts -> fold_left wl ls w = with_code w (code w ++ document ts).
Proof.
  induction ls as [|s ls IH]; intros w ts H; inversion H as [|s' t ls' ts' H1 H2]; subst.
  - cbn. rewrite app_nil_r. destruct w; reflexivity.
  - cbn [fold_left]. rewrite (wl_ok w s t H1), (IH (with_code w (code w ++ t ++ [newline])) ts' H2). unfold with_code. cbn [indent_depth code scope indent scope_delimiter]. rewrite document_cons, <- !app_assoc. reflexivity.
Qed.
Lemma split_lines l : l <> [] -> (forall x, In x l -> one_line x) -> split (join [newline] l) [newline] = Ok l.
Proof.
  intros N H. destruct (C111_pieces (join [newline] l) [newline] ltac:(discriminate)) as (l' & E & _ & _ & U). rewrite E. f_equal. symmetry. apply U. apply (join_splits newline []); assumption.
Qed.
Lemma last_char_join l : l <> [] -> last l [] <> [] -> exists a c, join [newline] l = a ++ [c] /\ In c (last l []).
Proof.
  induction l as [|x [|y l] IH]; intros N H; [contradiction| |].
  - cbn [last] in *. cbn [join]. destruct (exists_last H) as (a & c & ->). exists a, c. split; [reflexivity|]. apply in_or_app. right. now left.
  - destruct (IH ltac:(discriminate) H) as (a & c & E & I). exists (x ++ [newline] ++ a), c. split; [|exact I]. rewrite join_cons by discriminate. rewrite E, <- !app_assoc. reflexivity.
Qed.
Lemma last_In {A} (l : list A) d : l <> [] -> In (last l d) l.
Proof. induction l as [|x [|y l] IH]; intros N; [contradiction|now left|]. right. apply IH. discriminate. Qed.
Lemma wc_ok w s ls ts : consists_of s ls -> Forall2 (indented (indent w) (Z.to_nat (indent_depth w))) ls ts -> wc w s = Ok (with_code w (code w ++ document ts)).
Proof.
  intros (N & O & C) F. unfold wc. rewrite (document_join ls N) in C. destruct C as [ -> |(C & NB)].
  - rewrite rev_app_distr. cbn [rev app]. destruct (ascii_dec newline newline) as [_|Q]; [|contradiction]. rewrite removelast_last, (split_lines ls N O). cbn [bind]. rewrite (wl_lines ls w ts F). reflexivity.
  - apply app_inj_tail in C as [ -> _]. destruct (last_char_join ls N NB) as (a & c & E & I). rewrite E at 1. rewrite rev_app_distr. cbn [rev app]. destruct (ascii_dec c newline) as [Q|Q].
    + exfalso. subst c. exact (O _ (last_In ls [] N) I).
    + rewrite (split_lines ls N O). cbn [bind]. rewrite (wl_lines ls w ts F). reflexivity.
Qed.
(** A program appends to the code the lines that it renders to, whatever has been written before. *)
Theorem C113_program : forall w p d l, indent_depth w = Z.of_nat d -> renders (indent w) d p l ->
  exists w', run w p = Ok w' /\ code w' = code w ++ document l /\ indent w' = indent w /\ scope w' = scope w /\ scope_delimiter w' = scope_delimiter w.
Proof.
  intros w p d l Hd R. remember (indent w) as ind eqn:Hi. revert w Hd Hi. unfold run. induction R as [d|d s t p l H1 H2 R IH|d p l R IH|d p l R IH|d s ls ts p l H1 H2 R IH]; intros w Hd Hi; cbn [foldM execute bind].
  - exists w. rewrite app_nil_r. auto.
  - subst ind. rewrite (wl_ok w s t) by (rewrite Hd, Nat2Z.id; exact H2). destruct (IH (with_code w (code w ++ t ++ [newline])) Hd eq_refl) as (w' & E & C & A). exists w'. split; [exact E|]. split; [|exact A]. rewrite C. cbn [with_code code]. rewrite document_cons, <- !app_assoc. reflexivity.
  - destruct (IH (inc_indent w)) as (w' & A); [cbn; lia|exact Hi|]. exists w'. exact A.
  - destruct (IH (dec_indent w)) as (w' & A); [cbn; lia|exact Hi|]. exists w'. exact A.
  - subst ind. rewrite (wc_ok w s ls ts H1) by (rewrite Hd, Nat2Z.id; exact H2). cbn [bind]. destruct (IH (with_code w (code w ++ document ts)) Hd eq_refl) as (w' & E & C & A). exists w'. split; [exact E|]. split; [|exact A]. rewrite C. cbn [with_code code]. rewrite document_app, <- app_assoc. reflexivity.
Qed.
Print Assumptions C113_program.
Lemma consists_of_total s : s <> [] -> exists ls, consists_of s ls.
Proof.
  intros N. assert (G : forall u, exists ls, ls <> [] /\ u = join [newline] ls /\ forall x, In x ls -> one_line x).
  { intros u. destruct (C111_pieces u [newline] ltac:(discriminate)) as (l & E & J & O & _). exists l. split; [intros ->; unfold split in E; cbn in E; injection E as E; revert E; apply split_from_nil|]. split; [auto|]. intros x Hx Q. apply (O x Hx). apply in_split in Q as (a & b & ->). exists a, b. reflexivity. }
  destruct (exists_last N) as (u & c & ->). destruct (ascii_dec c newline) as [ -> |Q].
  - destruct (G u) as (ls & NL & -> & O). exists ls. split; [exact NL|]. split; [exact O|]. left. symmetry. apply document_join, NL.
  - destruct (G (u ++ [c])) as (ls & NL & E & O). exists ls. split; [exact NL|]. split; [exact O|]. right. split; [rewrite E; symmetry; apply document_join, NL|]. intros L. apply Q. clear - E NL L.
    revert u E. induction ls as [|x [|y ls] IH]; intros u E; [contradiction| |].
    + cbn in L, E. subst x. destruct u; discriminate.
    + rewrite join_cons in E by discriminate. cbn [last] in L. destruct ls as [|z ls].
      * cbn [last] in L. subst y. cbn [join] in E. rewrite app_nil_r in E. apply app_inj_tail in E as [_ E]. exact E.
      * destruct (exists_last (l := join [newline] (y :: z :: ls))) as (v & e & EV); [rewrite join_cons by discriminate; destruct y; discriminate|]. rewrite EV in E. rewrite !app_assoc in E. apply app_inj_tail in E as [_ ->]. apply (IH ltac:(discriminate) L v). exact (eq_sym EV).
Qed.
(** Every program whose indentation never becomes negative, which writes no line with a newline in it and no empty block, renders to lines. *)
Theorem C113_renders : forall ind p d, (forall s, In (Line s) p -> one_line s) -> ~ In (Block []) p ->
  (forall k, (length (filter (fun c => match c with Dedent => true | _ => false end) (firstn k p)) <= d + length (filter (fun c => match c with Indent => true | _ => false end) (firstn k p)))%nat) ->
  exists l, renders ind d p l.
Proof.
  intros ind p. induction p as [|c p IH]; intros d HL HB HD; [exists []; constructor|].
  assert (HL' : forall s, In (Line s) p -> one_line s) by (intros; apply HL; now right). assert (HB' : ~ In (Block []) p) by (intros Q; apply HB; now right).
  destruct c as [s| | |s].
  - destruct (IH d HL' HB') as (l & R); [intros k; exact (HD (S k))|]. destruct (indented_total ind d s) as (t & T). exists (t :: l). constructor; auto. apply HL. now left.
  - destruct (IH (S d) HL' HB') as (l & R); [intros k; specialize (HD (S k)); cbn [firstn filter length] in HD; lia|]. exists l. now constructor.
  - destruct d as [|d]; [specialize (HD 1%nat); cbn in HD; lia|]. destruct (IH d HL' HB') as (l & R); [intros k; specialize (HD (S k)); cbn [firstn filter length] in HD; lia|]. exists l. now constructor.
  - destruct (IH d HL' HB') as (l & R); [intros k; exact (HD (S k))|]. destruct (consists_of_total s) as (ls & C); [intros ->; apply HB; now left|]. assert (T : exists ts, Forall2 (indented ind d) ls ts).
    { clear. induction ls as [|x ls (ts & F)]; [exists []; constructor|]. destruct (indented_total ind d x) as (t & T). exists (t :: ts). constructor; assumption. }
    destruct T as (ts & F). exists (ts ++ l). econstructor; eauto.
Qed.
Print Assumptions C113_renders.
Lemma indented_twice ind d e s t : indented ind e s t -> exists t', indented ind d t t' /\ indented ind (d + e) s t'.
Proof.
  intros [(-> & S & ->)|(N & ->)].
  - exists []. split; left; auto.
  - exists (concat (repeat ind (d + e)) ++ s). split; [|right; auto]. rewrite repeat_app, concat_app, <- app_assoc. destruct (contains_only_spaces ind) eqn:C.
    + right. split; [|reflexivity]. intros [Q S]. apply app_eq_nil in Q as [_ Q]. apply N. auto.
    + right. split; [|reflexivity]. intros [_ S]. apply spaces_ok in S. congruence.
Qed.
Lemma indented_line ind d s t : one_line ind -> one_line s -> indented ind d s t -> one_line t.
Proof.
  intros I O [(_ & _ & ->)|(_ & ->)]; [intros []|]. intros Q. apply in_app_or in Q as [Q|Q]; [|exact (O Q)]. apply in_concat in Q as (x & X & Q). apply repeat_spec in X. subst x. exact (I Q).
Qed.
Lemma renders_lines ind d p l : one_line ind -> renders ind d p l -> forall x, In x l -> one_line x.
Proof.
  intros I R. induction R as [d|d s t p l H1 H2 R IH|d p l R IH|d p l R IH|d s ls ts p l (N & O & _) H2 R IH]; intros x Hx; auto.
  - destruct Hx.
  - destruct Hx as [ <- |Hx]; [exact (indented_line ind d s t I H1 H2)|auto].
  - apply in_app_or in Hx as [Hx|Hx]; [|auto]. clear - H2 Hx O I. induction H2 as [|a b ls ts Hab H2 IH]; [destruct Hx|]. destruct Hx as [ -> |Hx]; [exact (indented_line ind d a x I (O a ltac:(now left)) Hab)|]. apply IH; [intros; apply O; now right|exact Hx].
Qed.
Lemma renders_deeper ind d e p l : renders ind e p l -> exists l', renders ind (d + e) p l' /\ Forall2 (indented ind d) l l'.
Proof.
  intros R. induction R as [e|e s t p l H1 H2 R (l' & R' & F)|e p l R (l' & R' & F)|e p l R (l' & R' & F)|e s ls ts p l H1 H2 R (l' & R' & F)].
  - exists []. split; constructor.
  - destruct (indented_twice ind d e s t H2) as (t' & A & B). exists (t' :: l'). split; constructor; assumption.
  - exists l'. split; [|exact F]. constructor. (replace (S (d + e)) with (d + S e)%nat by lia; exact R').
  - exists l'. split; [|exact F]. rewrite Nat.add_succ_r. constructor. exact R'.
  - assert (G : exists ts', Forall2 (indented ind (d + e)) ls ts' /\ Forall2 (indented ind d) ts ts').
    { clear - H2. induction H2 as [|a b ls ts Hab H2 (ts' & A & B)]; [exists []; split; constructor|]. destruct (indented_twice ind d e a b Hab) as (t' & X & Y). exists (t' :: ts'). split; constructor; assumption. }
    destruct G as (ts' & A & B). exists (ts' ++ l'). split; [econstructor; eauto|apply Forall2_app; assumption].
Qed.
(** Code that was produced by a program in another writer and is then inserted as a block is the code that the program writes directly. *)
Theorem C113_nesting : forall w w0 d p l, one_line (indent w) -> indent_depth w = Z.of_nat d -> indent w0 = indent w -> indent_depth w0 = 0%Z -> code w0 = [] -> l <> [] -> renders (indent w) 0 p l ->
  exists inner nested direct, run w0 p = Ok inner /\ wc w (code inner) = Ok nested /\ run w p = Ok direct /\ code nested = code direct.
Proof.
  intros w w0 d p l I Hd Hi H0 Hc N R. destruct (renders_deeper _ d _ _ _ R) as (l' & R' & F). rewrite Nat.add_0_r in R'.
  assert (R0 : renders (indent w0) 0 p l) by (rewrite Hi; exact R).
  destruct (C113_program w0 p 0%nat l H0 R0) as (inner & E & C & _). destruct (C113_program w p d l' Hd R') as (direct & E' & C' & _). rewrite Hc in C. cbn [app] in C.
  exists inner, (with_code w (code w ++ document l')), direct. split; [exact E|]. split; [|split; [exact E'|symmetry; exact C']]. rewrite C. apply (wc_ok w (document l) l l'); [|rewrite Hd, Nat2Z.id; exact F]. split; [exact N|]. split; [exact (renders_lines _ _ _ _ I R)|left; reflexivity].
Qed.
Print Assumptions C113_nesting.

(** ** Reading the code *)
Fixpoint pops (n : nat) (w : writer) : list str * writer :=
  match n with O => ([], w) | S n => let '(x, w) := pop_first_line w in let '(l, w) := pops n w in (x :: l, w) end.
Lemma partition_ok a b : one_line a -> partition_newline (a ++ newline :: b) = (a, b).
Proof. induction a as [|c a IH]; intros H; cbn [app partition_newline]; [destruct (ascii_dec newline newline); [reflexivity|contradiction]|]. destruct (ascii_dec c newline) as [Q|Q]; [exfalso; apply H; now left|]. rewrite IH; [reflexivity|intros X; apply H; now right]. Qed.
Lemma partition_last a : one_line a -> partition_newline a = (a, []).
Proof. induction a as [|c a IH]; intros H; cbn [partition_newline]; [reflexivity|]. destruct (ascii_dec c newline) as [Q|Q]; [exfalso; apply H; now left|]. rewrite IH; [reflexivity|intros X; apply H; now right]. Qed.
(** The lines are popped in the order in which they were written; a line that is not finished comes last. *)
Theorem C113_pop : forall l rest w, (forall x, In x l -> one_line x) -> one_line rest -> code w = document l ++ rest ->
  pops (length l) w = (l, with_code w rest) /\ pop_first_line (with_code w rest) = (rest, with_code w []).
Proof.
  intros l rest w H HR E. split; [|unfold pop_first_line, with_code; cbn [code]; rewrite (partition_last rest HR); reflexivity].
  revert w E. induction l as [|x l IH]; intros w E; cbn [length pops].
  - cbn in E. rewrite <- E. destruct w; reflexivity.
  - unfold pop_first_line. rewrite E, document_cons, <- app_assoc. cbn [app]. rewrite partition_ok by (apply H; now left). rewrite IH; [reflexivity|intros; apply H; now right|reflexivity].
Qed.
Print Assumptions C113_pop.
(** count_num_lines counts the finished lines and, if anything was written, one more. *)
Theorem C113_count : forall l rest w, (forall x, In x l -> one_line x) -> one_line rest -> code w = document l ++ rest -> count_num_lines w = if empty w then 0%nat else S (length l).
Proof.
  intros l rest w H HR E. unfold count_num_lines, empty. rewrite E. destruct (str_eqb _ []); [reflexivity|]. rewrite count_occ_app, (proj1 (count_occ_not_In ascii_dec rest newline) HR), Nat.add_0_r, Nat.add_1_r. f_equal.
  clear E. induction l as [|x l IH]; [reflexivity|]. rewrite document_cons, count_occ_app. cbn [count_occ]. destruct (ascii_dec newline newline) as [_|Q]; [|contradiction]. rewrite (proj1 (count_occ_not_In ascii_dec x newline) (H x ltac:(now left))), IH by (intros; apply H; now right). reflexivity.
Qed.
Print Assumptions C113_count.
(** So one written line counts as two. *)
Lemma count_line : forall s, one_line s -> count_num_lines (wl new_writer s) = 2%nat /\ pops 1 (wl new_writer s) = ([s], new_writer).
Proof.
  intros s O. destruct (indented_total (lit "    ") 0 s) as (t & T). assert (ET : t = s) by (destruct T as [(-> & _ & ->)|(_ & ->)]; reflexivity). subst t. pose proof (wl_ok new_writer s s T) as W.
  assert (C : code (wl new_writer s) = document [s] ++ []) by (rewrite W, document_cons, app_nil_r; reflexivity).
  assert (O1 : forall x, In x [s] -> one_line x) by (intros x [ <- |[]]; exact O). split.
  - rewrite (C113_count [s] [] _ O1 (fun q => q) C). unfold empty. destruct (str_eqb _ []) eqn:Q; [|reflexivity]. apply str_eqb_nil in Q. rewrite C in Q. destruct s; discriminate Q.
  - change 1%nat with (length [s]). rewrite (proj1 (C113_pop [s] [] _ O1 (fun q => q) C)). rewrite W. reflexivity.
Qed.
Theorem C113_count_refuted : exists s, s <> [] /\ count_num_lines (wl new_writer s) = 2%nat /\ pops 1 (wl new_writer s) = ([s], new_writer).
Proof. exists (lit "x = 1"). split; [discriminate|]. apply count_line. cbn. intros Q. repeat destruct Q as [Q|Q]; try discriminate Q. exact Q. Qed.
Print Assumptions C113_count_refuted.
(** An empty block cannot be written. *)
Theorem C113_empty_block_refuted : exists s, forall w, wc w s = Err IndexError.
Proof. exists []. reflexivity. Qed.
Print Assumptions C113_empty_block_refuted.
(** The scope is a stack. *)
Theorem C113_scope : forall w names, let w1 := fold_left push_scope names w in
  get_scope w1 = get_scope w ++ concat (map (fun s => s ++ scope_delimiter w) names) /\ code (ws w1) = code w ++ get_scope w1 /\
  (forall name, pop_scope (push_scope w name) = Ok (name, w)) /\ (scope w = [] -> pop_scope w = Err IndexError) /\ get_scope (reset w) = [].
Proof.
  intros w names w1. assert (G : forall l (u : writer), get_scope u = concat (map (fun s => s ++ scope_delimiter u) (scope u)) /\ (scope (fold_left push_scope l u) = scope u ++ l) /\ scope_delimiter (fold_left push_scope l u) = scope_delimiter u /\ code (fold_left push_scope l u) = code u).
  { intros l u. split.
    - unfold get_scope. rewrite <- (app_nil_l (concat _)). generalize (@nil ascii) as o. induction (scope u) as [|x s IH]; intros o; cbn [fold_left map concat]; [now rewrite app_nil_r|]. rewrite IH, <- !app_assoc. reflexivity.
    - revert u. induction l as [|x l IH]; intros u; cbn [fold_left]; [rewrite app_nil_r; auto|]. destruct (IH (push_scope u x)) as (A & B & C). rewrite A, B, C. cbn. rewrite <- app_assoc. auto. }
  destruct (G names w) as (A & B & C & D). split; [|split; [|split; [|split]]].
  - subst w1. destruct (G [] (fold_left push_scope names w)) as (A' & _). rewrite A', A, B, C, map_app, concat_app. reflexivity.
  - subst w1. unfold ws, al. cbn [code]. rewrite D. reflexivity.
  - intros name. unfold pop_scope, push_scope. cbn [scope]. rewrite rev_app_distr. cbn [rev app]. rewrite removelast_last. destruct w; reflexivity.
  - intros E. unfold pop_scope. rewrite E. reflexivity.
  - reflexivity.
Qed.
Print Assumptions C113_scope.
(** Below zero the indentation is lost: a program that starts by decreasing it does not nest. *)
Theorem C113_negative_refuted : exists w p inner nested direct, indent_depth w = 1%Z /\ run new_writer p = Ok inner /\ wc w (code inner) = Ok nested /\ run w p = Ok direct /\ code nested <> code direct.
Proof.
  exists (inc_indent new_writer), [Dedent; Line (lit "a")]. eexists. eexists. eexists. split; [reflexivity|]. split; [reflexivity|]. split; [reflexivity|]. split; [reflexivity|]. vm_compute. discriminate.
Qed.
Print Assumptions C113_negative_refuted.
Example C113_ex : exists w, run new_writer [Line (lit "def f(x):"); Indent; Block (lit "y = x" ++ [newline; newline] ++ lit "if y:"); Indent; Line (lit "return y"); Dedent; Line []; Dedent; Line (lit "f(1)")] = Ok w /\
  fst (pops 8 w) = map lit ["def f(x):"; "    y = x"; ""; "    if y:"; "        return y"; ""; "f(1)"; ""]%string.
Proof. eexists. split; [reflexivity|]. vm_compute. reflexivity. Qed.
