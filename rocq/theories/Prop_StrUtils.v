(** Property C111: breaking of long strings and sequences of names. *)
From Coq Require Import Ascii String Lia.
From Verif Require Import Base StrUtils.
Local Close Scope string_scope.
Local Open Scope list_scope.

(** ** Splitting *)
Definition occurs (sep s : str) : Prop := exists a b, s = a ++ sep ++ b.
(** [pieces] is what is between the occurrences of [sep] in [s], taken from the left *)
Inductive splits (sep : str) : str -> list str -> Prop :=
| splits_last s : ~ occurs sep s -> splits sep s [s]
| splits_cons p rest l : (forall a b, p ++ sep ++ rest = a ++ sep ++ b -> (length p <= length a)%nat) -> splits sep rest l -> splits sep (p ++ sep ++ rest) (p :: l).
(** the replacements of a separator at which the string has been split *)
Fixpoint decorated_tail (before after : str) (l : list str) : list str :=
  match l with [] => [] | [p] => [after ++ p] | p :: t => (after ++ p ++ before) :: decorated_tail before after t end.
Definition decorated (before after : str) (l : list str) : list str :=
  match l with [] => [] | [p] => [p] | p :: t => (p ++ before) :: decorated_tail before after t end.

Lemma startswith_ok sep : forall s, startswith sep s = true <-> exists b, s = sep ++ b.
Proof.
  induction sep as [|x sep IH]; intros s; [split; [exists s|]; reflexivity|]. destruct s as [|y s]; cbn.
  - split; [discriminate|intros (b & H); discriminate].
  - destruct (ascii_dec x y) as [ -> |D].
    + rewrite IH. split; intros (b & H); exists b; [rewrite H; reflexivity|injection H as H; exact H].
    + split; [discriminate|]. intros (b & H). injection H as H _. congruence.
Qed.
Lemma join_cons sep p l : l <> [] -> join sep (p :: l) = p ++ sep ++ join sep l.
Proof. destruct l; [contradiction|reflexivity]. Qed.
Lemma split_from_nil sep k cur s : split_from sep k cur s <> [].
Proof. revert k cur. induction s as [|c t IH]; intros k cur; cbn [split_from]; [discriminate|]. destruct k; [|apply IH]. destruct (startswith sep (c :: t)); [discriminate|apply IH]. Qed.
Lemma app_split {A} (a b c d : list A) : a ++ b = c ++ d -> (length a <= length c)%nat -> exists e, c = a ++ e /\ b = e ++ d.
Proof.
  revert c. induction a as [|x a IH]; intros c H L; [exists c; auto|]. destruct c as [|y c]; [cbn in L; lia|]. injection H as -> H. cbn in L. destruct (IH c H ltac:(lia)) as (e & -> & ->). exists e. auto.
Qed.
Lemma split_from_ok sep : sep <> [] -> forall s k cur, (k <= length s)%nat -> (k = 0%nat \/ cur = []) ->
  (forall a b, cur ++ skipn k s = a ++ sep ++ b -> (length cur <= length a)%nat) -> splits sep (cur ++ skipn k s) (split_from sep k cur s).
Proof.
  intros HS. induction s as [|c t IH]; intros k cur Hk HK H.
  - destruct k; [|cbn in Hk; lia]. cbn [split_from skipn] in *. rewrite app_nil_r in *. apply splits_last. intros (a & b & E). pose proof (H a b E) as L. rewrite E, !app_length in L. destruct sep; [contradiction|cbn in L; lia].
  - destruct k as [|k]; cbn [split_from].
    + cbn [skipn] in *. destruct (startswith sep (c :: t)) eqn:E.
      * apply startswith_ok in E as (b & E). rewrite E. destruct sep as [|x sep]; [contradiction|]. injection E as -> E. cbn [length]. rewrite Nat.sub_succ, Nat.sub_0_r.
        assert (Q : b = skipn (length sep) t) by (rewrite E, skipn_app, skipn_all, Nat.sub_diag; reflexivity). rewrite E in H. apply splits_cons; [exact H|]. rewrite Q.
        apply (IH (length sep) []); [rewrite E, app_length; lia|right; reflexivity|intros; cbn; lia].
      * replace (cur ++ c :: t) with ((cur ++ [c]) ++ skipn 0 t) by (rewrite <- app_assoc; reflexivity). apply IH; [lia|left; reflexivity|]. cbn [skipn]. rewrite <- app_assoc. intros a b Eq. cbn [app] in Eq. pose proof (H a b Eq) as L. rewrite app_length. cbn [length].
        destruct (Nat.eq_dec (length a) (length cur)) as [Q|Q]; [|lia]. exfalso. destruct (app_split _ _ _ _ Eq ltac:(lia)) as (e & -> & E2). rewrite app_length in Q. destruct e; [|cbn in Q; lia]. cbn [app] in E2. assert (T : startswith sep (c :: t) = true) by (apply startswith_ok; exists b; exact E2). congruence.
    + destruct HK as [HK|HK]; [discriminate|]. subst cur. apply IH; [cbn in Hk; lia|right; reflexivity|]. cbn. lia.
Qed.
Lemma split_ok s sep : sep <> [] -> exists l, split s sep = Ok l /\ splits sep s l /\ l <> [].
Proof. intros H. exists (split_from sep 0 [] s). split; [destruct sep; [contradiction|reflexivity]|]. split; [|apply split_from_nil]. apply (split_from_ok sep H s 0 []); [lia|now left|cbn; lia]. Qed.
Lemma splits_join sep s l : splits sep s l -> l <> [] /\ join sep l = s /\ forall p, In p l -> ~ occurs sep p.
Proof.
  induction 1 as [s H|p rest l H _ (N & J & O)]; [split; [discriminate|]; split; [reflexivity|intros p [ <- |[]]; exact H]|]. split; [discriminate|]. split; [rewrite join_cons by exact N; rewrite J; reflexivity|].
  intros q [ <- |Hq]; [|apply O, Hq]. intros (a & b & E). specialize (H a (b ++ sep ++ rest)). rewrite E in H at 1. rewrite <- !app_assoc in H. specialize (H eq_refl). rewrite E, !app_length in H.
  destruct sep as [|x sep]; [|cbn in H; lia]. (* an empty separator occurs everywhere *)
  destruct l as [|r l]; [contradiction|]. apply (O r (or_introl eq_refl)). exists [], r. reflexivity.
Qed.
Lemma splits_unique sep s l l' : splits sep s l -> splits sep s l' -> l = l'.
Proof.
  intros H. revert l'. induction H as [s H|p rest l H HL IH]; intros l' H'.
  - inversion H' as [s' N|p' rest' l'' N HL' E]; [reflexivity|]. subst. exfalso. apply H. exists p', rest'. reflexivity.
  - inversion H' as [s' N Q|p' rest' l'' N HL' E].
    + exfalso. apply N. exists p, rest. reflexivity.
    + assert (L : length p = length p') by (pose proof (H p' rest' (eq_sym E)); pose proof (N p rest E); lia).
      destruct (app_split _ _ _ _ (eq_sym E) ltac:(lia)) as (e & -> & Q). rewrite app_length in L. destruct e; [|cbn in L; lia]. rewrite app_nil_r. cbn [app] in Q. apply app_inv_head in Q. subst rest'. f_equal. apply IH. exact HL'.
Qed.

Lemma join_app sep g q : g <> [] -> join sep (g ++ [q]) = join sep g ++ sep ++ q.
Proof. induction g as [|p g IH]; [contradiction|]. intros _. destruct g as [|r g]; [reflexivity|]. cbn [app] in *. rewrite join_cons by discriminate. rewrite IH by discriminate. rewrite (join_cons sep p) by discriminate. rewrite <- !app_assoc. reflexivity. Qed.

(** what the groups of pieces have to satisfy: a group of several pieces is short, and the first piece of the next group does not fit *)
Fixpoint greedy (sep : str) (threshold : Z) (before after : str) (pre : str) (raw : list (list str)) : Prop :=
  match raw with
  | [] => True
  | g :: t =>
    ((1 < length g)%nat -> (Z.of_nat (length (pre ++ join sep g ++ before)) < threshold)%Z) /\
    (match t with (q :: _) :: _ => (threshold <= Z.of_nat (length (pre ++ join sep g ++ sep ++ q ++ before)))%Z | _ => True end) /\
    greedy sep threshold before after after t
  end.
Lemma long_parts_ok sep th before after : forall l pre g, g <> [] -> ((1 < length g)%nat -> (Z.of_nat (length (pre ++ join sep g ++ before)) < th)%Z) ->
  exists raw, (forall x, In x raw -> x <> []) /\ concat raw = g ++ l /\ raw <> [] /\ greedy sep th before after pre raw /\
    long_parts sep th before after (pre ++ join sep g) l = match map (join sep) raw with [] => [] | [p] => [pre ++ p] | p :: t => (pre ++ p ++ before) :: decorated_tail before after t end.
Proof.
  induction l as [|q l IH]; intros pre g Hg HG; cbn [long_parts].
  - exists [g]. split; [intros x [ <- |[]]; exact Hg|]. split; [cbn; rewrite !app_nil_r; reflexivity|]. split; [discriminate|]. split; [cbn; auto|reflexivity].
  - destruct (Z.of_nat (length ((pre ++ join sep g) ++ sep ++ q ++ before)) <? th)%Z eqn:E.
    + apply Z.ltb_lt in E. destruct (IH pre (g ++ [q])) as (raw & R1 & R2 & R3 & R4 & R5); [destruct g; discriminate| |].
      * intros _. rewrite join_app by exact Hg. rewrite <- !app_assoc in *. exact E.
      * exists raw. rewrite join_app in R5 by exact Hg. rewrite <- app_assoc in R2. split; [exact R1|]. split; [exact R2|]. split; [exact R3|]. split; [exact R4|]. rewrite <- R5. f_equal. apply app_assoc_reverse.
    + apply Z.ltb_ge in E. destruct (IH after [q]) as (raw & R1 & R2 & R3 & R4 & R5); [discriminate|cbn; lia|]. exists (g :: raw). split; [intros x [ <- |Hx]; [exact Hg|apply R1, Hx]|]. split; [cbn [concat]; rewrite R2; reflexivity|]. split; [discriminate|]. split.
      * cbn [greedy]. split; [exact HG|]. split; [|exact R4]. destruct raw as [|[|q' g'] t]; [exact I|exact I|]. cbn [concat app] in R2. injection R2 as -> _. rewrite <- app_assoc in E. exact E.
      * cbn [join] in R5. rewrite R5. cbn [map]. destruct raw as [|r raw]; [contradiction|]. cbn [map]. rewrite <- app_assoc. reflexivity.
Qed.

(** The string is cut at occurrences of the separator only, which are replaced as demanded.  With a threshold, a part made
    of several pieces is shorter than the threshold, and a cut is made only where the next piece does not fit. *)
Theorem C111_split : forall string sep threshold before after, sep <> [] ->
  exists pieces raw, splits sep string pieces /\ concat raw = pieces /\ (forall g, In g raw -> g <> []) /\
    split_long_str string sep threshold before after = Ok (decorated before after (map (join sep) raw)) /\
    (threshold = (-1)%Z -> raw = map (fun p => [p]) pieces) /\
    (threshold <> (-1)%Z -> greedy sep threshold before after [] raw).
Proof.
  intros s sep th before after H. destruct (split_ok s sep H) as (l & E & S & N). unfold split_long_str. rewrite E. cbn [bind]. destruct (Z.eqb_spec th (-1)) as [D|D].
  - exists l, (map (fun p => [p]) l). split; [exact S|]. split; [induction l as [|p l _]; [reflexivity|clear; induction (p :: l) as [|q t IHt]; [reflexivity|cbn; rewrite IHt; reflexivity]]|].
    split; [intros g Hg; apply in_map_iff in Hg as (p & <- & _); discriminate|]. split; [|split; [reflexivity|intros; contradiction]]. f_equal. rewrite map_map. cbn [join]. rewrite map_id.
    replace (match before with [] => l | _ => append_but_last before l end) with (append_but_last before l).
    2: { destruct before as [|x b]; [|reflexivity]. clear. induction l as [|p [|q t] IH]; [reflexivity|reflexivity|]. cbn [append_but_last] in *. rewrite app_nil_r. f_equal. exact IH. }
    replace (match after with [] => append_but_last before l | _ => prepend_but_first after (append_but_last before l) end) with (prepend_but_first after (append_but_last before l)).
    2: { destruct after as [|x a]; [|reflexivity]. destruct (append_but_last before l); [reflexivity|]. cbn [prepend_but_first]. f_equal. rewrite <- (map_id l0) at 2. reflexivity. }
    destruct l as [|p t]; [contradiction|]. destruct t as [|q t]; [reflexivity|]. cbn [append_but_last prepend_but_first decorated]. f_equal. clear. revert q. induction t as [|r t IH]; intros q; [reflexivity|]. cbn [append_but_last map decorated_tail]. f_equal. apply IH.
  - destruct l as [|p t]; [contradiction|]. destruct (long_parts_ok sep th before after t [] [p]) as (raw & R1 & R2 & R3 & R4 & R5); [discriminate|cbn; lia|]. exists (p :: t), raw. split; [exact S|]. split; [exact R2|]. split; [exact R1|]. split; [|split; [intros; contradiction|intros; exact R4]].
    f_equal. cbn [app join] in R5. rewrite R5. unfold decorated. destruct (map (join sep) raw) as [|a [|b m]]; reflexivity.
Qed.
Print Assumptions C111_split.
(** The pieces are determined by the string and the separator. *)
Theorem C111_pieces : forall string sep, sep <> [] -> exists pieces, split string sep = Ok pieces /\ join sep pieces = string /\ (forall p, In p pieces -> ~ occurs sep p) /\ forall pieces', splits sep string pieces' <-> pieces' = pieces.
Proof.
  intros s sep H. destruct (split_ok s sep H) as (l & E & S & N). exists l. destruct (splits_join _ _ _ S) as (_ & J & O). split; [exact E|]. split; [exact J|]. split; [exact O|]. intros l'. split; [intros S'; apply (splits_unique _ _ _ _ S' S)|intros ->; exact S].
Qed.
Print Assumptions C111_pieces.
Lemma join_concat sep raw : (forall g, In g raw -> g <> []) -> join sep (map (join sep) raw) = join sep (concat raw).
Proof.
  induction raw as [|g raw IH]; intros H; [reflexivity|]. cbn [map concat]. assert (J : forall g l, g <> [] -> l <> [] -> join sep (g ++ l) = join sep g ++ sep ++ join sep l).
  { clear. induction g as [|p g IH]; intros l Hg Hl; [contradiction|]. destruct g as [|q g]; [cbn [app]; rewrite join_cons by exact Hl; reflexivity|]. cbn [app]. rewrite (join_cons sep p (q :: g ++ l)) by discriminate. rewrite (join_cons sep p (q :: g)) by discriminate. change (q :: g ++ l) with ((q :: g) ++ l). rewrite IH by (try discriminate; exact Hl). rewrite <- !app_assoc. reflexivity. }
  destruct raw as [|g2 raw]; [cbn [map concat]; rewrite app_nil_r; reflexivity|]. rewrite J.
  - rewrite <- IH by (intros; apply H; now right). cbn [map]. reflexivity.
  - apply H. now left.
  - pose proof (H g2 ltac:(right; now left)). cbn [concat]. destruct g2; [contradiction|discriminate].
Qed.
Lemma decorated_nil l : decorated [] [] l = l.
Proof.
  assert (T : forall l, decorated_tail [] [] l = l). { clear. induction l as [|p [|q t] IH]; [reflexivity|reflexivity|]. cbn [decorated_tail] in *. rewrite app_nil_r. cbn [app]. f_equal. exact IH. }
  destruct l as [|p [|q t]]; [reflexivity|reflexivity|]. unfold decorated. rewrite app_nil_r, T. reflexivity.
Qed.
(** Without replacements, joining the parts gives the string back, whatever the threshold. *)
Theorem C111_join : forall string sep threshold, sep <> [] -> exists parts, split_long_str string sep threshold [] [] = Ok parts /\ parts <> [] /\ join sep parts = string.
Proof.
  intros s sep th H. destruct (C111_split s sep th [] [] H) as (l & raw & S & C & R & E & _). destruct (splits_join _ _ _ S) as (N & J & _). exists (map (join sep) raw). split; [rewrite E, decorated_nil; reflexivity|]. split; [destruct raw; [cbn in C; congruence|discriminate]|]. rewrite join_concat by exact R. rewrite C. exact J.
Qed.
Print Assumptions C111_join.
(** A part as long as the threshold or longer contains no separator: it cannot be split further. *)
Theorem C111_short : forall string sep threshold parts p, sep <> [] -> threshold <> (-1)%Z -> split_long_str string sep threshold [] [] = Ok parts -> In p parts ->
  (Z.of_nat (length p) < threshold)%Z \/ ~ occurs sep p.
Proof.
  intros s sep th parts p H HT E Hp. destruct (C111_split s sep th [] [] H) as (l & raw & S & C & R & E' & _ & G). specialize (G HT). rewrite E, decorated_nil in E'. injection E' as ->. destruct (splits_join _ _ _ S) as (_ & _ & O). apply in_map_iff in Hp as (g & <- & Hg).
  destruct (Nat.lt_ge_cases 1 (length g)) as [L|L].
  - left. clear - G Hg L. induction raw as [|g' raw IH]; [destruct Hg|]. cbn [greedy] in G. destruct G as (G1 & _ & G2). destruct Hg as [ -> |Hg]; [specialize (G1 L); cbn [app] in G1; rewrite app_nil_r in G1; exact G1|apply IH; assumption].
  - right. pose proof (R g Hg) as NG. destruct g as [|q [|q2 g]]; [contradiction| |cbn in L; lia]. cbn [join]. apply O. rewrite <- C. apply in_concat. exists [q]. split; [exact Hg|now left].
Qed.
Print Assumptions C111_short.
(** The documentation says that each part is shorter than the threshold; it need not be. *)
Theorem C111_long_refuted : exists string sep threshold parts p, sep <> [] /\ (0 < threshold)%Z /\ split_long_str string sep threshold [] [] = Ok parts /\ In p parts /\ (threshold < Z.of_nat (length p))%Z.
Proof. exists (lit "My quite long sentence"), (lit " "), 3%Z. eexists. exists (lit "sentence"). split; [discriminate|]. split; [lia|]. split; [vm_compute; reflexivity|]. split; [cbn; tauto|cbn; lia]. Qed.
Print Assumptions C111_long_refuted.
Theorem C111_empty_separator : forall string threshold before after, split_long_str string [] threshold before after = Err ValueError.
Proof. reflexivity. Qed.
Print Assumptions C111_empty_separator.

(** ** The bodies of generated functions *)
Definition is_space (c : ascii) : bool := existsb (fun d => if ascii_dec c d then true else false) [ascii_of_nat 32; ascii_of_nat 10].
Definition without_spaces (s : str) : str := filter (fun c => negb (is_space c)) s.
Lemma ws_app s t : without_spaces (s ++ t) = without_spaces s ++ without_spaces t.
Proof. apply filter_app. Qed.
Lemma ws_join a b l : without_spaces a = without_spaces b -> without_spaces (join a l) = without_spaces (join b l).
Proof. intros H. induction l as [|p [|q t] IH]; [reflexivity|reflexivity|]. rewrite (join_cons a p), (join_cons b p) by discriminate. rewrite !ws_app, IH, H. reflexivity. Qed.
(** The text after return is the expression up to white space, and an expression that is broken into several lines is enclosed in parentheses. *)
Theorem C111_body : forall code, exists body, function_body_scalar_valued code = Ok body /\
  ((exists text, body = lit "return " ++ text /\ without_spaces text = without_spaces code /\ (~ In (ascii_of_nat 10) code -> ~ In (ascii_of_nat 10) text)) \/
   (exists text, body = lit "return (" ++ text ++ lit ")" /\ without_spaces text = without_spaces code)).
Proof.
  intros code. unfold function_body_scalar_valued. destruct (100 <? length code)%nat.
  - destruct (C111_join code (lit " +") 100 ltac:(discriminate)) as (parts & E & N & J). rewrite E. cbn [bind]. eexists. split; [reflexivity|].
    assert (W : without_spaces (join (newline ++ lit "        +") parts) = without_spaces code) by (rewrite <- J; apply ws_join; vm_compute; reflexivity).
    destruct parts as [|p [|q t]]; [contradiction| |].
    + left. exists p. split; [reflexivity|]. cbn [join] in J. subst p. split; [reflexivity|auto].
    + right. exists (join (newline ++ lit "        +") (p :: q :: t)). split; [reflexivity|exact W].
  - eexists. split; [reflexivity|]. left. exists code. auto.
Qed.
Print Assumptions C111_body.
Lemma join_head sep p l : exists t, join sep (p :: l) = p ++ t.
Proof. destruct l; [exists []; cbn; rewrite app_nil_r; reflexivity|eexists; reflexivity]. Qed.
(** For arrays the same with the list of the components; the bracket opens before the first line break. *)
Theorem C111_body_array : forall components, exists text, function_body_vector_valued (lit "np.array([" ++ components) = Ok (lit "return np.array([" ++ text) /\ without_spaces text = without_spaces components.
Proof.
  intros s. unfold function_body_vector_valued. destruct (100 <? length (lit "np.array([" ++ s))%nat; [|exists s; auto].
  destruct (C111_split (lit "np.array([" ++ s) (lit ", ") 100 [] [] ltac:(discriminate)) as (l & raw & S & C & R & E & _). rewrite E, decorated_nil. cbn [bind].
  destruct (splits_join _ _ _ S) as (N & J & _). set (nl := lit "," ++ newline ++ lit "                 ").
  assert (W : without_spaces (join nl (map (join (lit ", ")) raw)) = without_spaces (lit "np.array([" ++ s)).
  { rewrite (ws_join nl (lit ", ")) by (vm_compute; reflexivity). rewrite join_concat by exact R. rewrite C, J. reflexivity. }
  assert (P : exists t, join nl (map (join (lit ", ")) raw) = lit "np.array([" ++ t).
  { destruct raw as [|g raw]; [cbn in C; congruence|]. destruct g as [|p g]; [exfalso; apply (R []); [now left|reflexivity]|]. cbn [concat app] in C. destruct l as [|p' l]; [contradiction|]. injection C as <- _.
    assert (HP : exists t, p = lit "np.array([" ++ t).
    { inversion S as [s' H E1 E2|p' rest l' H HL E1 E2]; [exists s; reflexivity|]. subst.
      destruct (Nat.le_gt_cases (length (lit "np.array([")) (length p)) as [L|L]; [destruct (app_split (lit "np.array([") s p (lit ", " ++ rest) (eq_sym E1) L) as (e & -> & _); exists e; reflexivity|].
      exfalso. destruct (app_split p (lit ", " ++ rest) (lit "np.array([") s E1 ltac:(lia)) as (e & E3 & E4).
      assert (In (ascii_of_nat 44) (lit "np.array([")) as Q.
      { rewrite E3. apply in_or_app. right. destruct e as [|x e]; [rewrite app_nil_r in E3; rewrite <- E3 in L; lia|]. cbn in E4. injection E4 as <- _. now left. }
      cbn in Q. repeat destruct Q as [Q|Q]; try discriminate Q; exact Q. }
    destruct HP as (t & HP). cbn [map]. destruct (join_head nl (join (lit ", ") (p :: g)) (map (join (lit ", ")) raw)) as (t1 & ->). destruct (join_head (lit ", ") p g) as (t2 & ->). exists (t ++ t2 ++ t1). rewrite HP, <- !app_assoc. reflexivity. }
  destruct P as (t & P). exists t. rewrite P in W |- *. split; [reflexivity|]. rewrite !ws_app in W. apply app_inv_head in W. exact W.
Qed.
Print Assumptions C111_body_array.

(** ** Sequences of names *)
(** the number denoted by a string of digits *)
Definition value_digit (c : ascii) : nat := nat_of_ascii c - 48.
Definition denotes (s : str) : nat := fold_left (fun a c => (10 * a + value_digit c)%nat) s 0%nat.
Definition is_digit (c : ascii) : Prop := (48 <= nat_of_ascii c < 58)%nat.
Lemma digit_ok d : (d < 10)%nat -> is_digit (digit d) /\ value_digit (digit d) = d.
Proof. intros H. unfold is_digit, value_digit, digit. rewrite nat_ascii_embedding by lia. lia. Qed.
Lemma str_nat_fuel_ok fuel : forall n, (n < fuel)%nat -> denotes (str_nat_fuel fuel n) = n /\ (forall c, In c (str_nat_fuel fuel n) -> is_digit c) /\ str_nat_fuel fuel n <> [] /\ (nth 0 (str_nat_fuel fuel n) (digit 0) = digit 0 -> n = 0%nat) /\ (length (str_nat_fuel fuel n) = 1 <-> n < 10)%nat.
Proof.
  induction fuel as [|fuel IH]; intros n H; [lia|]. cbn [str_nat_fuel]. destruct (Nat.ltb_spec n 10) as [L|L].
  - destruct (digit_ok n L) as (D & V). split; [unfold denotes; cbn [fold_left]; rewrite V; lia|]. split; [intros c [ <- |[]]; apply D|]. split; [discriminate|]. split; [cbn [nth]; intros Q; pose proof (f_equal value_digit Q) as Q'; rewrite V in Q'; exact Q'|cbn [length]; lia].
  - assert (L2 : (n / 10 < fuel)%nat) by (pose proof (Nat.div_lt n 10); lia). destruct (IH (n / 10)%nat L2) as (V & D & N & Z & L1). destruct (digit_ok (n mod 10) ltac:(apply Nat.mod_upper_bound; lia)) as (D' & V').
    assert (P : (1 <= n / 10)%nat) by (apply Nat.div_le_lower_bound; lia). split; [|split; [|split; [|split]]].
    + unfold denotes in *. rewrite fold_left_app, V. cbn [fold_left]. rewrite V'. pose proof (Nat.div_mod n 10). lia.
    + intros c Hc. apply in_app_or in Hc as [Hc|[ <- |[]]]; [apply D, Hc|exact D'].
    + intros Q. apply app_eq_nil in Q as [Q _]. contradiction.
    + destruct (str_nat_fuel fuel (n / 10)) as [|c t] eqn:E; [contradiction|]. cbn [app nth] in *. intros Q. specialize (Z Q). lia.
    + rewrite app_length. cbn [length]. destruct (str_nat_fuel fuel (n / 10)); [contradiction|cbn; lia].
Qed.
(** [str_nat] is the decimal numeral: it denotes the number, has only digits, and no leading zero *)
Theorem C111_numerals : forall n, denotes (str_nat n) = n /\ (forall c, In c (str_nat n) -> is_digit c) /\ str_nat n <> [] /\ (nth 0 (str_nat n) (digit 0) = digit 0 -> n = 0%nat) /\ (length (str_nat n) = 1 <-> n < 10)%nat.
Proof. intros n. apply str_nat_fuel_ok. lia. Qed.
Print Assumptions C111_numerals.
Definition styles : list (string * string * string) := [("inline", "", ""); ("subscript", "_", ""); ("superscript", "^", ""); ("list", "[", "]"); ("latex_subscript", "_", ""); ("latex_superscript", "^", "")]%string.
Definition latex_style (style : string) : bool := String.eqb style "latex_subscript" || String.eqb style "latex_superscript".
(** str_sequence returns n names; the i-th name is the symbol, followed by the index in the given style; different entries are different names *)
Theorem C111_sequence : forall symbol n indexing style open close, In (style, open, close) styles ->
  exists names, str_sequence symbol (Z.of_nat n) indexing (lit style) = Ok (Some names) /\ length names = n /\ NoDup names /\
    forall i, (i < n)%nat -> let k := if str_eqb indexing (lit "fortran") then S i else i in
      let number := if latex_style style && (10 <=? k)%nat then lit "{" ++ str_nat k ++ lit "}" else str_nat k in
      nth_error names i = Some (symbol ++ lit open ++ number ++ lit close).
Proof.
  intros symbol n indexing style op cl HS.
  assert (G : exists names, str_sequence symbol (Z.of_nat n) indexing (lit style) = Ok (Some names) /\ names = map (fun i => symbol ++ lit op ++ (if latex_style style then latex_braces_wrapped_number (str_nat i) else str_nat i) ++ lit cl) (if str_eqb indexing (lit "fortran") then seq 1 n else seq 0 n)).
  { unfold str_sequence. replace (0 <=? Z.of_nat n)%Z with true by (symmetry; apply Z.leb_le; lia). cbn [assert_ bind]. destruct n as [|n]; [exists []; split; [reflexivity|]; destruct (str_eqb indexing (lit "fortran")); reflexivity|].
    replace (Z.of_nat (S n) =? 0)%Z with false by reflexivity. rewrite Nat2Z.id. eexists. split; [|reflexivity].
    repeat (destruct HS as [HS|HS]; [injection HS as <- <- <-; apply f_equal, f_equal; cbn [str_eqb latex_style]; (apply map_ext; intros i; cbn [app lit list_ascii_of_string]; rewrite ?app_nil_r; reflexivity)|]). destruct HS. }
  destruct G as (names & E & EN). exists names. split; [exact E|].
  set (r := if str_eqb indexing (lit "fortran") then seq 1 n else seq 0 n) in *.
  assert (LR : length r = n) by (unfold r; destruct (str_eqb indexing _); apply seq_length). subst names. split; [rewrite map_length; exact LR|]. split.
  - apply FinFun.Injective_map_NoDup; [|unfold r; destruct (str_eqb indexing _); apply seq_NoDup]. intros i j H. apply app_inv_head in H. apply app_inv_head in H. apply app_inv_tail in H.
    destruct (C111_numerals i) as (Vi & Di & _ & _ & Li), (C111_numerals j) as (Vj & Dj & _ & _ & Lj). rewrite <- Vi, <- Vj. f_equal. destruct (latex_style style); [|exact H]. unfold latex_braces_wrapped_number in H.
    destruct (Nat.eqb_spec (length (str_nat i)) 1) as [Qi|Qi]; destruct (Nat.eqb_spec (length (str_nat j)) 1) as [Qj|Qj]; [exact H| | |].
    + exfalso. assert (Q : In (ascii_of_nat 123) (str_nat i)) by (rewrite H; now left). apply Di in Q. unfold is_digit in Q. vm_compute in Q. lia.
    + exfalso. assert (Q : In (ascii_of_nat 123) (str_nat j)) by (rewrite <- H; now left). apply Dj in Q. unfold is_digit in Q. vm_compute in Q. lia.
    + apply app_inv_head in H. apply app_inv_tail in H. exact H.
  - intros i Hi. cbv zeta. assert (NR : nth_error r i = Some (if str_eqb indexing (lit "fortran") then S i else i)).
    { rewrite (nth_error_nth' r 0%nat) by lia. f_equal. unfold r. destruct (str_eqb indexing _); rewrite seq_nth by exact Hi; lia. }
    rewrite (map_nth_error _ _ _ NR). f_equal. f_equal. f_equal. f_equal. destruct (latex_style style); [|reflexivity]. cbn [andb]. set (k := if str_eqb indexing (lit "fortran") then S i else i). unfold latex_braces_wrapped_number. destruct (C111_numerals k) as (_ & _ & _ & _ & L).
    destruct (Nat.eqb_spec (length (str_nat k)) 1) as [Q|Q]; destruct (Nat.leb_spec 10 k) as [Q2|Q2]; try reflexivity; lia.
Qed.
Print Assumptions C111_sequence.
Theorem C111_sequence_errors : forall symbol n indexing style, ((n < 0)%Z -> str_sequence symbol n indexing style = Err AssertionError) /\
  ((0 < n)%Z -> (forall s o c, In (s, o, c) styles -> style <> lit s) -> str_sequence symbol n indexing style = Ok None).
Proof.
  intros symbol n indexing style. split; intros H.
  - unfold str_sequence. replace (0 <=? n)%Z with false by (symmetry; apply Z.leb_gt, H). reflexivity.
  - intros HS. unfold str_sequence. replace (0 <=? n)%Z with true by (symmetry; apply Z.leb_le; lia). cbn [assert_ bind]. replace (n =? 0)%Z with false by (symmetry; apply Z.eqb_neq; lia).
    assert (Q : forall s o c, In (s, o, c) styles -> str_eqb style (lit s) = false) by (intros s o c Hs; unfold str_eqb; destruct (list_eq_dec ascii_dec style (lit s)); [exfalso; eapply HS; eassumption|reflexivity]).
    assert (Q0 := Q _ _ _ (nth_In styles ("", "", "")%string (n := 0) ltac:(cbn; lia))). assert (Q1 := Q _ _ _ (nth_In styles ("", "", "")%string (n := 1) ltac:(cbn; lia))). assert (Q2 := Q _ _ _ (nth_In styles ("", "", "")%string (n := 2) ltac:(cbn; lia))).
    assert (Q3 := Q _ _ _ (nth_In styles ("", "", "")%string (n := 3) ltac:(cbn; lia))). assert (Q4 := Q _ _ _ (nth_In styles ("", "", "")%string (n := 4) ltac:(cbn; lia))). assert (Q5 := Q _ _ _ (nth_In styles ("", "", "")%string (n := 5) ltac:(cbn; lia))). rewrite Q0, Q1, Q2, Q3, Q4, Q5. reflexivity.
Qed.
Print Assumptions C111_sequence_errors.

Example C111_ex : split_long_str (lit "a[0] + a[1]*x + a[2]*x**2") (lit " +") 16 [] [] = Ok [lit "a[0] + a[1]*x"; lit " a[2]*x**2"] /\ split_long_str (lit "one, two, three, four") (lit ", ") 11 (lit ",") [] = Ok [lit "one, two,"; lit "three,"; lit "four"].
Proof. split; reflexivity. Qed.
Example C111_sequence_ex : str_sequence (lit "x") 11 (lit "fortran") (lit "latex_subscript") = Ok (Some (map lit ["x_1"; "x_2"; "x_3"; "x_4"; "x_5"; "x_6"; "x_7"; "x_8"; "x_9"; "x_{10}"; "x_{11}"]%string)).
Proof. reflexivity. Qed.
