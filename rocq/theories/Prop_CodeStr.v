(** Property C125: the source code of single polynomials. *)
From Coq Require Import Ascii String ZArith Lia.
From Verif Require Import Base StrUtils CodeWriter SourceFiles GenNames CodeStr Prop_SourceFiles Prop_CodeWriter Prop_GenNames.
Local Close Scope string_scope.
Local Open Scope list_scope.
Local Open Scope char_scope.

Lemma lines_of s : exists lines, lines <> [] /\ (forall l, In l lines -> one_line l) /\ s = join [newline] lines.
Proof.
  induction s as [|c s (lines & N & H & ->)]; [exists [[]]; split; [discriminate|split; [intros l [<-|[]] []|reflexivity]]|]. destruct (ascii_dec c newline) as [->|D].
  - exists ([] :: lines). split; [discriminate|]. split; [intros l [<-|Hl]; [intros []|auto]|]. destruct lines; [contradiction|reflexivity].
  - destruct lines as [|a l]; [contradiction|]. exists ((c :: a) :: l). split; [discriminate|]. split; [|destruct l; reflexivity]. intros x [<-|Hx]; [intros [C|C]; [contradiction|exact (H a (or_introl eq_refl) C)]|apply H; right; exact Hx].
Qed.
(** the line as it is written at depth 1 *)
Definition body_line (s : str) : str := match s with [] => [newline] | _ => lit "    " ++ s ++ [newline] end.
Definition body_text (lines : list str) : str := concat (map body_line lines).
Lemma wl_top s : s <> [] -> wl new_writer s = with_code new_writer (s ++ [newline]).
Proof. intros H. destruct s as [|c s]; [contradiction|]. reflexivity. Qed.
Definition at_one (c : str) : writer := Writer 1 c [] (lit "    ") (lit "::").
Lemma wl_one c s : wl (at_one c) s = at_one (c ++ body_line s).
Proof.
  unfold at_one. destruct s as [|x s]; [reflexivity|]. unfold wl. cbn [indent]. replace (negb (str_eqb (x :: s) [])) with true by reflexivity. cbn [orb]. unfold el, bl, al, body_line. cbn [indent_depth code scope indent scope_delimiter]. f_equal. change (str_mul 1 (lit "    ")) with (lit "    "). rewrite <- !app_assoc. reflexivity.
Qed.
Lemma wl_many lines : forall c, fold_left wl lines (at_one c) = at_one (c ++ body_text lines).
Proof.
  induction lines as [|s lines IH]; intros c; [unfold body_text; cbn; rewrite app_nil_r; reflexivity|]. cbn [fold_left]. rewrite wl_one, IH, <- app_assoc. reflexivity.
Qed.
(** the code with a given name; [lines] are the lines of the body *)
Lemma generated body : body <> [] -> exists lines, lines <> [] /\ (forall l, In l lines -> one_line l) /\ (forall l c, In l lines -> In c l -> In c body) /\
  forall name, generate_function_specific name body = Ok (lit "def " ++ name ++ lit "(x):" ++ [newline] ++ body_text lines).
Proof.
  intros N. set (s := match rev body with [] => [] | c :: _ => if ascii_dec c newline then removelast body else body end).
  destruct (lines_of s) as (lines & NL & H & E). exists lines. split; [exact NL|]. split; [exact H|]. split.
  - assert (S : forall c, In c s -> In c body).
    { intros c. unfold s. destruct (rev body) as [|x r]; [intros []|]. destruct (ascii_dec x newline); [|auto]. intros Hc. rewrite (app_removelast_last newline N). apply in_app_iff. left. exact Hc. }
    intros l c Hl Hc. apply S. rewrite E. clear - Hl Hc. induction lines as [|a [|b ls] IH]; [contradiction|destruct Hl as [<-|[]]; exact Hc|]. change (join [newline] (a :: b :: ls)) with (a ++ [newline] ++ join [newline] (b :: ls)). rewrite !in_app_iff. destruct Hl as [<-|Hl]; [auto|]. right. right. apply IH. exact Hl.
  - intros name. unfold generate_function_specific. rewrite wl_top by discriminate. unfold inc_indent, with_code. cbn [indent_depth code scope indent scope_delimiter new_writer reset]. change (0 + 1)%Z with 1%Z. fold (at_one ((lit "def " ++ name ++ lit "(x):") ++ [newline])).
    unfold wc. destruct (rev body) as [|c r] eqn:R; [apply (f_equal (@rev _)) in R; rewrite rev_involutive in R; contradiction|]. subst s. rewrite E, split_lines by assumption. cbn [bind]. rewrite wl_many. cbn [at_one code dec_indent]. rewrite <- !app_assoc. reflexivity.
Qed.
Lemma no_v_body lines : (forall l, In l lines -> ~ In "v" l) -> ~ In "v" (body_text lines).
Proof.
  intros H C. unfold body_text in C. apply in_concat in C as (t & Ht & C). apply in_map_iff in Ht as (l & <- & Hl). unfold body_line in C. destruct l as [|x l]; [destruct C as [C|[]]; discriminate C|]. apply in_app_iff in C as [C|C]; [revert C; no_bracket|]. apply in_app_iff in C as [C|C]; [exact (H _ Hl C)|]. destruct C as [C|[]]. discriminate C.
Qed.
Lemma replace_absent q new s : ~ In "v" s -> str_replace ("e" :: "v" :: q) new 0 s = s.
Proof.
  induction s as [|c s IH]; intros H; [reflexivity|]. cbn [str_replace]. replace (starts_with ("e" :: "v" :: q) (c :: s)) with false; [rewrite IH; [reflexivity|intros C; apply H; right; exact C]|]. symmetry. destruct (starts_with _ _) eqn:E; [|reflexivity]. exfalso. apply Prop_SourceFiles.starts_spec in E as (r & E). injection E as _ ->. apply H. right. left. reflexivity.
Qed.
Lemma renamed q new t : ~ In "v" t -> str_replace ("e" :: "v" :: q) new 0 (lit "def " ++ ("e" :: "v" :: q) ++ t) = lit "def " ++ new ++ t.
Proof.
  intros H. change (lit "def " ++ ("e" :: "v" :: q) ++ t) with ("d" :: "e" :: "f" :: " " :: ("e" :: "v" :: q) ++ t). set (old := "e" :: "v" :: q). cbn [str_replace].
  replace (starts_with old ("d" :: "e" :: "f" :: " " :: old ++ t)) with false by reflexivity. replace (starts_with old ("e" :: "f" :: " " :: old ++ t)) with false by reflexivity. replace (starts_with old ("f" :: " " :: old ++ t)) with false by reflexivity. replace (starts_with old (" " :: old ++ t)) with false by reflexivity.
  cbn [lit list_ascii_of_string app]. do 4 f_equal. unfold old at 2. cbn [app str_replace]. replace (starts_with old ("e" :: "v" :: q ++ t)) with true by (symmetry; apply Prop_SourceFiles.starts_spec; exists t; reflexivity). f_equal.
  transitivity (str_replace old new 0 t); [exact (replace_skip old new (Datatypes.length old - 1) ("v" :: q) t eq_refl)|]. apply replace_absent. exact H.
Qed.
Lemma name_ev f m r h : exists q, specific_name f m r h = "e" :: "v" :: q.
Proof. unfold specific_name. eexists. reflexivity. Qed.
(** The code of a polynomial under a given name is what the generator writes for that name. The body of an evaluation function has no letter v
    (it consists of return, np.array, x, numbers, operators and brackets). *)
Theorem C125_code_str : forall f m r h body fn_name, body <> [] -> ~ In "v" body ->
  exists eval_code, generate_function_specific (specific_name f m r h) body = Ok eval_code /\
    generate_function_specific fn_name body = Ok (code_str eval_code (specific_name f m r h) fn_name).
Proof.
  intros f m r h body fn_name N V. destruct (generated body N) as (lines & _ & _ & HI & G). eexists. split; [apply G|]. rewrite G. f_equal. unfold code_str. destruct (name_ev f m r h) as (q & ->). symmetry. apply renamed. intros C. change (lit "(x):" ++ [newline] ++ body_text lines) with ("(" :: "x" :: ")" :: ":" :: newline :: body_text lines) in C. repeat (destruct C as [C|C]; [discriminate C|]). revert C. apply no_v_body. intros l Hl C. exact (V (HI l "v" Hl C)).
Qed.
Print Assumptions C125_code_str.
(** The code of a polynomial on a simplex: the map to the unit simplex, then the lines of the code of the polynomial on the unit simplex after its
    first line. *)
Theorem C125_simplex : forall f m r h body fn_name a b eval_code, body <> [] -> ~ In "v" body -> generate_function_specific (specific_name f m r h) body = Ok eval_code ->
  exists rest, eval_code = lit "def " ++ specific_name f m r h ++ lit "(x):" ++ [newline] ++ rest /\
    code_str_simplex m a b eval_code (specific_name f m r h) fn_name =
      Ok (lit "def " ++ fn_name ++ lit "(y):" ++ [newline] ++
          match m with
          | 1 => lit "    x = " ++ a ++ lit " * y + " ++ b ++ [newline]
          | _ => lit "    a = np." ++ a ++ [newline] ++ lit "    b = np." ++ b ++ [newline] ++ lit "    x = np.dot(a, y) + b" ++ [newline]
          end ++ rest).
Proof.
  intros f m r h body fn_name a b eval_code N V E. destruct (generated body N) as (lines & _ & _ & HI & G). rewrite G in E. injection E as E. change (lit "def " ++ specific_name f m r h ++ lit "(x):" ++ [newline] ++ body_text lines = eval_code) in E. exists (body_text lines). split; [symmetry; exact E|].
  assert (T : code_str eval_code (specific_name f m r h) (lit "temp") = lit "def temp(x):" ++ [newline] ++ body_text lines).
  { rewrite <- E. unfold code_str. destruct (name_ev f m r h) as (q & ->). rewrite renamed; [reflexivity|]. intros C. change (lit "(x):" ++ [newline] ++ body_text lines) with ("(" :: "x" :: ")" :: ":" :: newline :: body_text lines) in C. repeat (destruct C as [C|C]; [discriminate C|]). revert C. apply no_v_body. intros l Hl C. exact (V (HI l "v" Hl C)). }
  unfold code_str_simplex. rewrite T. destruct (lines_of (body_text lines)) as (ls & NL & HL & EL). rewrite EL.
  replace (lit "def temp(x):" ++ [newline] ++ join [newline] ls) with (join [newline] (lit "def temp(x):" :: ls)) by (destruct ls; [contradiction|reflexivity]).
  rewrite split_lines; [|discriminate|intros l [<-|Hl]; [unfold one_line; no_bracket|apply HL, Hl]]. cbn [bind tl].
  rewrite wl_top by discriminate. unfold inc_indent, with_code. cbn [indent_depth code scope indent scope_delimiter new_writer reset]. change (0 + 1)%Z with 1%Z. fold (at_one ((lit "def " ++ fn_name ++ lit "(y):") ++ [newline])).
  rewrite !wl_one. destruct m as [|[|m]]; cbn [Nat.eqb]; cbn [at_one code dec_indent verbatim al body_line lit list_ascii_of_string app]; f_equal; repeat (rewrite <- !app_assoc; cbn [app]); reflexivity.
Qed.
Print Assumptions C125_simplex.
(** Arrays are written with 8 decimals: for two different maps to the unit simplex the code can be the same, so for one of the two it does not
    compute the polynomial. The numbers are multiples of 10^-9. *)
Theorem C125_precision_refuted : exists a a' : list (list Z), a <> a' /\ map (@Datatypes.length Z) a = [2; 2] /\ map (@Datatypes.length Z) a' = [2; 2] /\
  forall b eval_code eval_fn_name fn_name, code_str_simplex 2 (repr_float_array a) b eval_code eval_fn_name fn_name = code_str_simplex 2 (repr_float_array a') b eval_code eval_fn_name fn_name.
Proof.
  exists [[1333333333; 0]; [0; 1000000000]]%Z, [[1333333334; 0]; [0; 1000000000]]%Z. split; [discriminate|]. split; [reflexivity|]. split; [reflexivity|]. intros b eval_code eval_fn_name fn_name.
  replace (repr_float_array [[1333333333; 0]; [0; 1000000000]]%Z) with (repr_float_array [[1333333334; 0]; [0; 1000000000]]%Z) by (vm_compute; reflexivity). reflexivity.
Qed.
Print Assumptions C125_precision_refuted.

(** ** Examples *)
Example C125_ex_repr : repr_float_array [[1333333333; 0]; [0; 1000000000]]%Z = lit "array([[1.33333333, 0.        ],
       [0.        , 1.        ]])".
Proof. vm_compute. reflexivity. Qed.
Example C125_ex : exists eval_code, generate_function_specific (specific_name Barycentric 1 1 (-7)) (lit "return 2.0 * (1 - x) + 1e-05 * x") = Ok eval_code /\
  code_str_simplex 1 (lit "0.5") (lit "-1.0") eval_code (specific_name Barycentric 1 1 (-7)) (lit "p") = Ok (lit "def p(y):
    x = 0.5 * y + -1.0
    return 2.0 * (1 - x) + 1e-05 * x
").
Proof. eexists. split; [vm_compute; reflexivity|]. vm_compute. reflexivity. Qed.
