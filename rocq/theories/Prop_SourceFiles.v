(** Property C123: the source files and the modules that package_utils finds. *)
From Coq Require Import Ascii String Lia.
From Verif Require Import Base StrUtils SourceFiles.
Local Close Scope string_scope.
Local Open Scope list_scope.
Local Open Scope char_scope.

Lemma starts_spec p : forall s, starts_with p s = true <-> exists r, s = p ++ r.
Proof.
  induction p as [|a p IH]; intros s; [split; [exists s; reflexivity|reflexivity]|]. destruct s as [|b s]; [split; [discriminate|intros (r & E); discriminate]|]. cbn [starts_with]. rewrite andb_true_iff, Ascii.eqb_eq, IH. split.
  - intros [-> (r & ->)]. exists r. reflexivity.
  - intros (r & E). injection E as -> ->. split; [reflexivity|exists r; reflexivity].
Qed.
Lemma ends_spec p s : ends_with p s = true <-> exists r, s = r ++ p.
Proof.
  unfold ends_with. rewrite starts_spec. split; intros (r & E).
  - exists (rev r). rewrite <- (rev_involutive s), E, rev_app_distr, rev_involutive. reflexivity.
  - exists (rev r). rewrite E, rev_app_distr. reflexivity.
Qed.
Lemma same_name_spec a b : same_name a b = true <-> a = b.
Proof. unfold same_name. destruct (list_eq_dec ascii_dec a b); split; congruence. Qed.

(** ** Modules *)
Definition component (c : str) : Prop := ~ In "." c /\ ~ In "/" c.
(** the names joined by dots *)
Definition dotted (c : str) (cs : list str) : str := c ++ concat (map (cons ".") cs).
Lemma replace_char a b s : str_replace [a] [b] 0 s = map (fun c => if Ascii.eqb a c then b else c) s.
Proof. induction s as [|c s IH]; [reflexivity|]. cbn [str_replace starts_with map app length Nat.sub]. destruct (Ascii.eqb a c); cbn [andb app]; rewrite IH; reflexivity. Qed.
Lemma back_and_forth s : ~ In "/" s -> map (fun c => if Ascii.eqb "/" c then "." else c) (map (fun c => if Ascii.eqb "." c then "/" else c) s) = s.
Proof.
  intros H. rewrite map_map. rewrite <- (map_id s) at 2. apply map_ext_in. intros c Hc. destruct (Ascii.eqb_spec "." c) as [E|E]; [exact E|]. destruct (Ascii.eqb_spec "/" c) as [Q|Q]; [|reflexivity]. subst. contradiction.
Qed.
Lemma skip_component c : ~ In "." c -> forall t, str_replace (lit ".py") [] 0 (c ++ t) = c ++ str_replace (lit ".py") [] 0 t.
Proof.
  induction c as [|x c IH]; intros H t; [reflexivity|]. cbn [app str_replace]. assert (E : starts_with (lit ".py") (x :: c ++ t) = false).
  { cbn. destruct x as [[] [] [] [] [] [] [] []]; try reflexivity. exfalso. apply H. left. reflexivity. }
  rewrite E, IH; [reflexivity|]. intros C. apply H. right. exact C.
Qed.
Definition shortened (c : str) : str := if starts_with (lit "py") c then skipn 2 c else "." :: c.
Lemma replace_tail l : (forall c, In c l -> ~ In "." c) -> str_replace (lit ".py") [] 0 (concat (map (cons ".") l)) = concat (map shortened l).
Proof.
  induction l as [|c l IH]; intros H; [reflexivity|]. cbn [map concat]. specialize (IH ltac:(intros; apply H; right; assumption)). assert (Hc : ~ In "." c) by (apply H; left; reflexivity). unfold shortened at 1. destruct (starts_with (lit "py") c) eqn:S.
  - apply starts_spec in S as (r & ->). cbn [lit list_ascii_of_string app]. cbn [str_replace starts_with lit list_ascii_of_string Ascii.eqb Bool.eqb andb length Nat.sub app skipn]. rewrite skip_component by (intros C; apply Hc; right; right; exact C). rewrite IH. reflexivity.
  - cbn [app]. assert (E : starts_with (lit ".py") ("." :: c ++ concat (map (cons ".") l)) = false).
    { destruct (starts_with (lit ".py") _) eqn:Q; [|reflexivity]. apply starts_spec in Q as (r & Q). injection Q as Q. destruct c as [|x c]; [destruct l; discriminate Q|]. destruct c as [|y c]; [destruct l; cbn [app map concat] in Q; injection Q; intros; discriminate|]. injection Q as -> -> _. rewrite <- S. symmetry. apply starts_spec. exists c. reflexivity. }
    cbn [str_replace]. rewrite E. rewrite skip_component by exact Hc. rewrite IH. reflexivity.
Qed.
Lemma dotted_in z c cs : In z (dotted c cs) -> z = "." \/ In z c \/ exists d, In d cs /\ In z d.
Proof.
  unfold dotted. rewrite in_app_iff, in_concat. intros [H|(l & H & Hz)]; [auto|]. apply in_map_iff in H as (d & <- & Hd). destruct Hz as [<-|Hz]; [auto|]. right. right. exists d. auto.
Qed.
(** The import path of a module of a package, by the components of its name: the dot and the letters py at the start of a component (other than
    the first) are missing. *)
Theorem C123_submodules : forall modules packages, (forall c cs, In (c, cs) modules -> forall d, In d (c :: cs) -> component d) ->
  submodules (map (fun n => (dotted (fst n) (snd n), false)) modules ++ map (fun p => (p, true)) packages)
  = map (fun n => fst n ++ concat (map (fun d => if starts_with (lit "py") d then skipn 2 d else "." :: d) (snd n))) modules.
Proof.
  intros modules packages H. unfold submodules. rewrite filter_app.
  replace (filter (fun n : str * bool => negb (snd n)) (map (fun p => (p, true)) packages)) with (@nil (str * bool)) by (induction packages; [reflexivity|assumption]).
  rewrite app_nil_r. induction modules as [|[c cs] l IH]; [reflexivity|]. cbn [map filter snd fst negb]. rewrite IH by (intros ? ? Hi; apply H; right; exact Hi). f_equal. unfold submodule_path. rewrite !replace_char, map_app.
  assert (G : forall d, In d (c :: cs) -> component d) by (apply (H c cs); left; reflexivity).
  rewrite back_and_forth.
  - unfold dotted. rewrite <- app_assoc. rewrite skip_component by (apply (G c); left; reflexivity). f_equal.
    change (map _ (lit ".py")) with (concat (map (cons ".") [lit "py"])). rewrite <- concat_app, <- map_app, replace_tail.
    + rewrite map_app, concat_app. cbn. rewrite app_nil_r. reflexivity.
    + intros d Hd. apply in_app_iff in Hd as [Hd|[<-|[]]]; [apply (G d); right; exact Hd|]. cbn. intuition discriminate.
  - intros C. apply dotted_in in C as [C|[C|(d & Hd & C)]]; [discriminate| |]; [apply (G c (or_introl eq_refl)), C|apply (G d (or_intror Hd)), C].
Qed.
Print Assumptions C123_submodules.
Lemma shortened_length cs : length (concat (map shortened cs)) <= length (concat (map (cons ".") cs)) /\
  (length (concat (map shortened cs)) = length (concat (map (cons ".") cs)) -> forall d, In d cs -> starts_with (lit "py") d = false).
Proof.
  induction cs as [|c cs [IH1 IH2]]; [split; [reflexivity|intros _ d []]|]. cbn [map concat]. rewrite !app_length. unfold shortened at 1 3. destruct (starts_with (lit "py") c) eqn:S.
  - apply starts_spec in S as (r & ->). cbn [skipn lit list_ascii_of_string app length]. split; [lia|intros E; lia].
  - split; [cbn [length]; lia|]. intros E d [<-|Hd]; [exact S|]. apply IH2; [cbn [length] in E; lia|exact Hd].
Qed.
(** It is the name of the module exactly when no component after the first starts with py. *)
Theorem C123_import_path : forall c cs, (forall d, In d (c :: cs) -> component d) ->
  (submodules [(dotted c cs, false)] = [dotted c cs] <-> forall d, In d cs -> forall r, d <> "p" :: "y" :: r).
Proof.
  intros c cs H. pose proof (C123_submodules [(c, cs)] []) as E. cbn [map app fst snd] in E. rewrite E by (intros ? ? [Q|[]]; injection Q as <- <-; exact H). clear E. change (fun d => if starts_with (lit "py") d then skipn 2 d else "." :: d) with shortened. unfold dotted. split.
  - intros E d Hd r ->. assert (E' : c ++ concat (map shortened cs) = c ++ concat (map (cons ".") cs)) by (exact (f_equal (hd []) E)). apply app_inv_head in E'. pose proof (proj2 (shortened_length cs) (f_equal (@length _) E') _ Hd) as S. discriminate S.
  - intros N. f_equal. f_equal. f_equal. apply map_ext_in. intros d Hd. unfold shortened. destruct (starts_with (lit "py") d) eqn:S; [|reflexivity]. apply starts_spec in S as (r & ->). contradiction (N _ Hd r eq_refl).
Qed.
Print Assumptions C123_import_path.
(** A module that cannot be imported by the path given, and two modules with the same path. *)
Theorem C123_submodules_refuted : exists c d e, component c /\ component d /\ component e /\
  submodules [(dotted c [d], false)] <> [dotted c [d]] /\ dotted c [d] <> dotted e [] /\ submodules [(dotted c [d], false)] = submodules [(dotted e [], false)].
Proof. exists (lit "tools"), (lit "pyplot"), (lit "toolsplot"). repeat split; try discriminate; cbn; intuition discriminate. Qed.
Print Assumptions C123_submodules_refuted.

(** ** Source files *)
(** the file [f] is in the directory that the names [dirs] lead to *)
Inductive file_at : tree -> list str -> str -> Prop :=
| file_here subs files f : In f files -> file_at (Dir subs files) [] f
| file_below subs files n d dirs f : In (n, d) subs -> file_at d dirs f -> file_at (Dir subs files) (n :: dirs) f.
Definition starts (c : ascii) (s : str) : Prop := exists r, s = c :: r.
Lemma first_spec c f : first_is c f = true <-> starts c f.
Proof. unfold first_is. rewrite starts_spec. reflexivity. Qed.
Lemma not_first c f : negb (first_is c f) = true <-> ~ starts c f.
Proof. rewrite <- first_spec. destruct (first_is c f); cbn; split; congruence. Qed.
Lemma tree_induction (P : tree -> Prop) : (forall subs files, (forall n d, In (n, d) subs -> P d) -> P (Dir subs files)) -> forall d, P d.
Proof.
  intros H. fix IH 1. intros [subs files]. apply H.
  assert (G : Forall (fun nd => P (snd nd)) subs).
  { exact ((fix go l : Forall (fun nd => P (snd nd)) l := match l with [] => Forall_nil _ | nd :: l => Forall_cons nd (match nd return P (snd nd) with (n, d) => IH d end) (go l) end) subs). }
  intros n d Hn. rewrite Forall_forall in G. exact (G (n, d) Hn).
Qed.
Lemma walk_spec hid : forall d path p f, (exists fs, In (p, fs) (walk hid path d) /\ In f fs) <->
  exists dirs, p = path ++ dirs /\ file_at d dirs f /\ (hid = true \/ ~ starts "." f /\ forall n, In n dirs -> ~ starts "." n).
Proof.
  intros d. pattern d. apply tree_induction. clear d. intros subs files IH path p f. cbn [walk].
  assert (L : (exists fs, In (p, fs) (flat_map (fun nd : str * tree => let (n, d') := nd in if hid || negb (first_is "." n) then walk hid (path ++ [n]) d' else []) subs) /\ In f fs) <->
    exists n d dirs, In (n, d) subs /\ (hid = true \/ ~ starts "." n) /\ p = (path ++ [n]) ++ dirs /\ file_at d dirs f /\ (hid = true \/ ~ starts "." f /\ forall n, In n dirs -> ~ starts "." n)).
  { induction subs as [|[n d] subs IHs]; [split; [intros (? & [] & _)|intros (? & ? & ? & [] & _)]|]. cbn [flat_map]. specialize (IHs ltac:(intros m e Hm; apply (IH m e); right; exact Hm)). specialize (IH n d (or_introl eq_refl) (path ++ [n]) p f). split.
    - intros (fs & Hi & Hf). apply in_app_iff in Hi as [Hi|Hi].
      + destruct (hid || negb (first_is "." n)) eqn:E; [|contradiction]. destruct (proj1 IH ltac:(exists fs; auto)) as (dirs & A & B & C). exists n, d, dirs. split; [left; reflexivity|]. split; [apply orb_true_iff in E as [E|E]; [auto|right; apply not_first, E]|]. auto.
      + destruct (proj1 IHs ltac:(exists fs; auto)) as (n' & d' & dirs & A & B). exists n', d', dirs. split; [right; exact A|exact B].
    - intros (n' & d' & dirs & [Q|Q] & A & B).
      + injection Q as <- <-. destruct (proj2 IH ltac:(exists dirs; exact B)) as (fs & Hi & Hf). exists fs. split; [|exact Hf]. apply in_app_iff. left. replace (hid || negb (first_is "." n)) with true; [exact Hi|]. symmetry. apply orb_true_iff. destruct A as [A|A]; [auto|right; apply not_first, A].
      + destruct (proj2 IHs ltac:(exists n', d', dirs; auto)) as (fs & Hi & Hf). exists fs. split; [apply in_app_iff; right; exact Hi|exact Hf]. }
  split.
  - intros (fs & [E|Hi] & Hf).
    + injection E as <- <-. exists []. split; [rewrite app_nil_r; reflexivity|]. destruct hid; [split; [constructor; exact Hf|auto]|]. apply filter_In in Hf as [Hf N]. split; [constructor; exact Hf|]. right. split; [apply not_first, N|intros ? []].
    + destruct (proj1 L ltac:(exists fs; auto)) as (n & d & dirs & A & B & C & D & E). exists (n :: dirs). split; [rewrite C, <- app_assoc; reflexivity|]. split; [econstructor; eassumption|]. destruct B as [B|B]; [auto|]. destruct E as [E|[E E']]; [auto|]. right. split; [exact E|]. intros m [<-|Hm]; auto.
  - intros (dirs & -> & F & C). inversion F as [s fs f' Hf|s fs n d dirs' f' Hn F']; subst.
    + rewrite app_nil_r. eexists. split; [left; reflexivity|]. destruct hid; [exact Hf|]. apply filter_In. split; [exact Hf|]. destruct C as [C|[C _]]; [discriminate|apply not_first, C].
    + destruct (proj2 L) as (fs' & Hi & Hf).
      * exists n, d, dirs'. split; [exact Hn|]. split; [destruct C as [C|[_ C]]; [auto|right; apply C; left; reflexivity]|]. split; [rewrite <- app_assoc; reflexivity|]. split; [exact F'|]. destruct C as [C|[C C']]; [auto|]. right. split; [exact C|]. intros m Hm. apply C'. right. exact Hm.
      * exists fs'. split; [right; exact Hi|exact Hf].
Qed.

Lemma rfind_last a : forall b, ~ In "." b -> rfind_dot (a ++ "." :: b) = Some (length a).
Proof.
  assert (N : forall b, ~ In "." b -> rfind_dot b = None).
  { induction b as [|c b IH]; intros H; [reflexivity|]. cbn [rfind_dot]. rewrite IH by (intros C; apply H; right; exact C). destruct (Ascii.eqb_spec c "."); [subst; exfalso; apply H; left; reflexivity|reflexivity]. }
  intros b H. induction a as [|c a IH]; cbn [app rfind_dot length]; [rewrite (N b H), Ascii.eqb_refl; reflexivity|rewrite IH; reflexivity].
Qed.
Lemma extension_spec f : extension f = lit ".py" <-> exists stem, f = stem ++ lit ".py" /\ exists c, In c stem /\ c <> ".".
Proof.
  unfold extension. split.
  - destruct (rfind_dot f) as [k|]; [|discriminate]. destruct (existsb _ _) eqn:X; [|discriminate]. intros E. exists (firstn k f). split; [rewrite <- E; symmetry; apply firstn_skipn|]. apply existsb_exists in X as (c & Hc & N). exists c. split; [exact Hc|]. intros ->. rewrite Ascii.eqb_refl in N. discriminate.
  - intros (stem & -> & c & Hc & N). change (lit ".py") with ("." :: lit "py"). rewrite rfind_last by (cbn; intuition discriminate). rewrite firstn_app, Nat.sub_diag, firstn_all, app_nil_r, skipn_app, Nat.sub_diag, skipn_all. replace (existsb _ stem) with true; [reflexivity|]. symmetry. apply existsb_exists. exists c. split; [exact Hc|]. destruct (Ascii.eqb_spec c "."); [contradiction|reflexivity].
Qed.
Lemma candidates_spec hid priv d dirs f : In (dirs, f) (candidates hid priv d) <->
  file_at d dirs f /\ (hid = true \/ ~ starts "." f /\ forall n, In n dirs -> ~ starts "." n) /\ (priv = true \/ ~ starts "_" f \/ exists r, f = lit "__" ++ r).
Proof.
  unfold candidates. rewrite in_flat_map.
  assert (Q : forall fs, In f (if priv then fs else filter (fun f => negb (first_is "_" f) || starts_with (lit "__") f) fs) <-> In f fs /\ (priv = true \/ ~ starts "_" f \/ exists r, f = lit "__" ++ r)).
  { intros fs. destruct priv; [intuition|]. rewrite filter_In, orb_true_iff, not_first, starts_spec. intuition discriminate. }
  pose proof (walk_spec hid d [] dirs f) as W. cbn [app] in W. split.
  - intros ([p fs] & Hi & Hm). apply in_map_iff in Hm as (f' & E & Hf). cbn [fst snd] in *. injection E as -> ->. apply Q in Hf as [Hf HP]. destruct (proj1 W ltac:(exists fs; auto)) as (dirs' & <- & A & B). auto.
  - intros (A & B & C). destruct (proj2 W ltac:(exists dirs; auto)) as (fs & Hi & Hf). exists (dirs, fs). split; [exact Hi|]. apply in_map_iff. exists f. split; [reflexivity|]. apply Q. auto.
Qed.
(** the file is a test file in the sense of the documentation; [parent] is the directory it is in *)
Definition test_file (parent : list str) (f : str) : Prop :=
  ((exists r, f = r ++ lit "_test.py") \/ (exists r, f = r ++ lit "_test_interactive.py")) /\ exists up, parent = up ++ [lit "test"].
Lemma is_test_file_spec parent f : parent <> [] -> exists b, is_test_file parent f = Ok b /\ (b = true <-> test_file parent f).
Proof.
  intros H. unfold is_test_file, test_file.
  pose proof (ends_spec (lit "_test.py") f) as T1. pose proof (ends_spec (lit "_test_interactive.py") f) as T2. destruct (rev parent) as [|p l] eqn:R; [apply (f_equal (@rev _)) in R; rewrite rev_involutive in R; contradiction|].
  assert (E : parent = rev l ++ [p]) by (rewrite <- (rev_involutive parent), R; reflexivity).
  assert (S : same_name p (lit "test") = true <-> exists up, parent = up ++ [lit "test"]).
  { rewrite same_name_spec. split; [intros ->; exists (rev l); exact E|]. intros (up & Q). rewrite E in Q. apply app_inj_tail in Q as [_ Q]. exact Q. }
  destruct (ends_with (lit "_test.py") f), (ends_with (lit "_test_interactive.py") f); cbn [bind]; destruct (same_name p (lit "test")) eqn:N; eexists; (split; [reflexivity|]); tauto || intuition discriminate.
Qed.
Lemma select_spec (root : list str) (absolute exclude : bool) (l : list (list str * str)) : (exclude = true -> root <> []) -> forall acc : list (list str), exists found : list (list str * str),
  foldM (fun found pf =>
      if same_name (extension (snd pf)) (lit ".py") then
        let* skip := if exclude then is_test_file (root ++ fst pf) (snd pf) else Ok false in
        if skip then Ok found else Ok (found ++ [(if absolute then root else []) ++ fst pf ++ [snd pf]])
      else Ok found) acc l = Ok (acc ++ map (fun pf : list str * str => (if absolute then root else []) ++ fst pf ++ [snd pf]) found) /\
  (NoDup l -> NoDup found) /\
  forall dirs f, In (dirs, f) found <-> In (dirs, f) l /\ extension f = lit ".py" /\ (exclude = true -> ~ test_file (root ++ dirs) f).
Proof.
  intros H. induction l as [|[p g] l IH]; intros acc; [exists []; split; [cbn; rewrite app_nil_r; reflexivity|split; [auto|intros; split; [intros []|intros [[] _]]]]|]. cbn [foldM fst snd].
  assert (Skip : (exclude = true /\ test_file (root ++ p) g \/ extension g <> lit ".py") -> exists found, foldM (fun found pf =>
      if same_name (extension (snd pf)) (lit ".py") then
        let* skip := if exclude then is_test_file (root ++ fst pf) (snd pf) else Ok false in
        if skip then Ok found else Ok (found ++ [(if absolute then root else []) ++ fst pf ++ [snd pf]])
      else Ok found) acc l = Ok (acc ++ map (fun pf : list str * str => (if absolute then root else []) ++ fst pf ++ [snd pf]) found) /\ (NoDup ((p, g) :: l) -> NoDup found) /\
      forall dirs f, In (dirs, f) found <-> In (dirs, f) ((p, g) :: l) /\ extension f = lit ".py" /\ (exclude = true -> ~ test_file (root ++ dirs) f)).
  { intros S. destruct (IH acc) as (found & E & D & I). exists found. split; [exact E|]. split; [intros N; inversion N; auto|]. intros dirs f. rewrite I. cbn [In]. split; [intuition|]. intros ([Q|Q] & A & B); [|auto]. injection Q as -> ->. destruct S as [[S S']|S]; [contradiction (B S S')|contradiction]. }
  assert (Keep : extension g = lit ".py" -> (exclude = true -> ~ test_file (root ++ p) g) -> exists found, foldM (fun found pf =>
      if same_name (extension (snd pf)) (lit ".py") then
        let* skip := if exclude then is_test_file (root ++ fst pf) (snd pf) else Ok false in
        if skip then Ok found else Ok (found ++ [(if absolute then root else []) ++ fst pf ++ [snd pf]])
      else Ok found) (acc ++ [(if absolute then root else []) ++ p ++ [g]]) l = Ok (acc ++ map (fun pf : list str * str => (if absolute then root else []) ++ fst pf ++ [snd pf]) found) /\ (NoDup ((p, g) :: l) -> NoDup found) /\
      forall dirs f, In (dirs, f) found <-> In (dirs, f) ((p, g) :: l) /\ extension f = lit ".py" /\ (exclude = true -> ~ test_file (root ++ dirs) f)).
  { intros X T. destruct (IH (acc ++ [(if absolute then root else []) ++ p ++ [g]])) as (found & E & D & I). exists ((p, g) :: found). split; [rewrite E; cbn [map fst snd]; rewrite <- app_assoc; reflexivity|]. split.
    - intros N. inversion N as [|? ? N1 N2]. subst. constructor; [|auto]. intros C. apply I in C. apply N1, C.
    - intros dirs f. cbn [In]. rewrite I. split; [intros [Q|Q]; [injection Q as <- <-; auto|intuition]|]. intros ([Q|Q] & A & B); [left; exact Q|right; auto]. }
  destruct (same_name (extension g) (lit ".py")) eqn:X.
  - apply same_name_spec in X. destruct exclude.
    + destruct (is_test_file_spec (root ++ p) g) as (b & Eb & Hb); [intros C; apply app_eq_nil in C as [C _]; exact (H eq_refl C)|]. rewrite Eb. cbn [bind]. destruct b; [apply Skip; left; split; [reflexivity|apply Hb; reflexivity]|]. apply Keep; [exact X|]. intros _ C. apply Hb in C. discriminate.
    + cbn [bind]. apply Keep; [exact X|discriminate].
  - apply Skip. right. intros C. apply same_name_spec in C. congruence.
Qed.
(** The files found: those named stem.py (the stem not only dots) that are not hidden, nor in a hidden directory, do not start with exactly one
    underscore, and are not test files, each unless asked for.  The path of a package without components is covered when test files are
    not excluded. *)
Theorem C123_files : forall root d absolute exclude hidden private, (exclude = true -> root <> []) ->
  exists found, source_file_paths root d absolute exclude hidden private = Ok found /\
  forall path, In path found <-> exists dirs f stem, path = (if absolute then root else []) ++ dirs ++ [f] /\ file_at d dirs f /\
    (f = stem ++ lit ".py" /\ exists c, In c stem /\ c <> ".") /\
    (hidden = true \/ ~ starts "." f /\ forall n, In n dirs -> ~ starts "." n) /\
    (private = true \/ ~ starts "_" f \/ exists r, f = lit "__" ++ r) /\
    (exclude = true -> ~ test_file (root ++ dirs) f).
Proof.
  intros root d absolute exclude hidden private H. destruct (select_spec root absolute exclude (candidates hidden private d) H []) as (found & E & _ & I). eexists. split; [exact E|]. intros path. cbn [app]. rewrite in_map_iff. split.
  - intros ([dirs f] & <- & Hi). apply I in Hi as (C & X & T). apply candidates_spec in C as (A & B & C). apply extension_spec in X as (stem & X). exists dirs, f, stem. auto 6.
  - intros (dirs & f & stem & -> & A & X & B & C & T). exists (dirs, f). split; [reflexivity|]. apply I. split; [apply candidates_spec; auto|]. split; [apply extension_spec; exists stem; exact X|exact T].
Qed.
Print Assumptions C123_files.
(** Each file is found once, if no directory has two entries of the same name. *)
Inductive distinct : tree -> Prop := distinct_dir subs files : NoDup files -> NoDup (map fst subs) -> (forall n d, In (n, d) subs -> distinct d) -> distinct (Dir subs files).
Lemma nodup_filter {A} (p : A -> bool) l : NoDup l -> NoDup (filter p l).
Proof. induction 1 as [|x l N ND IH]; cbn; [constructor|]. destruct (p x); [|exact IH]. constructor; [|exact IH]. intros C. apply filter_In in C. apply N, C. Qed.
Lemma nodup_app {A} (a b : list A) : NoDup a -> NoDup b -> (forall x, In x a -> ~ In x b) -> NoDup (a ++ b).
Proof.
  induction 1 as [|x l N ND IH]; intros Hb Hd; [exact Hb|]. cbn. constructor; [|apply IH; [exact Hb|intros y Hy; apply Hd; right; exact Hy]]. rewrite in_app_iff. intros [C|C]; [exact (N C)|exact (Hd x (or_introl eq_refl) C)].
Qed.
Lemma nodup_map {A B} (f : A -> B) l : (forall x y, f x = f y -> x = y) -> NoDup l -> NoDup (map f l).
Proof. intros I. induction 1 as [|x l N ND IH]; cbn; [constructor|]. constructor; [|exact IH]. rewrite in_map_iff. intros (y & E & Hy). apply I in E. subst. exact (N Hy). Qed.
Definition listed (priv : bool) (w : list (list str * list str)) : list (list str * str) :=
  flat_map (fun pf => map (pair (fst pf)) (if priv then snd pf else filter (fun f => negb (first_is "_" f) || starts_with (lit "__") f) (snd pf))) w.
Lemma walk_prefix hid d path : forall p fs, In (p, fs) (walk hid path d) -> exists dirs, p = path ++ dirs.
Proof.
  revert path. pattern d. apply tree_induction. clear d. intros subs files IH path p fs. cbn [walk]. intros [E|Hi]; [injection E as <- _; exists []; rewrite app_nil_r; reflexivity|]. apply in_flat_map in Hi as ([n d] & Hn & Hi). destruct (hid || _); [|contradiction]. destruct (IH n d Hn _ _ _ Hi) as (dirs & ->). exists (n :: dirs). rewrite <- app_assoc. reflexivity.
Qed.
Lemma listed_in priv w p f : In (p, f) (listed priv w) -> exists fs, In (p, fs) w.
Proof. unfold listed. rewrite in_flat_map. intros ([q fs] & Hi & Hm). apply in_map_iff in Hm as (g & E & _). injection E as <- <-. exists fs. exact Hi. Qed.
Lemma listed_nodup hid priv d : distinct d -> forall path, NoDup (listed priv (walk hid path d)).
Proof.
  pattern d. apply tree_induction. clear d. intros subs files IH D path. inversion D as [s fs Nf Ns Ds]. subst. cbn [walk]. change (NoDup (map (pair path) (let fs := (if hid then files else filter (fun f => negb (first_is "." f)) files) in if priv then fs else filter (fun f => negb (first_is "_" f) || starts_with (lit "__") f) fs) ++
    listed priv (flat_map (fun nd : str * tree => let (n, d') := nd in if hid || negb (first_is "." n) then walk hid (path ++ [n]) d' else []) subs))).
  assert (B : forall p f l, In (p, f) (listed priv (flat_map (fun nd : str * tree => let (n, d') := nd in if hid || negb (first_is "." n) then walk hid (path ++ [n]) d' else []) l)) -> exists n dirs, In n (map fst l) /\ p = path ++ n :: dirs).
  { intros p f l Hi. apply listed_in in Hi as (fs & Hi). apply in_flat_map in Hi as ([n d] & Hn & Hi). destruct (hid || _); [|contradiction]. apply walk_prefix in Hi as (dirs & ->). exists n, dirs. split; [apply in_map_iff; exists (n, d); auto|rewrite <- app_assoc; reflexivity]. }
  apply nodup_app.
  - apply nodup_map; [intros x y E; injection E; auto|]. cbv zeta. destruct priv, hid; repeat apply nodup_filter; exact Nf.
  - clear D Nf. induction subs as [|[n d] subs IHs]; [constructor|]. cbn [flat_map]. unfold listed. rewrite flat_map_app. inversion Ns as [|? ? N1 N2]. subst. apply nodup_app.
    + destruct (hid || _); [|constructor]. apply (IH n d (or_introl eq_refl)). apply (Ds n d). left. reflexivity.
    + apply IHs; [intros m e Hm; apply (IH m e); right; exact Hm|exact N2|intros m e Hm; apply (Ds m e); right; exact Hm].
    + intros [p f] A C. apply B in C as (m & dirs & Hm & ->). apply listed_in in A as (fs & A). destruct (hid || _); [|contradiction]. apply walk_prefix in A as (dirs' & E). rewrite <- app_assoc in E. apply app_inv_head in E. injection E as -> _. exact (N1 Hm).
  - intros [p f] A C. apply in_map_iff in A as (g & E & _). injection E as <- _. apply B in C as (n & dirs & _ & E). rewrite <- (app_nil_r path) in E at 1. apply app_inv_head in E. discriminate.
Qed.
Theorem C123_once : forall root d absolute exclude hidden private found, distinct d -> (exclude = true -> root <> []) ->
  source_file_paths root d absolute exclude hidden private = Ok found -> NoDup found.
Proof.
  intros root d absolute exclude hidden private found D H E. destruct (select_spec root absolute exclude (candidates hidden private d) H []) as (l & E' & N & _). unfold source_file_paths in E. rewrite E' in E. injection E as <-. cbn [app]. apply nodup_map; [|apply N, listed_nodup, D].
  intros [p f] [q g] Q. cbn [fst snd] in Q. apply app_inv_head in Q. apply app_inj_tail in Q as [-> ->]. reflexivity.
Qed.
Print Assumptions C123_once.
(** With the path "." and [exclude_test_files], a test module next to the package's own modules raises IndexError. *)
Theorem C123_root_refuted : forall subs files stem absolute hidden private, In (stem ++ lit "_test.py") files -> ~ starts "." stem -> ~ starts "_" stem -> stem <> [] ->
  source_file_paths [] (Dir subs files) absolute true hidden private = Err IndexError.
Proof.
  intros subs files stem absolute hidden private Hf H1 H2 H3.
  assert (C : In ([], stem ++ lit "_test.py") (candidates hidden private (Dir subs files))).
  { destruct stem as [|c stem]; [contradiction|]. apply candidates_spec. split; [constructor; exact Hf|]. split; right; [split; [|intros ? []]|left]; intros (r & E); injection E as -> _; [apply H1|apply H2]; exists stem; reflexivity. }
  unfold source_file_paths. revert C. match goal with |- In ?x ?y -> foldM ?F _ _ = _ => enough (G : forall l acc, In x l -> foldM F acc l = Err IndexError) by (apply G) end.
  clear. induction l as [|[p g] l IH]; intros acc; [intros []|]. cbn [foldM fst snd app]. intros [E|Hi].
  - assert (Q : p = [] /\ g = stem ++ lit "_test.py") by (split; congruence). destruct Q as [-> ->]. clear E. replace (same_name (extension (stem ++ lit "_test.py")) (lit ".py")) with true.
    + unfold is_test_file. replace (ends_with (lit "_test.py") (stem ++ lit "_test.py")) with true by (symmetry; apply ends_spec; exists stem; reflexivity). reflexivity.
    + symmetry. apply same_name_spec, extension_spec. exists (stem ++ lit "_test"). split; [rewrite <- app_assoc; reflexivity|]. exists "_". split; [apply in_app_iff; right; left; reflexivity|discriminate].
  - destruct (same_name _ _); [|apply IH, Hi]. unfold is_test_file. destruct (rev p) as [|q r].
    + destruct (ends_with (lit "_test.py") g); [reflexivity|]. cbn [bind]. destruct (ends_with (lit "_test_interactive.py") g); [reflexivity|]. cbn [bind]. apply IH, Hi.
    + destruct (ends_with (lit "_test.py") g), (ends_with (lit "_test_interactive.py") g); cbn [bind]; destruct (same_name q (lit "test")); cbn [bind]; apply IH, Hi.
Qed.
Print Assumptions C123_root_refuted.
(** Files that start with two underscores are found although private files (those starting with an underscore) are not asked for. *)
Theorem C123_private_refuted : exists d f, starts "_" f /\ source_file_paths [lit "package"] d false false false false = Ok [[f]].
Proof. exists (Dir [] [lit "__cache.py"]), (lit "__cache.py"). split; [eexists; reflexivity|reflexivity]. Qed.
Print Assumptions C123_private_refuted.

(** ** Examples *)
Definition C123_tree : tree := Dir [(lit ".git", Dir [] [lit "hook.py"]); (lit "test", Dir [] [lit "a_test.py"; lit "helper.py"])] [lit "a.py"; lit "_b.py"; lit "__init__.py"; lit ".py"; lit "c.txt"].
Example C123_ex_files : source_file_paths [lit "/"; lit "p"] C123_tree false true false false = Ok [[lit "a.py"]; [lit "__init__.py"]; [lit "test"; lit "helper.py"]].
Proof. reflexivity. Qed.
Example C123_ex_distinct : distinct C123_tree.
Proof.
  unfold C123_tree. repeat (constructor || (intros ? ? H; repeat destruct H as [H|H]; try contradiction; injection H as <- <-)); cbn; intuition discriminate.
Qed.
Example C123_ex_submodules : submodules [(lit "geometry", true); (lit "geometry.mesh", false); (lit "pyplot", false); (lit "a.pyplot", false)] = [lit "geometry.mesh"; lit "pyplot"; lit "aplot"].
Proof. reflexivity. Qed.
