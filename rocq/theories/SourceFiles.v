(** Model of generic_tools/package_utils.py 28-100: the import paths of the
    modules of a package and the paths of its source files.
    A directory is a tree of names; a path is the list of its components
    (the parts of pathlib, so the path "." has none); names are not empty.
    There are no symbolic links.  The names that pkgutil.walk_packages yields
    are an argument.  The functions are generators; here the list of all that
    they yield is the result, or the exception that ends them. *)
From Coq Require Import Ascii String.
From Verif Require Import Base StrUtils.
Local Close Scope string_scope.
Local Open Scope list_scope.
Local Open Scope char_scope.

(** str.startswith, str.endswith *)
Fixpoint starts_with (p s : str) : bool :=
  match p, s with
  | [], _ => true
  | a :: p, b :: s => Ascii.eqb a b && starts_with p s
  | _, [] => false
  end.
Definition ends_with (p s : str) : bool := starts_with (rev p) (rev s).
(** str.replace for [old] not empty; [skip] characters belong to the last match *)
Fixpoint str_replace (old new : str) (skip : nat) (s : str) : str :=
  match s with
  | [] => []
  | c :: r =>
    match skip with
    | S k => str_replace old new k r
    | O => if starts_with old s then new ++ str_replace old new (length old - 1) r else c :: str_replace old new 0 r
    end
  end.
Definition same_name (a b : str) : bool := if list_eq_dec ascii_dec a b then true else false.

(** 40-56 [submodule_paths] with [absolute_path=False], for one name of pkgutil.walk_packages *)
Definition submodule_path (name : str) : str := str_replace ["."] ["/"] 0 name ++ lit ".py".
(** 28-37 [submodules]; a name and whether it is a package *)
Definition submodules (walked : list (str * bool)) : list str :=
  map (fun n => str_replace (lit ".py") [] 0 (str_replace ["/"] ["."] 0 (submodule_path (fst n)))) (filter (fun n => negb (snd n)) walked).

(** os.path.splitext, the extension of a name: from the last dot on, unless there are only dots before it *)
Fixpoint rfind_dot (s : str) : option nat :=
  match s with
  | [] => None
  | c :: r => match rfind_dot r with Some k => Some (S k) | None => if Ascii.eqb c "." then Some 0 else None end
  end.
Definition extension (s : str) : str :=
  match rfind_dot s with
  | Some k => if existsb (fun c => negb (Ascii.eqb c ".")) (firstn k s) then skipn k s else []
  | None => []
  end.

Inductive tree : Type := Dir (subs : list (str * tree)) (files : list str).
(** [f[0] == c] *)
Definition first_is (c : ascii) (f : str) : bool := starts_with [c] f.
(** 76-79: os.walk from the top down, with [dirnames] changed in the loop *)
Fixpoint walk (include_hidden : bool) (path : list str) (d : tree) : list (list str * list str) :=
  match d with
  | Dir subs files =>
    (path, if include_hidden then files else filter (fun f => negb (first_is "." f)) files)
    :: flat_map (fun nd => match nd with (n, d') => if include_hidden || negb (first_is "." n) then walk include_hidden (path ++ [n]) d' else [] end) subs
  end.
(** 93-100 [_is_test_file]; the parent directory and the name *)
Definition is_test_file (parent : list str) (f : str) : result bool :=
  let last_part := match rev parent with [] => Err IndexError | p :: _ => Ok p end in
  let* a := if ends_with (lit "_test.py") f then let* p := last_part in Ok (same_name p (lit "test")) else Ok false in
  if a then Ok true else
  if ends_with (lit "_test_interactive.py") f then let* p := last_part in Ok (same_name p (lit "test")) else Ok false.
(** 59-90 [source_file_paths] *)
Definition candidates (include_hidden include_private : bool) (d : tree) : list (list str * str) :=
  flat_map (fun pf => map (pair (fst pf)) (if include_private then snd pf else filter (fun f => negb (first_is "_" f) || starts_with (lit "__") f) (snd pf))) (walk include_hidden [] d).
Definition source_file_paths (package_path : list str) (d : tree) (absolute_path exclude_test_files include_hidden include_private : bool) : result (list (list str)) :=
  foldM (fun found pf =>
      if same_name (extension (snd pf)) (lit ".py") then
        let* skip := if exclude_test_files then is_test_file (package_path ++ fst pf) (snd pf) else Ok false in
        if skip then Ok found else Ok (found ++ [(if absolute_path then package_path else []) ++ fst pf ++ [snd pf]])
      else Ok found)
    [] (candidates include_hidden include_private d).
