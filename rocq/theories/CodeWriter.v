(** Model of polynomials_on_simplices/generic_tools/code_generation_utils.py 6-124: the class [CodeWriter] and [_contains_only_spaces].
    Not modelled: [print_trace] (30-40), which inspects the Python stack. *)
From Coq Require Import Ascii String ZArith.
From Verif Require Import Base StrUtils.
Local Close Scope string_scope.
Local Open Scope list_scope.

Definition newline : ascii := ascii_of_nat 10.
(** 12-18: the attributes of the object *)
Record writer := Writer { indent_depth : Z; code : str; scope : list str; indent : str; scope_delimiter : str }.
(** 20-24 *)
Definition reset (w : writer) : writer := Writer 0 [] [] (indent w) (scope_delimiter w).
(** 12-18 *)
Definition new_writer : writer := reset (Writer 0 [] [] (lit "    ") (lit "::")).
(** 26-28 *)
Definition empty (w : writer) : bool := str_eqb (code w) [].
(** 42-48 *)
Definition inc_indent (w : writer) : writer := Writer (indent_depth w + 1) (code w) (scope w) (indent w) (scope_delimiter w).
Definition dec_indent (w : writer) : writer := Writer (indent_depth w - 1) (code w) (scope w) (indent w) (scope_delimiter w).
(** 61-63, 81-83: [self.code += string] *)
Definition al (w : writer) (string : str) : writer := Writer (indent_depth w) (code w ++ string) (scope w) (indent w) (scope_delimiter w).
Definition verbatim (w : writer) (string : str) : writer := al w string.
(** [n * s] for an integer and a string *)
Definition str_mul (n : Z) (s : str) : str := concat (repeat s (Z.to_nat n)).
(** 56-59 *)
Definition bl (w : writer) (string : str) : writer := al (al w (str_mul (indent_depth w) (indent w))) string.
(** 65-67 *)
Definition el (w : writer) (string : str) : writer := al w (string ++ [newline]).
(** 117-124: [string.replace(' ', '') == ""] *)
Definition contains_only_spaces (string : str) : bool := str_eqb (filter (fun c => if ascii_dec c (ascii_of_nat 32) then false else true) string) [].
(** 50-54 *)
Definition wl (w : writer) (string : str) : writer :=
  let w := if negb (str_eqb string []) || negb (contains_only_spaces (indent w)) then bl w string else w in
  el w [].
(** 85-90 *)
Definition get_scope (w : writer) : str := fold_left (fun out s => out ++ (s ++ scope_delimiter w)) (scope w) [].
(** 69-71 *)
Definition ws (w : writer) : writer := al w (get_scope w).
(** 73-79 *)
Definition wc (w : writer) (string : str) : result writer :=
  match rev string with
  | [] => Err IndexError
  | c :: _ =>
    let string := if ascii_dec c newline then removelast string else string in
    let* lines := split string [newline] in
    Ok (fold_left wl lines w)
  end.
(** [s.partition("\n")]: what is before and after the first newline *)
Fixpoint partition_newline (s : str) : str * str :=
  match s with
  | [] => ([], [])
  | c :: s => if ascii_dec c newline then ([], s) else let '(a, b) := partition_newline s in (c :: a, b)
  end.
(** 92-96 *)
Definition pop_first_line (w : writer) : str * writer :=
  let '(a, b) := partition_newline (code w) in
  (a, Writer (indent_depth w) b (scope w) (indent w) (scope_delimiter w)).
(** 98-106 *)
Definition count_num_lines (w : writer) : nat :=
  if str_eqb (code w) [] then 0%nat else (count_occ ascii_dec (code w) newline + 1)%nat.
(** 108-114 *)
Definition push_scope (w : writer) (scope_name : str) : writer := Writer (indent_depth w) (code w) (scope w ++ [scope_name]) (indent w) (scope_delimiter w).
Definition pop_scope (w : writer) : result (str * writer) :=
  match rev (scope w) with
  | [] => Err IndexError
  | s :: _ => Ok (s, Writer (indent_depth w) (code w) (removelast (scope w)) (indent w) (scope_delimiter w))
  end.
