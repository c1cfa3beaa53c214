(** Model of parts of polynomials_on_simplices/generic_tools/str_utils.py on
    strings: [split_long_str] and [str_sequence], with the methods of Python
    strings that they call.  A string is the list of its characters. *)
From Coq Require Import Ascii String.
From Verif Require Import Base.
Local Close Scope string_scope.
Local Open Scope list_scope.

Definition str := list ascii.
Definition lit (s : string) : str := list_ascii_of_string s.
Definition str_eqb (s t : str) : bool := if list_eq_dec ascii_dec s t then true else false.

(** [s.startswith(sep)] *)
Fixpoint startswith (sep s : str) : bool :=
  match sep, s with
  | [], _ => true
  | a :: sep, b :: s => if ascii_dec a b then startswith sep s else false
  | _ :: _, [] => false
  end.
(** [s.split(sep)] for a separator that is not empty: occurrences are searched from
    the left and do not overlap; [skip] characters belong to the last separator
    found, [cur] is the piece read so far *)
Fixpoint split_from (sep : str) (skip : nat) (cur s : str) : list str :=
  match s with
  | [] => [cur]
  | c :: t =>
    match skip with
    | S k => split_from sep k cur t
    | O => if startswith sep s then cur :: split_from sep (length sep - 1) [] t else split_from sep 0 (cur ++ [c]) t
    end
  end.
Definition split (s sep : str) : result (list str) := match sep with [] => Err ValueError | _ => Ok (split_from sep 0 [] s) end.
(** [sep.join(l)] *)
Fixpoint join (sep : str) (l : list str) : str :=
  match l with [] => [] | [p] => p | p :: t => p ++ sep ++ join sep t end.

(** [for i in range(0, len(l) - 1): l[i] += b] *)
Fixpoint append_but_last (b : str) (l : list str) : list str :=
  match l with [] => [] | [p] => [p] | p :: t => (p ++ b) :: append_but_last b t end.
(** [for i in range(1, len(l)): l[i] = a + l[i]] *)
Definition prepend_but_first (a : str) (l : list str) : list str :=
  match l with [] => [] | p :: t => p :: map (fun q => a ++ q) t end.
(** 375-381 *)
Fixpoint long_parts (sep : str) (threshold : Z) (before after : str) (part : str) (potential : list str) : list str :=
  match potential with
  | [] => [part]
  | q :: t =>
    if (Z.of_nat (length (part ++ sep ++ q ++ before)) <? threshold)%Z then long_parts sep threshold before after (part ++ sep ++ q) t
    else (part ++ before) :: long_parts sep threshold before after (after ++ q) t
  end.
(** 333-382 *)
Definition split_long_str (string sep : str) (long_str_threshold : Z) (before after : str) : result (list str) :=
  let* potential_parts := split string sep in
  if (long_str_threshold =? -1)%Z then
    let l := match before with [] => potential_parts | _ => append_but_last before potential_parts end in
    Ok (match after with [] => l | _ => prepend_but_first after l end)
  else
    match potential_parts with
    | [] => Err IndexError
    | p :: t => Ok (long_parts sep long_str_threshold before after p t)
    end.

(** [str(i)] for a natural number *)
Definition digit (d : nat) : ascii := ascii_of_nat (48 + d).
Fixpoint str_nat_fuel (fuel n : nat) : str :=
  match fuel with
  | O => []
  | S fuel => if (n <? 10)%nat then [digit n] else str_nat_fuel fuel (n / 10) ++ [digit (n mod 10)]
  end.
Definition str_nat (n : nat) : str := str_nat_fuel (S n) n.
(** 385-388 *)
Definition latex_braces_wrapped_number (a : str) : str := if (length a =? 1)%nat then a else lit "{" ++ a ++ lit "}".
(** 391-438; [None] is Python's None *)
Definition str_sequence (symbol : str) (n : Z) (indexing index_style : str) : result (option (list str)) :=
  let* _ := assert_ (0 <=? n)%Z in
  if (n =? 0)%Z then Ok (Some [])
  else
    let r := if str_eqb indexing (lit "fortran") then seq 1 (Z.to_nat n) else seq 0 (Z.to_nat n) in
    Ok (if str_eqb index_style (lit "inline") then Some (map (fun i => symbol ++ str_nat i) r)
        else if str_eqb index_style (lit "subscript") then Some (map (fun i => symbol ++ lit "_" ++ str_nat i) r)
        else if str_eqb index_style (lit "superscript") then Some (map (fun i => symbol ++ lit "^" ++ str_nat i) r)
        else if str_eqb index_style (lit "latex_subscript") then Some (map (fun i => symbol ++ lit "_" ++ latex_braces_wrapped_number (str_nat i)) r)
        else if str_eqb index_style (lit "latex_superscript") then Some (map (fun i => symbol ++ lit "^" ++ latex_braces_wrapped_number (str_nat i)) r)
        else if str_eqb index_style (lit "list") then Some (map (fun i => symbol ++ lit "[" ++ str_nat i ++ lit "]") r)
        else None).

(** polynomial/code_generation/generate_monomial_polynomial_functions.py 302-312,
    the same in generate_barycentric_polynomial_functions_simplex.py 225-235 and
    generate_lagrange_polynomial_functions_simplex.py 242-252, for the text [code] of the expression *)
Definition newline : str := [ascii_of_nat 10].
Definition function_body_scalar_valued (code : str) : result str :=
  if (100 <? length code)%nat then
    let* parts := split_long_str code (lit " +") 100 [] [] in
    let multi_line := (1 <? length parts)%nat in
    let code := join (newline ++ lit "        +") parts in
    Ok (if multi_line then lit "return (" ++ code ++ lit ")" else lit "return " ++ code)
  else Ok (lit "return " ++ code).
(** 315-320, 238-243, 255-260 *)
Definition function_body_vector_valued (code : str) : result str :=
  if (100 <? length code)%nat then
    let* parts := split_long_str code (lit ", ") 100 [] [] in
    Ok (lit "return " ++ join (lit "," ++ newline ++ lit "                 ") parts)
  else Ok (lit "return " ++ code).
