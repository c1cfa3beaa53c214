(** How a LaTeX formula is read: the meaning of the strings of Latex.v.  Not a model of code: it is used to state what the strings are for. *)
From Coq Require Import Ascii String Reals.
From Verif Require Import Base StrUtils Latex Fld FldInst CodeGen.
Local Close Scope R_scope.
Local Close Scope string_scope.
Local Open Scope nat_scope.
Local Open Scope list_scope.

(** ** What LaTeX shows
    In math mode spaces are not shown, so digits that follow each other are read as one number; [^] and [_] take one character, or a group in braces.
    A superscript is read as a power, juxtaposition as multiplication. *)
Inductive ltok := LDigit (d : nat) | LVar (i : nat) | LPow (n : nat) | LFrac (n m : nat) | LCdot | LSlash | LPlus | LMinus | LL | LR.
Inductive mode := Normal | Skip (k : nat) (m : mode) | Numerator (n : nat) | Denominator (n m : nat) | Exponent (n : nat) | Subscript (n : nat).
Definition digit_of (c : ascii) : nat := nat_of_ascii c - 48.
Definition cons_tok (t : ltok) (r : option (list ltok)) : option (list ltok) := match r with Some l => Some (t :: l) | None => None end.
Fixpoint scan (m : mode) (s : str) {struct s} : option (list ltok) :=
  match s with
  | [] => match m with Normal | Skip 0 Normal => Some [] | _ => None end
  | c :: t =>
    let normal := fun s : str =>
      if ascii_dec c " " then scan Normal t
      else if isnumeric c then cons_tok (LDigit (digit_of c)) (scan Normal t)
      else if startswith (lit "x_{") (c :: t) then scan (Skip 2 (Subscript 0)) t
      else if startswith (lit "x_") (c :: t) then
        match t with
        | _ :: d :: _ => if isnumeric d then cons_tok (LVar (digit_of d)) (scan (Skip 2 Normal) t) else None
        | _ => None
        end
      else if ascii_dec c "x" then cons_tok (LVar 0) (scan Normal t)
      else if startswith (lit "^{") (c :: t) then scan (Skip 1 (Exponent 0)) t
      else if ascii_dec c "^" then
        match t with
        | d :: _ => if isnumeric d then cons_tok (LPow (digit_of d)) (scan (Skip 1 Normal) t) else None
        | _ => None
        end
      else if startswith (lit "\frac{") (c :: t) then scan (Skip 5 (Numerator 0)) t
      else if startswith (lit "\cdot ") (c :: t) then cons_tok LCdot (scan (Skip 5 Normal) t)
      else if ascii_dec c "/" then cons_tok LSlash (scan Normal t)
      else if ascii_dec c "+" then cons_tok LPlus (scan Normal t)
      else if ascii_dec c "-" then cons_tok LMinus (scan Normal t)
      else if ascii_dec c "(" then cons_tok LL (scan Normal t)
      else if ascii_dec c ")" then cons_tok LR (scan Normal t)
      else None in
    match m with
    | Normal | Skip 0 Normal => normal s
    | Skip (S k) m => scan (match k with O => m | _ => Skip k m end) t
    | Skip 0 _ => None
    | Numerator n =>
      if isnumeric c then scan (Numerator (10 * n + digit_of c)) t
      else if startswith (lit "}{") (c :: t) then scan (Skip 1 (Denominator n 0)) t else None
    | Denominator n k =>
      if isnumeric c then scan (Denominator n (10 * k + digit_of c)) t
      else if ascii_dec c "}" then cons_tok (LFrac n k) (scan Normal t) else None
    | Exponent n =>
      if isnumeric c then scan (Exponent (10 * n + digit_of c)) t
      else if ascii_dec c "}" then cons_tok (LPow n) (scan Normal t) else None
    | Subscript n =>
      if isnumeric c then scan (Subscript (10 * n + digit_of c)) t
      else if ascii_dec c "}" then cons_tok (LVar n) (scan Normal t) else None
    end
  end.

(** ** From the symbols to an expression: [St0] before a factor, [StF] after a factor, [StN n] in a number *)
Inductive reading := St0 | StF | StN (n : nat).
Definition flush (st : reading) : code RF := match st with StN n => [TNum (INR n : RF)] | _ => [] end.
Definition times (st : reading) : code RF := match st with St0 => [] | _ => [TTimes] end.
Definition variable_code (i : nat) : code RF := match i with O => [TX] | S j => [TXi j] end.
Definition read_step (st : reading) (t : ltok) : code RF * reading :=
  match t with
  | LDigit d => match st with StN n => ([], StN (10 * n + d)) | _ => (times st, StN d) end
  | LVar i => (flush st ++ times st ++ variable_code i, StF)
  | LFrac n m => (flush st ++ times st ++ [TL; TNum (INR n : RF); TDivide; TNum (INR m : RF); TR], StF)
  | LL => (flush st ++ times st ++ [TL], St0)
  | LPow n => (flush st ++ [TPow n], StF)
  | LR => (flush st ++ [TR], StF)
  | LCdot => (flush st ++ [TTimes], St0)
  | LSlash => (flush st ++ [TDivide], St0)
  | LPlus => (flush st ++ [TPlus], St0)
  | LMinus => (flush st ++ [TMinus], St0)
  end.
Fixpoint read (st : reading) (l : list ltok) : code RF * reading :=
  match l with
  | [] => ([], st)
  | t :: l => let '(c, st) := read_step st t in let '(c', st) := read st l in (c ++ c', st)
  end.
(** the value of the formula at the point [x]; [x] is the first coordinate, [x_i] the coordinate number i, counted from one *)
Definition latex_value (x : list R) (s : str) : result R :=
  match scan Normal s with
  | None => Err SyntaxError
  | Some l => let '(c, st) := read St0 l in run_code (F := RF) [] x (c ++ flush st)
  end.
