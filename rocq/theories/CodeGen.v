(** Model of the generation of Python source for evaluating polynomials:
    generic_tools/str_utils.py, polynomial/code_generation/
    generate_monomial_polynomial_functions.py and
    generate_barycentric_polynomial_functions_simplex.py, and of running the
    generated source.

    Strings are modelled as lists of Python tokens ([code]); white space is
    dropped, so the breaking of long lines at " +" and ", " (lines 302-320 and
    225-243), which only inserts white space inside parentheses, is not
    visible here (it is the subject of StrUtils.v).  A token is a number
    literal, [x], [x[i]], [a[i]], an operator or a parenthesis; ["**"] and the
    integer after it are one token.  Function names, hashes and docstrings are
    not modelled. *)
From Verif Require Import Base MultiIndex MultiIndexFacts Fld.

Section CodeGen.
  Context {F : fld}.
  Local Open Scope fld_scope.

  Inductive tok : Type :=
  | TNum (v : F) | TX | TXi (i : nat) | TA (i : nat)
  | TPlus | TMinus | TTimes | TDivide | TPow (n : nat) | TL | TR.
  Definition code := list tok.

  (** [s == "0"] and [s == "1"] *)
  Definition is_num (v : F) (s : code) : bool :=
    match s with [TNum w] => if kdec w v then true else false | _ => false end.
  Definition is0 := is_num 0.
  Definition is1 := is_num 1.
  (** [s.startswith("-")] *)
  Definition starts_minus (s : code) : bool := match s with TMinus :: _ => true | _ => false end.
  (** ["+" in s or "-" in s] *)
  Definition has_sign (s : code) : bool :=
    existsb (fun t => match t with TPlus | TMinus => true | TNum v => ksci v | _ => false end) s.

  (** str_utils.py 8-38 [str_number] with prettify_fractions=False *)
  Definition str_number (c : F) : code := if kneg c then [TMinus; TNum (- c)] else [TNum c].

  (** 136-165 [str_sum] *)
  Definition str_sum (a b : code) : code :=
    if is0 a then b
    else if is0 b then a
    else if starts_minus b then a ++ TMinus :: tl b
    else a ++ TPlus :: b.
  (** 168-190 [str_multi_sum] *)
  Definition str_multi_sum (a : list code) : code := fold_left str_sum a [TNum 0].

  (** 193-232 [str_product] with multiplication_character="*"; the recursion
      strips leading minus signs, [fuel] bounds it. *)
  Fixpoint str_product_fuel (fuel : nat) (a b : code) : code :=
    match fuel with
    | O => []
    | S fuel' =>
      if is0 a || is0 b then [TNum 0]
      else if is1 a then b
      else if is1 b then a
      else if starts_minus a then
        if starts_minus b then str_product_fuel fuel' (tl a) (tl b)
        else TMinus :: str_product_fuel fuel' (tl a) b
      else
        if starts_minus b then TMinus :: str_product_fuel fuel' a (tl b)
        else a ++ TTimes :: b
    end.
  Definition str_product (a b : code) : code := str_product_fuel (S (length a + length b)) a b.
  (** 235-258 [str_multi_product] *)
  Definition str_multi_product (a : list code) : code := fold_left str_product a [TNum 1].

  (** 261-300 [str_exponent] with str_type="python"; the exponent is the
      decimal representation of a natural number. *)
  Definition str_exponent (base : code) (e : nat) : code :=
    if is0 base then (match e with O => [TNum 1] | _ => [TNum 0] end)
    else match e with O => [TNum 1] | 1%nat => base | _ => base ++ [TPow e] end.

  (** 303-330 [str_dot_product] of two lists *)
  Definition str_dot_product (a b : list code) : result code :=
    if length a =? length b then
      Ok (fold_left (fun res p => str_sum res (str_product (fst p) (snd p))) (combine a b) [TNum 0])
    else Err AssertionError.

  (** generate_monomial_polynomial_functions.py 70-132
      [_monomials_basis_fns_code_cache]: for each entry the components of the
      multi-index and the factors [(i, e)] of its text, ["x[i]"] or
      ["x[i]**e"] joined by [" * "] (["x"] when m = 1, ["1"] when there is
      none). *)
  Definition monomial_code_cache : list (list nat * list (nat * nat)) :=
    [ ([0], []); ([1], [(0, 1)]); ([2], [(0, 2)]); ([3], [(0, 3)]); ([4], [(0, 4)]);
      ([0; 0], []); ([1; 0], [(0, 1)]); ([2; 0], [(0, 2)]); ([3; 0], [(0, 3)]); ([4; 0], [(0, 4)]);
      ([0; 1], [(1, 1)]); ([1; 1], [(0, 1); (1, 1)]); ([2; 1], [(0, 2); (1, 1)]); ([3; 1], [(0, 3); (1, 1)]);
      ([0; 2], [(1, 2)]); ([1; 2], [(0, 1); (1, 2)]); ([2; 2], [(0, 2); (1, 2)]);
      ([0; 3], [(1, 3)]); ([1; 3], [(0, 1); (1, 3)]); ([0; 4], [(1, 4)]);
      ([0; 0; 0], []); ([1; 0; 0], [(0, 1)]); ([2; 0; 0], [(0, 2)]); ([3; 0; 0], [(0, 3)]); ([4; 0; 0], [(0, 4)]);
      ([0; 1; 0], [(1, 1)]); ([1; 1; 0], [(0, 1); (1, 1)]); ([2; 1; 0], [(0, 2); (1, 1)]); ([3; 1; 0], [(0, 3); (1, 1)]);
      ([0; 2; 0], [(1, 2)]); ([1; 2; 0], [(0, 1); (1, 2)]); ([2; 2; 0], [(0, 2); (1, 2)]);
      ([0; 3; 0], [(1, 3)]); ([1; 3; 0], [(0, 1); (1, 3)]); ([0; 4; 0], [(1, 4)]);
      ([0; 0; 1], [(2, 1)]); ([1; 0; 1], [(0, 1); (2, 1)]); ([2; 0; 1], [(0, 2); (2, 1)]); ([3; 0; 1], [(0, 3); (2, 1)]);
      ([0; 1; 1], [(1, 1); (2, 1)]); ([1; 1; 1], [(0, 1); (1, 1); (2, 1)]); ([2; 1; 1], [(0, 2); (1, 1); (2, 1)]);
      ([0; 2; 1], [(1, 2); (2, 1)]); ([1; 2; 1], [(0, 1); (1, 2); (2, 1)]); ([0; 3; 1], [(1, 3); (2, 1)]);
      ([0; 0; 2], [(2, 2)]); ([1; 0; 2], [(0, 1); (2, 2)]); ([2; 0; 2], [(0, 2); (2, 2)]);
      ([0; 1; 2], [(1, 1); (2, 2)]); ([1; 1; 2], [(0, 1); (1, 1); (2, 2)]); ([0; 2; 2], [(1, 2); (2, 2)]);
      ([0; 0; 3], [(2, 3)]); ([1; 0; 3], [(0, 1); (2, 3)]); ([0; 1; 3], [(1, 1); (2, 3)]);
      ([0; 0; 4], [(2, 4)]) ]%nat.
  (** ["x"] when m = 1, ["x[i]"] otherwise *)
  Definition variable (m i : nat) : code := if m =? 1 then [TX] else [TXi i].
  Fixpoint cache_text (m : nat) (l : list (nat * nat)) : code :=
    let factor ie := variable m (fst ie) ++ match snd ie with 1%nat => [] | e => [TPow e] end in
    match l with
    | [] => [TNum 1]
    | [ie] => factor ie
    | ie :: l' => factor ie ++ TTimes :: cache_text m l'
    end.
  Fixpoint cache_lookup (nu : list nat) (l : list (list nat * list (nat * nat))) : option (list (nat * nat)) :=
    match l with [] => None | (k, v) :: l' => if leqb nu k then Some v else cache_lookup nu l' end.

  (** 135-172 [generate_monomial_basis_fn] *)
  Definition generate_monomial_basis_fn (nu : list nat) : code :=
    let m := length nu in
    match cache_lookup nu monomial_code_cache with
    | Some l => cache_text m l
    | None =>
      if m =? 1 then str_exponent [TX] (hd 0%nat nu)
      else str_multi_product (map (fun p => str_exponent [TXi (fst p)] (snd p)) (combine (seq 0 m) nu))
    end.
  (** 175-187 [generate_monomial_basis] *)
  Definition generate_monomial_basis (m r : nat) : result (list code) :=
    let* mis := generate_all m r in Ok (map generate_monomial_basis_fn mis).

  (** 271-284 [_horner_evaluation_recursive] *)
  Fixpoint horner_rec (a : list code) : code :=
    match a with
    | [] => []
    | [c] => str_product [TX] c
    | c :: a' =>
      let nested := str_sum c (horner_rec a') in
      if is0 nested then [TNum 0]
      else if is1 nested then [TX]
      else if has_sign nested then str_product [TX] (TL :: nested ++ [TR])
      else str_product [TX] nested
    end.
  (** 287-291 [_horner_evaluation] *)
  Definition horner (a : list code) : code :=
    match a with
    | [c] => c
    | c :: a' => str_sum c (horner_rec a')
    | [] => []
    end.

  (** 190-223 [generate_function_eval_specific_scalar_valued], on the strings
      of the coefficients *)
  Definition monomial_code (m r : nat) (coeff_strs : list code) : result code :=
    if m =? 1 then Ok (horner coeff_strs)
    else let* basis_strs := generate_monomial_basis m r in str_dot_product coeff_strs basis_strs.

  (** generate_barycentric_polynomial_functions_simplex.py 69-120
      [generate_barycentric_basis_fn] *)
  Definition generate_barycentric_basis_fn (r : nat) (nu : list nat) : code :=
    let m := length nu in
    if m =? 1 then
      str_product (str_exponent [TX] (hd 0%nat nu)) (str_exponent [TL; TNum 1; TMinus; TX; TR] (r - hd 0%nat nu))
    else
      let p1 := str_multi_product (map (fun p => str_exponent [TXi (fst p)] (snd p)) (combine (seq 0 m) nu)) in
      let summands := [TNum 1] :: map (fun i => [TMinus; TXi i]) (seq 0 m) in
      let base := TL :: str_multi_sum summands ++ [TR] in
      let p2 := str_exponent base (r - norm nu) in
      str_product p1 p2.
  (** 123-136 [generate_barycentric_basis] *)
  Definition generate_barycentric_basis (m r : nat) : result (list code) :=
    let* mis := generate_all m r in Ok (map (generate_barycentric_basis_fn r) mis).
  (** 139-170 [generate_function_eval_specific_scalar_valued] *)
  Definition barycentric_code (m r : nat) (coeff_strs : list code) : result code :=
    let* basis_strs := generate_barycentric_basis m r in str_dot_product coeff_strs basis_strs.

  (** The string sequence "a[0]", "a[1]", ... (str_utils.py 391-438) used by
      [generate_function_general]. *)
  Definition coeff_names (n : nat) : list code := map (fun i => [TA i]) (seq 0 n).

  (** Running the generated source: a recursive descent evaluator for the
      part of Python's expression grammar that occurs (sum, term, factor,
      power, atom), [x] and [a] being the arguments of the function.  When
      m = 1 the point is a number; it is modelled as a list of one number. *)
  Section Run.
    Context (a x : list F).
    Definition look (l : list F) (i : nat) (rest : code) : result (F * code) :=
      match nth_error l i with Some v => Ok (v, rest) | None => Err IndexError end.
    Fixpoint pexpr (fuel : nat) (ts : code) {struct fuel} : result (F * code) :=
      match fuel with
      | O => Err OutOfFuel
      | S f => let* p := pterm f ts in sloop f (fst p) (snd p)
      end
    with sloop (fuel : nat) (acc : F) (ts : code) {struct fuel} : result (F * code) :=
      match fuel with
      | O => Err OutOfFuel
      | S f =>
        match ts with
        | TPlus :: ts' => let* p := pterm f ts' in sloop f (acc + fst p) (snd p)
        | TMinus :: ts' => let* p := pterm f ts' in sloop f (acc - fst p) (snd p)
        | _ => Ok (acc, ts)
        end
      end
    with pterm (fuel : nat) (ts : code) {struct fuel} : result (F * code) :=
      match fuel with
      | O => Err OutOfFuel
      | S f => let* p := pfactor f ts in tloop f (fst p) (snd p)
      end
    with tloop (fuel : nat) (acc : F) (ts : code) {struct fuel} : result (F * code) :=
      match fuel with
      | O => Err OutOfFuel
      | S f =>
        match ts with
        | TTimes :: ts' => let* p := pfactor f ts' in tloop f (acc * fst p) (snd p)
        | TDivide :: ts' =>
            let* p := pfactor f ts' in
            if kdec (fst p) 0 then Err ZeroDivisionError else tloop f (acc / fst p) (snd p)
        | _ => Ok (acc, ts)
        end
      end
    with pfactor (fuel : nat) (ts : code) {struct fuel} : result (F * code) :=
      match fuel with
      | O => Err OutOfFuel
      | S f =>
        match ts with
        | TMinus :: ts' => let* p := pfactor f ts' in Ok (- fst p, snd p)
        | _ =>
          let* p := patom f ts in
          match snd p with TPow n :: ts' => Ok (kpow (fst p) n, ts') | _ => Ok p end
        end
      end
    with patom (fuel : nat) (ts : code) {struct fuel} : result (F * code) :=
      match fuel with
      | O => Err OutOfFuel
      | S f =>
        match ts with
        | TNum v :: ts' => Ok (v, ts')
        | TX :: ts' => look x 0 ts'
        | TXi i :: ts' => look x i ts'
        | TA i :: ts' => look a i ts'
        | TL :: ts' =>
            let* p := pexpr f ts' in
            match snd p with TR :: ts'' => Ok (fst p, ts'') | _ => Err SyntaxError end
        | _ => Err SyntaxError
        end
      end.
    Definition run_code (ts : code) : result F :=
      let* p := pexpr (4 * length ts + 8) ts in
      match snd p with [] => Ok (fst p) | _ => Err SyntaxError end.
  End Run.
End CodeGen.
Arguments tok F : clear implicits.
Arguments code F : clear implicits.
