(** Properties of the string representations of objects. *)
From Coq Require Import Ascii String QArith Qcanon.
From Verif Require Import Base MultiIndex MultiIndexFacts ModArith StrUtils NumStr Fld FldInst LatexCompact Permutations Poly PolyEval Prop_StrUtils Repr.
Local Close Scope string_scope.
Local Close Scope Q_scope.
Local Close Scope Qc_scope.
Local Open Scope nat_scope.
Local Open Scope list_scope.

(** ** Reading Python expressions
    A reader of the Python expressions [name(args)] where each argument is an
    integer, a tuple or a list of integers.  As in Python [(a)] is the integer
    [a] and only [(a,)] is a tuple. *)
Inductive tok : Type := TName (s : str) | TInt (z : Z) | TMinus | TComma | TLPar | TRPar | TLBra | TRBra | TBad.
Inductive lexst : Type := Idle | InName (s : str) | InNum (n : nat).
Definition flush (st : lexst) : list tok := match st with Idle => [] | InName s => [TName s] | InNum n => [TInt (Z.of_nat n)] end.
Definition digitb (c : ascii) : bool := (48 <=? nat_of_ascii c) && (nat_of_ascii c <? 58).
(** letters, the underscore and the dot *)
Definition wordb (c : ascii) : bool :=
  let n := nat_of_ascii c in ((65 <=? n) && (n <? 91)) || ((97 <=? n) && (n <? 123)) || (n =? 95) || (n =? 46).
Definition punct (c : ascii) : list tok :=
  match nat_of_ascii c with
  | 32 => [] | 40 => [TLPar] | 41 => [TRPar] | 44 => [TComma] | 45 => [TMinus] | 91 => [TLBra] | 93 => [TRBra] | _ => [TBad]
  end.
Fixpoint lex (st : lexst) (s : str) : list tok :=
  match s with
  | [] => flush st
  | c :: s =>
      if digitb c then
        match st with
        | Idle => lex (InNum (value_digit c)) s
        | InNum n => lex (InNum (10 * n + value_digit c)) s
        | InName w => lex (InName (w ++ [c])) s
        end
      else if wordb c then
        match st with InName w => lex (InName (w ++ [c])) s | _ => flush st ++ lex (InName [c]) s end
      else flush st ++ punct c ++ lex Idle s
  end.
(** a minus sign before a number *)
Fixpoint signs (l : list tok) : list tok :=
  match l with
  | TMinus :: (TInt z :: t) as l' => TInt (- z) :: signs t
  | c :: t => c :: signs t
  | [] => []
  end.
Definition closes (bracket : bool) (c : tok) : bool := match c with TRPar => negb bracket | TRBra => bracket | _ => false end.
(** integers up to the closing bracket, and whether there is a comma after the last one *)
Fixpoint items (bracket : bool) (l : list tok) : option (list Z * bool * list tok) :=
  match l with
  | TInt z :: (TComma :: t) =>
      match items bracket t with
      | Some (zs, comma, rest) => Some (z :: zs, match zs with [] => true | _ => comma end, rest)
      | None => None
      end
  | TInt z :: (c :: t) => if closes bracket c then Some ([z], false, t) else None
  | c :: t => if closes bracket c then Some ([], false, t) else None
  | [] => None
  end.
Definition value (l : list tok) : option (pyval * list tok) :=
  match l with
  | TInt z :: t => Some (PInt z, t)
  | TLBra :: t => match items true t with Some (zs, _, rest) => Some (PList zs, rest) | None => None end
  | TLPar :: t =>
      match items false t with
      | Some ([z], false, rest) => Some (PInt z, rest)
      | Some (zs, _, rest) => Some (PTuple zs, rest)
      | None => None
      end
  | _ => None
  end.
Fixpoint arguments (fuel : nat) (l : list tok) : option (list pyval) :=
  match fuel with
  | 0 => None
  | S fuel =>
      match value l with
      | Some (v, [TRPar]) => Some [v]
      | Some (v, TComma :: t) => match arguments fuel t with Some vs => Some (v :: vs) | None => None end
      | _ => None
      end
  end.
(** the value of a string that is a literal, and the name and arguments of a string that is a call *)
Definition read_literal (s : str) : option pyval := match value (signs (lex Idle s)) with Some (v, []) => Some v | _ => None end.
Definition read_call (s : str) : option (str * list pyval) :=
  match signs (lex Idle s) with
  | TName f :: TLPar :: t => match arguments (length t) t with Some vs => Some (f, vs) | None => None end
  | _ => None
  end.
(** [eval] of the string, in a program where the package is imported *)
Inductive obj : Type := OMulti (a : list Z) | OPerm (p : list Z) | OModN (a : imod).
Definition eqs (a b : str) : bool := if list_eq_dec ascii_dec a b then true else false.
Definition py_eval (s : str) : result obj :=
  match read_call s with
  | None => Err SyntaxError
  | Some (f, args) =>
      if eqs f (lit "polynomials_on_simplices.algebra.multiindex.MultiIndex") then let* a := multiindex_new args in Ok (OMulti a)
      else if eqs f (lit "polynomials_on_simplices.algebra.permutations.Permutation") then let* p := permutation_new args in Ok (OPerm p)
      else if eqs f (lit "polynomials_on_simplices.algebra.modular_arithmetic.IntegerModuloN") then let* a := modulo_new args in Ok (OModN a)
      else Err AttributeError
  end.

(** ** Facts about the reader *)
Lemma digitb_ok c : is_digit c -> digitb c = true.
Proof. unfold is_digit, digitb. intros [H1 H2]. apply andb_true_intro. split; [apply Nat.leb_le|apply Nat.ltb_lt]; lia. Qed.
Lemma lex_digits ds : forall k s, (forall c, In c ds -> is_digit c) -> lex (InNum k) (ds ++ s) = lex (InNum (fold_left (fun a c => 10 * a + value_digit c) ds k)) s.
Proof.
  induction ds as [|c ds IH]; intros k s H; [reflexivity|]. cbn [app lex fold_left]. rewrite digitb_ok by (apply H; left; reflexivity). apply IH. intros d Hd. apply H. right. exact Hd.
Qed.
Lemma lex_nat n s : lex Idle (str_nat n ++ s) = lex (InNum n) s.
Proof.
  destruct (C111_numerals n) as (V & D & N & _ & _). destruct (str_nat n) as [|c ds] eqn:E; [contradiction|]. cbn [app lex]. rewrite digitb_ok by (apply D; left; reflexivity).
  rewrite lex_digits by (intros d Hd; apply D; right; exact Hd). f_equal. f_equal. unfold denotes in V. cbn [fold_left] in V. exact V.
Qed.
Definition int_toks (z : Z) : list tok := if (z <? 0)%Z then [TMinus; TInt (- z)] else [TInt z].
Lemma lex_int z c s : digitb c = false -> wordb c = false -> lex Idle (str_int z ++ c :: s) = int_toks z ++ punct c ++ lex Idle s.
Proof.
  intros D W. unfold str_int, int_toks. destruct (Z.ltb_spec z 0) as [H|H].
  - change (lit "-" ++ str_nat (Z.to_nat (- z))) with ("-"%char :: str_nat (Z.to_nat (- z))). change (lex Idle (("-"%char :: str_nat (Z.to_nat (- z))) ++ c :: s)) with (TMinus :: lex Idle (str_nat (Z.to_nat (- z)) ++ c :: s)).
    rewrite lex_nat. cbn [lex]. rewrite D, W. cbn [flush app]. rewrite Z2Nat.id by lia. reflexivity.
  - rewrite lex_nat. cbn [lex]. rewrite D, W. cbn [flush app]. rewrite Z2Nat.id by lia. reflexivity.
Qed.
Fixpoint comma_toks (l : list nat) : list tok :=
  match l with [] => [] | [a] => [TInt (Z.of_nat a)] | a :: t => TInt (Z.of_nat a) :: TComma :: comma_toks t end.
Lemma lex_join l c s : digitb c = false -> wordb c = false -> lex Idle (join (lit ", ") (map str_nat l) ++ c :: s) = comma_toks l ++ punct c ++ lex Idle s.
Proof.
  intros D W. assert (P : forall s', lex Idle (c :: s') = punct c ++ lex Idle s') by (intros s'; cbn [lex]; rewrite D, W; reflexivity).
  induction l as [|a l IH]; [apply P|]. destruct l as [|b l].
  - cbn [map join comma_toks]. rewrite lex_nat. cbn [lex]. rewrite D, W. reflexivity.
  - change (join (lit ", ") (map str_nat (a :: b :: l))) with (str_nat a ++ lit ", " ++ join (lit ", ") (map str_nat (b :: l))). rewrite <- !app_assoc, lex_nat.
    change (comma_toks (a :: b :: l)) with (TInt (Z.of_nat a) :: TComma :: comma_toks (b :: l)). cbn [app]. rewrite <- IH. reflexivity.
Qed.
Lemma signs_comma l t : (match t with TInt _ :: _ => False | _ => True end) -> signs (comma_toks l ++ t) = comma_toks l ++ signs t.
Proof.
  intros H. induction l as [|a l IH]; [reflexivity|]. destruct l as [|b l]; [reflexivity|]. change (comma_toks (a :: b :: l)) with (TInt (Z.of_nat a) :: TComma :: comma_toks (b :: l)).
  cbn [app]. change (signs (TInt (Z.of_nat a) :: TComma :: comma_toks (b :: l) ++ t)) with (TInt (Z.of_nat a) :: TComma :: signs (comma_toks (b :: l) ++ t)). rewrite IH. reflexivity.
Qed.
Definition close_tok (bracket : bool) : tok := if bracket then TRBra else TRPar.
Lemma items_comma br l t : items br (comma_toks l ++ close_tok br :: t) = Some (map Z.of_nat l, false, t).
Proof.
  assert (C : closes br (close_tok br) = true) by (destruct br; reflexivity).
  induction l as [|a l IH].
  - destruct br; reflexivity.
  - destruct l as [|b l]; [destruct br; reflexivity|]. change (comma_toks (a :: b :: l)) with (TInt (Z.of_nat a) :: TComma :: comma_toks (b :: l)). cbn [app]. change (items br (TInt (Z.of_nat a) :: TComma :: comma_toks (b :: l) ++ close_tok br :: t)) with (match items br (comma_toks (b :: l) ++ close_tok br :: t) with Some (zs, comma, rest) => Some (Z.of_nat a :: zs, match zs with [] => true | _ => comma end, rest) | None => None end).
    rewrite IH. reflexivity.
Qed.
Lemma value_list l t : value (TLBra :: comma_toks l ++ TRBra :: t) = Some (PList (map Z.of_nat l), t).
Proof. cbn [value]. rewrite (items_comma true). reflexivity. Qed.
(** the tokens of a tuple *)
Definition tuple_toks (l : list nat) : list tok :=
  match l with [a] => [TLPar; TInt (Z.of_nat a); TComma; TRPar] | _ => TLPar :: comma_toks l ++ [TRPar] end.
Lemma lex_tuple l s : lex Idle (str_tuple l ++ s) = tuple_toks l ++ lex Idle s.
Proof.
  assert (G : lex Idle ((lit "(" ++ join (lit ", ") (map str_nat l) ++ lit ")") ++ s) = (TLPar :: comma_toks l ++ [TRPar]) ++ lex Idle s).
  { rewrite <- !app_assoc. change (lex Idle (lit "(" ++ join (lit ", ") (map str_nat l) ++ lit ")" ++ s)) with (TLPar :: lex Idle (join (lit ", ") (map str_nat l) ++ ")"%char :: s)).
    rewrite lex_join by reflexivity. cbn [app]. rewrite <- app_assoc. reflexivity. }
  destruct l as [|a [|b l]]; try exact G. unfold str_tuple, tuple_toks. rewrite <- !app_assoc. change (lex Idle (lit "(" ++ str_nat a ++ lit ",)" ++ s)) with (TLPar :: lex Idle (str_nat a ++ lit ",)" ++ s)).
  rewrite lex_nat. reflexivity.
Qed.
Lemma value_tuple l t : value (tuple_toks l ++ t) = Some (PTuple (map Z.of_nat l), t).
Proof.
  destruct l as [|a [|b l]]; [reflexivity|reflexivity|]. unfold tuple_toks. cbn [app value]. rewrite <- app_assoc. cbn [app]. change TRPar with (close_tok false). rewrite items_comma. reflexivity.
Qed.
Lemma signs_tuple l t : signs (tuple_toks l ++ t) = tuple_toks l ++ signs t.
Proof.
  destruct l as [|a [|b l]]; [reflexivity|reflexivity|]. unfold tuple_toks. cbn [app]. rewrite <- !app_assoc. change (signs (TLPar :: comma_toks (a :: b :: l) ++ [TRPar] ++ t)) with (TLPar :: signs (comma_toks (a :: b :: l) ++ [TRPar] ++ t)).
  rewrite signs_comma by exact I. reflexivity.
Qed.
Lemma read_tuple l : read_literal (str_tuple l) = Some (PTuple (map Z.of_nat l)).
Proof.
  unfold read_literal. rewrite <- (app_nil_r (str_tuple l)), lex_tuple, signs_tuple, value_tuple. reflexivity.
Qed.
Lemma args_one n v t : value t = Some (v, [TRPar]) -> arguments (S n) t = Some [v].
Proof. intros H. cbn [arguments]. rewrite H. reflexivity. Qed.
Lemma eqs_refl a : eqs a a = true.
Proof. unfold eqs. destruct list_eq_dec; congruence. Qed.

(** ** The theorems *)
(** [eval(repr(a))] is a multi-index with the components of [a] *)
Theorem C118_multiindex : forall a : list nat, py_eval (multiindex_repr a) = Ok (OMulti (map Z.of_nat a)).
Proof.
  intros a. unfold py_eval, read_call, multiindex_repr, str_list. rewrite <- !app_assoc.
  change (lex Idle (lit "polynomials_on_simplices.algebra.multiindex.MultiIndex(" ++ lit "[" ++ join (lit ", ") (map str_nat a) ++ lit "]" ++ lit ")"))
    with (TName (lit "polynomials_on_simplices.algebra.multiindex.MultiIndex") :: TLPar :: TLBra :: lex Idle (join (lit ", ") (map str_nat a) ++ "]"%char :: lit ")")).
  rewrite lex_join by reflexivity. change (punct "]" ++ lex Idle (lit ")")) with [TRBra; TRPar]. set (f := lit "polynomials_on_simplices.algebra.multiindex.MultiIndex").
  change (signs (TName f :: TLPar :: TLBra :: comma_toks a ++ [TRBra; TRPar])) with (TName f :: TLPar :: TLBra :: signs (comma_toks a ++ [TRBra; TRPar])). rewrite signs_comma by exact I.
  change (signs [TRBra; TRPar]) with [TRBra; TRPar]. cbn [length]. rewrite (args_one _ _ _ (value_list a [TRPar])). rewrite eqs_refl. cbn [multiindex_new bind].
  replace (existsb (fun z => (z <? 0)%Z) (map Z.of_nat a)) with false; [reflexivity|]. symmetry. apply not_true_is_false. intros H. apply existsb_exists in H as (z & Hz & L). apply in_map_iff in Hz as (n & <- & _). apply Z.ltb_lt in L. lia.
Qed.
Print Assumptions C118_multiindex.
Theorem C118_permutation : forall p : list nat, py_eval (permutation_repr p) = Ok (OPerm (map Z.of_nat p)).
Proof.
  intros p. unfold py_eval, read_call, permutation_repr.
  change (lex Idle (lit "polynomials_on_simplices.algebra.permutations.Permutation(" ++ str_tuple p ++ lit ")"))
    with (TName (lit "polynomials_on_simplices.algebra.permutations.Permutation") :: TLPar :: lex Idle (str_tuple p ++ lit ")")).
  rewrite lex_tuple. change (lex Idle (lit ")")) with [TRPar]. set (f := lit "polynomials_on_simplices.algebra.permutations.Permutation").
  change (signs (TName f :: TLPar :: tuple_toks p ++ [TRPar])) with (TName f :: TLPar :: signs (tuple_toks p ++ [TRPar])). rewrite signs_tuple. change (signs [TRPar]) with [TRPar].
  rewrite app_length. cbn [length]. rewrite Nat.add_1_r. rewrite (args_one _ _ _ (value_tuple p [TRPar])).
  replace (eqs f (lit "polynomials_on_simplices.algebra.multiindex.MultiIndex")) with false by reflexivity. rewrite eqs_refl. reflexivity.
Qed.
Print Assumptions C118_permutation.
(** every integer modulo n that the constructor can give *)
Theorem C118_modulo : forall v n a, im_new v n = Ok a -> py_eval (modulo_repr a) = Ok (OModN a).
Proof.
  intros v n a H. unfold im_new in H. destruct (Z.eqb_spec n 0) as [N|N]; [discriminate|]. injection H as <-.
  unfold py_eval, read_call, modulo_repr. cbn [im_i im_n]. set (i := (v mod n)%Z).
  change (lex Idle (lit "polynomials_on_simplices.algebra.modular_arithmetic.IntegerModuloN(" ++ str_int i ++ lit ", " ++ str_int n ++ lit ")"))
    with (TName (lit "polynomials_on_simplices.algebra.modular_arithmetic.IntegerModuloN") :: TLPar :: lex Idle (str_int i ++ ","%char :: " "%char :: str_int n ++ ")"%char :: [])).
  rewrite lex_int by reflexivity. change (punct "," ++ lex Idle (" "%char :: str_int n ++ ")"%char :: [])) with (TComma :: lex Idle (str_int n ++ ")"%char :: [])). rewrite lex_int by reflexivity.
  change (punct ")" ++ lex Idle []) with [TRPar]. set (f := lit "polynomials_on_simplices.algebra.modular_arithmetic.IntegerModuloN").
  assert (S1 : signs (TName f :: TLPar :: int_toks i ++ TComma :: int_toks n ++ [TRPar]) = [TName f; TLPar; TInt i; TComma; TInt n; TRPar]).
  { unfold int_toks. destruct (i <? 0)%Z, (n <? 0)%Z; cbn [app signs]; rewrite ?Z.opp_involutive; reflexivity. }
  rewrite S1. cbn [length arguments value].
  replace (eqs f (lit "polynomials_on_simplices.algebra.multiindex.MultiIndex")) with false by reflexivity. replace (eqs f (lit "polynomials_on_simplices.algebra.permutations.Permutation")) with false by reflexivity.
  rewrite eqs_refl. cbn [modulo_new]. unfold im_new. rewrite (proj2 (Z.eqb_neq n 0) N). cbn [bind]. unfold i. rewrite Z.mod_mod by exact N. reflexivity.
Qed.
Print Assumptions C118_modulo.

(** [str] of a multi-index is the tuple of its components, [str] of a permutation the tuple of its values counted from one;
    different multi-indices have different strings, and so have different permutations. *)
Theorem C118_str : (forall a, read_literal (multiindex_str a) = Some (PTuple (map Z.of_nat a))) /\
  (forall p, read_literal (permutation_str p) = Some (PTuple (map (fun x => Z.of_nat x + 1)%Z p))) /\
  (forall a b, multiindex_str a = multiindex_str b -> a = b) /\
  (forall p q, permutation_str p = permutation_str q -> p = q).
Proof.
  assert (inj : forall l l', map Z.of_nat l = map Z.of_nat l' -> l = l').
  { intros l. induction l as [|x l IH]; intros [|y l'] H; try discriminate; [reflexivity|]. cbn [map] in H. injection H as H1 H2. f_equal; [lia|apply IH, H2]. }
  assert (pread : forall p, read_literal (permutation_str p) = Some (PTuple (map (fun x => Z.of_nat x + 1)%Z p))).
  { intros p. unfold permutation_str. rewrite read_tuple. f_equal. f_equal. unfold to_one_based. rewrite map_map. apply map_ext. intros x. lia. }
  split; [intros a; apply read_tuple|]. split; [exact pread|]. split.
  - intros a b H. apply (f_equal read_literal) in H. unfold multiindex_str in H. rewrite !read_tuple in H. injection H as H. apply inj, H.
  - intros p q H. apply (f_equal read_literal) in H. rewrite !pread in H. injection H as H. revert q H. induction p as [|x p IH]; intros [|y q] H; try discriminate; [reflexivity|]. cbn [map] in H. injection H as H1 H2. f_equal; [lia|apply IH, H2].
Qed.
Print Assumptions C118_str.
(** the first underscore splits the string of an integer modulo n *)
Lemma nat_no_underscore n : ~ In "_"%char (str_nat n).
Proof. intros H. destruct (C111_numerals n) as (_ & D & _). apply D in H. unfold is_digit in H. change (nat_of_ascii "_") with 95 in H. lia. Qed.
Lemma int_no_underscore z : ~ In "_"%char (str_int z).
Proof. unfold str_int. destruct (z <? 0)%Z; [|apply nat_no_underscore]. intros [H|H]; [discriminate|exact (nat_no_underscore _ H)]. Qed.
Lemma split_eq (c : ascii) a : forall b a' b', ~ In c a -> ~ In c a' -> a ++ c :: b = a' ++ c :: b' -> a = a' /\ b = b'.
Proof.
  induction a as [|x a IH]; intros b [|y a'] b' H H' E; cbn [app] in E.
  - injection E as E. split; [reflexivity|exact E].
  - injection E as E1 E2. exfalso. apply H'. left. symmetry. exact E1.
  - injection E as E1 E2. exfalso. apply H. left. exact E1.
  - injection E as E1 E2. destruct (IH b a' b') as [Q1 Q2]; [intros C; apply H; right; exact C|intros C; apply H'; right; exact C|exact E2|]. subst. split; reflexivity.
Qed.
Lemma str_int_inj a b : str_int a = str_int b -> a = b.
Proof.
  intros H. assert (Q : read_literal (str_int a ++ [" "%char]) = read_literal (str_int b ++ [" "%char])) by (rewrite H; reflexivity).
  assert (R : forall z, read_literal (str_int z ++ [" "%char]) = Some (PInt z)).
  { intros z. unfold read_literal. rewrite lex_int by reflexivity. change (punct " " ++ lex Idle []) with (@nil tok). rewrite app_nil_r. unfold int_toks. destruct (z <? 0)%Z; cbn [signs value]; rewrite ?Z.opp_involutive; reflexivity. }
  rewrite !R in Q. injection Q as Q. exact Q.
Qed.
Theorem C118_modulo_str : forall a b, modulo_str a = modulo_str b -> a = b.
Proof.
  intros [i n] [j m] H. unfold modulo_str in H. cbn [im_i im_n] in H. apply (split_eq "_"%char) in H as [H1 H2]; [|apply int_no_underscore|apply int_no_underscore]. apply str_int_inj in H1, H2. subst. reflexivity.
Qed.
Print Assumptions C118_modulo_str.

(** ** Polynomials
    The arguments in the representation of a polynomial of degree [r] on an [m]-dimensional domain, given to the constructor, give
    a polynomial of degree [m] on an [r]-dimensional domain: no exception, since the dimensions of both spaces agree. *)
Theorem C118_polynomial_exchange : forall (F : fld) b cols r m (p : poly F), (0 < r)%nat -> (m < 20)%nat -> pbuilt b cols r m p ->
  exists q, poly_of_arguments b (poly_repr_arguments p) = Ok q /\ p_cols q = cols /\ p_r q = m /\ p_m q = r.
Proof.
  intros F b cols r m p Hr Hm (V & B & C & R & M). unfold poly_repr_arguments, poly_of_arguments. rewrite C, R, M.
  assert (HR : rect (get_dimension m r) cols).
  { destruct V as (HR & _). rewrite C, R, M in HR. replace (get_dimension m r) with (get_dimension r m); [exact HR|]. unfold get_dimension. rewrite binomial_sym, (Nat.add_comm r m). reflexivity. }
  destruct (new_poly_ok b cols m r HR (fun _ => Hm)) as (q & E & _ & _ & Qc' & Qr & Qm). exists q. split; [exact E|]. split; [exact Qc'|]. split; [exact Qr|exact Qm].
Qed.
Print Assumptions C118_polynomial_exchange.

(** the representation of [1 + 2 x + 3 x^2] is that of a polynomial in two variables *)
Theorem C118_polynomial_refuted : exists (p q : poly QcF), new_poly (F := QcF) Monomial [[Q2Qc 1; Q2Qc 2; Q2Qc 3]] (Some 2) 1 = Ok p /\
  poly_of_arguments Monomial (poly_repr_arguments p) = Ok q /\ p_m q <> p_m p /\ p_r q <> p_r p.
Proof.
  destruct (new_poly_ok (F := QcF) Monomial [[Q2Qc 1; Q2Qc 2; Q2Qc 3]] 2 1) as (p & E & B).
  - split; [discriminate|]. intros c [ <- |[]]. reflexivity.
  - intros _. lia.
  - destruct (C118_polynomial_exchange QcF Monomial _ 2 1 p ltac:(lia) ltac:(lia) B) as (q & Eq & _ & Qr & Qm). exists p, q. split; [exact E|]. split; [exact Eq|].
    destruct B as (_ & _ & _ & R & M). split; congruence.
Qed.
Print Assumptions C118_polynomial_refuted.

(** ** Examples *)
Example C118_ex_multiindex : multiindex_repr [12; 0; 3] = lit "polynomials_on_simplices.algebra.multiindex.MultiIndex([12, 0, 3])" /\ multiindex_str [7] = lit "(7,)".
Proof. split; reflexivity. Qed.
Example C118_ex_permutation : permutation_repr [0] = lit "polynomials_on_simplices.algebra.permutations.Permutation((0,))" /\ permutation_str [1; 0; 2] = lit "(2, 1, 3)".
Proof. split; reflexivity. Qed.
(** without the comma the argument would be the integer 0, which the constructor refuses *)
Example C118_ex_reader : py_eval (lit "polynomials_on_simplices.algebra.permutations.Permutation((0))") = Err ValueError.
Proof. reflexivity. Qed.
Example C118_ex_modulo : exists a, im_new (-12) (-5) = Ok a /\ modulo_repr a = lit "polynomials_on_simplices.algebra.modular_arithmetic.IntegerModuloN(-2, -5)" /\ modulo_str a = lit "-2_-5".
Proof. eexists. repeat split. Qed.
Example C118_ex_polynomial : exists p : poly QcF, pbuilt (F := QcF) Monomial [[Q2Qc 1; Q2Qc 2; Q2Qc 3]] 2 1 p.
Proof. destruct (new_poly_ok (F := QcF) Monomial [[Q2Qc 1; Q2Qc 2; Q2Qc 3]] 2 1) as (p & E & B); [split; [discriminate|intros c [ <- |[]]; reflexivity]|lia|exists p; exact B]. Qed.
