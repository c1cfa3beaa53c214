(** Model of polynomials_on_simplices/algebra/modular_arithmetic.py
    (class IntegerModuloN, lines 4-118).  Python ints are [Z]; Python's [%]
    has the sign of the divisor, as [Z.modulo] has. *)
From Verif Require Import Base.
Local Open Scope Z_scope.

(** modular_arithmetic.py 31-37: the two attributes of an IntegerModuloN. *)
Record imod : Type := mkIM { im_i : Z; im_n : Z }.

(** modular_arithmetic.py 31-37 [__init__]: [value % n]; modulus 0 raises
    ZeroDivisionError. *)
Definition im_new (value n : Z) : result imod :=
  if n =? 0 then Err ZeroDivisionError else Ok (mkIM (value mod n) n).

(** The right operand of a binary operation: another IntegerModuloN or a
    plain int ([isinstance(other, IntegerModuloN)] test of every method). *)
Inductive operand : Type := OMod (m : imod) | OInt (z : Z).

(** 48-54 [__eq__] *)
Definition im_eq (a : imod) (o : operand) : result bool :=
  match o with
  | OMod b => if im_n a =? im_n b then Ok (im_i a =? im_i b) else Err ValueError
  | OInt z => Ok (im_i a =? z)
  end.

(** 56-57 [__ne__] *)
Definition im_ne (a : imod) (o : operand) : result bool :=
  let* b := im_eq a o in Ok (negb b).

(** 59-65 [__lt__] *)
Definition im_lt (a : imod) (o : operand) : result bool :=
  match o with
  | OMod b => if im_n a =? im_n b then Ok (im_i a <? im_i b) else Err ValueError
  | OInt z => Ok (im_i a <? z)
  end.

(** 67-73 [__gt__]: the plain int case evaluates [other.i] and so raises
    AttributeError. *)
Definition im_gt (a : imod) (o : operand) : result bool :=
  match o with
  | OMod b => if im_n a =? im_n b then Ok (im_i b <? im_i a) else Err ValueError
  | OInt _ => Err AttributeError
  end.

(** 75-76 [__le__] *)
Definition im_le (a : imod) (o : operand) : result bool :=
  let* b := im_gt a o in Ok (negb b).

(** 78-79 [__ge__] *)
Definition im_ge (a : imod) (o : operand) : result bool :=
  let* b := im_lt a o in Ok (negb b).

(** 81-82 [__neg__] *)
Definition im_neg (a : imod) : result imod := im_new (- im_i a) (im_n a).

(** 84-90 [__add__] *)
Definition im_add (a : imod) (o : operand) : result imod :=
  match o with
  | OMod b => if im_n a =? im_n b then im_new (im_i a + im_i b) (im_n a) else Err ValueError
  | OInt z => im_new (im_i a + z) (im_n a)
  end.

(** 92-98 [__sub__] *)
Definition im_sub (a : imod) (o : operand) : result imod :=
  match o with
  | OMod b => if im_n a =? im_n b then im_new (im_i a - im_i b) (im_n a) else Err ValueError
  | OInt z => im_new (im_i a - z) (im_n a)
  end.

(** 100-106 [__mul__] *)
Definition im_mul (a : imod) (o : operand) : result imod :=
  match o with
  | OMod b => if im_n a =? im_n b then im_new (im_i a * im_i b) (im_n a) else Err ValueError
  | OInt z => im_new (im_i a * z) (im_n a)
  end.

(** 108-109 [__radd__] (called for [z + a]) *)
Definition im_radd (a : imod) (o : operand) : result imod := im_add a o.
(** 111-112 [__rsub__] (called for [z - a]) *)
Definition im_rsub (a : imod) (o : operand) : result imod :=
  let* d := im_sub a o in im_neg d.
(** 114-115 [__rmul__] (called for [z * a]) *)
Definition im_rmul (a : imod) (o : operand) : result imod := im_mul a o.
(** 117-118 [__int__] *)
Definition im_int (a : imod) : Z := im_i a.

(** ** Expressions over the class: any program that builds a value by
    construction and arithmetic, with plain ints allowed on either side. *)
Inductive iexpr : Type :=
| EVal (z : Z)                          (* IntegerModuloN(z, n) *)
| ENeg (e : iexpr)
| EAdd (e f : iexpr) | ESub (e f : iexpr) | EMul (e f : iexpr)
| EAddI (e : iexpr) (z : Z) | ESubI (e : iexpr) (z : Z) | EMulI (e : iexpr) (z : Z)
| EIAdd (z : Z) (e : iexpr) | EISub (z : Z) (e : iexpr) | EIMul (z : Z) (e : iexpr).

Fixpoint im_eval (n : Z) (e : iexpr) : result imod :=
  match e with
  | EVal z => im_new z n
  | ENeg e => let* a := im_eval n e in im_neg a
  | EAdd e f => let* a := im_eval n e in let* b := im_eval n f in im_add a (OMod b)
  | ESub e f => let* a := im_eval n e in let* b := im_eval n f in im_sub a (OMod b)
  | EMul e f => let* a := im_eval n e in let* b := im_eval n f in im_mul a (OMod b)
  | EAddI e z => let* a := im_eval n e in im_add a (OInt z)
  | ESubI e z => let* a := im_eval n e in im_sub a (OInt z)
  | EMulI e z => let* a := im_eval n e in im_mul a (OInt z)
  | EIAdd z e => let* a := im_eval n e in im_radd a (OInt z)
  | EISub z e => let* a := im_eval n e in im_rsub a (OInt z)
  | EIMul z e => let* a := im_eval n e in im_rmul a (OInt z)
  end.

(** Specification: the same expression over the integers. *)
Fixpoint z_eval (e : iexpr) : Z :=
  match e with
  | EVal z => z
  | ENeg e => - z_eval e
  | EAdd e f => z_eval e + z_eval f
  | ESub e f => z_eval e - z_eval f
  | EMul e f => z_eval e * z_eval f
  | EAddI e z => z_eval e + z
  | ESubI e z => z_eval e - z
  | EMulI e z => z_eval e * z
  | EIAdd z e => z + z_eval e
  | EISub z e => z - z_eval e
  | EIMul z e => z * z_eval e
  end.

Lemma im_new_ok v n : n <> 0 -> im_new v n = Ok (mkIM (v mod n) n).
Proof. intros H; unfold im_new. destruct (Z.eqb_spec n 0); [contradiction | reflexivity]. Qed.

Lemma im_eval_spec n e : n <> 0 -> im_eval n e = Ok (mkIM (z_eval e mod n) n).
Proof.
  intros Hn.
  induction e as [z|e IH|e IHe f IHf|e IHe f IHf|e IHe f IHf|e IH z|e IH z|e IH z|z e IH|z e IH|z e IH];
    cbn [im_eval z_eval]; rewrite ?IHe, ?IHf, ?IH; cbn [bind];
    unfold im_neg, im_rsub, im_radd, im_rmul, im_add, im_sub, im_mul, im_neg; cbn [im_i im_n bind];
    rewrite ?Z.eqb_refl, ?im_new_ok by assumption; cbn [bind im_i im_n];
    unfold im_neg; cbn [im_i im_n bind]; rewrite ?im_new_ok by assumption; do 2 f_equal.
  - rewrite <- !Z.sub_0_l. apply Zminus_mod_idemp_r.
  - rewrite <- Zplus_mod. reflexivity.
  - rewrite <- Zminus_mod. reflexivity.
  - rewrite <- Zmult_mod. reflexivity.
  - apply Zplus_mod_idemp_l.
  - apply Zminus_mod_idemp_l.
  - apply Zmult_mod_idemp_l.
  - rewrite (Z.add_comm z). apply Zplus_mod_idemp_l.
  - rewrite <- Z.sub_0_l, Zminus_mod_idemp_r.
    replace (0 - (z_eval e mod n - z)) with (z - z_eval e mod n) by ring.
    apply Zminus_mod_idemp_r.
  - rewrite (Z.mul_comm z). apply Zmult_mod_idemp_l.
Qed.

Lemma im_eval_range n e a : 0 < n -> im_eval n e = Ok a -> 0 <= im_i a < n /\ im_n a = n.
Proof.
  intros Hn H. rewrite im_eval_spec in H by lia. injection H as <-. cbn.
  split; [apply Z.mod_pos_bound; lia | reflexivity].
Qed.

Lemma im_mismatch a b :
  im_n a <> im_n b ->
  im_add a (OMod b) = Err ValueError /\ im_sub a (OMod b) = Err ValueError /\
  im_mul a (OMod b) = Err ValueError /\ im_eq a (OMod b) = Err ValueError /\
  im_ne a (OMod b) = Err ValueError /\
  im_lt a (OMod b) = Err ValueError /\ im_gt a (OMod b) = Err ValueError /\
  im_le a (OMod b) = Err ValueError /\ im_ge a (OMod b) = Err ValueError.
Proof.
  intros H. unfold im_add, im_sub, im_mul, im_ne, im_le, im_ge, im_eq, im_lt, im_gt.
  apply Z.eqb_neq in H. rewrite H. cbn. repeat split.
Qed.
