(** Factorials, binomial and multinomial coefficients of multi-indices:
    polynomials_on_simplices/algebra/multiindex.py 259-344, with values in a
    field. *)
From Verif Require Import Base MultiIndex MultiIndexFacts MultiCapFacts Fld.
From Coq Require Import Field_theory Field.

Section MultiCoef.
  Context {F : fld}.
  Add Field Kfield4 : (kth F).
  Local Open Scope fld_scope.

  (** 134-148 [MultiIndex.__add__] is [mi_add] of Fld.v (componentwise, as long
      as the shorter operand).  163-177 [MultiIndex.__sub__]: the constructor
      raises for a negative component. *)
  Definition mi_minus (a b : list nat) : result (list nat) :=
    if forallb (fun p => snd p <=? fst p)%nat (combine a b) then Ok (mi_sub a b) else Err ValueError.

  (** 282-294 [power] *)
  Definition power (x : list F) (a : list nat) : result F :=
    if (length x =? length a)%nat
    then Ok (fold_left (fun p ia => p * kpow (fst ia) (snd ia)) (combine x a) 1)
    else Err AssertionError.

  (** 297-310 [binom] *)
  Definition mi_binom (a b : list nat) : result F :=
    let* d := mi_minus a b in
    Ok (kofnat (mi_factorial a) / (kofnat (mi_factorial b) * kofnat (mi_factorial d))).

  (** 313-325 [multinom] *)
  Definition multinom (a : list nat) : F := kofnat (fact (norm a)) / kofnat (mi_factorial a).

  (** 328-344 [multinom_general] *)
  Definition multinom_general (r : nat) (a : list nat) : result F :=
    let* e := general_to_exact_norm a r in Ok (multinom e).

  (** scipy.special.binom for natural numbers (exact) *)
  Definition binomF (n k : nat) : F := kofnat (binomial n k).
End MultiCoef.
