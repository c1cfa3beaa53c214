(** Model of calculus/polynomial/polynomials_calculus.py 133-174
    [partial_derivatives_array] and 225-255 [_unique_permutations].  An array of
    shape [(m,) * r] of polynomials is the list of the assignments to its entries,
    the last one first; entries not assigned are [None].  The bound on the number
    of dimensions of a numpy array is not modelled. *)
From Verif Require Import Base MultiIndex Fld CodeGen Poly Bases.
From Verif Require Permutations.
From Coq Require Import Field_theory Field.

Definition nd (A : Type) := list (list nat * A).
(** [d[i]] *)
Fixpoint nd_get {A} (d : nd A) (i : list nat) : option A :=
  match d with [] => None | (j, a) :: t => if list_eq_dec Nat.eq_dec j i then Some a else nd_get t i end.
(** [d[i] = a]; an index of a wrong length or out of range is an IndexError *)
Definition nd_set {A} (m r : nat) (d : nd A) (i : list nat) (a : A) : result (nd A) :=
  if (length i =? r)%nat && forallb (fun k => (k <? m)%nat) i then Ok ((i, a) :: d) else Err IndexError.

(** 225-255; the set is a list without duplicates, [order] the order in which it is listed *)
Definition unique_permutations (order : list (list nat) -> list (list nat)) (t : list nat) : result (list (list nat)) :=
  let* l := mapM (fun s => Permutations.permute_positions s t) (Permutations.permutations (length t)) in
  Ok (order (nodup (list_eq_dec Nat.eq_dec) l)).

(** either the polynomial itself or an array *)
Inductive derivs (A : Type) := Whole (p : A) | Array (d : nd A).
Arguments Whole {A}. Arguments Array {A}.

Section Arr.
  Context {F : fld}.
  (** 166-168: [alpha] *)
  Definition count_index (m : nat) (i : list nat) : result (list nat) :=
    foldM (fun alpha k => let* a := get alpha k in set alpha k (a + 1)%nat) (zero_multiindex m) i.
  (** 133-174 *)
  Definition partial_derivatives_array (order : list (list nat) -> list (list nat)) (p : poly F) (r : Z) : result (derivs (poly F)) :=
    let m := domain_dimension p in
    let* _ := assert_ (target_dimension p =? 1)%nat in
    let* _ := assert_ (0 <=? r)%Z in
    if (r =? 0)%Z then Ok (Whole p)
    else
      let r := Z.to_nat r in
      let* is_ := generate_all_non_decreasing r (m - 1) in
      let* d := foldM (fun d i =>
        let* alpha := count_index m i in
        let* pd := derivative p alpha in
        let* ips := unique_permutations order i in
        foldM (fun d ip => nd_set m r d ip pd) d ips) [] is_ in
      Ok (Array d).
End Arr.
