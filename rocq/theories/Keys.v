(** Model of hashable objects as keys of dictionaries:
    algebra/multiindex.py 32-49, 87-120 (MultiIndex objects with their lists of
    components) and algebra/modular_arithmetic.py 45-54 (IntegerModuloN).
    A dictionary is the list of its entries in order of insertion, each with
    the hash value the key had when it was inserted (CPython): a key is
    compared, with [stored == key], with the entries of the same hash value
    until one is equal.  Deletion is not modelled, nor is the shortcut for an
    entry whose key is the very object looked up. *)
From Coq Require Import ZArith.
From Verif Require Import Base ModArith.

Section Dict.
  Context {K V : Type} (hash : K -> Z) (eq : K -> K -> result bool).
  Definition dict : Type := list (Z * K * V).
  (** [d[k]] *)
  Fixpoint dict_get (d : dict) (k : K) : result V :=
    match d with
    | [] => Err KeyError
    | (h, k', v) :: d =>
      if (h =? hash k)%Z then let* b := eq k' k in if b then Ok v else dict_get d k
      else dict_get d k
    end.
  (** [d[k] = v]; an equal key that is there already stays *)
  Fixpoint dict_set (d : dict) (k : K) (v : V) : result dict :=
    match d with
    | [] => Ok [(hash k, k, v)]
    | (h, k', v') :: d =>
      if (h =? hash k)%Z then
        let* b := eq k' k in
        if b then Ok ((h, k', v) :: d) else let* d := dict_set d k v in Ok ((h, k', v') :: d)
      else let* d := dict_set d k v in Ok ((h, k', v') :: d)
    end.
  Definition dict_of (items : list (K * V)) : result dict := foldM (fun d kv => dict_set d (fst kv) (snd kv)) [] items.
End Dict.

(** ** Integers modulo n, and ints *)
(** the hash value of an int *)
Definition int_hash (z : Z) : Z :=
  let h := (Z.sgn z * (Z.abs z mod (2 ^ 61 - 1)))%Z in if (h =? -1)%Z then (-2)%Z else h.
(** [hash] of an object whose [__hash__] returns [z]: numbers of 64 bits are kept *)
Definition slot_hash (z : Z) : Z :=
  let h := if ((- 2 ^ 63 <=? z) && (z <? 2 ^ 63))%Z then z else int_hash z in if (h =? -1)%Z then (-2)%Z else h.
(** modular_arithmetic.py 45-46 *)
Definition im_hash (a : imod) : Z := slot_hash (im_i a).
Definition key_hash (k : operand) : Z := match k with OMod a => im_hash a | OInt z => int_hash z end.
(** [stored == key]; an int leaves the comparison to the other operand *)
Definition key_eq (stored key : operand) : result bool :=
  match stored, key with
  | OInt a, OInt b => Ok (a =? b)%Z
  | OMod a, o => im_eq a o
  | OInt a, OMod b => im_eq b (OInt a)
  end.

(** ** Multi-indices and tuples
    Lists are objects in the heap; a MultiIndex is the address of its list of
    components. *)
Definition heap : Type := list (list Z).
Inductive mikey : Type := KMulti (address : nat) | KTuple (t : list Z).
(** multiindex.py 202-209 *)
Definition components (h : heap) (a : nat) : list Z := nth a h [].
Definition contents (h : heap) (k : mikey) : list Z := match k with KMulti a => components h a | KTuple t => t end.
Fixpoint list_eqb (a b : list Z) : bool :=
  match a, b with
  | [], [] => true
  | x :: a, y :: b => (x =? y)%Z && list_eqb a b
  | _, _ => false
  end.
(** 109-120 [__eq__]: [zip] after the comparison of the lengths *)
Definition mi_eq (h : heap) (a : nat) (other : list Z) : result bool :=
  if (length (components h a) =? length other)%nat then Ok (forallb (fun xy => (fst xy =? snd xy)%Z) (combine (components h a) other)) else Err ValueError.
Definition mikey_eq (h : heap) (stored key : mikey) : result bool :=
  match stored, key with
  | KTuple a, KTuple b => Ok (list_eqb a b)
  | KMulti a, o => mi_eq h a (contents h o)
  | KTuple t, KMulti b => mi_eq h b t
  end.
(** 101-107; [th] is [hash] for tuples of ints *)
Definition mikey_hash (th : list Z -> Z) (h : heap) (k : mikey) : Z := th (contents h k).

(** 32-49: what the constructor is called with: an existing list object, or another iterable *)
Inductive argument : Type := AList (address : nat) | AIter (values : list Z).
Definition mi_new (h : heap) (a : argument) : result (heap * nat) :=
  let '(h', p) := match a with AList p => (h, p) | AIter values => (h ++ [values], length h) end in
  if existsb (fun z => (z <? 0)%Z) (nth p h' []) then Err ValueError else Ok (h', p).
(** [l[i] = v] for the list object at an address *)
Definition list_setitem (h : heap) (p : nat) (i v : Z) : result heap :=
  match pyidx (length (nth p h [])) i with
  | Some k => Ok (upd h p (upd (nth p h []) k v))
  | None => Err IndexError
  end.
(** 87-96 [__setitem__] *)
Definition mi_setitem (h : heap) (a : nat) (i v : Z) : result heap :=
  if (v <? 0)%Z then Err ValueError else list_setitem h a i v.
