(** Common vocabulary of the model: exceptions as values, Python indexing,
    list helpers.  Nothing in this file is specific to a /repo module. *)
From Coq Require Export List Arith ZArith Lia Bool.
From Coq Require Export Permutation Sorted.
Export ListNotations.

(** Python exceptions that the modelled code can raise. [OutOfFuel] is not a
    Python exception: it marks that the recursion bound of a modelled loop was
    too small, and theorems show that it never shows up. *)
Inductive err : Type :=
| AssertionError | ValueError | IndexError | KeyError | StopIteration
| TypeError | AttributeError | RuntimeError | SyntaxError | ZeroDivisionError | LinAlgError | OutOfFuel.

Inductive result (A : Type) : Type :=
| Ok (a : A)
| Err (e : err).
Arguments Ok {A} a.
Arguments Err {A} e.

Definition bind {A B} (x : result A) (f : A -> result B) : result B :=
  match x with Ok a => f a | Err e => Err e end.
Notation "'let*' x ':=' e1 'in' e2" := (bind e1 (fun x => e2))
  (at level 200, x pattern, e1 at level 100, e2 at level 200).

(** A [for] loop whose body updates a state and may raise. *)
Fixpoint foldM {S A} (f : S -> A -> result S) (st : S) (l : list A) : result S :=
  match l with
  | [] => Ok st
  | a :: t => let* st' := f st a in foldM f st' t
  end.

(** Python [assert b]. *)
Definition assert_ (b : bool) : result unit :=
  if b then Ok tt else Err AssertionError.

(** [l[i]] for a non-negative Python index. *)
Definition get {A} (l : list A) (i : nat) : result A :=
  match nth_error l i with Some a => Ok a | None => Err IndexError end.

(** [l[i] = v] for an index known to be in range (no effect otherwise). *)
Fixpoint upd {A} (l : list A) (i : nat) (v : A) : list A :=
  match l, i with
  | [], _ => []
  | _ :: t, O => v :: t
  | h :: t, S k => h :: upd t k v
  end.

(** [l[i] = v] with Python's IndexError. *)
Definition set {A} (l : list A) (i : nat) (v : A) : result (list A) :=
  if i <? length l then Ok (upd l i v) else Err IndexError.

(** Resolve a possibly negative Python index against a length. *)
Definition pyidx (len : nat) (i : Z) : option nat :=
  if (0 <=? i)%Z then
    (if (i <? Z.of_nat len)%Z then Some (Z.to_nat i) else None)
  else
    (if (- Z.of_nat len <=? i)%Z then Some (Z.to_nat (i + Z.of_nat len)) else None).

(** Sum of a list of naturals / integers (Python [sum]). *)
Definition nsum (l : list nat) : nat := fold_right Nat.add 0 l.
Definition zsum (l : list Z) : Z := fold_right Z.add 0%Z l.

(** Boolean equality of lists of naturals (tuple comparison). *)
Fixpoint leqb (l m : list nat) : bool :=
  match l, m with
  | [], [] => true
  | a :: l', b :: m' => (a =? b) && leqb l' m'
  | _, _ => false
  end.

Lemma leqb_eq l m : leqb l m = true <-> l = m.
Proof.
  revert m; induction l as [|a l IH]; intros [|b m]; cbn [leqb]; split; intros H;
    try discriminate; try reflexivity.
  - apply andb_true_iff in H as [H1 H2]. apply Nat.eqb_eq in H1. apply IH in H2. congruence.
  - injection H as -> ->. rewrite Nat.eqb_refl. apply IH. reflexivity.
Qed.

Lemma leqb_refl l : leqb l l = true.
Proof. apply leqb_eq; reflexivity. Qed.

Lemma leqb_neq l m : leqb l m = false <-> l <> m.
Proof.
  split; intros H.
  - intros E. apply leqb_eq in E. congruence.
  - destruct (leqb l m) eqn:E; [apply leqb_eq in E; contradiction | reflexivity].
Qed.

Lemma upd_length {A} (l : list A) i v : length (upd l i v) = length l.
Proof. revert i; induction l as [|h t IH]; intros [|i]; cbn; auto. Qed.

Lemma upd_app_r {A} (l m : list A) i v : upd (l ++ m) (length l + i) v = l ++ upd m i v.
Proof. induction l as [|h t IH]; cbn; [reflexivity | f_equal; exact IH]. Qed.

Lemma upd_app_exact {A} (l m : list A) h v : upd (l ++ h :: m) (length l) v = l ++ v :: m.
Proof. rewrite <- (Nat.add_0_r (length l)), upd_app_r; reflexivity. Qed.

Lemma nth_error_upd_same {A} (l : list A) i v :
  i < length l -> nth_error (upd l i v) i = Some v.
Proof. revert i; induction l as [|h t IH]; intros [|i] H; cbn in *; try lia; auto. apply IH; lia. Qed.

Lemma nth_error_upd_other {A} (l : list A) i j v :
  i <> j -> nth_error (upd l i v) j = nth_error l j.
Proof.
  revert i j; induction l as [|h t IH]; intros [|i] [|j] H; cbn; auto; try congruence.
Qed.

Lemma nth_upd_same {A} (l : list A) i v d : i < length l -> nth i (upd l i v) d = v.
Proof. revert i; induction l as [|h t IH]; intros [|i] H; cbn in *; try lia; auto. apply IH; lia. Qed.

Lemma nth_upd_other {A} (l : list A) i j v d : i <> j -> nth j (upd l i v) d = nth j l d.
Proof.
  revert i j; induction l as [|h t IH]; intros [|i] [|j] H; cbn; auto; try congruence.
Qed.

Lemma upd_out {A} (l : list A) i v : length l <= i -> upd l i v = l.
Proof. revert i; induction l as [|h t IH]; intros [|i] H; cbn in *; try lia; auto. f_equal; apply IH; lia. Qed.

Lemma upd_nth_same {A} (l : list A) i d : i < length l -> upd l i (nth i l d) = l.
Proof. revert i; induction l as [|h t IH]; intros [|i] H; cbn in *; try lia; auto. f_equal; apply IH; lia. Qed.

Lemma nsum_app l m : nsum (l ++ m) = nsum l + nsum m.
Proof. induction l as [|a l IH]; cbn; [reflexivity | unfold nsum in *; lia]. Qed.

Lemma nsum_repeat0 k : nsum (repeat 0 k) = 0.
Proof. induction k; cbn; auto. Qed.

Lemma nsum_cons a l : nsum (a :: l) = a + nsum l.
Proof. reflexivity. Qed.

Lemma list_eq_nth {A} (d : A) (l m : list A) :
  length l = length m -> (forall i, i < length l -> nth i l d = nth i m d) -> l = m.
Proof.
  revert m; induction l as [|a l IH]; intros [|b m] HL H; cbn in *; try discriminate; auto.
  f_equal.
  - exact (H 0 ltac:(lia)).
  - apply IH; [lia|]. intros i Hi. exact (H (S i) ltac:(lia)).
Qed.

Lemma nth_map_in {A B} (f : A -> B) l i d d' : i < length l -> nth i (map f l) d' = f (nth i l d).
Proof. revert i; induction l as [|a l IH]; intros [|i] H; cbn in *; try lia; auto. apply IH; lia. Qed.

Lemma NoDup_app_intro {A} (l m : list A) :
  NoDup l -> NoDup m -> (forall x, In x l -> ~ In x m) -> NoDup (l ++ m).
Proof.
  induction l as [|a l IH]; cbn; intros Hl Hm Hd; auto.
  inversion Hl; subst. constructor.
  - rewrite in_app_iff. intros [H|H]; [contradiction | exact (Hd a (or_introl eq_refl) H)].
  - apply IH; auto.
Qed.

Lemma NoDup_map_inj {A B} (f : A -> B) l :
  (forall x y, In x l -> In y l -> f x = f y -> x = y) -> NoDup l -> NoDup (map f l).
Proof.
  induction l as [|a l IH]; cbn; intros Hinj Hn; constructor; inversion Hn; subst.
  - intros H. apply in_map_iff in H as (y & E & Hy).
    assert (y = a) by (apply Hinj; auto). subst. contradiction.
  - apply IH; auto.
Qed.

Lemma NoDup_flat_map {A B} (f : A -> list B) l :
  NoDup l -> (forall x, In x l -> NoDup (f x)) ->
  (forall x y b, In x l -> In y l -> In b (f x) -> In b (f y) -> x = y) ->
  NoDup (flat_map f l).
Proof.
  induction l as [|a l IH]; cbn; intros Hn Hf Hd; [constructor|].
  inversion Hn; subst. apply NoDup_app_intro; auto.
  - apply IH; auto. intros; eapply Hd; eauto.
  - intros b Hb Hb'. apply in_flat_map in Hb' as (y & Hy & Hb').
    assert (a = y) by (eapply Hd; eauto). subst; contradiction.
Qed.
