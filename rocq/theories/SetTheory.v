(** Model of polynomials_on_simplices/set_theory.py.  A Python set is a list
    without duplicates, its order standing for the (arbitrary) iteration
    order; the statements do not depend on it. *)
From Verif Require Import Base.

(** A value is an element of the base set or a tuple of such elements. *)
Inductive val (A : Type) : Type := El (a : A) | Tp (l : list A).
Arguments El {A} a.
Arguments Tp {A} l.

Section SetTheory.
  Context {A : Type} (eq_dec : forall x y : A, {x = y} + {x <> y}).

  Definition val_dec (x y : val A) : {x = y} + {x <> y}.
  Proof. decide equality. apply (list_eq_dec eq_dec). Defined.

  (** [set.add] *)
  Definition add_elem (s : list (val A)) (x : val A) : list (val A) :=
    if in_dec val_dec x s then s else s ++ [x].

  (** set_theory.py 7-20 [cartesian_product]: [set(itertools.product(s, t))] *)
  Definition cartesian_product (s t : list A) : list (val A) :=
    fold_left add_elem (flat_map (fun x => map (fun y => Tp [x; y]) t) s) [].

  (** 49: [(element,) + sub_tuple]; TypeError when sub_tuple is no tuple. *)
  Definition prepend (x : A) (v : val A) : result (val A) :=
    match v with Tp l => Ok (Tp (x :: l)) | El _ => Err TypeError end.

  (** 46-50: the double loop *)
  Fixpoint inner_loop (s : list A) (sub : val A) (product : list (val A)) : result (list (val A)) :=
    match s with
    | [] => Ok product
    | x :: s' => let* v := prepend x sub in inner_loop s' sub (add_elem product v)
    end.
  Fixpoint outer_loop (p0 : list (val A)) (s : list A) (product : list (val A)) : result (list (val A)) :=
    match p0 with
    | [] => Ok product
    | sub :: p' => let* product' := inner_loop s sub product in outer_loop p' s product'
    end.

  (** 23-50 [nfold_cartesian_product] *)
  Fixpoint nfold_cartesian_product (s : list A) (n : nat) : result (list (val A)) :=
    match n with
    | 0 => Ok []
    | 1 => Ok (map El s)
    | 2 => Ok (cartesian_product s s)
    | S n' => let* p0 := nfold_cartesian_product s n' in outer_loop p0 s []
    end.

  (** ** Proofs *)
  Lemma add_elem_in s x v : In v (add_elem s x) <-> In v s \/ v = x.
  Proof.
    unfold add_elem. destruct (in_dec val_dec x s) as [H|H].
    - split; [auto|]. intros [?| ->]; [assumption|exact H].
    - rewrite in_app_iff. cbn. intuition congruence.
  Qed.
  Lemma add_elem_NoDup s x : NoDup s -> NoDup (add_elem s x).
  Proof.
    unfold add_elem. destruct (in_dec val_dec x s) as [H|H]; [auto|]. intros HN.
    apply NoDup_app_intro; auto; [repeat constructor; auto|]. intros y Hy [<-|[]]. contradiction.
  Qed.
  Lemma fold_add l : forall s, (forall v, In v (fold_left add_elem l s) <-> In v s \/ In v l) /\
    (NoDup s -> NoDup (fold_left add_elem l s)).
  Proof.
    induction l as [|x l IH]; intros s; cbn [fold_left].
    - split; [intros v; cbn; tauto|auto].
    - destruct (IH (add_elem s x)) as [H1 H2]. split.
      + intros v. rewrite H1, add_elem_in. cbn. intuition congruence.
      + intros H. apply H2, add_elem_NoDup, H.
  Qed.
  Lemma inner_loop_spec s l : forall pr,
    exists pr', inner_loop s (Tp l) pr = Ok pr' /\
      (forall v, In v pr' <-> In v pr \/ exists x, In x s /\ v = Tp (x :: l)) /\ (NoDup pr -> NoDup pr').
  Proof.
    induction s as [|x s IH]; intros pr; cbn [inner_loop prepend bind].
    - exists pr. split; [reflexivity|]. split; [|auto]. intros v. split; [auto|]. intros [?|(? & [] & _)]; auto.
    - destruct (IH (add_elem pr (Tp (x :: l)))) as (pr' & E & H1 & H2). exists pr'. split; [exact E|]. split.
      + intros v. rewrite H1, add_elem_in. split.
        * intros [[?| ->]|(y & Hy & ->)]; [auto|right; exists x; cbn; auto|right; exists y; cbn; auto].
        * intros [?|(y & [->|Hy] & ->)]; [auto|auto|right; eauto].
      + intros H. apply H2, add_elem_NoDup, H.
  Qed.
  Lemma outer_loop_spec s p0 : (forall v, In v p0 -> exists l, v = Tp l) -> forall pr,
    exists pr', outer_loop p0 s pr = Ok pr' /\
      (forall v, In v pr' <-> In v pr \/ exists x l, In x s /\ In (Tp l) p0 /\ v = Tp (x :: l)) /\ (NoDup pr -> NoDup pr').
  Proof.
    induction p0 as [|sub p0 IH]; intros Hp pr; cbn [outer_loop].
    - exists pr. split; [reflexivity|]. split; [|auto]. intros v. split; [auto|]. intros [?|(? & ? & _ & [] & _)]; auto.
    - destruct (Hp sub (or_introl eq_refl)) as [l ->].
      destruct (inner_loop_spec s l pr) as (pr1 & E1 & H1 & H2). rewrite E1. cbn [bind].
      destruct (IH (fun v Hv => Hp v (or_intror Hv)) pr1) as (pr' & E & H3 & H4). exists pr'. split; [exact E|]. split; [|auto].
      intros v. rewrite H3, H1. split.
      + intros [[?|(x & Hx & ->)]|(x & l' & Hx & Hl & ->)]; [auto| |]; right; [exists x, l|exists x, l']; cbn; auto.
      + intros [?|(x & l' & Hx & [El|Hl] & ->)]; [auto| |].
        * injection El as <-. left. right. eauto.
        * right. eauto.
  Qed.

  Lemma nfold_spec s n : exists p, nfold_cartesian_product s (S (S n)) = Ok p /\ NoDup p /\
    forall v, In v p <-> exists l, v = Tp l /\ length l = S (S n) /\ incl l s.
  Proof.
    induction n as [|n IH].
    - cbn [nfold_cartesian_product]. eexists. split; [reflexivity|]. unfold cartesian_product.
      destruct (fold_add (flat_map (fun x => map (fun y => Tp [x; y]) s) s) []) as [H1 H2].
      split; [apply H2; constructor|]. intros v. rewrite H1. split.
      + intros [[]|H]. apply in_flat_map in H as (x & Hx & H). apply in_map_iff in H as (y & <- & Hy).
        exists [x; y]. repeat split. intros z [<-|[<-|[]]]; auto.
      + intros (l & -> & HL & Hi). right. destruct l as [|x [|y [|]]]; try discriminate.
        apply in_flat_map. exists x. split; [apply Hi; left; auto|]. apply in_map_iff. exists y.
        split; [auto|]. apply Hi. right. left. auto.
    - destruct IH as (p0 & E0 & HN & H0).
      change (nfold_cartesian_product s (S (S (S n)))) with
        (let* p0 := nfold_cartesian_product s (S (S n)) in outer_loop p0 s []).
      rewrite E0. cbn [bind].
      destruct (outer_loop_spec s p0) with (pr := @nil (val A)) as (p & E & H1 & H2).
      { intros v Hv. apply H0 in Hv as (l & -> & _). eauto. }
      exists p. split; [exact E|]. split; [apply H2; constructor|]. intros v. rewrite H1. split.
      + intros [[]|(x & l & Hx & Hl & ->)]. apply H0 in Hl as (l' & E' & HL & Hi). injection E' as <-.
        exists (x :: l). split; [reflexivity|]. split; [cbn; congruence|]. intros z [<-|Hz]; auto.
      + intros (l & -> & HL & Hi). right. destruct l as [|x l]; [discriminate|]. exists x, l.
        split; [apply Hi; left; auto|]. split; [|reflexivity]. apply H0. exists l.
        split; [reflexivity|]. split; [cbn in HL; congruence|]. intros z Hz. apply Hi. right. exact Hz.
  Qed.

  (** All n-tuples over a duplicate-free list, for the count. *)
  Fixpoint tuples (s : list A) (n : nat) : list (list A) :=
    match n with
    | O => [[]]
    | S n' => flat_map (fun x => map (cons x) (tuples s n')) s
    end.
  Lemma tuples_length s n : length (tuples s n) = length s ^ n.
  Proof.
    induction n as [|n IH]; [reflexivity|]. cbn [tuples Nat.pow].
    enough (G : forall t : list A, length (flat_map (fun x => map (cons x) (tuples s n)) t) = length t * length s ^ n) by apply G.
    induction t as [|x t IHt]; cbn [flat_map]; [reflexivity|]. rewrite app_length, map_length, IHt, IH. cbn. lia.
  Qed.
  Lemma in_tuples s n l : In l (tuples s n) <-> length l = n /\ incl l s.
  Proof.
    revert l; induction n as [|n IH]; intros l; cbn [tuples].
    - split; [intros [<-|[]]; split; [reflexivity|intros x []]|]. intros [H _]. destruct l; [left; auto|discriminate].
    - rewrite in_flat_map. split.
      + intros (x & Hx & H). apply in_map_iff in H as (l' & <- & H). apply IH in H as [H1 H2].
        split; [cbn; congruence|]. intros z [<-|Hz]; auto.
      + intros [H1 H2]. destruct l as [|x l]; [discriminate|]. exists x. split; [apply H2; left; auto|].
        apply in_map. apply IH. split; [cbn in H1; congruence|]. intros z Hz. apply H2. right. exact Hz.
  Qed.
  Lemma NoDup_tuples s n : NoDup s -> NoDup (tuples s n).
  Proof.
    intros HN. induction n as [|n IH]; cbn [tuples]; [repeat constructor; auto|].
    apply NoDup_flat_map; [exact HN| |].
    - intros x _. apply NoDup_map_inj; [congruence|exact IH].
    - intros x y l _ _ H1 H2. apply in_map_iff in H1 as (? & <- & _). apply in_map_iff in H2 as (? & E & _). congruence.
  Qed.
  Lemma nfold_count s n p : NoDup s -> nfold_cartesian_product s (S (S n)) = Ok p -> length p = length s ^ (S (S n)).
  Proof.
    intros Hs E. destruct (nfold_spec s n) as (p' & E' & HN & H). rewrite E in E'. injection E' as <-.
    rewrite <- tuples_length, <- (map_length Tp (tuples s _)). apply Permutation_length.
    apply NoDup_Permutation; [exact HN| |].
    - apply NoDup_map_inj; [congruence|apply NoDup_tuples, Hs].
    - intros v. rewrite H, in_map_iff. split.
      + intros (l & -> & H1 & H2). exists l. split; [auto|]. apply in_tuples. auto.
      + intros (l & <- & Hl). apply in_tuples in Hl as [H1 H2]. eauto.
  Qed.
End SetTheory.
