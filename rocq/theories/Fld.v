(** The numbers the model computes with, and finite sums over lists.

    Floating point numbers are modelled as exact elements of a field of
    characteristic zero with decidable equality (a parameter of everything
    below).  Two facts about how Python prints a number are parameters:
    [kneg x] says that [str(x)] starts with a minus sign ("0" and "1" are
    printed without one) and [ksci x] that the digits of a number printed
    without leading minus sign contain one (as in "1e-05"). *)
From Verif Require Import Base MultiIndex MultiIndexFacts.
From Coq Require Import Field_theory Field.

Fixpoint nat_in {A} (z o : A) (add : A -> A -> A) (n : nat) : A :=
  match n with O => z | S k => add o (nat_in z o add k) end.

Record fld : Type := mkFld {
  K :> Type;
  k0 : K; k1 : K;
  kadd : K -> K -> K; kmul : K -> K -> K; ksub : K -> K -> K; kopp : K -> K;
  kdiv : K -> K -> K; kinv : K -> K;
  kth : field_theory k0 k1 kadd kmul ksub kopp kdiv kinv (@eq K);
  kdec : forall x y : K, {x = y} + {x <> y};
  kchar0 : forall n, nat_in k0 k1 kadd (S n) <> k0;
  kneg : K -> bool;
  kneg_0 : kneg k0 = false;
  kneg_1 : kneg k1 = false;
  ksci : K -> bool }.

Declare Scope fld_scope.
Delimit Scope fld_scope with K.
Arguments k0 {f}. Arguments k1 {f}.
Arguments kadd {f} _ _. Arguments kmul {f} _ _. Arguments ksub {f} _ _. Arguments kopp {f} _.
Arguments kdiv {f} _ _. Arguments kinv {f} _. Arguments kdec {f} _ _. Arguments kneg {f} _. Arguments ksci {f} _.
Notation "0" := k0 : fld_scope.
Notation "1" := k1 : fld_scope.
Infix "+" := kadd : fld_scope.
Infix "*" := kmul : fld_scope.
Infix "-" := ksub : fld_scope.
Infix "/" := kdiv : fld_scope.
Notation "- x" := (kopp x) : fld_scope.

Section Field.
  Context {F : fld}.
  Add Field Kfield : (kth F).
  Local Open Scope fld_scope.
  Implicit Types x y z : F.

  Definition kofnat (n : nat) : F := nat_in 0 1 kadd n.
  (** [x**n] *)
  Fixpoint kpow (x : F) (n : nat) : F := match n with O => 1 | S k => x * kpow x k end.

  Lemma kofnat_S n : kofnat (S n) = 1 + kofnat n. Proof. reflexivity. Qed.
  Lemma kofnat_add a b : kofnat (a + b) = kofnat a + kofnat b.
  Proof. induction a as [|a IH]; cbn [Nat.add]; [unfold kofnat at 2; cbn; ring|rewrite !kofnat_S, IH; ring]. Qed.
  Lemma kofnat_mul a b : kofnat (a * b) = kofnat a * kofnat b.
  Proof. induction a as [|a IH]; cbn [Nat.mul]; [unfold kofnat at 1 2; cbn; ring|rewrite kofnat_add, IH, kofnat_S; ring]. Qed.
  Lemma kofnat_1 : kofnat 1 = 1. Proof. unfold kofnat; cbn. ring. Qed.
  Lemma kofnat_0 : kofnat 0 = 0. Proof. reflexivity. Qed.
  Lemma kofnat_neq n : n <> O -> kofnat n <> 0.
  Proof. destruct n; [intros H; contradiction|]. intros _. apply kchar0. Qed.
  Lemma k1_neq_0 : 1 <> 0 :> F.
  Proof. exact (F_1_neq_0 (kth F)). Qed.
  Lemma kmul_neq x y : x <> 0 -> y <> 0 -> x * y <> 0.
  Proof.
    intros Hx Hy E. apply Hy. transitivity (kinv x * (x * y)); [field; exact Hx|]. rewrite E. ring.
  Qed.
  Lemma kmul_integral x y : x * y = 0 -> x = 0 \/ y = 0.
  Proof. intros E. destruct (kdec x 0) as [|Hx]; [auto|]. destruct (kdec y 0) as [|Hy]; [auto|]. exfalso. exact (kmul_neq _ _ Hx Hy E). Qed.
  Lemma kmul_cancel x y z : x <> 0 -> x * y = x * z -> y = z.
  Proof. intros Hx E. transitivity (kinv x * (x * y)); [field; exact Hx|]. rewrite E. field. exact Hx. Qed.
  Lemma ksub_eq_0 x y : x - y = 0 -> x = y.
  Proof. intros E. transitivity (x - y + y); [ring|]. rewrite E. ring. Qed.
  Lemma kofnat_inj a b : kofnat a = kofnat b -> a = b.
  Proof.
    revert b. induction a as [|a IH]; intros [|b] E; auto.
    - exfalso. apply (kofnat_neq (S b)); [discriminate|]. symmetry. exact E.
    - exfalso. apply (kofnat_neq (S a)); [discriminate|]. exact E.
    - f_equal. apply IH. rewrite !kofnat_S in E. transitivity (1 + kofnat a - 1); [ring|]. rewrite E. ring.
  Qed.

  Lemma kpow_add x a b : kpow x (a + b) = kpow x a * kpow x b.
  Proof. induction a as [|a IH]; cbn [Nat.add kpow]; [ring|rewrite IH; ring]. Qed.
  Lemma kpow_S x n : kpow x (S n) = x * kpow x n. Proof. reflexivity. Qed.
  Lemma kpow_mul_base x y n : kpow (x * y) n = kpow x n * kpow y n.
  Proof. induction n as [|n IH]; cbn [kpow]; [ring|rewrite IH; ring]. Qed.
  Lemma kpow_1 n : kpow 1 n = 1.
  Proof. induction n as [|n IH]; cbn [kpow]; [reflexivity|rewrite IH; ring]. Qed.
  Lemma kpow_0 n : n <> O -> kpow (0 : F) n = 0.
  Proof. destruct n; [congruence|]. intros _. cbn [kpow]. ring. Qed.
  Lemma kpow_neq x n : x <> 0 -> kpow x n <> 0.
  Proof. intros H. induction n as [|n IH]; cbn [kpow]; [apply k1_neq_0|apply kmul_neq; assumption]. Qed.
  Lemma kpow_mul x a b : kpow x (a * b) = kpow (kpow x a) b.
  Proof. rewrite Nat.mul_comm. induction b as [|b IH]; cbn [Nat.mul kpow]; [reflexivity|]. rewrite kpow_add, IH. reflexivity. Qed.

  (** Sum of [f a] over the elements [a] of a list. *)
  Definition ksum {A} (l : list A) (f : A -> F) : F := fold_right (fun a s => f a + s) 0 l.
  Definition kprod {A} (l : list A) (f : A -> F) : F := fold_right (fun a s => f a * s) 1 l.
  Lemma ksum_nil {A} (f : A -> F) : ksum [] f = 0. Proof. reflexivity. Qed.
  Lemma ksum_cons {A} (f : A -> F) a l : ksum (a :: l) f = f a + ksum l f. Proof. reflexivity. Qed.
  Lemma ksum_app {A} (f : A -> F) l m : ksum (l ++ m) f = ksum l f + ksum m f.
  Proof. induction l as [|a l IH]; cbn [app]; rewrite ?ksum_nil, ?ksum_cons; [ring|rewrite IH; ring]. Qed.
  Lemma ksum_ext {A} (f g : A -> F) l : (forall a, In a l -> f a = g a) -> ksum l f = ksum l g.
  Proof.
    induction l as [|a l IH]; intros H; [reflexivity|]. rewrite !ksum_cons, (H a) by (left; reflexivity).
    rewrite IH; [reflexivity|]. intros b Hb. apply H. right. exact Hb.
  Qed.
  Lemma ksum_plus {A} (f g : A -> F) l : ksum l (fun a => f a + g a) = ksum l f + ksum l g.
  Proof. induction l as [|a l IH]; rewrite ?ksum_nil, ?ksum_cons; [ring|rewrite IH; ring]. Qed.
  Lemma ksum_minus {A} (f g : A -> F) l : ksum l (fun a => f a - g a) = ksum l f - ksum l g.
  Proof. induction l as [|a l IH]; rewrite ?ksum_nil, ?ksum_cons; [ring|rewrite IH; ring]. Qed.
  Lemma ksum_scale_l {A} (f : A -> F) c l : ksum l (fun a => c * f a) = c * ksum l f.
  Proof. induction l as [|a l IH]; rewrite ?ksum_nil, ?ksum_cons; [ring|rewrite IH; ring]. Qed.
  Lemma ksum_scale_r {A} (f : A -> F) c l : ksum l (fun a => f a * c) = ksum l f * c.
  Proof. induction l as [|a l IH]; rewrite ?ksum_nil, ?ksum_cons; [ring|rewrite IH; ring]. Qed.
  Lemma ksum_zero {A} (f : A -> F) l : (forall a, In a l -> f a = 0) -> ksum l f = 0.
  Proof.
    intros H. rewrite (ksum_ext f (fun _ => 0 * 0) l) by (intros a Ha; rewrite H by exact Ha; ring).
    rewrite ksum_scale_l. ring.
  Qed.
  Lemma ksum_map {A B} (g : A -> B) (f : B -> F) l : ksum (map g l) f = ksum l (fun a => f (g a)).
  Proof. induction l as [|a l IH]; [reflexivity|]. cbn [map]. rewrite !ksum_cons, IH. reflexivity. Qed.
  Lemma ksum_flat_map {A B} (g : A -> list B) (f : B -> F) l : ksum (flat_map g l) f = ksum l (fun a => ksum (g a) f).
  Proof. induction l as [|a l IH]; [reflexivity|]. cbn [flat_map]. rewrite ksum_app, ksum_cons, IH. reflexivity. Qed.
  Lemma ksum_swap {A B} (f : A -> B -> F) l m : ksum l (fun a => ksum m (f a)) = ksum m (fun b => ksum l (fun a => f a b)).
  Proof.
    induction l as [|a l IH].
    - rewrite ksum_nil. symmetry. apply ksum_zero. reflexivity.
    - rewrite ksum_cons, IH, <- ksum_plus. apply ksum_ext. intros b _. rewrite ksum_cons. reflexivity.
  Qed.
  Lemma ksum_perm {A} (f : A -> F) l m : Permutation l m -> ksum l f = ksum m f.
  Proof. induction 1; rewrite ?ksum_cons; try congruence; ring. Qed.
  Lemma ksum_filter {A} (p : A -> bool) (f : A -> F) l : ksum (filter p l) f = ksum l (fun a => if p a then f a else 0).
  Proof. induction l as [|a l IH]; [reflexivity|]. cbn [filter]. rewrite ksum_cons. destruct (p a); rewrite ?ksum_cons, IH; [reflexivity|ring]. Qed.
  Lemma ksum_delta {A} (dec : forall a b : A, {a = b} + {a <> b}) (f : A -> F) l a : NoDup l -> In a l ->
    ksum l (fun b => if dec b a then f b else 0) = f a.
  Proof.
    induction l as [|b l IH]; intros HN HI; [destruct HI|]. apply NoDup_cons_iff in HN as [Hb HN]. rewrite ksum_cons.
    destruct (dec b a) as [E|E].
    - rewrite ksum_zero; [rewrite E; ring|]. intros c Hc. destruct (dec c a) as [E'|]; [|reflexivity]. exfalso. apply Hb. rewrite E, <- E'. exact Hc.
    - destruct HI as [HI|HI]; [congruence|]. rewrite IH by assumption. ring.
  Qed.
  Lemma ksum_bij {A B} (f : A -> F) (g : B -> F) (h : A -> B) l m : NoDup l -> NoDup m ->
    (forall a, In a l -> In (h a) m) -> (forall a a', In a l -> In a' l -> h a = h a' -> a = a') ->
    (forall b, In b m -> exists a, In a l /\ h a = b) -> (forall a, In a l -> f a = g (h a)) -> ksum l f = ksum m g.
  Proof.
    intros Hl Hm H1 H2 H3 H4. rewrite (ksum_ext f (fun a => g (h a)) l H4), <- ksum_map. apply ksum_perm. apply NoDup_Permutation.
    - revert H2 Hl. clear. induction l as [|a l IH]; intros H2 HN; [constructor|]. apply NoDup_cons_iff in HN as [Ha HN]. cbn [map]. constructor.
      + intros H. apply in_map_iff in H as (b & E & Hb). apply Ha. rewrite (H2 a b); [exact Hb|left; reflexivity|right; exact Hb|congruence].
      + apply IH; [|exact HN]. intros b c Hb Hc. apply H2; right; assumption.
    - exact Hm.
    - intros b. split.
      + intros H. apply in_map_iff in H as (a & <- & Ha). apply H1. exact Ha.
      + intros H. destruct (H3 b H) as (a & Ha & <-). apply in_map. exact Ha.
  Qed.
  Lemma ksum_mul {A B} (f : A -> F) (g : B -> F) l m : ksum l f * ksum m g = ksum l (fun a => ksum m (fun b => f a * g b)).
  Proof.
    rewrite <- ksum_scale_r. apply ksum_ext. intros a _. rewrite <- ksum_scale_l. reflexivity.
  Qed.
  Lemma ksum_const {A} (c : F) (l : list A) : ksum l (fun _ => c) = kofnat (length l) * c.
  Proof. induction l as [|a l IH]; cbn [length]; rewrite ?ksum_nil, ?ksum_cons, ?kofnat_S, ?kofnat_0; [ring|rewrite IH; ring]. Qed.
  Lemma ksum_opp {A} (f : A -> F) l : ksum l (fun a => - f a) = - ksum l f.
  Proof. induction l as [|a l IH]; rewrite ?ksum_nil, ?ksum_cons; [ring|rewrite IH; ring]. Qed.
  Lemma kprod_cons {A} (f : A -> F) a l : kprod (a :: l) f = f a * kprod l f. Proof. reflexivity. Qed.
  Lemma kprod_app {A} (f : A -> F) l m : kprod (l ++ m) f = kprod l f * kprod m f.
  Proof. induction l as [|a l IH]; cbn [app]; rewrite ?kprod_cons; [unfold kprod at 2; cbn; ring|rewrite IH; ring]. Qed.
  Lemma kprod_ext {A} (f g : A -> F) l : (forall a, In a l -> f a = g a) -> kprod l f = kprod l g.
  Proof.
    induction l as [|a l IH]; intros H; [reflexivity|]. rewrite !kprod_cons, (H a) by (left; reflexivity).
    rewrite IH; [reflexivity|]. intros b Hb. apply H. right. exact Hb.
  Qed.
  Lemma kprod_neq {A} (f : A -> F) l : (forall a, In a l -> f a <> 0) -> kprod l f <> 0.
  Proof.
    induction l as [|a l IH]; intros H; [apply k1_neq_0|]. rewrite kprod_cons. apply kmul_neq; [apply H; left; reflexivity|].
    apply IH. intros b Hb. apply H. right. exact Hb.
  Qed.
  Lemma kprod_zero {A} (f : A -> F) l a : In a l -> f a = 0 -> kprod l f = 0.
  Proof. induction l as [|b l IH]; intros [] E; rewrite kprod_cons; [subst b; rewrite E; ring|rewrite IH by assumption; ring]. Qed.

  (** [x^a], the product of the [x_i ** a_i]. *)
  Fixpoint mpow (x : list F) (a : list nat) : F :=
    match x, a with
    | xi :: x', ai :: a' => kpow xi ai * mpow x' a'
    | _, _ => 1
    end.
  Definition mi_add (a b : list nat) : list nat := map (fun p => fst p + snd p)%nat (combine a b).
  Definition mi_sub (a b : list nat) : list nat := map (fun p => fst p - snd p)%nat (combine a b).
  Lemma mi_add_cons a b l m : mi_add (a :: l) (b :: m) = (a + b)%nat :: mi_add l m. Proof. reflexivity. Qed.
  Lemma mi_sub_cons a b l m : mi_sub (a :: l) (b :: m) = (a - b)%nat :: mi_sub l m. Proof. reflexivity. Qed.
  Lemma mi_add_length a b : length a = length b -> length (mi_add a b) = length a.
  Proof. intros E. unfold mi_add. rewrite map_length, combine_length. lia. Qed.
  Lemma mi_sub_length a b : length a = length b -> length (mi_sub a b) = length a.
  Proof. intros E. unfold mi_sub. rewrite map_length, combine_length. lia. Qed.
  Lemma mi_add_sum a b : length a = length b -> nsum (mi_add a b) = (nsum a + nsum b)%nat.
  Proof.
    revert b. induction a as [|x a IH]; intros [|y b] E; cbn [length] in E; try discriminate; [reflexivity|].
    rewrite mi_add_cons. cbn [nsum fold_right]. fold (nsum (mi_add a b)) (nsum a) (nsum b). rewrite IH by lia. lia.
  Qed.
  Lemma mpow_add (x : list F) a b : length x = length a -> length a = length b -> mpow x (mi_add a b) = mpow x a * mpow x b.
  Proof.
    revert a b. induction x as [|xi x IH]; intros [|ai a] [|bi b] E1 E2; cbn [length] in *; try discriminate.
    - cbn. ring.
    - rewrite mi_add_cons. cbn [mpow]. rewrite kpow_add, IH by lia. ring.
  Qed.
  Lemma mpow_zero (x : list F) n : mpow x (repeat 0%nat n) = 1.
  Proof. revert n. induction x as [|xi x IH]; intros [|n]; cbn [repeat mpow]; try reflexivity. rewrite IH. cbn [kpow]. ring. Qed.
End Field.
Arguments kofnat {F} n : simpl never.
