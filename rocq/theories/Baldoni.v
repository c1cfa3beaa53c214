(** The identities behind the integral of a monomial over a simplex: sums over
    signs (polarization) and over rearrangements of words. *)
From Coq Require Import Permutation Sorting.Sorted.
From Verif Require Import Base MultiIndex MultiIndexFacts MultiCapFacts Permutations Simplicial ChainFacts LocalToGlobalFacts Fld MultiCoef MultiCoefFacts CodeGenFacts IntFacts HasInt PolyFacts.
From Coq Require Import Field_theory Field.

(** All lists of length [q] over [s]. *)
Fixpoint tuples {A} (s : list A) (q : nat) : list (list A) :=
  match q with O => [[]] | S q' => flat_map (fun a => map (cons a) (tuples s q')) s end.
Lemma in_tuples {A} (s : list A) q : forall t, In t (tuples s q) <-> length t = q /\ incl t s.
Proof.
  induction q as [|q IH]; intros t; cbn [tuples].
  - split; [intros [<-|[]]; split; [reflexivity|intros x []]|]. intros [L _]. destruct t; [left; reflexivity|discriminate].
  - rewrite in_flat_map. split.
    + intros (a & Ha & Ht). apply in_map_iff in Ht as (t' & <- & Ht'). apply IH in Ht' as [L I]. split; [cbn [length]; congruence|]. intros x [<-|Hx]; [exact Ha|apply I, Hx].
    + intros [L I]. destruct t as [|a t]; [discriminate|]. exists a. split; [apply I; left; reflexivity|]. apply in_map, IH. split; [cbn [length] in L; congruence|]. intros x Hx. apply I. right. exact Hx.
Qed.
Lemma NoDup_tuples {A} (s : list A) q : NoDup s -> NoDup (tuples s q).
Proof.
  intros Hs. induction q as [|q IH]; cbn [tuples]; [repeat constructor; intros []|]. induction Hs as [|a s Ha Hs IHs]; cbn [flat_map]; [constructor|]. clear IHs.
  assert (G : forall l, NoDup l -> NoDup (flat_map (fun a0 : A => map (cons a0) (tuples (a :: s) q)) l)).
  { induction 1 as [|b l Hb Hl IHl]; cbn [flat_map]; [constructor|]. apply NoDup_app_intro; [apply FinFun.Injective_map_NoDup; [intros x y E; congruence|exact IH]|exact IHl|].
    intros t Ht Ht'. apply in_map_iff in Ht as (u & <- & _). apply in_flat_map in Ht' as (c & Hc & Hu). apply in_map_iff in Hu as (u' & E & _). congruence. }
  apply (G (a :: s)). constructor; assumption.
Qed.

(** Deciding whether one list is a rearrangement of another *)
Definition perm_dec (l m : list nat) : {Permutation l m} + {~ Permutation l m}.
Proof.
  destruct (list_eq_dec Nat.eq_dec (sorted l) (sorted m)) as [E|E]; [left|right]; rewrite <- sorted_eq; assumption.
Defined.

Section Baldoni.
  Context {F : fld}.
  Add Field Kfield57 : (kth F).
  Local Open Scope fld_scope.
  Notation cnt := (count_occ Nat.eq_dec).

  Lemma ksum_flat {A B} (f : B -> F) (g : A -> list B) l : ksum (flat_map g l) f = ksum l (fun a => ksum (g a) f).
  Proof. induction l as [|a l IH]; [reflexivity|]. cbn [flat_map]. rewrite ksum_app, ksum_cons, IH. reflexivity. Qed.
  Lemma ksum_tuples {A} (s : list A) q (f : list A -> F) : ksum (tuples s (S q)) f = ksum s (fun a => ksum (tuples s q) (fun t => f (a :: t))).
  Proof. cbn [tuples]. rewrite ksum_flat. apply ksum_ext. intros a _. apply ksum_map. Qed.

  (** ** Products of sums *)
  Fixpoint wprod {J A} (g : J -> A -> F) (l : list J) (t : list A) : F :=
    match l, t with j :: l', a :: t' => g j a * wprod g l' t' | _, _ => 1 end.
  Lemma prod_sums {J A} (s : list A) (g : J -> A -> F) l : kprod l (fun j => ksum s (g j)) = ksum (tuples s (length l)) (wprod g l).
  Proof.
    induction l as [|j l IH]; [cbn [length tuples]; rewrite ksum_cons, ksum_nil; cbn [wprod]; unfold kprod; cbn [fold_right]; ring|]. cbn [length]. rewrite kprod_cons, ksum_tuples, IH, <- ksum_scale_r. apply ksum_ext. intros a _. symmetry. apply ksum_scale_l.
  Qed.
  Lemma wprod_mul {J A} (g h : J -> A -> F) l : forall t, wprod (fun j a => g j a * h j a) l t = wprod g l t * wprod h l t.
  Proof. induction l as [|j l IH]; intros [|a t]; cbn [wprod]; try ring. rewrite IH. ring. Qed.
  Lemma wprod_ext {J A} (g h : J -> A -> F) l : forall t, (forall j a, In j l -> In a t -> g j a = h j a) -> wprod g l t = wprod h l t.
  Proof. induction l as [|j l IH]; intros [|a t] H; cbn [wprod]; try reflexivity. rewrite (H j a), (IH t) by (try (left; reflexivity); intros; apply H; right; assumption). reflexivity. Qed.
  Lemma wprod_const {J A} (h : A -> F) (l : list J) : forall t, length t = length l -> wprod (fun _ a => h a) l t = kprod t h.
  Proof. induction l as [|j l IH]; intros [|a t] L; cbn [wprod]; try discriminate; [reflexivity|]. rewrite kprod_cons, IH by (cbn [length] in L; congruence). reflexivity. Qed.
  Lemma kprod_mul {A} (f g : A -> F) l : kprod l (fun a => f a * g a) = kprod l f * kprod l g.
  Proof. induction l as [|a l IH]; [unfold kprod; cbn [fold_right]; ring|]. rewrite !kprod_cons, IH. ring. Qed.
  Lemma kprod_one {A} (f : A -> F) l : (forall a, In a l -> f a = 1) -> kprod l f = 1.
  Proof. induction l as [|a l IH]; intros H; [reflexivity|]. rewrite kprod_cons, (H a), IH by (try (left; reflexivity); intros; apply H; right; assumption). ring. Qed.

  (** The product over a word by the number of occurrences of the letters *)
  Lemma kprod_count (h : nat -> F) V : NoDup V -> forall t, incl t V -> kprod t h = kprod V (fun k => kpow (h k) (cnt t k)).
  Proof.
    intros HV. induction t as [|a t IH]; intros HI.
    - cbn [count_occ]. symmetry. apply kprod_one. reflexivity.
    - rewrite kprod_cons, IH by (intros x Hx; apply HI; right; exact Hx). assert (Ha : In a V) by (apply HI; left; reflexivity). clear IH HI.
      induction HV as [|b V Hb HV IH]; [contradiction|]. rewrite !kprod_cons. cbn [count_occ]. destruct (Nat.eq_dec a b) as [E|E].
      + rewrite (kprod_ext (fun k => kpow (h k) (if Nat.eq_dec a k then S (cnt t k) else cnt t k)) (fun k => kpow (h k) (cnt t k)) V).
        * rewrite E. cbn [kpow]. ring.
        * intros k Hk. destruct (Nat.eq_dec a k) as [E'|]; [|reflexivity]. exfalso. apply Hb. rewrite <- E, E'. exact Hk.
      + destruct Ha as [E'|Ha]; [exfalso; apply E; symmetry; exact E'|]. specialize (IH Ha). cbn [count_occ] in IH. rewrite <- IH. ring.
  Qed.

  (** ** Signs *)
  Definition sg (s : bool) : F := if s then - (1) else 1.
  Lemma sg_pow k s : kpow (sg s) k = if s then (if Nat.odd k then - (1) else 1) else 1.
  Proof.
    destruct s; cbn [sg].
    - induction k as [|k IH]; [reflexivity|]. cbn [kpow]. rewrite IH, Nat.odd_succ, <- Nat.negb_odd. destruct (Nat.odd k); cbn [negb]; ring.
    - induction k as [|k IH]; [reflexivity|]. cbn [kpow]. rewrite IH. ring.
  Qed.
  Lemma tuple_prod (phi : nat -> bool -> F) : forall l, ksum (tuples [true; false] (length l)) (fun e => wprod phi l e) = kprod l (fun k => phi k true + phi k false).
  Proof. intros l. rewrite <- prod_sums. apply kprod_ext. intros k _. rewrite !ksum_cons, ksum_nil. ring. Qed.
  Lemma wprod_seq (phi : nat -> bool -> F) d e : forall s, wprod phi (seq s (length e)) e = kprod (seq 0 (length e)) (fun k => phi (s + k)%nat (nth k e d)).
  Proof.
    induction e as [|b e IH]; intros s; cbn [length seq wprod]; [reflexivity|]. rewrite kprod_cons, Nat.add_0_r. cbn [nth]. f_equal. rewrite IH. rewrite <- (seq_shift (length e) 0).
    assert (G : forall (h : nat -> F) l, kprod (map S l) h = kprod l (fun k => h (S k))) by (induction l as [|x l IHl]; [reflexivity|]; cbn [map]; rewrite !kprod_cons, IHl; reflexivity). rewrite G. apply kprod_ext. intros k _. cbn [nth]. replace (s + S k)%nat with (S s + k)%nat by lia. reflexivity.
  Qed.
  Lemma sign_sum q t : In t (tuples (seq 0 q) q) ->
    ksum (tuples [true; false] q) (fun e => kprod e sg * kprod t (fun a => sg (nth a e false))) = if perm_dec t (seq 0 q) then kpow (1 + 1) q else 0.
  Proof.
    intros Ht. apply in_tuples in Ht as [Lt It].
    transitivity (kprod (seq 0 q) (fun k => kpow (sg true) (S (cnt t k)) + kpow (sg false) (S (cnt t k)))).
    - rewrite <- (seq_length q 0) at 1. rewrite <- (tuple_prod (fun k s => kpow (sg s) (S (cnt t k)))). apply ksum_ext. intros e He. apply in_tuples in He as [Le _]. rewrite seq_length in Le.
      rewrite (kprod_count _ (seq 0 q) (seq_NoDup q 0) t It), <- Le, (wprod_seq _ false e 0).
      assert (E : kprod e sg = kprod (seq 0 (length e)) (fun k => sg (nth k e false))).
      { clear. induction e as [|b e IH]; [reflexivity|]. cbn [length seq]. rewrite !kprod_cons. cbn [nth]. f_equal. rewrite IH, <- (seq_shift (length e) 0).
        assert (G : forall (h : nat -> F) l, kprod (map S l) h = kprod l (fun k => h (S k))) by (induction l as [|x l IHl]; [reflexivity|]; cbn [map]; rewrite !kprod_cons, IHl; reflexivity). rewrite G. reflexivity. }
      rewrite E, <- kprod_mul. apply kprod_ext. intros k _. cbn [kpow Nat.add]. reflexivity.
    - destruct (perm_dec t (seq 0 q)) as [HP|HP].
      + rewrite (kprod_ext _ (fun _ => 1 + 1)).
        * clear. induction q as [|q IH]; [reflexivity|]. rewrite seq_S, kprod_app, IH, kprod_cons. unfold kprod. cbn [fold_right kpow]. ring.
        * intros k Hk. assert (E : cnt t k = 1%nat) by (rewrite (proj1 (Permutation_count_occ Nat.eq_dec _ _) HP k); apply NoDup_count_occ'; [apply seq_NoDup|exact Hk]). rewrite E. unfold sg. cbn [kpow]. ring.
      + destruct (existsb (fun k => Nat.even (cnt t k)) (seq 0 q)) eqn:EX.
        * apply existsb_exists in EX as (k & Hk & Ek). apply (kprod_zero _ _ k Hk). rewrite !sg_pow, Nat.odd_succ, Ek. ring.
        * exfalso. apply HP. symmetry. apply NoDup_Permutation_bis; [apply seq_NoDup|rewrite seq_length; lia|]. intros k Hk. apply (count_occ_In Nat.eq_dec). destruct (cnt t k) eqn:Ec; [|lia]. exfalso. assert (existsb (fun k => Nat.even (cnt t k)) (seq 0 q) = true) by (apply existsb_exists; exists k; split; [exact Hk|rewrite Ec; reflexivity]). congruence.
  Qed.
  Theorem polarization {J} (W : nat -> J -> F) (c : list J) :
    ksum (tuples [true; false] (length c)) (fun e => kprod e sg * kprod c (fun j => ksum (seq 0 (length c)) (fun k => sg (nth k e false) * W k j))) =
    kpow (1 + 1) (length c) * ksum (tuples (seq 0 (length c)) (length c)) (fun t => if perm_dec t (seq 0 (length c)) then wprod (fun j k => W k j) c t else 0).
  Proof.
    set (q := length c). rewrite (ksum_ext _ (fun e => ksum (tuples (seq 0 q) q) (fun t => (kprod e sg * kprod t (fun a => sg (nth a e false))) * wprod (fun j k => W k j) c t))).
    - rewrite ksum_swap, <- ksum_scale_l. apply ksum_ext. intros t Ht. rewrite ksum_scale_r, sign_sum by exact Ht. destruct (perm_dec t (seq 0 q)); ring.
    - intros e _. rewrite prod_sums. fold q. rewrite <- ksum_scale_l. apply ksum_ext. intros t Ht. apply in_tuples in Ht as [Lt _]. rewrite wprod_mul, (wprod_const (fun k => sg (nth k e false))) by exact Lt. ring.
  Qed.

  (** ** Rearrangements *)
  Fixpoint perms (k : nat) (P : list nat) : list (list nat) :=
    match k with O => [[]] | S k' => flat_map (fun p => map (cons p) (perms k' (remove Nat.eq_dec p P))) P end.
  (** the number of ways a word is obtained from its sorted letters *)
  Definition alpha (V l : list nat) : F := kprod V (fun v => kofnat (fact (cnt l v))).
  Lemma alpha_perm V l m : Permutation l m -> alpha V l = alpha V m.
  Proof. intros H. unfold alpha. apply kprod_ext. intros v _. rewrite (proj1 (Permutation_count_occ Nat.eq_dec _ _) H v). reflexivity. Qed.
  Lemma alpha_cons V a l : NoDup V -> In a V -> alpha V (a :: l) = kofnat (cnt (a :: l) a) * alpha V l.
  Proof.
    intros HV Ha. unfold alpha. induction HV as [|b V Hb HV IH]; [contradiction|]. rewrite !kprod_cons. destruct (Nat.eq_dec a b) as [E|E].
    - rewrite <- E in Hb |- *. rewrite (kprod_ext _ (fun v => kofnat (fact (cnt l v))) V).
      + cbn [count_occ]. destruct (Nat.eq_dec a a); [|contradiction]. change (fact (S (cnt l a))) with (S (cnt l a) * fact (cnt l a))%nat. rewrite kofnat_mul. ring.
      + intros v Hv. cbn [count_occ]. destruct (Nat.eq_dec a v) as [E'|]; [|reflexivity]. exfalso. apply Hb. rewrite E'. exact Hv.
    - destruct Ha as [E'|Ha]; [exfalso; apply E; symmetry; exact E'|]. rewrite (IH Ha). replace (cnt (a :: l) b) with (cnt l b) by (cbn [count_occ]; destruct (Nat.eq_dec a b); [contradiction|reflexivity]). ring.
  Qed.
  Lemma alpha_neq V l : alpha V l <> 0.
  Proof. unfold alpha. apply kprod_neq. intros v _. apply kofnat_neq. apply fact_neq_0. Qed.
  Lemma remove_perm p P : NoDup P -> In p P -> Permutation P (p :: remove Nat.eq_dec p P) /\ NoDup (remove Nat.eq_dec p P).
  Proof.
    intros HP Hp. assert (N : NoDup (remove Nat.eq_dec p P)).
    { clear Hp. induction HP as [|a P Ha HP IH]; cbn [remove]; [constructor|]. destruct (Nat.eq_dec p a); [exact IH|]. constructor; [|exact IH]. intros H. apply in_remove in H as [H _]. contradiction. }
    split; [|exact N]. apply NoDup_Permutation; [exact HP|constructor; [apply remove_In|exact N]|]. intros x. split.
    - intros Hx. destruct (Nat.eq_dec p x) as [->|E]; [left; reflexivity|right; apply in_in_remove; congruence].
    - intros [<-|Hx]; [exact Hp|apply in_remove in Hx; apply Hx].
  Qed.
  (** a sum over a list by its values *)
  Lemma ksum_values (v : nat -> nat) (g : nat -> F) V : NoDup V -> forall P, incl (map v P) V -> ksum P (fun p => g (v p)) = ksum V (fun a => kofnat (cnt (map v P) a) * g a).
  Proof.
    intros HV. induction P as [|p P IH]; intros HI.
    - rewrite ksum_nil. symmetry. apply ksum_zero. intros a _. cbn [map count_occ]. unfold kofnat. cbn. ring.
    - rewrite ksum_cons, IH by (intros x Hx; apply HI; right; exact Hx). rewrite <- (ksum_delta Nat.eq_dec g V (v p) HV) by (apply HI; left; reflexivity). rewrite <- ksum_plus. apply ksum_ext. intros a _. cbn [map count_occ]. destruct (Nat.eq_dec a (v p)) as [E|E], (Nat.eq_dec (v p) a) as [E'|E']; try (exfalso; congruence); [rewrite kofnat_S; ring|ring].
  Qed.
  Theorem perms_sum (v : nat -> nat) V : NoDup V -> forall k P (H : list nat -> F), NoDup P -> length P = k -> incl (map v P) V ->
    ksum (perms k P) (fun t => H (map v t)) = ksum (tuples V k) (fun f => if perm_dec f (map v P) then alpha V (map v P) * H f else 0).
  Proof.
    intros HV. induction k as [|k IH]; intros P H HP LP HI.
    - destruct P; [|discriminate]. cbn [perms tuples map]. rewrite !ksum_cons, !ksum_nil. cbn [map]. destruct (perm_dec [] []) as [_|N]; [|exfalso; apply N; constructor]. unfold alpha. rewrite kprod_one; [ring|]. intros; cbn; unfold kofnat; cbn; ring.
    - cbn [perms]. rewrite ksum_flat.
      rewrite (ksum_ext _ (fun p => (fun a => ksum (tuples V k) (fun f => if perm_dec (a :: f) (map v P) then alpha V (map v P) / kofnat (cnt (map v P) a) * H (a :: f) else 0)) (v p))).
      + rewrite (ksum_values v (fun a => ksum (tuples V k) (fun f => if perm_dec (a :: f) (map v P) then alpha V (map v P) / kofnat (cnt (map v P) a) * H (a :: f) else 0)) V HV P HI), ksum_tuples. apply ksum_ext. intros a _. rewrite <- ksum_scale_l. apply ksum_ext. intros f _. destruct (perm_dec (a :: f) (map v P)) as [E|E]; [|ring]. field. apply kofnat_neq.
        rewrite <- (proj1 (Permutation_count_occ Nat.eq_dec _ _) E a). cbn [count_occ]. destruct (Nat.eq_dec a a); [discriminate|contradiction].
      + intros p Hp. rewrite ksum_map. destruct (remove_perm p P HP Hp) as [RP RN]. assert (RL : length (remove Nat.eq_dec p P) = k) by (apply Permutation_length in RP; cbn [length] in RP; lia).
        assert (MP : Permutation (map v P) (v p :: map v (remove Nat.eq_dec p P))) by (apply (Permutation_map v) in RP; exact RP).
        transitivity (ksum (perms k (remove Nat.eq_dec p P)) (fun t => (fun f => H (v p :: f)) (map v t))); [reflexivity|]. rewrite (IH _ (fun f => H (v p :: f)) RN RL) by (intros x Hx; apply HI; eapply Permutation_in; [symmetry; exact MP|right; exact Hx]). apply ksum_ext. intros f _.
        destruct (perm_dec f (map v (remove Nat.eq_dec p P))) as [E|E], (perm_dec (v p :: f) (map v P)) as [E'|E'].
        * rewrite (alpha_perm V _ _ MP), alpha_cons by (try exact HV; apply HI, in_map, Hp). rewrite (proj1 (Permutation_count_occ Nat.eq_dec _ _) MP (v p)). field. apply kofnat_neq. cbn [count_occ]. destruct (Nat.eq_dec (v p) (v p)); [discriminate|contradiction].
        * exfalso. apply E'. rewrite MP. constructor. exact E.
        * exfalso. apply E. rewrite MP in E'. apply Permutation_cons_inv in E'. exact E'.
        * reflexivity.
  Qed.
  Lemma alpha_nodup P : NoDup P -> alpha P P = 1.
  Proof. intros HP. unfold alpha. apply kprod_one. intros v Hv. rewrite (proj1 (NoDup_count_occ' Nat.eq_dec P) HP v Hv). cbn. unfold kofnat. cbn. ring. Qed.
  Theorem rearrangements (v : nat -> nat) V q (H : list nat -> F) : NoDup V -> incl (map v (seq 0 q)) V ->
    ksum (tuples (seq 0 q) q) (fun t => if perm_dec t (seq 0 q) then H (map v t) else 0) = ksum (tuples V q) (fun f => if perm_dec f (map v (seq 0 q)) then alpha V (map v (seq 0 q)) * H f else 0).
  Proof.
    intros HV HI. rewrite <- (perms_sum v V HV q (seq 0 q) H (seq_NoDup q 0) (seq_length q 0) HI).
    assert (ID : map (fun x : nat => x) (seq 0 q) = seq 0 q) by apply map_id.
    transitivity (ksum (perms q (seq 0 q)) (fun t => (fun t => H (map v t)) (map (fun x => x) t))).
    - rewrite (perms_sum (fun x => x) (seq 0 q) (seq_NoDup q 0) q (seq 0 q) (fun t => H (map v t)) (seq_NoDup q 0) (seq_length q 0)) by (rewrite ID; apply incl_refl). rewrite ID. apply ksum_ext. intros t _. rewrite alpha_nodup by apply seq_NoDup. destruct (perm_dec t (seq 0 q)); ring.
    - apply ksum_ext. intros t _. cbv beta. rewrite map_id. reflexivity.
  Qed.

  (** ** Non-decreasing words *)
  Lemma nth_map_seq_id (l : list nat) d : map (fun k => nth k l d) (seq 0 (length l)) = l.
  Proof. apply (nth_ext _ _ d d); [rewrite map_length, seq_length; reflexivity|]. intros i Hi. rewrite map_length, seq_length in Hi. rewrite (nth_indep _ d (nth 0 l d)) by (rewrite map_length, seq_length; exact Hi). rewrite (map_nth (fun k => nth k l d)), seq_nth by exact Hi. reflexivity. Qed.
  Theorem sorted_words q n L (H : list nat -> F) : generate_all_non_decreasing q n = Ok L ->
    ksum L (fun i => ksum (tuples (seq 0 q) q) (fun t => if perm_dec t (seq 0 q) then H (map (fun k => nth k i 0%nat) t) else 0)) =
    ksum (tuples (seq 0 (S n)) q) (fun f => alpha (seq 0 (S n)) f * H f).
  Proof.
    intros EL. unfold generate_all_non_decreasing in EL. rewrite generate_all_multi_cap_eq in EL. cbn [bind] in EL. injection EL as <-. set (L := filter is_non_decreasing (all_cap (repeat n q))).
    assert (NL : NoDup L) by (apply NoDup_filter, NoDup_all_cap). assert (IL : forall a, In a L <-> length a = q /\ StronglySorted le a /\ Forall (fun x => (x <= n)%nat) a) by (intros a; apply in_generate_non_decreasing).
    set (V := seq 0 (S n)). assert (IV : forall i, In i L -> map (fun k => nth k i 0%nat) (seq 0 q) = i) by (intros i Hi; apply IL in Hi as [Li _]; rewrite <- Li; apply nth_map_seq_id).
    rewrite (ksum_ext _ (fun i => ksum (tuples V q) (fun f => if perm_dec f i then alpha V f * H f else 0))).
    - rewrite ksum_swap. apply ksum_ext. intros f Hf. apply in_tuples in Hf as [Lf If]. assert (Hs : In (sorted f) L).
      { apply IL. split; [rewrite <- (Permutation_length (sorted_perm f)); exact Lf|]. split; [apply sorted_SS|]. apply Forall_forall. intros x Hx. apply (Permutation_in x (Permutation_sym (sorted_perm f))) in Hx. apply If, in_seq in Hx. lia. }
      refine (eq_trans _ (ksum_delta (list_eq_dec Nat.eq_dec) (fun _ => alpha V f * H f) L (sorted f) NL Hs)). apply ksum_ext. intros i Hi. apply IL in Hi as (Li & Si & _). destruct (perm_dec f i) as [E|E], (list_eq_dec Nat.eq_dec i (sorted f)) as [E'|E']; try reflexivity; exfalso.
      + apply E'. apply (sort_unique_gen le); [intros; lia|exact Si|apply sorted_SS|]. rewrite <- E. apply sorted_perm.
      + apply E. rewrite E'. apply sorted_perm.
    - intros i Hi. rewrite (rearrangements (fun k => nth k i 0%nat) V q H); [|apply seq_NoDup|rewrite IV by exact Hi; apply IL in Hi as (_ & _ & Fi); intros x Hx; apply in_seq; rewrite Forall_forall in Fi; specialize (Fi x Hx); lia].
      rewrite IV by exact Hi. apply ksum_ext. intros f _. destruct (perm_dec f i) as [E|E]; [rewrite (alpha_perm V f i E); reflexivity|reflexivity].
  Qed.
End Baldoni.
