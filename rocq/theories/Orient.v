(** Orientation: rearrangements of a list with their sign, and the facts about
    simplicial chains that need it (model in Simplicial.v). *)
From Verif Require Import Base MultiIndex MultiIndexFacts MultiCapFacts Permutations PermFacts CycleFacts PermEnum PermMisc Simplicial.

(** [sperm b l m]: [m] is obtained from [l] by an odd ([b = true]) or even
    ([b = false]) number of transpositions of neighbours. *)
Inductive sperm {A : Type} : bool -> list A -> list A -> Prop :=
| sp_nil : sperm false [] []
| sp_skip x b l m : sperm b l m -> sperm b (x :: l) (x :: m)
| sp_swap x y l : sperm true (x :: y :: l) (y :: x :: l)
| sp_trans b c l m n : sperm b l m -> sperm c m n -> sperm (xorb b c) l n.

Definition sgn (b : bool) : Z := if b then (-1)%Z else 1%Z.
Lemma sgn_xorb b c : sgn (xorb b c) = (sgn b * sgn c)%Z.
Proof. destruct b, c; reflexivity. Qed.
Lemma sgn_sq b : (sgn b * sgn b = 1)%Z.
Proof. destruct b; reflexivity. Qed.

Lemma sperm_refl {A} (l : list A) : sperm false l l.
Proof. induction l; constructor; auto. Qed.
Lemma sperm_sym {A} b (l m : list A) : sperm b l m -> sperm b m l.
Proof.
  induction 1; try constructor; auto. rewrite xorb_comm. econstructor; eauto.
Qed.
Lemma sperm_perm {A} b (l m : list A) : sperm b l m -> Permutation l m.
Proof. induction 1; eauto using Permutation. Qed.
Lemma perm_sperm {A} (l m : list A) : Permutation l m -> exists b, sperm b l m.
Proof.
  induction 1 as [|x l m H [b Hb]|x y l|l m n H1 [b Hb] H2 [c Hc]].
  - eexists; constructor.
  - exists b. constructor; auto.
  - exists true. constructor.
  - exists (xorb b c). econstructor; eauto.
Qed.
Lemma sperm_map {A B} (f : A -> B) b l m : sperm b l m -> sperm b (map f l) (map f m).
Proof. induction 1; cbn; try constructor; auto. econstructor; eauto. Qed.
Lemma sperm_app_head {A} (c : list A) b l m : sperm b l m -> sperm b (c ++ l) (c ++ m).
Proof. induction c; cbn; auto. intros. constructor; auto. Qed.
Lemma sperm_app_tail {A} (c : list A) b l m : sperm b l m -> sperm b (l ++ c) (m ++ c).
Proof.
  induction 1; cbn; try constructor; auto. - apply sperm_refl. - econstructor; eauto.
Qed.

Lemma sperm_inversions b l m : sperm b l m -> NoDup l ->
  Nat.odd (inversions m) = xorb b (Nat.odd (inversions l)).
Proof.
  induction 1 as [|x b l m H IH|x y l|b c l m n H1 IH1 H2 IH2]; intros HN.
  - reflexivity.
  - inversion HN; subst. cbn [inversions]. fold (ltc x m) (ltc x l).
    rewrite !Nat.odd_add, IH by assumption. rewrite (ltc_perm x m l) by (symmetry; eapply sperm_perm; eauto).
    destruct b, (Nat.odd (ltc x l)), (Nat.odd (inversions l)); reflexivity.
  - rewrite xorb_true_l. exact (inversions_swap_parity [] x [] y l HN).
  - rewrite IH2, IH1 by eauto using Permutation_NoDup, sperm_perm. destruct b, c, (Nat.odd (inversions l)); reflexivity.
Qed.

(** The sign computed by construct_permutation_general + sign is the sign of
    the rearrangement. *)
Lemma sign_construct_general b dom cod : NoDup dom -> sperm b dom cod ->
  exists p, construct_permutation_general Nat.eqb dom cod true = Ok p /\ sign p = Ok (sgn b).
Proof.
  intros HN H. pose proof (sperm_perm _ _ _ H) as HP.
  destruct (construct_general_spec Nat.eqb Nat.eqb_eq dom cod HN HP) as (p & E & Hp & Hi).
  exists p. split; [exact E|]. rewrite (sign_inversions (length dom)) by exact Hp. f_equal.
  rewrite pow_m1. unfold sgn.
  set (g := fun c => match element_index Nat.eqb dom 0 c with Some k => k | None => 0 end).
  assert (Ep : p = map g cod).
  { unfold construct_permutation_general in E. rewrite (mapM_map _ g) in E.
    - cbn [bind] in E. congruence.
    - intros c Hc. unfold g. destruct (element_index_some Nat.eqb Nat.eqb_eq dom 0 c) as [k Ek].
      + eapply Permutation_in; [symmetry; exact HP|exact Hc].
      + rewrite Ek. reflexivity. }
  assert (Eg : map g dom = seq 0 (length dom)).
  { apply (list_eq_nth 0); [rewrite map_length, seq_length; reflexivity|]. rewrite map_length. intros i Hi'.
    rewrite (nth_map_in g dom i 0) by exact Hi'. rewrite nth_seq0 by exact Hi'. unfold g.
    destruct (element_index_some Nat.eqb Nat.eqb_eq dom 0 (nth i dom 0)) as [k Ek]; [apply nth_In, Hi'|].
    rewrite Ek. apply (element_index_in Nat.eqb Nat.eqb_eq) in Ek as [Hk Hk']. rewrite Nat.sub_0_r in Hk'.
    apply (nth_error_nth _ _ 0) in Hk'. eapply (proj1 (NoDup_nth dom 0) HN); [lia|exact Hi'|exact Hk']. }
  assert (Hs : sperm b (seq 0 (length dom)) p) by (rewrite <- Eg, Ep; apply sperm_map, H).
  rewrite (sperm_inversions _ _ _ Hs) by apply seq_NoDup. rewrite inversions_seq.
  cbn [Nat.odd Nat.even negb]. rewrite xorb_false_r. reflexivity.
Qed.

(** ** swap_last *)
Lemma swap_last_app {A} (l : list A) x y : swap_last (l ++ [x; y]) = Ok (l ++ [y; x]).
Proof. unfold swap_last. rewrite rev_app_distr. cbn. rewrite rev_involutive, <- app_assoc. reflexivity. Qed.
Lemma two_last {A} (l : list A) : 2 <= length l -> exists t x y, l = t ++ [x; y].
Proof.
  intros H. destruct (exists_last (l := l)) as (t & y & ->); [intros ->; cbn in H; lia|].
  rewrite app_length in H. cbn in H.
  destruct (exists_last (l := t)) as (t' & x & ->); [intros ->; cbn in H; lia|].
  exists t', x, y. rewrite <- app_assoc. reflexivity.
Qed.
Lemma swap_last_sperm {A} (l : list A) : 2 <= length l ->
  exists m, swap_last l = Ok m /\ sperm true l m /\ swap_last m = Ok l.
Proof.
  intros H. destruct (two_last l H) as (t & x & y & ->). exists (t ++ [y; x]).
  rewrite !swap_last_app. split; [reflexivity|]. split; [apply sperm_app_head; constructor|reflexivity].
Qed.
Lemma swap_last_short {A} (l : list A) : length l < 2 -> swap_last l = Err IndexError.
Proof. intros H. destruct l as [|x [|y l]]; cbn in *; try lia; reflexivity. Qed.

(** ** The boundary operator on functions of faces *)
(** [bd phi s = sum_i (-1)^i phi (s without its i-th vertex)] *)
Fixpoint bd {A} (phi : list A -> Z) (s : list A) : Z :=
  match s with
  | [] => 0%Z
  | x :: t => (phi t - bd (fun u => phi (x :: u)) t)%Z
  end.

Lemma delete_at_0 {A} (x : A) s : delete_at 0 (x :: s) = s.
Proof. reflexivity. Qed.
Lemma delete_at_S {A} (x : A) s i : delete_at (S i) (x :: s) = x :: delete_at i s.
Proof. reflexivity. Qed.
Lemma delete_at_length {A} (s : list A) i : i < length s -> length (delete_at i s) = length s - 1.
Proof.
  intros H. unfold delete_at. rewrite app_length, firstn_length, skipn_length. lia.
Qed.

Lemma bd_sum {A} (s : list A) : forall phi,
  bd phi s = zsum (map (fun i => ((-1) ^ Z.of_nat i * phi (delete_at i s))%Z) (seq 0 (length s))).
Proof.
  induction s as [|x s IH]; intros phi; [reflexivity|]. cbn [bd length seq map]. rewrite IH.
  unfold zsum. cbn [fold_right]. rewrite delete_at_0. rewrite <- seq_shift, map_map.
  change ((-1) ^ Z.of_nat 0)%Z with 1%Z.
  enough (E : forall l, (- fold_right Z.add 0 (map (fun i => (-1) ^ Z.of_nat i * phi (x :: delete_at i s)) l)
     = fold_right Z.add 0 (map (fun i => (-1) ^ Z.of_nat (S i) * phi (delete_at (S i) (x :: s))) l))%Z).
  { rewrite <- E. ring. }
  induction l as [|i l IHl]; cbn [map fold_right]; [reflexivity|]. rewrite <- IHl, delete_at_S.
  rewrite Nat2Z.inj_succ, Z.pow_succ_r by lia. ring.
Qed.

Lemma bd_ext_in {A} (s : list A) : forall phi psi,
  (forall i, i < length s -> phi (delete_at i s) = psi (delete_at i s)) -> bd phi s = bd psi s.
Proof.
  induction s as [|x s IH]; intros phi psi H; [reflexivity|]. cbn [bd].
  f_equal; [exact (H 0 ltac:(cbn; lia))|]. apply IH. intros i Hi. exact (H (S i) ltac:(cbn; lia)).
Qed.
Lemma bd_sub {A} (s : list A) : forall phi psi, bd (fun t => (phi t - psi t)%Z) s = (bd phi s - bd psi s)%Z.
Proof.
  induction s as [|x s IH]; intros phi psi; [reflexivity|]. cbn [bd].
  rewrite (IH (fun u => phi (x :: u)) (fun u => psi (x :: u))). ring.
Qed.
Lemma bd_opp {A} (s : list A) : forall phi, bd (fun t => (- phi t)%Z) s = (- bd phi s)%Z.
Proof.
  induction s as [|x s IH]; intros phi; [reflexivity|]. cbn [bd]. rewrite (IH (fun u => phi (x :: u))). ring.
Qed.

Lemma bd_bd {A} (s : list A) : forall phi, bd (bd phi) s = 0%Z.
Proof.
  induction s as [|x s IH]; intros phi; [reflexivity|]. cbn [bd].
  rewrite (bd_sub s phi (bd (fun u => phi (x :: u)))). rewrite IH. ring.
Qed.

(** Alternating functions. *)
Definition alternating {A} (phi : list A -> Z) : Prop :=
  forall b l m, sperm b l m -> phi m = (sgn b * phi l)%Z.
Lemma alternating_cons {A} phi (x : A) : alternating phi -> alternating (fun u => phi (x :: u)).
Proof. intros H b l m Hs. apply H. constructor. exact Hs. Qed.
Lemma bd_alternating {A} b (l m : list A) : sperm b l m ->
  forall phi, alternating phi -> bd phi m = (sgn b * bd phi l)%Z.
Proof.
  induction 1 as [|x b l m H IH|x y l|b c l m n H1 IH1 H2 IH2]; intros phi Ha.
  - reflexivity.
  - cbn [bd]. rewrite (Ha _ _ _ H). rewrite (IH (fun u => phi (x :: u))) by (apply alternating_cons, Ha). ring.
  - cbn [bd sgn]. rewrite (bd_ext_in l (fun u => phi (y :: x :: u)) (fun u => (- phi (x :: y :: u))%Z)).
    + rewrite (bd_opp l (fun u => phi (x :: y :: u))). ring.
    + intros i Hi. rewrite (Ha true (x :: y :: delete_at i l) (y :: x :: delete_at i l)); [cbn [sgn]; ring|constructor].
  - rewrite IH2, IH1 by exact Ha. rewrite sgn_xorb. ring.
Qed.
