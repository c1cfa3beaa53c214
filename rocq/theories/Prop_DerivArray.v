(** Property C108: the array of all partial derivatives of a given order. *)
From Verif Require Import Base MultiIndex MultiIndexFacts MultiCapFacts Fld CodeGen Poly PolyFacts PolyObj PolyCalls Bases DerivFacts BasesCalls FldInst ExNum DerivArray Prop_MultiIndex.
From Verif Require Permutations PermFacts CycleFacts ChainFacts Prop_Permutations.
From Verif Require Import Simplicial.
From Coq Require Import Permutation Sorted Field_theory Field QArith Qcanon.
Close Scope Qc_scope. Close Scope Q_scope.

Local Lemma Permutations_dec (x y : list nat) : {Permutation x y} + {~ Permutation x y}.
Proof. destruct (list_eq_dec Nat.eq_dec (sorted x) (sorted y)) as [E|E]; [left; apply ChainFacts.sorted_eq, E|right; intros H; apply E, ChainFacts.sorted_eq, H]. Qed.
Local Lemma nodup_map_in (f : nat -> nat) l : (forall x y, In x l -> In y l -> f x = f y -> x = y) -> NoDup l -> NoDup (map f l).
Proof.
  induction l as [|a l IH]; intros HI HN; cbn [map]; constructor; inversion HN; subst.
  - intros H. apply in_map_iff in H as (b & E & Hb). assert (b = a) by (apply HI; [now right|now left|exact E]). subst b. contradiction.
  - apply IH; [|assumption]. intros x y Hx Hy. apply HI; now right.
Qed.
(** ** the permutations of a tuple *)
Theorem C108_unique_permutations : forall order t, (forall l, Permutation (order l) l) -> t <> [] ->
  exists l, unique_permutations order t = Ok l /\ NoDup l /\ forall s, In s l <-> Permutation t s.
Proof.
  intros order t HO Ht. set (n := length t). assert (Hn : (0 < n)%nat) by (unfold n; destruct t; [contradiction|cbn; lia]).
  destruct (Prop_Permutations.C15_permutations_complete n Hn) as (_ & HP & _).
  set (g := fun s => match Permutations.permute_positions s t with Ok x => x | Err _ => [] end).
  assert (HG : forall s, Permutation (seq 0 n) s -> Permutations.permute_positions s t = Ok (g s) /\ length (g s) = n /\ forall i, (i < n)%nat -> nth (nth i s 0%nat) (g s) 0%nat = nth i t 0%nat).
  { intros s Hs. destruct (Prop_Permutations.C18_permute_positions nat 0%nat n s t Hn Hs eq_refl) as (s' & E & L & N & _). unfold g. rewrite E. auto. }
  exists (order (nodup (list_eq_dec Nat.eq_dec) (map g (Permutations.permutations n)))). split.
  { unfold unique_permutations. rewrite (PolyFacts.mapM_ok _ g); [reflexivity|]. intros s Hs. apply HP in Hs. apply HG, Hs. }
  split; [eapply Permutation_NoDup; [symmetry; apply HO|apply NoDup_nodup]|].
  intros s. assert (E : In s (order (nodup (list_eq_dec Nat.eq_dec) (map g (Permutations.permutations n)))) <-> In s (map g (Permutations.permutations n))).
  { split; intros H; [apply (Permutation_in _ (HO _)), nodup_In in H; exact H|apply (Permutation_in _ (Permutation_sym (HO _))), nodup_In, H]. }
  rewrite E. clear E. rewrite in_map_iff. split.
  - intros (u & <- & Hu). apply HP in Hu. destruct (HG u Hu) as (_ & L & N). 
    assert (ET : t = map (fun k => nth k (g u) 0%nat) u).
    { assert (Lu : length u = n) by (rewrite <- (Permutation_length Hu); apply seq_length). transitivity (map (fun i => nth i t 0%nat) (seq 0 n)); [symmetry; apply CycleFacts.map_nth_seq|].
      transitivity (map (fun k => nth k (g u) 0%nat) (map (fun i => nth i u 0%nat) (seq 0 (length u)))); [|rewrite CycleFacts.map_nth_seq; reflexivity].
      rewrite map_map, Lu. apply map_ext_in. intros i Hi. apply in_seq in Hi. symmetry. apply N. lia. }
    rewrite ET. transitivity (map (fun k => nth k (g u) 0%nat) (seq 0 (length (g u)))); [|rewrite CycleFacts.map_nth_seq; reflexivity]. rewrite L. apply Permutation_map. symmetry. exact Hu.
  - intros HPs. apply Permutation_sym in HPs. apply (Permutation_nth _ _ 0%nat) in HPs as (L & f & Hb & Hi & Hf).
    assert (Ls : length s = n) by (unfold n; symmetry; exact L). exists (map f (seq 0 n)).
    assert (HU : Permutation (seq 0 n) (map f (seq 0 n))).
    { apply PermFacts.is_perm_intro; [rewrite map_length; apply seq_length| |].
      - apply nodup_map_in; [|apply seq_NoDup]. intros x y Hx Hy E. apply in_seq in Hx, Hy. apply Hi; [lia|lia|exact E].
      - intros i H. apply in_map_iff in H as (k & <- & Hk). apply in_seq in Hk. rewrite <- Ls. apply Hb. lia. }
    destruct (HG _ HU) as (_ & L' & N). split; [|apply HP, HU]. apply (list_eq_nth 0%nat); [congruence|]. rewrite L'. intros k Hk.
    assert (X : In k (map f (seq 0 n))) by (apply (Permutation_in _ HU), in_seq; lia). apply in_map_iff in X as (i & <- & Hi'). apply in_seq in Hi'.
    specialize (N i ltac:(lia)). rewrite (map_nth_map _ _ 0%nat) in N by (rewrite seq_length; lia). rewrite seq_nth in N by lia. cbn [Nat.add] in N. rewrite N. apply Hf. lia.
Qed.
Print Assumptions C108_unique_permutations.
Example C108_permutations_ex : (exists l, unique_permutations (fun l => l) [0; 0; 1]%nat = Ok l /\ length l = 3%nat) /\ forall l : list (list nat), Permutation ((fun l => l) l) l.
Proof. split; [|reflexivity]. eexists. split; vm_compute; reflexivity. Qed.
(** for the empty tuple no permutation is listed, although there is one *)
Theorem C108_empty_refuted : exists t, forall order, Permutation (order []) [] -> unique_permutations order t = Ok [] /\ Permutation t [].
Proof. exists []. intros order H. split; [|constructor]. apply Permutation_sym, Permutation_nil in H. unfold unique_permutations. cbn. f_equal. exact H. Qed.
Print Assumptions C108_empty_refuted.
Example C108_empty_ex : Permutation ((fun l : list (list nat) => l) []) []. Proof. constructor. Qed.

(** ** the array *)
Section Array.
  Context {F : fld}.
  Lemma count_index_ok m i : (forall k, In k i -> (k < m)%nat) -> exists alpha, count_index m i = Ok alpha /\ length alpha = m /\ forall k, count_occ Nat.eq_dec i k = nth k alpha 0%nat.
  Proof.
    intros H. unfold count_index, zero_multiindex.
    assert (G : forall b, length b = m -> exists alpha, foldM (fun alpha k => let* a := get alpha k in set alpha k (a + 1)%nat) b i = Ok alpha /\ length alpha = m /\ forall k, nth k alpha 0%nat = (nth k b 0 + count_occ Nat.eq_dec i k)%nat).
    { induction i as [|k i IH]; intros b Lb; [exists b; cbn; split; [reflexivity|]; split; [exact Lb|]; intros; lia|].
      cbn [foldM]. pose proof (H k ltac:(now left)) as Hk. rewrite (PermFacts.get_ok _ _ 0%nat) by lia. cbn [bind]. rewrite PermFacts.set_ok by lia. cbn [bind].
      destruct (IH ltac:(intros; apply H; now right) (upd b k (nth k b 0 + 1)%nat)) as (alpha & E & L & N); [rewrite upd_length; exact Lb|]. exists alpha. split; [exact E|]. split; [exact L|]. intros j. rewrite N. cbn [count_occ].
      destruct (Nat.eq_dec k j) as [ <- |D]; [rewrite nth_upd_same by lia; lia|rewrite nth_upd_other by exact D; lia]. }
    destruct (G (repeat 0%nat m) (repeat_length _ _)) as (alpha & E & L & N). exists alpha. split; [exact E|]. split; [exact L|]. intros k. rewrite N, nth_repeat. lia.
  Qed.
  Definition entry (p : poly F) (i : list nat) : poly F := match foldM partial_derivative p i with Ok q => q | Err _ => p end.
  Lemma nd_get_sets m r (a : poly F) l : (forall i, In i l -> length i = r /\ Forall (fun k => (k < m)%nat) i) -> forall d, exists d', foldM (fun d ip => nd_set m r d ip a) d l = Ok d' /\
    forall i, nd_get d' i = if in_dec (list_eq_dec Nat.eq_dec) i l then Some a else nd_get d i.
  Proof.
    intros H. induction l as [|x l IH]; intros d; [exists d; split; reflexivity|]. cbn [foldM]. unfold nd_set at 1. destruct (H x ltac:(now left)) as [L B].
    replace ((length x =? r)%nat && forallb (fun k => (k <? m)%nat) x) with true by (symmetry; apply andb_true_intro; split; [apply Nat.eqb_eq, L|apply forallb_forall; intros k Hk; rewrite Forall_forall in B; apply Nat.ltb_lt, B, Hk]). cbn [bind].
    destruct (IH ltac:(intros; apply H; now right) ((x, a) :: d)) as (d' & E & N). exists d'. split; [exact E|]. intros i. rewrite N. cbn [nd_get].
    destruct (in_dec _ i l) as [I|I]; destruct (in_dec _ i (x :: l)) as [J|J]; try reflexivity; [destruct J; now right| |]; destruct (list_eq_dec Nat.eq_dec x i) as [D|D]; try reflexivity; [destruct J as [J|J]; contradiction|destruct J; now left].
  Qed.
  Lemma order_irrelevant b m r (p : poly F) i : poly_of b m 1 r p -> (forall k, In k i -> (k < m)%nat) -> foldM partial_derivative p i = Ok (entry p i) /\ poly_of b m 1 (r - length i) (entry p i) /\
    (exists alpha, count_index m i = Ok alpha /\ derivative p alpha = Ok (entry p i)) /\ forall j, Permutation i j -> entry p j = entry p i.
  Proof.
    intros Hp Hi. destruct (count_index_ok m i Hi) as (alpha & E & L & N).
    destruct (derivative_any_order b m 1 r p alpha i Hp L Hi N) as (q & q' & Eq & Eq' & Hq & ->).
    assert (En : entry p i = q) by (unfold entry; rewrite Eq'; reflexivity). rewrite En. split; [exact Eq'|]. split.
    { replace (length i) with (list_sum alpha); [exact Hq|]. clear - N L Hi. subst m. revert alpha Hi N. induction i as [|k i IH]; intros alpha Hi N.
      - cbn [length]. cbn [count_occ] in N. clear Hi. induction alpha as [|a alpha IH]; [reflexivity|]. cbn [list_sum fold_right]. pose proof (N 0%nat) as N0. cbn in N0. change (a + list_sum alpha = 0)%nat. rewrite <- N0, IH; [reflexivity|]. intros k. exact (N (S k)).
      - pose proof (Hi k ltac:(now left)) as Hk. pose proof (N k) as Nk. cbn [count_occ] in Nk. destruct (Nat.eq_dec k k) as [_|X]; [|contradiction].
        assert (S1 : forall (al : list nat) k v, (k < length al)%nat -> list_sum (upd al k v) + nth k al 0 = list_sum al + v).
        { clear. induction al as [|a al IH]; intros [|k] v Hk; cbn in *; try lia. pose proof (IH k v ltac:(lia)) as X. unfold list_sum in X |- *. lia. }
        pose proof (S1 alpha k (count_occ Nat.eq_dec i k) Hk) as SS. specialize (IH (upd alpha k (count_occ Nat.eq_dec i k))). rewrite upd_length in IH. cbn [length]. rewrite <- IH; [lia|intros; apply Hi; now right|].
        intros j. destruct (Nat.eq_dec k j) as [ <- |D]; [rewrite nth_upd_same by exact Hk; reflexivity|rewrite nth_upd_other by exact D; rewrite <- N; cbn [count_occ]; destruct (Nat.eq_dec k j); [contradiction|reflexivity]]. }
    split; [exists alpha; split; [exact E|exact Eq]|]. intros j HP.
    destruct (derivative_any_order b m 1 r p alpha j Hp L) as (u & u' & Eu & Eu' & _ & ->).
    { intros k Hk. apply Hi. apply (Permutation_in _ (Permutation_sym HP)), Hk. }
    { intros k. rewrite <- N. symmetry. apply Permutation_count_occ. exact HP. }
    unfold entry. rewrite Eu'. congruence.
  Qed.
  Lemma array_ok order b m r (p : poly F) k : (forall l, Permutation (order l) l) -> poly_of b m 1 r p -> (0 < m)%nat -> (0 < k)%nat ->
    exists d, partial_derivatives_array order p (Z.of_nat k) = Ok (Array d) /\
      forall i, (length i = k /\ Forall (fun x => (x < m)%nat) i -> nd_get d i = Some (entry p i)) /\ (~ (length i = k /\ Forall (fun x => (x < m)%nat) i) -> nd_get d i = None).
  Proof.
    intros HO Hp Hm Hk. pose proof Hp as (_ & _ & Dm & Dt & _). unfold partial_derivatives_array. rewrite Dm, Dt. cbn [Nat.eqb assert_ bind].
    replace (0 <=? Z.of_nat k)%Z with true by (symmetry; apply Z.leb_le; lia). cbn [assert_ bind]. replace (Z.of_nat k =? 0)%Z with false by (symmetry; apply Z.eqb_neq; lia). cbv zeta. rewrite Nat2Z.id.
    destruct (C08_non_decreasing_complete k (m - 1)) as (L & EL & _ & IL & _). rewrite EL. cbn [bind].
    assert (BL : forall i, In i L -> length i = k /\ Forall (fun x => (x < m)%nat) i).
    { intros i Hi. apply IL in Hi as (H1 & H2 & _). split; [exact H1|]. revert H2. apply Forall_impl. intros; lia. }
    assert (G : forall L', incl L' L -> forall d0, exists d, foldM (fun d i => let* alpha := count_index m i in let* pd := derivative p alpha in let* ips := unique_permutations order i in foldM (fun d ip => nd_set m k d ip pd) d ips) d0 L' = Ok d /\
       forall i, ((exists j, In j L' /\ Permutation j i) -> nd_get d i = Some (entry p i)) /\ (~ (exists j, In j L' /\ Permutation j i) -> nd_get d i = nd_get d0 i)).
    { induction L' as [|j L' IH]; intros Hin d0.
      { exists d0. split; [reflexivity|]. intros i. split; [intros (j & [] & _)|reflexivity]. }
      destruct (BL j ltac:(apply Hin; now left)) as [Lj Bj]. cbn [foldM].
      assert (Bj' : forall x, In x j -> (x < m)%nat) by (rewrite Forall_forall in Bj; exact Bj).
      destruct (order_irrelevant b m r p j Hp Bj') as (_ & _ & (alpha & Ea & Ed) & HPj). rewrite Ea. cbn [bind]. rewrite Ed. cbn [bind].
      destruct (C108_unique_permutations order j HO) as (ips & Ei & _ & Ii); [destruct j; [cbn in Lj; lia|discriminate]|]. rewrite Ei. cbn [bind].
      destruct (nd_get_sets m k (entry p j) ips) with (d := d0) as (d1 & E1 & N1).
      { intros i Hi. apply Ii in Hi. split; [rewrite <- (Permutation_length Hi); exact Lj|]. apply Forall_forall. intros x Hx. apply Bj', (Permutation_in _ (Permutation_sym Hi)), Hx. }
      rewrite E1. cbn [bind]. destruct (IH ltac:(intros x Hx; apply Hin; now right) d1) as (d & E & N). exists d. split; [exact E|]. intros i. destruct (N i) as [NA NB].
      destruct (in_dec (list_eq_dec Nat.eq_dec) i ips) as [I|I].
      - assert (HP : Permutation j i) by (apply Ii, I). split; [|intros X; destruct X; exists j; split; [now left|exact HP]]. intros _.
        assert (D1 : nd_get d1 i = Some (entry p i)) by (rewrite N1; destruct (in_dec _ i ips); [f_equal; symmetry; apply HPj, HP|contradiction]).
        assert (Dec : (exists j', In j' L' /\ Permutation j' i) \/ ~ (exists j', In j' L' /\ Permutation j' i)).
        { destruct (Exists_dec (fun j' => Permutation j' i) L') as [X|X]; [intros x; destruct (Permutations_dec x i); auto|left; apply Exists_exists in X; exact X|right; rewrite Exists_exists in X; exact X]. }
        destruct Dec as [X|X]; [apply NA, X|rewrite NB by exact X; exact D1].
      - assert (HP : ~ Permutation j i) by (intros X; apply I, Ii, X). split.
        + intros (j' & [ <- |Hj'] & X); [contradiction|]. apply NA. exists j'. auto.
        + intros X. rewrite NB; [|intros (j' & Hj' & Y); apply X; exists j'; split; [now right|exact Y]]. rewrite N1. destruct (in_dec _ i ips); [contradiction|reflexivity]. }
    destruct (G L (incl_refl L) []) as (d & Ed & N). rewrite Ed. cbn [bind]. exists d. split; [reflexivity|]. intros i. destruct (N i) as [NA NB]. split.
    - intros [Li Bi]. apply NA. exists (sorted i). split; [|symmetry; apply ChainFacts.sorted_perm]. apply IL. split; [rewrite <- (Permutation_length (ChainFacts.sorted_perm i)); exact Li|]. split.
      + apply Forall_forall. intros x Hx. apply (Permutation_in _ (Permutation_sym (ChainFacts.sorted_perm i))) in Hx. rewrite Forall_forall in Bi. specialize (Bi x Hx). cbv beta in Bi. lia.
      + intros a c Hac. apply (StronglySorted_nth le); [apply ChainFacts.sorted_SS|lia|rewrite <- (Permutation_length (ChainFacts.sorted_perm i)); lia].
    - intros X. rewrite NB; [reflexivity|]. intros (j & Hj & HP). apply X. destruct (BL j Hj) as [Lj Bj]. split; [rewrite <- (Permutation_length HP); exact Lj|]. apply Forall_forall. intros x Hx. rewrite Forall_forall in Bj. apply Bj, (Permutation_in _ (Permutation_sym HP)), Hx.
  Qed.
End Array.
(** every entry is the derivative with respect to the variables of its index, in any order *)
Theorem C108_array : forall (F : fld) order b m r (p : poly F) k, (forall l, Permutation (order l) l) -> poly_of b m 1 r p -> (0 < m)%nat -> (0 < k)%nat ->
  exists d, partial_derivatives_array order p (Z.of_nat k) = Ok (Array d) /\
    (forall i, length i = k -> (forall x, In x i -> (x < m)%nat) -> exists q, nd_get d i = Some q /\ foldM partial_derivative p i = Ok q /\ poly_of b m 1 (r - k) q /\ forall j, Permutation i j -> nd_get d j = Some q) /\
    (forall i, length i <> k \/ (exists x, In x i /\ (m <= x)%nat) -> nd_get d i = None).
Proof.
  intros F order b m r p k HO Hp Hm Hk. destruct (array_ok order b m r p k HO Hp Hm Hk) as (d & E & N). exists d. split; [exact E|]. split.
  - intros i Li Bi. destruct (order_irrelevant b m r p i Hp Bi) as (A & B & _ & C). exists (entry p i). split; [apply N; split; [exact Li|apply Forall_forall, Bi]|]. split; [exact A|]. split; [rewrite <- Li; exact B|].
    intros j HP. rewrite <- (C j HP). apply N. split; [rewrite <- (Permutation_length HP); exact Li|]. apply Forall_forall. intros x Hx. apply Bi, (Permutation_in _ (Permutation_sym HP)), Hx.
  - intros i H. apply N. intros [A B]. destruct H as [H|(x & Hx & H)]; [contradiction|]. rewrite Forall_forall in B. specialize (B x Hx). cbv beta in B. lia.
Qed.
Print Assumptions C108_array.
(** order one is the gradient, order two the Hessian *)
Theorem C108_gradient : forall (F : fld) order b m r (p : poly F), (forall l, Permutation (order l) l) -> poly_of b m 1 r p -> (0 < m)%nat ->
  exists d g, partial_derivatives_array order p 1 = Ok (Array d) /\ gradient1 p = Ok g /\ forall i, nd_get d [i] = nth_error g i.
Proof.
  intros F order b m r p HO Hp Hm. destruct (array_ok order b m r p 1 HO Hp Hm ltac:(lia)) as (d & E & N). exists d, (map (fun i => entry p [i]) (seq 0 m)). split; [exact E|].
  assert (A : forall i, (i < m)%nat -> partial_derivative p i = Ok (entry p [i])).
  { intros i Hi. destruct (order_irrelevant b m r p [i] Hp) as (A & _); [intros k [ <- |[]]; exact Hi|]. cbn [foldM] in A. destruct (partial_derivative p i); [exact A|discriminate]. }
  split.
  - unfold gradient1. pose proof Hp as (_ & _ & -> & _). apply PolyFacts.mapM_ok. intros i Hi. apply in_seq in Hi. apply A. lia.
  - intros i. destruct (Nat.lt_ge_cases i m) as [Hi|Hi].
    + rewrite (proj1 (N [i])) by (split; [reflexivity|constructor; [exact Hi|constructor]]). symmetry. rewrite nth_error_map, (nth_error_nth' _ 0%nat) by (rewrite seq_length; exact Hi). rewrite seq_nth by exact Hi. reflexivity.
    + rewrite (proj2 (N [i])) by (intros [_ X]; inversion X; lia). symmetry. apply nth_error_None. rewrite map_length, seq_length. exact Hi.
Qed.
Print Assumptions C108_gradient.
Theorem C108_hessian : forall (F : fld) order b m r (p : poly F), (forall l, Permutation (order l) l) -> poly_of b m 1 r p -> (0 < m)%nat ->
  exists d h, partial_derivatives_array order p 2 = Ok (Array d) /\ hessian p = Ok h /\ forall i j, (i < m)%nat -> (j < m)%nat -> nd_get d [i; j] <> None /\ nd_get d [i; j] = nth_error (nth i h []) j.
Proof.
  intros F order b m r p HO Hp Hm. destruct (array_ok order b m r p 2 HO Hp Hm ltac:(lia)) as (d & E & N). destruct (hessian_ok b m r p Hp) as (h & Eh & _ & _ & Nh). exists d, h. split; [exact E|]. split; [exact Eh|].
  intros i j Hi Hj. destruct (Nh i j Hi Hj) as (q & E1 & _ & E2). assert (B : forall k, In k [i; j] -> (k < m)%nat) by (intros k [ <- |[ <- |[]]]; assumption).
  rewrite (proj1 (N [i; j])) by (split; [reflexivity|apply Forall_forall, B]). split; [discriminate|]. rewrite E1. f_equal. destruct (order_irrelevant b m r p [i; j] Hp B) as (A & _). cbn [foldM] in A.
  destruct (partial_derivative p i) as [t|]; [|discriminate]. cbn [bind] in *. rewrite E2 in A. cbn [bind] in A. congruence.
Qed.
Print Assumptions C108_hessian.
Theorem C108_errors : forall (F : fld) order (p : poly F) k, (target_dimension p <> 1%nat \/ (k < 0)%Z -> partial_derivatives_array order p k = Err AssertionError) /\
  (target_dimension p = 1%nat -> partial_derivatives_array order p 0 = Ok (Whole p)).
Proof.
  intros F order p k. split.
  - intros H. unfold partial_derivatives_array. destruct (Nat.eqb_spec (target_dimension p) 1) as [E|E]; [|reflexivity]. destruct H as [H|H]; [contradiction|]. cbn [assert_ bind]. destruct (Z.leb_spec 0 k); [lia|reflexivity].
  - intros H. unfold partial_derivatives_array. rewrite H. reflexivity.
Qed.
Print Assumptions C108_errors.
(** third derivatives of x^2 y *)
Example C108_ex :
  match new_poly (F := QcF) Monomial [[rat 0 1; rat 0 1; rat 0 1; rat 0 1; rat 0 1; rat 0 1; rat 1 1; rat 0 1; rat 0 1; rat 0 1]] (Some 3%nat) 2 with
  | Ok p => match partial_derivatives_array (fun l => l) p 3 with
            | Ok (Array d) => map (fun i => option_map (fun q => map (map (fun c : QcF => Qcanon.this c)) (p_cols q)) (nd_get d i)) [[0; 0; 1]; [0; 1; 0]; [1; 0; 0]; [0; 0; 0]; [1; 1; 0]; [0; 2; 0]]%nat
            | _ => [] end
  | Err _ => [] end = [Some [[2]]; Some [[2]]; Some [[2]]; Some [[0]]; Some [[0]]; None]%Q.
Proof. vm_compute. reflexivity. Qed.
