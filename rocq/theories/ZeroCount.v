(** The number of zeros of a polynomial on a grid: a polynomial of degree at
    most r in n variables that is not zero vanishes in at most r |G|^(n-1) of
    the points of G^n. *)
From Coq Require Import Reals Lia.
From Coq Require Import Field_theory Field.
From Verif Require Import Base MultiIndex MultiIndexFacts MultiCapFacts Fld MultiCoefFacts Unisolv Poly PolyFacts LagFacts PolyObj SubstFacts SamplingFacts.
Local Open Scope nat_scope.

Definition sumn {A} (f : A -> nat) (l : list A) : nat := fold_right Nat.add 0 (map f l).
Lemma sumn_cons {A} (f : A -> nat) a l : sumn f (a :: l) = f a + sumn f l. Proof. reflexivity. Qed.
Lemma sumn_app {A} (f : A -> nat) l m : sumn f (l ++ m) = sumn f l + sumn f m.
Proof. induction l as [|a l IH]; [reflexivity|]. cbn [app]. rewrite !sumn_cons, IH. lia. Qed.
Lemma sumn_flat_map {A B} (f : B -> nat) (g : A -> list B) l : sumn f (flat_map g l) = sumn (fun a => sumn f (g a)) l.
Proof. induction l as [|a l IH]; [reflexivity|]. cbn [flat_map]. rewrite sumn_app, IH. reflexivity. Qed.
Lemma sumn_map {A B} (f : B -> nat) (g : A -> B) l : sumn f (map g l) = sumn (fun a => f (g a)) l.
Proof. unfold sumn. rewrite map_map. reflexivity. Qed.
Lemma sumn_plus {A} (f g : A -> nat) l : sumn (fun a => f a + g a) l = sumn f l + sumn g l.
Proof. induction l as [|a l IH]; [reflexivity|]. rewrite !sumn_cons, IH. lia. Qed.
Lemma sumn_0 {A} (l : list A) : sumn (fun _ => 0) l = 0. Proof. induction l as [|a l IH]; [reflexivity|]. rewrite sumn_cons, IH. reflexivity. Qed.
Lemma sumn_swap {A B} (f : A -> B -> nat) l m : sumn (fun a => sumn (f a) m) l = sumn (fun b => sumn (fun a => f a b) l) m.
Proof. induction l as [|a l IH]; [symmetry; apply sumn_0|]. rewrite sumn_cons, IH, <- sumn_plus. reflexivity. Qed.
Lemma sumn_le {A} (f g : A -> nat) l : (forall a, In a l -> f a <= g a) -> sumn f l <= sumn g l.
Proof. induction l as [|a l IH]; intros H; [apply le_n|]. rewrite !sumn_cons. apply Nat.add_le_mono; [apply H; left; reflexivity|apply IH; intros; apply H; right; assumption]. Qed.
Lemma sumn_ext {A} (f g : A -> nat) l : (forall a, In a l -> f a = g a) -> sumn f l = sumn g l.
Proof. induction l as [|a l IH]; intros H; [reflexivity|]. rewrite !sumn_cons. f_equal; [apply H; left; reflexivity|apply IH; intros; apply H; right; assumption]. Qed.
Lemma sumn_const {A} k (l : list A) : sumn (fun _ => k) l = k * length l.
Proof. induction l as [|a l IH]; [cbn; lia|]. rewrite sumn_cons, IH. cbn [length]. lia. Qed.
Lemma sumn_scale {A} k (f : A -> nat) l : sumn (fun a => k * f a) l = k * sumn f l.
Proof. induction l as [|a l IH]; [cbn; lia|]. rewrite !sumn_cons, IH. lia. Qed.
Lemma count_sumn {A} (p : A -> bool) l : count p l = sumn (fun a => if p a then 1 else 0) l.
Proof. unfold count. induction l as [|a l IH]; [reflexivity|]. cbn [filter]. rewrite sumn_cons, <- IH. destruct (p a); reflexivity. Qed.
Lemma tuples_length {A} (l : list A) t : length (tuples l t) = length l ^ t.
Proof.
  induction t as [|t IH]; [reflexivity|]. cbn [tuples Nat.pow]. rewrite flat_map_concat_map, <- IH. generalize (tuples l t). intros T. clear. induction l as [|a l IH]; [reflexivity|]. cbn [map concat length]. rewrite app_length, map_length, IH. lia.
Qed.
(** counting the second part first *)
Lemma count_tuples_S {A} (p : list A -> bool) (G : list A) n : count p (tuples G (S n)) = sumn (fun y => count (fun x => p (x :: y)) G) (tuples G n).
Proof.
  rewrite count_sumn. cbn [tuples]. rewrite sumn_flat_map. transitivity (sumn (fun x => sumn (fun y => if p (x :: y) then 1 else 0) (tuples G n)) G).
  - apply sumn_ext. intros x _. apply sumn_map.
  - rewrite sumn_swap. apply sumn_ext. intros y _. symmetry. apply count_sumn.
Qed.
(** tuples all of whose entries satisfy a condition *)
Lemma count_forallb {A} (p : A -> bool) (G : list A) t : count (forallb p) (tuples G t) = count p G ^ t.
Proof.
  induction t as [|t IH]; [reflexivity|]. rewrite count_tuples_S. cbn [forallb Nat.pow]. rewrite <- IH. transitivity (sumn (fun y => count p G * (if forallb p y then 1 else 0)) (tuples G t)).
  - apply sumn_ext. intros y _. destruct (forallb p y).
    + rewrite Nat.mul_1_r. apply count_ext. intros x _. apply Bool.andb_true_r.
    + rewrite Nat.mul_0_r. apply count_false. intros x _. apply Bool.andb_false_r.
  - rewrite sumn_scale, <- count_sumn. reflexivity.
Qed.
Lemma count_le {A} (p q : A -> bool) l : (forall x, In x l -> p x = true -> q x = true) -> count p l <= count q l.
Proof. intros H. rewrite !count_sumn. apply sumn_le. intros x Hx. specialize (H x Hx). destruct (p x), (q x); try lia; discriminate (H eq_refl). Qed.
Lemma count_length {A} (p : A -> bool) l : count p l <= length l.
Proof. unfold count. induction l as [|a l IH]; [apply le_n|]. cbn [filter]. destruct (p a); cbn [length]; lia. Qed.

Section Zeros.
  Context {F : fld}.
  Add Field Kfield83 : (kth F).
  Local Open Scope fld_scope.
  Definition kzero (x : F) : bool := if kdec x 0 then true else false.
  Lemma kzero_spec x : kzero x = true <-> x = 0. Proof. unfold kzero. destruct (kdec x 0); split; congruence. Qed.

  (** A univariate polynomial has fewer zeros than coefficients. *)
  Lemma roots_lt (L : list F) : NoDup L -> forall g, ~ zeros g -> (forall x, In x L -> uval g x = 0) -> (length L < length g)%nat.
  Proof.
    induction L as [|c L IH]; intros N g Hg H.
    - destruct g; [destruct Hg; intros v []|cbn; lia].
    - inversion N as [|? ? Nc N']; subst. assert (L1 : (length L < length (sdiv c g))%nat).
      { apply IH; [exact N'| |].
        - intros Z. apply Hg. apply (sdiv_zeros c); [apply H; left; reflexivity|exact Z].
        - intros x Hx. pose proof (sdiv_val c g x) as E. rewrite (H x) in E by (right; exact Hx). rewrite (H c) in E by (left; reflexivity).
          assert (E' : (x - c) * uval (sdiv c g) x = 0) by (rewrite E; ring). apply kmul_integral in E' as [E'|E']; [|exact E']. apply ksub_eq_0 in E'. subst x. contradiction. }
      rewrite sdiv_length in L1. cbn [length]. lia.
  Qed.
  Lemma roots_count (G : list F) g : NoDup G -> ~ zeros g -> (count (fun x => kzero (uval g x)) G < length g)%nat.
  Proof.
    intros N Hg. apply (roots_lt (filter (fun x => kzero (uval g x)) G)); [apply NoDup_filter, N|exact Hg|]. intros x Hx. apply filter_In in Hx as [_ Hx]. apply kzero_spec, Hx.
  Qed.

  (** The polynomial with coefficients [c] *)
  Definition mp (n r : nat) (c : list nat -> F) (x : list F) : F := ksum (all_mi n r) (fun mu => c mu * mpow x mu).
  Lemma mp_split n r c x y : mp (S n) r c (x :: y) = ksum (seq 0 (S r)) (fun a => mp n (r - a) (fun t => c (a :: t)) y * kpow x a).
  Proof.
    unfold mp at 1. cbn [all_mi]. rewrite ksum_flat_map. transitivity (ksum (all_mi n r) (fun t => ksum (seq 0 (S r)) (fun a => if (nsum t <=? r - a)%nat then c (a :: t) * mpow y t * kpow x a else 0))).
    - apply ksum_ext. intros t Ht. apply in_all_mi in Ht as [_ Ht]. rewrite ksum_map. replace (seq 0 (S (r - nsum t))) with (filter (fun a => a <=? r - nsum t)%nat (seq 0 (S r))) by (rewrite filter_seq_le; f_equal; lia).
      rewrite ksum_filter. apply ksum_ext. intros a Ha. apply in_seq in Ha. cbn [mpow]. destruct (Nat.leb_spec a (r - nsum t)), (Nat.leb_spec (nsum t) (r - a)); try lia; ring.
    - rewrite ksum_swap. apply ksum_ext. intros a _. unfold mp. rewrite <- (all_mi_filter n (r - a) r) by lia. rewrite ksum_filter, <- ksum_scale_r. apply ksum_ext. intros t _. destruct (nsum t <=? r - a)%nat; ring.
  Qed.
  Lemma nonzero_dec (c : list nat -> F) l : {t | In t l /\ c t <> 0} + {forall t, In t l -> c t = 0}.
  Proof.
    induction l as [|t l IH]; [right; intros ? []|]. destruct (kdec (c t) 0) as [E|E]; [|left; exists t; split; [left; reflexivity|exact E]]. destruct IH as [(t' & H1 & H2)|H]; [left; exists t'; split; [right; exact H1|exact H2]|]. right. intros t' [<-|H']; [exact E|apply H, H'].
  Qed.
  (** the highest power of the first variable *)
  Lemma top_power n r (c : list nat -> F) : (forall a t, (a <= r)%nat -> In t (all_mi n (r - a)) -> c (a :: t) = 0) \/
    exists a t, (a <= r)%nat /\ In t (all_mi n (r - a)) /\ c (a :: t) <> 0 /\ forall b t, (a < b <= r)%nat -> In t (all_mi n (r - b)) -> c (b :: t) = 0.
  Proof.
    assert (H : forall s, (s <= S r)%nat -> (forall a t, (s <= a <= r)%nat -> In t (all_mi n (r - a)) -> c (a :: t) = 0) -> (forall a t, (a <= r)%nat -> In t (all_mi n (r - a)) -> c (a :: t) = 0) \/
      exists a t, (a <= r)%nat /\ In t (all_mi n (r - a)) /\ c (a :: t) <> 0 /\ forall b t, (a < b <= r)%nat -> In t (all_mi n (r - b)) -> c (b :: t) = 0).
    { induction s as [|s IH]; intros Hs H; [left; intros a t Ha; apply H; lia|]. destruct (nonzero_dec (fun t => c (s :: t)) (all_mi n (r - s))) as [(t & H1 & H2)|H0].
      - right. exists s, t. split; [lia|]. split; [exact H1|]. split; [exact H2|]. intros b t' Hb. apply H. lia.
      - apply IH; [lia|]. intros a t Ha Ht. destruct (Nat.eq_dec a s) as [->|Na]; [apply H0, Ht|apply H; [lia|exact Ht]]. }
    apply (H (S r)); [lia|]. intros a t Ha. lia.
  Qed.
  Theorem zeros_count (G : list F) : NoDup G -> forall n r (c : list nat -> F), (exists mu, In mu (all_mi n r) /\ c mu <> 0) ->
    (count (fun x => kzero (mp n r c x)) (tuples G n) * length G <= r * length G ^ n)%nat.
  Proof.
    intros N. induction n as [|n IH]; intros r c (mu & Hmu & Hc).
    - cbn [all_mi tuples] in *. destruct Hmu as [<-|[]]. rewrite count_false; [lia|]. intros x [<-|[]]. destruct (kzero _) eqn:E; [|reflexivity]. apply kzero_spec in E. unfold mp in E. cbn [all_mi] in E. rewrite ksum_cons, ksum_nil in E. cbn [mpow] in E. destruct Hc. rewrite <- E. ring.
    - destruct (top_power n r c) as [H0|(a & t & Ha & Ht & Hne & Htop)].
      + exfalso. apply Hc. apply in_all_mi in Hmu as [H1 H2]. destruct mu as [|a t]; [discriminate|]. rewrite nsum_cons in H2. cbn [length] in H1. apply H0; [lia|]. apply in_all_mi. split; lia.
      + pose proof (IH (r - a)%nat (fun t => c (a :: t)) (ex_intro _ t (conj Ht Hne))) as I. set (z := fun y => kzero (mp n (r - a) (fun t => c (a :: t)) y)) in *.
        rewrite count_tuples_S. assert (B : (sumn (fun y => count (fun x => kzero (mp (S n) r c (x :: y))) G) (tuples G n) <= sumn (fun y => a + length G * (if z y then 1 else 0)) (tuples G n))%nat).
        { apply sumn_le. intros y _. destruct (z y) eqn:Ez; [pose proof (count_length (fun x => kzero (mp (S n) r c (x :: y))) G); lia|].
          set (g := map (fun b => mp n (r - b) (fun t => c (b :: t)) y) (seq 0 (S a))). assert (Hg : ~ zeros g).
          { intros Z. unfold z in Ez. apply Bool.not_true_iff_false in Ez. apply Ez, kzero_spec. apply Z. unfold g. apply in_map_iff. exists a. split; [reflexivity|]. apply in_seq. lia. }
          pose proof (roots_count G g N Hg) as RC. unfold g at 2 in RC. rewrite map_length, seq_length in RC.
          rewrite (count_ext _ (fun x => kzero (uval g x))); [lia|]. intros x _. f_equal. rewrite mp_split. replace (S r) with (S a + (r - a))%nat by lia. rewrite seq_app, ksum_app.
          assert (E2 : ksum (seq (0 + S a) (r - a)) (fun b => mp n (r - b) (fun t => c (b :: t)) y * kpow x b) = 0).
          { transitivity (ksum (seq (0 + S a) (r - a)) (fun _ => 0 : F)).
            - apply ksum_ext. intros b Hb. apply in_seq in Hb. replace (mp n (r - b) (fun t => c (b :: t)) y) with (0 : F); [ring|]. symmetry. unfold mp. transitivity (ksum (all_mi n (r - b)) (fun _ => 0 : F)); [|apply ksum_zero; reflexivity].
              apply ksum_ext. intros t' Ht'. rewrite Htop by (exact Ht' || lia). ring.
            - apply ksum_zero. reflexivity. }
          rewrite E2, uval_map_seq. cbn [kpow]. fold g. ring. }
        rewrite sumn_plus, sumn_const, sumn_scale, <- count_sumn, tuples_length in B. cbn [Nat.pow].
        assert (E : (r * length G ^ n = a * length G ^ n + (r - a) * length G ^ n)%nat) by (rewrite <- Nat.mul_add_distr_r; f_equal; lia).
        replace (r * (length G * length G ^ n))%nat with (r * length G ^ n * length G)%nat by lia. apply Nat.mul_le_mono_r. lia.
  Qed.

  Theorem polydeg_zeros (G : list F) n r f x : NoDup G -> polydeg n r f -> length x = n -> f x <> 0 -> (count (fun y => kzero (f y)) (tuples G n) * length G <= r * length G ^ n)%nat.
  Proof.
    intros N (d & Ld & E) Lx Hx. rewrite (count_ext _ (fun y => kzero (mp n r (cf n r d) y))).
    - apply zeros_count; [exact N|]. destruct (nonzero_dec (cf n r d) (all_mi n r)) as [(mu & H1 & H2)|H0]; [exists mu; split; assumption|]. exfalso. apply Hx. rewrite E by exact Lx. unfold mval. apply ksum_zero. intros mu Hmu. rewrite H0 by exact Hmu. ring.
    - intros y Hy. apply in_tuples in Hy as [Ly _]. rewrite E by exact Ly. reflexivity.
  Qed.
  Lemma tuples_1 (G : list F) : tuples G 1 = map (fun x => [x]) G.
  Proof. cbn [tuples map]. induction G as [|a G IH]; [reflexivity|]. cbn [flat_map map app]. rewrite IH. reflexivity. Qed.
  (** A univariate polynomial of degree at most r with r + 1 zeros is zero. *)
  Theorem univariate_zero (nodes : list F) r f : NoDup nodes -> length nodes = S r -> polydeg 1 r f -> (forall x, In x nodes -> f [x] = 0) -> forall x, f [x] = 0.
  Proof.
    intros N L P H x. destruct (kdec (f [x]) 0) as [E|E]; [exact E|]. exfalso. pose proof (polydeg_zeros nodes 1 r f [x] N P eq_refl E) as B. rewrite tuples_1, count_map in B.
    assert (C : count (fun y => kzero (f [y])) nodes = length nodes).
    { clear L B. unfold count. induction nodes as [|a l IH]; [reflexivity|]. cbn [filter]. assert (Ea : kzero (f [a]) = true) by (apply kzero_spec, H; left; reflexivity). rewrite Ea. cbn [length]. f_equal. apply IH; [inversion N; assumption|]. intros y Hy. apply H. right. exact Hy. }
    rewrite C, L in B. cbn in B. lia.
  Qed.

  (** ** Interpolation in arbitrary nodes *)
  Definition cardinal (nodes : list F) (i : nat) (x : F) : F :=
    fold_right kmul 1 (map (fun j => if (j =? i)%nat then 1 else (x - nth j nodes 0) / (nth i nodes 0 - nth j nodes 0)) (seq 0 (length nodes))).
  Lemma cardinal_polydeg (g : nat -> F) (h : nat -> F) i s n : polydeg 1 (count (fun j => negb (j =? i)%nat) (seq s n)) (fun x => fold_right kmul 1 (map (fun j => if (j =? i)%nat then 1 else (nth 0 x 0 - g j) / h j) (seq s n))).
  Proof.
    revert s. induction n as [|n IH]; intros s; [exact (polydeg_const 1 1)|]. cbn [seq map fold_right]. unfold count. cbn [filter]. destruct (s =? i)%nat; cbn [negb].
    - apply (polydeg_ext 1 _ (fun x => fold_right kmul 1 (map (fun j => if (j =? i)%nat then 1 else (nth 0 x 0 - g j) / h j) (seq (S s) n)))); [intros x _; ring|]. apply IH.
    - cbn [length]. refine (polydeg_mul 1 1 _ (fun x => (nth 0 x 0 - g s) / h s) _ _ (IH (S s))).
      apply (polydeg_ext 1 _ (fun x => - g s * kinv (h s) + ksum (seq 0 1) (fun i => kinv (h s) * nth i x 0))); [|apply polydeg_affine].
      intros x _. cbn [seq]. rewrite ksum_cons, ksum_nil, (Fdiv_def (kth F)). ring.
  Qed.
  Lemma count_others i s n : (s <= i < s + n)%nat -> count (fun j => negb (j =? i)%nat) (seq s n) = (n - 1)%nat.
  Proof.
    revert s. induction n as [|n IH]; intros s H; [lia|]. unfold count. cbn [seq filter]. destruct (Nat.eqb_spec s i) as [->|Hs]; cbn [negb].
    - rewrite (filter_ext_in _ (fun _ => true)); [replace (filter (fun _ => true) (seq (S i) n)) with (seq (S i) n); [rewrite seq_length; lia|]; generalize (seq (S i) n); intros l; induction l as [|b l IHl]; [reflexivity|]; cbn [filter]; rewrite <- IHl; reflexivity|]. intros j Hj. apply in_seq in Hj. apply Bool.negb_true_iff, Nat.eqb_neq. lia.
    - cbn [length]. fold (count (fun j => negb (j =? i)%nat) (seq (S s) n)). rewrite IH by lia. lia.
  Qed.
  Lemma cardinal_deg nodes i : (i < length nodes)%nat -> polydeg 1 (length nodes - 1) (fun x => cardinal nodes i (nth 0 x 0)).
  Proof. intros H. rewrite <- (count_others i 0 (length nodes)) by lia. apply (cardinal_polydeg (fun j => nth j nodes 0) (fun j => nth i nodes 0 - nth j nodes 0)). Qed.
  Lemma prod_one (l : list F) : (forall x, In x l -> x = 1) -> fold_right kmul 1 l = 1.
  Proof. induction l as [|a l IH]; intros H; [reflexivity|]. cbn [fold_right]. rewrite (H a) by (left; reflexivity). rewrite IH by (intros; apply H; right; assumption). ring. Qed.
  Lemma prod_zero (l : list F) : In 0 l -> fold_right kmul 1 l = 0.
  Proof. induction l as [|a l IH]; intros H; [destruct H|]. cbn [fold_right]. destruct H as [->|H]; [ring|]. rewrite IH by exact H. ring. Qed.
  Lemma cardinal_nodal nodes i k : NoDup nodes -> (i < length nodes)%nat -> (k < length nodes)%nat -> cardinal nodes i (nth k nodes 0) = if (i =? k)%nat then 1 else 0.
  Proof.
    intros N Hi Hk. unfold cardinal. destruct (Nat.eqb_spec i k) as [<-|Hne].
    - apply prod_one. intros x Hx. apply in_map_iff in Hx as (j & <- & Hj). apply in_seq in Hj. destruct (Nat.eqb_spec j i) as [|Hji]; [reflexivity|]. field. intros E. apply ksub_eq_0 in E. apply Hji. symmetry. apply (proj1 (NoDup_nth nodes 0) N); [exact Hi|lia|exact E].
    - apply prod_zero. apply in_map_iff. exists k. split; [|apply in_seq; lia]. rewrite (proj2 (Nat.eqb_neq k i)) by congruence. rewrite (Fdiv_def (kth F)). ring.
  Qed.
  Theorem interpolation (nodes : list F) r f : NoDup nodes -> length nodes = S r -> polydeg 1 r f -> forall x, f [x] = ksum (seq 0 (S r)) (fun i => f [nth i nodes 0] * cardinal nodes i x).
  Proof.
    intros N L P x. apply ksub_eq_0. apply (univariate_zero nodes r (fun y => f y - ksum (seq 0 (S r)) (fun i => f [nth i nodes 0] * cardinal nodes i (nth 0 y 0))) N L).
    - apply (polydeg_ext 1 r (fun y => f y + ksum (seq 0 (S r)) (fun i => (- f [nth i nodes 0]) * cardinal nodes i (nth 0 y 0)))).
      + intros y _. rewrite (ksum_ext _ (fun i => (- (1)) * (f [nth i nodes 0] * cardinal nodes i (nth 0 y 0))) (seq 0 (S r))) by (intros; ring). rewrite ksum_scale_l. ring.
      + apply polydeg_add; [exact P|]. apply polydeg_sum. intros i Hi. apply in_seq in Hi. apply polydeg_scale. replace r with (length nodes - 1)%nat by lia. apply cardinal_deg. lia.
    - intros y Hy. apply (In_nth _ _ 0) in Hy as (k & Hk & <-). cbn [nth]. rewrite (ksum_ext _ (fun i => if Nat.eq_dec i k then f [nth i nodes 0] else 0)).
      + rewrite L in Hk. rewrite (ksum_delta Nat.eq_dec (fun i => f [nth i nodes 0])) by (apply seq_NoDup || (apply in_seq; lia)). ring.
      + intros i Hi. apply in_seq in Hi. rewrite cardinal_nodal by (assumption || lia). destruct (Nat.eqb_spec i k), (Nat.eq_dec i k); try contradiction; ring.
  Qed.
End Zeros.
