(** Facts about multinomial coefficients and the multinomial theorem. *)
From Verif Require Import Base MultiIndex MultiIndexFacts MultiCapFacts Fld MultiCoef.
From Coq Require Import Field_theory Field.

Lemma nsum_cons a l : nsum (a :: l) = a + nsum l. Proof. reflexivity. Qed.
Lemma mi_factorial_cons a l : mi_factorial (a :: l) = fact a * mi_factorial l.
Proof.
  unfold mi_factorial. cbn [fold_left].
  assert (G : forall l k, fold_left (fun f c => f * fact c) l k = k * fold_left (fun f c => f * fact c) l 1).
  { clear. induction l as [|c l IH]; intros k; cbn [fold_left]; [lia|]. rewrite (IH (k * fact c)), (IH (1 * fact c)). lia. }
  rewrite G. lia.
Qed.
Lemma mi_factorial_pos a : mi_factorial a <> 0.
Proof. induction a as [|x a IH]; [discriminate|]. rewrite mi_factorial_cons. pose proof (fact_neq_0 x). nia. Qed.

(** Number of words with [a_i] letters [i]. *)
Fixpoint mnom (a : list nat) : nat := match a with [] => 1 | x :: a' => binomial (x + nsum a') x * mnom a' end.
Lemma mnom_fact a : mnom a * mi_factorial a = fact (nsum a).
Proof.
  induction a as [|x a IH]; [reflexivity|]. cbn [mnom]. rewrite mi_factorial_cons, nsum_cons.
  pose proof (binomial_fact (nsum a) x) as H. rewrite (Nat.add_comm (nsum a) x) in H. rewrite <- H, <- IH. lia.
Qed.
Lemma mnom_pos a : mnom a <> 0.
Proof. intros E. pose proof (mnom_fact a) as H. rewrite E in H. pose proof (fact_neq_0 (nsum a)). lia. Qed.

(** [unit k i]: 1 at position i *)
Fixpoint e_i (n i : nat) : list nat :=
  match n with O => [] | S n' => match i with O => 1 :: repeat 0 n' | S i' => 0 :: e_i n' i' end end.
Lemma e_i_length n i : length (e_i n i) = n.
Proof. revert i. induction n as [|n IH]; intros [|i]; cbn [e_i length]; [reflexivity..|rewrite repeat_length; reflexivity|rewrite IH; reflexivity]. Qed.
Lemma e_i_sum n i : i < n -> nsum (e_i n i) = 1.
Proof. revert i. induction n as [|n IH]; intros [|i] H; cbn [e_i]; [lia|lia|rewrite nsum_cons, nsum_repeat0; reflexivity|]. rewrite nsum_cons, IH by lia. reflexivity. Qed.
Lemma unit_multiindex_eq n i : i < n -> unit_multiindex n i = Ok (e_i n i).
Proof.
  intros H. unfold unit_multiindex, set, zero_multiindex. rewrite repeat_length. replace (i <? n) with true by (symmetry; apply Nat.ltb_lt; exact H). f_equal.
  revert i H. induction n as [|n IH]; intros i H; [lia|]. cbn [repeat]. destruct i; cbn [upd e_i]; [reflexivity|]. rewrite IH by lia. reflexivity.
Qed.
Lemma mi_add_e_i a i : i < length a -> mi_add a (e_i (length a) i) = upd a i (S (nth i a 0)).
Proof.
  revert i. induction a as [|x a IH]; intros [|i] H; cbn [length e_i nth upd] in *; [lia|lia| |].
  - rewrite mi_add_cons. f_equal; [lia|]. clear. induction a as [|y a IH]; [reflexivity|]. cbn [length repeat]. rewrite mi_add_cons, IH. f_equal. lia.
  - rewrite mi_add_cons, IH by lia. f_equal. lia.
Qed.
Lemma nth_upd_eq {A} (l : list A) i v d : i < length l -> nth i (upd l i v) d = v.
Proof. revert i. induction l as [|x l IH]; intros [|i] H; cbn [length upd nth] in *; [lia|lia|reflexivity|]. apply IH. lia. Qed.
Lemma nth_upd_neq {A} (l : list A) i j v d : i <> j -> nth j (upd l i v) d = nth j l d.
Proof. revert i j. induction l as [|x l IH]; intros [|i] [|j] H; cbn [upd nth]; try reflexivity; [lia|]. apply IH. lia. Qed.
Lemma upd_length {A} (l : list A) i v : length (upd l i v) = length l.
Proof. revert i. induction l as [|x l IH]; intros [|i]; cbn [upd length]; try reflexivity. rewrite IH. reflexivity. Qed.

Section Facts.
  Context {F : fld}.
  Add Field Kfield5 : (kth F).
  Local Open Scope fld_scope.

  Lemma kfact_neq n : kofnat (F := F) (fact n) <> 0.
  Proof. apply kofnat_neq, fact_neq_0. Qed.
  Lemma mfac_neq a : kofnat (F := F) (mi_factorial a) <> 0.
  Proof. apply kofnat_neq, mi_factorial_pos. Qed.
  Lemma kdiv_eq (a b c : F) : b <> 0 -> a = c * b -> a / b = c.
  Proof. intros Hb ->. field. exact Hb. Qed.

  Lemma multinom_mnom a : multinom (F := F) a = kofnat (mnom a).
  Proof. unfold multinom, norm. apply kdiv_eq; [apply mfac_neq|]. rewrite <- kofnat_mul, mnom_fact. reflexivity. Qed.

  (** The multinomial coefficient [r! / (a! (r-|a|)!)] *)
  Definition M (r : nat) (a : list nat) : F := kofnat (mnom ((r - nsum a)%nat :: a)).
  Lemma multinom_general_eq r a : nsum a <= r -> multinom_general (F := F) r a = Ok (M r a).
  Proof.
    intros H. unfold multinom_general, general_to_exact_norm, norm. replace (nsum a <=? r)%nat with true by (symmetry; apply Nat.leb_le; exact H).
    cbn [bind]. rewrite multinom_mnom. reflexivity.
  Qed.
  Lemma M_neq r a : M r a <> 0. Proof. apply kofnat_neq, mnom_pos. Qed.
  Lemma M_fact r a : nsum a <= r -> M r a * (kofnat (fact (r - nsum a)) * kofnat (mi_factorial a)) = kofnat (fact r).
  Proof.
    intros H. unfold M. rewrite <- !kofnat_mul, <- mi_factorial_cons, mnom_fact, nsum_cons. do 2 f_equal. lia.
  Qed.
  Lemma M_unique r a c : nsum a <= r -> c * (kofnat (fact (r - nsum a)) * kofnat (mi_factorial a)) = kofnat (fact r) -> c = M r a.
  Proof.
    intros H E. rewrite <- (M_fact r a H) in E. apply (kmul_cancel (kofnat (fact (r - nsum a)) * kofnat (mi_factorial a))).
    - apply kmul_neq; [apply kfact_neq|apply mfac_neq].
    - rewrite !(Rmul_comm (F_R (kth F)) (kofnat (fact (r - nsum a)) * kofnat (mi_factorial a))). exact E.
  Qed.
  Lemma binomF_fact n k : k <= n -> binomF (F := F) n k * (kofnat (fact k) * kofnat (fact (n - k))) = kofnat (fact n).
  Proof.
    intros H. unfold binomF. rewrite <- !kofnat_mul. f_equal. pose proof (binomial_fact (n - k) k) as E.
    replace (n - k + k)%nat with n in E by lia. lia.
  Qed.
  Lemma binomF_neq n k : k <= n -> binomF (F := F) n k <> 0.
  Proof. intros H E. pose proof (binomF_fact n k H) as HE. rewrite E in HE. apply (kfact_neq n). rewrite <- HE. ring. Qed.
  Lemma binomF_M n k : k <= n -> binomF n k = M n [k].
  Proof.
    intros H. apply M_unique; [cbn; lia|]. replace (nsum [k]) with k by (cbn; lia). rewrite mi_factorial_cons. rewrite <- (binomF_fact n k H).
    rewrite kofnat_mul. replace (mi_factorial []) with 1%nat by reflexivity. rewrite kofnat_1. ring.
  Qed.
  Lemma M_cons r a t : (a + nsum t <= r)%nat -> M r (a :: t) = M r t * binomF (r - nsum t) a.
  Proof.
    intros H. symmetry. apply M_unique; [rewrite nsum_cons; lia|]. rewrite nsum_cons, mi_factorial_cons, kofnat_mul.
    rewrite <- (M_fact r t) by lia. rewrite <- (binomF_fact (r - nsum t) a) by lia. replace (r - nsum t - a)%nat with (r - (a + nsum t))%nat by lia. ring.
  Qed.
  Lemma M_nil r : M r [] = 1.
  Proof. symmetry. apply M_unique; [cbn; lia|]. replace (r - nsum [])%nat with r by (cbn; lia). replace (mi_factorial []) with 1%nat by reflexivity. rewrite kofnat_1. ring. Qed.
  Lemma M_multinom k a : nsum a <= k -> binomF k (nsum a) * multinom a = M k a.
  Proof.
    intros H. apply M_unique; [exact H|]. rewrite multinom_mnom, <- (binomF_fact k (nsum a)) by exact H. rewrite <- (mnom_fact a), kofnat_mul. ring.
  Qed.
  (** Derivative identities. *)
  Lemma M_down r a : (nsum a <= r)%nat -> M (S r) a * kofnat (S r - nsum a) = kofnat (S r) * M r a.
  Proof.
    intros H. apply (kmul_cancel (kofnat (fact (r - nsum a)) * kofnat (mi_factorial a))); [apply kmul_neq; [apply kfact_neq|apply mfac_neq]|].
    transitivity (kofnat (F := F) (fact (S r))).
    - rewrite <- (M_fact (S r) a) by lia. replace (S r - nsum a)%nat with (S (r - nsum a)) by lia. cbn [fact]. change (fact (r - nsum a) + (r - nsum a) * fact (r - nsum a))%nat with (S (r - nsum a) * fact (r - nsum a))%nat.
      rewrite kofnat_mul. ring.
    - cbn [fact]. change (fact r + r * fact r)%nat with (S r * fact r)%nat. rewrite kofnat_mul, <- (M_fact r a) by exact H. ring.
  Qed.
  Lemma mi_factorial_upd a i : i < length a -> mi_factorial (upd a i (S (nth i a 0%nat))) = (S (nth i a 0) * mi_factorial a)%nat.
  Proof.
    revert i. induction a as [|x a IH]; intros [|i] H; cbn [length upd nth] in *; [lia|lia| |].
    - rewrite !mi_factorial_cons. cbn [fact]. lia.
    - rewrite !mi_factorial_cons, IH by lia. lia.
  Qed.
  Lemma nsum_upd a i : i < length a -> nsum (upd a i (S (nth i a 0%nat))) = S (nsum a).
  Proof.
    revert i. induction a as [|x a IH]; intros [|i] H; cbn [length upd nth] in *; [lia|lia| |].
    - rewrite !nsum_cons. lia.
    - rewrite !nsum_cons, IH by lia. lia.
  Qed.
  Lemma M_up r a i : (nsum a <= r)%nat -> i < length a -> M (S r) (upd a i (S (nth i a 0%nat))) * kofnat (S (nth i a 0%nat)) = kofnat (S r) * M r a.
  Proof.
    intros H Hi. apply (kmul_cancel (kofnat (fact (r - nsum a)) * kofnat (mi_factorial a))); [apply kmul_neq; [apply kfact_neq|apply mfac_neq]|].
    transitivity (kofnat (F := F) (fact (S r))).
    - rewrite <- (M_fact (S r) (upd a i (S (nth i a 0%nat)))) by (rewrite nsum_upd by exact Hi; lia). rewrite nsum_upd, mi_factorial_upd by exact Hi.
      rewrite kofnat_mul. replace (S r - S (nsum a))%nat with (r - nsum a)%nat by lia. ring.
    - cbn [fact]. change (fact r + r * fact r)%nat with (S r * fact r)%nat. rewrite kofnat_mul, <- (M_fact r a) by exact H. ring.
  Qed.

  (** The binomial theorem, over [seq 0 (S k)]. *)
  Lemma binomF_0 n : binomF (F := F) n 0 = 1.
  Proof. unfold binomF. rewrite binomial_0_r. apply kofnat_1. Qed.
  Lemma binomF_S n k : binomF (F := F) (S n) (S k) = binomF n k + binomF n (S k).
  Proof. unfold binomF. cbn [binomial]. apply kofnat_add. Qed.
  Lemma binomF_gt n k : n < k -> binomF (F := F) n k = 0.
  Proof. intros H. unfold binomF. rewrite binomial_gt by exact H. reflexivity. Qed.
  Lemma ksum_seq_S {f : nat -> F} n : ksum (seq 0 (S n)) f = f 0%nat + ksum (seq 0 n) (fun i => f (S i)).
  Proof. cbn [seq]. rewrite ksum_cons, <- seq_shift, ksum_map. reflexivity. Qed.
  Lemma ksum_seq_snoc {f : nat -> F} n : ksum (seq 0 (S n)) f = ksum (seq 0 n) f + f n.
  Proof. rewrite seq_S, ksum_app, ksum_cons, ksum_nil. cbn [Nat.add]. ring. Qed.
  Lemma binomial_theorem (x y : F) n : ksum (seq 0 (S n)) (fun a => binomF n a * (kpow x a * kpow y (n - a))) = kpow (y + x) n.
  Proof.
    induction n as [|n IH].
    - cbn. unfold binomF. cbn. unfold kofnat. cbn. ring.
    - rewrite kpow_S, <- IH. rewrite (Rdistr_l (F_R (kth F))), <- !ksum_scale_l. rewrite ksum_seq_S.
      rewrite (ksum_ext (fun i => binomF (S n) (S i) * _) (fun i => y * (binomF n (S i) * (kpow x (S i) * kpow y (n - S i))) + x * (binomF n i * (kpow x i * kpow y (n - i)))) (seq 0 (S n))).
      + rewrite ksum_plus. rewrite (ksum_seq_snoc n) at 1. rewrite (ksum_seq_S n (f := fun a => y * (binomF n a * (kpow x a * kpow y (n - a))))). rewrite (binomF_gt n (S n)) by lia. rewrite !binomF_0. cbn [kpow].
        replace (S n - 0)%nat with (S n) by lia. replace (n - 0)%nat with n by lia. rewrite kpow_S. ring.
      + intros i Hi. apply in_seq in Hi. rewrite binomF_S. replace (S n - S i)%nat with (n - i)%nat by lia. rewrite kpow_S.
        destruct (Nat.eq_dec i n) as [->|Hn].
        * rewrite (binomF_gt n (S n)) by lia. ring.
        * replace (n - i)%nat with (S (n - S i)) by lia. rewrite kpow_S. ring.
  Qed.
  Theorem multinomial_theorem (x : list F) (y : F) r : ksum (all_mi (length x) r) (fun a => M r a * (mpow x a * kpow y (r - nsum a))) = kpow (y + ksum x (fun v => v)) r.
  Proof.
    revert y. induction x as [|x0 x IH]; intros y.
    - cbn [length all_mi]. rewrite ksum_cons, !ksum_nil, M_nil. cbn [mpow]. replace (r - nsum [])%nat with r by (cbn; lia). replace (y + 0) with y by ring. ring.
    - cbn [length all_mi]. rewrite ksum_flat_map, ksum_cons. replace (y + (x0 + ksum x (fun v => v))) with (y + x0 + ksum x (fun v => v)) by ring. rewrite <- IH.
      apply ksum_ext. intros t Ht. apply in_all_mi in Ht as [Ht1 Ht2]. rewrite ksum_map. rewrite <- binomial_theorem.
      rewrite <- !ksum_scale_l. apply ksum_ext. intros a Ha. apply in_seq in Ha. cbn [mpow]. rewrite M_cons, nsum_cons by lia.
      replace (r - nsum t - a)%nat with (r - (a + nsum t))%nat by lia. ring.
  Qed.
  Lemma power_mpow (x : list F) a : length x = length a -> power x a = Ok (mpow x a).
  Proof.
    intros E. unfold power. rewrite E, Nat.eqb_refl. f_equal.
    assert (G : forall (x : list F) a p, length x = length a -> fold_left (fun p ia => p * kpow (fst ia) (snd ia)) (combine x a) p = p * mpow x a).
    { clear. induction x as [|v x IH]; intros [|e a] p E; try discriminate; cbn [combine fold_left mpow fst snd]; [ring|]. rewrite IH by (cbn in E; lia). ring. }
    rewrite G by exact E. ring.
  Qed.
End Facts.
Arguments M {F} r a : simpl never.
