(** Words with given letter counts, and the multi-index binomial coefficients. *)
From Verif Require Import Base MultiIndex MultiIndexFacts MultiCapFacts Fld MultiCoef MultiCoefFacts.
From Coq Require Import Field_theory Field.

Fixpoint ws (s : nat) (a : list nat) : list (list nat) :=
  match s with
  | O => [[]]
  | S s' => flat_map (fun i => match nth i a 0 with 0 => [] | S k => map (cons i) (ws s' (upd a i k)) end) (seq 0 (length a))
  end.
Lemma nsum_upd_pred a i k : i < length a -> nth i a 0 = S k -> nsum (upd a i k) + 1 = nsum a.
Proof.
  revert i. induction a as [|x a IH]; intros [|i] Hi E; cbn [length] in Hi; try lia; cbn [nth] in E; cbn [upd]; rewrite !nsum_cons; [lia|]. specialize (IH i ltac:(lia) E). lia.
Qed.
Lemma mfac_upd_pred a i k : i < length a -> nth i a 0 = S k -> S k * mi_factorial (upd a i k) = mi_factorial a.
Proof.
  revert i. induction a as [|x a IH]; intros [|i] Hi E; cbn [length] in Hi; try lia; cbn [nth] in E; cbn [upd]; rewrite !mi_factorial_cons.
  - subst x. change (fact (S k)) with (S k * fact k). ring.
  - specialize (IH i ltac:(lia) E). rewrite <- IH. ring.
Qed.
Lemma ws_spec s : forall a w, nsum a = s -> (In w (ws s a) <-> forall i, count_occ Nat.eq_dec w i = nth i a 0).
Proof.
  assert (Z : forall a, nsum a = 0 -> forall i, nth i a 0 = 0). { induction a as [|x a IH]; intros H [|i]; try reflexivity; rewrite nsum_cons in H; cbn [nth]; [lia|apply IH; lia]. }
  induction s as [|s IH]; intros a w Hs; cbn [ws].
  - split.
    + intros [<-|[]] i. rewrite Z by exact Hs. reflexivity.
    + intros H. destruct w as [|x w]; [left; reflexivity|]. specialize (H x). rewrite Z in H by exact Hs. cbn in H. destruct (Nat.eq_dec x x); [lia|congruence].
  - rewrite in_flat_map. split.
    + intros (i & Hi & Hw). apply in_seq in Hi. destruct (nth i a 0) as [|k] eqn:E; [destruct Hw|]. apply in_map_iff in Hw as (w' & <- & Hw'). assert (Hn : nsum (upd a i k) = s) by (pose proof (nsum_upd_pred a i k ltac:(lia) E); lia). pose proof (proj1 (IH _ _ Hn) Hw') as Hc.
      intros j. cbn [count_occ]. destruct (Nat.eq_dec i j) as [<-|Hj].
      * rewrite Hc, nth_upd_eq by lia. lia.
      * rewrite Hc, nth_upd_neq by exact Hj. reflexivity.
    + intros H. destruct w as [|x w].
      { exfalso. assert (nsum a = 0); [|lia]. clear - H. revert H. cbn [count_occ]. intros H. assert (H' : forall i, nth i a 0 = 0) by (intros i; specialize (H i); lia). clear H. induction a as [|y a IH]; [reflexivity|]. rewrite nsum_cons. pose proof (H' 0) as H0. cbn in H0. rewrite IH; [lia|]. intros i. exact (H' (S i)). }
      exists x. pose proof (H x) as Hx. cbn [count_occ] in Hx. destruct (Nat.eq_dec x x) as [_|]; [|congruence].
      assert (Hl : x < length a). { destruct (Nat.lt_ge_cases x (length a)); [assumption|]. rewrite nth_overflow in Hx by assumption. lia. }
      split; [apply in_seq; lia|]. rewrite <- Hx. apply in_map. apply IH; [pose proof (nsum_upd_pred a x _ Hl (eq_sym Hx)); lia|].
      intros j. specialize (H j). cbn [count_occ] in H. destruct (Nat.eq_dec x j) as [<-|Hj].
      * rewrite nth_upd_eq by exact Hl. reflexivity.
      * rewrite nth_upd_neq by exact Hj. exact H.
Qed.
Lemma ws_NoDup s : forall a, nsum a = s -> NoDup (ws s a).
Proof.
  induction s as [|s IH]; intros a Hs; cbn [ws]; [constructor; [intros []|constructor]|]. apply NoDup_flat_map; [apply seq_NoDup| |].
  - intros i Hi. apply in_seq in Hi. destruct (nth i a 0) as [|k] eqn:E; [constructor|]. apply FinFun.Injective_map_NoDup; [intros u v H; congruence|]. apply IH. pose proof (nsum_upd_pred a i k ltac:(lia) E). lia.
  - intros i j w Hi Hj Hw Hw'. destruct (nth i a 0) as [|k]; [destruct Hw|]. destruct (nth j a 0) as [|k']; [destruct Hw'|]. apply in_map_iff in Hw as (u & <- & _), Hw' as (v & E & _). congruence.
Qed.
Lemma ws_count s : forall a, nsum a = s -> length (ws s a) * mi_factorial a = fact s.
Proof.
  induction s as [|s IH]; intros a Hs; cbn [ws].
  - assert (mi_factorial a = 1); [|cbn; lia]. clear - Hs. induction a as [|x a IHa]; [reflexivity|]. rewrite nsum_cons in Hs. rewrite mi_factorial_cons, IHa by lia. replace x with 0 by lia. reflexivity.
  - transitivity (nsum a * fact s); [|rewrite Hs; reflexivity].
    assert (N : nsum a = list_sum (map (fun i => nth i a 0) (seq 0 (length a)))).
    { clear. induction a as [|x a IHa]; [reflexivity|]. rewrite nsum_cons, IHa. cbn [length seq map list_sum fold_right]. rewrite <- seq_shift, map_map. reflexivity. }
    rewrite N at 1. assert (G : forall L, (forall i, In i L -> i < length a) -> length (flat_map (fun i => match nth i a 0 with 0 => [] | S k => map (cons i) (ws s (upd a i k)) end) L) * mi_factorial a = list_sum (map (fun i => nth i a 0) L) * fact s).
    { induction L as [|i L IHL]; intros HL; [reflexivity|]. cbn [flat_map map list_sum fold_right]. fold (list_sum (map (fun i => nth i a 0) L)). rewrite app_length, Nat.mul_add_distr_r, IHL by (intros j Hj; apply HL; right; exact Hj). rewrite Nat.mul_add_distr_r. f_equal.
      specialize (HL i (or_introl eq_refl)). destruct (nth i a 0) as [|k] eqn:E; [reflexivity|]. rewrite map_length. pose proof (nsum_upd_pred a i k HL E). rewrite <- (mfac_upd_pred a i k HL E). rewrite <- (IH (upd a i k)) by lia. ring. }
    apply G. intros i Hi. apply in_seq in Hi. lia.
Qed.
Theorem words_mnom a (W : list (list nat)) : NoDup W -> (forall w, In w W <-> forall i, count_occ Nat.eq_dec w i = nth i a 0) -> length W = mnom a.
Proof.
  intros HN HW. assert (E : length W = length (ws (nsum a) a)).
  { apply Permutation.Permutation_length. apply NoDup_Permutation; [exact HN|apply ws_NoDup; reflexivity|]. intros w. rewrite HW. symmetry. apply ws_spec. reflexivity. }
  rewrite E. pose proof (ws_count _ a eq_refl). pose proof (mnom_fact a). pose proof (mi_factorial_pos a). apply (Nat.mul_cancel_r _ _ (mi_factorial a)); [assumption|]. congruence.
Qed.

Lemma mifac_sub a : forall b, length a = length b -> (forall i, i < length a -> nth i b 0 <= nth i a 0) -> fold_right Nat.mul 1 (map (fun p => binomial (fst p) (snd p)) (combine a b)) * (mi_factorial b * mi_factorial (mi_sub a b)) = mi_factorial a.
Proof.
  induction a as [|x a IH]; intros [|y b] E H; try discriminate; [reflexivity|]. injection E as E. cbn [combine map fold_right fst snd]. change (mi_sub (x :: a) (y :: b)) with ((x - y) :: mi_sub a b). rewrite !mi_factorial_cons.
  pose proof (H 0 ltac:(cbn; lia)) as H0. cbn [nth] in H0. rewrite <- (IH b E) by (intros i Hi; apply (H (S i)); cbn; lia).
  pose proof (binomial_fact (x - y) y) as B. replace (x - y + y) with x in B by lia. rewrite <- B. ring.
Qed.

Section Coef.
  Context {F : fld}.
  Add Field Kfield20 : (kth F).
  Local Open Scope fld_scope.
  Lemma mifac_fold' nu : mi_factorial nu = fold_right Nat.mul 1%nat (map fact nu).
  Proof. induction nu as [|a nu IH]; [reflexivity|]. rewrite mi_factorial_cons, IH. reflexivity. Qed.
  Lemma binom_product a b : length a = length b -> (forall i, (i < length a)%nat -> (nth i b 0 <= nth i a 0)%nat) ->
    mi_binom (F := F) a b = Ok (kofnat (fold_right Nat.mul 1%nat (map (fun p => binomial (fst p) (snd p)) (combine a b)))).
  Proof.
    intros E H. unfold mi_binom, mi_minus. replace (forallb _ (combine a b)) with true.
    - cbn [bind]. f_equal. rewrite <- kofnat_mul. apply kdiv_eq; [apply kofnat_neq; pose proof (mi_factorial_pos b); pose proof (mi_factorial_pos (mi_sub a b)); nia|]. rewrite <- kofnat_mul. f_equal. symmetry. apply mifac_sub; assumption.
    - symmetry. apply forallb_forall. intros [u v] Hin. apply In_nth with (d := (0, 0)%nat) in Hin as (i & Hi & En). rewrite combine_length in Hi. rewrite combine_nth in En by exact E. injection En as <- <-. apply Nat.leb_le. apply H. lia.
  Qed.
  Lemma binom_negative a b i : length a = length b -> (nth i a 0 < nth i b 0)%nat -> mi_binom (F := F) a b = Err ValueError.
  Proof.
    intros E H. unfold mi_binom, mi_minus. replace (forallb _ (combine a b)) with false; [reflexivity|]. symmetry. apply Bool.not_true_iff_false. rewrite forallb_forall. intros HA.
    assert (Hi : (i < length b)%nat). { destruct (Nat.lt_ge_cases i (length b)); [assumption|]. rewrite (nth_overflow b) in H by assumption. lia. }
    specialize (HA (nth i a 0, nth i b 0)%nat). rewrite <- combine_nth in HA by exact E. specialize (HA ltac:(apply nth_In; rewrite combine_length; lia)). rewrite combine_nth in HA by exact E. cbn [fst snd] in HA. apply Nat.leb_le in HA. lia.
  Qed.
  Lemma multinom_positive a : exists k, (0 < k)%nat /\ multinom (F := F) a = kofnat k /\ (k * fold_right Nat.mul 1%nat (map fact a) = fact (list_sum a))%nat.
  Proof. exists (mnom a). pose proof (mnom_pos a). split; [lia|]. split; [apply multinom_mnom|]. rewrite <- mifac_fold'. apply mnom_fact. Qed.
  Lemma multinom_general_value r a : (list_sum a <= r)%nat ->
    exists v, multinom_general (F := F) r a = Ok v /\ v * (kofnat (fact (r - list_sum a)) * kofnat (fold_right Nat.mul 1%nat (map fact a))) = kofnat (fact r).
  Proof. intros H. exists (M r a). split; [apply multinom_general_eq; exact H|]. rewrite <- mifac_fold'. apply M_fact. exact H. Qed.
  Lemma multinomial_sum (x : list F) r : x <> [] ->
    exists mis, generate_all_exact_norm (length x) r = Ok mis /\
      exists pw, mapM (power x) mis = Ok pw /\
        ksum (combine mis pw) (fun ap => multinom (fst ap) * snd ap) = kpow (ksum x (fun v => v)) r.
  Proof.
    intros Hx. destruct x as [|y x]; [congruence|]. rewrite generate_all_exact_norm_eq. cbn [length]. rewrite Nat.sub_succ, Nat.sub_0_r. eexists. split; [reflexivity|].
    set (L := map (fun a => (r - nsum a)%nat :: a) (all_mi (length x) r)). exists (map (mpow (y :: x)) L). split.
    - apply mapM_map. intros a Ha. unfold L in Ha. apply in_map_iff in Ha as (b & <- & Hb). apply in_all_mi in Hb as [B _]. apply power_mpow. cbn [length]. lia.
    - rewrite <- (map_id L) at 1. assert (G : forall l, ksum (combine (map (fun a => a) l) (map (mpow (y :: x)) l)) (fun ap => multinom (F := F) (fst ap) * snd ap) = ksum l (fun a => multinom a * mpow (y :: x) a)).
      { induction l as [|a l IH]; [reflexivity|]. cbn [map combine]. rewrite !ksum_cons, IH. reflexivity. }
      rewrite G. unfold L. rewrite ksum_map, ksum_cons, <- multinomial_theorem. apply ksum_ext. intros a Ha. apply in_all_mi in Ha as [A1 A2]. rewrite multinom_mnom. cbn [mpow]. unfold M. ring.
  Qed.
End Coef.
