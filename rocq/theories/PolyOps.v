(** Coefficient formulas of the polynomial operations. *)
From Verif Require Import Base MultiIndex MultiIndexFacts MultiCapFacts MultiIndexCache Fld CodeGen CodeGenFacts LinSolve MultiCoef MultiCoefFacts LagrangeCache Unisolv Poly PolyFacts LagFacts PolyEval.
From Coq Require Import Field_theory Field.

(** ** Multi-indices below another one *)
Definition mi_leb (a b : list nat) : bool := forallb (fun p => fst p <=? snd p) (combine a b).
Lemma mi_leb_cons a l b m : mi_leb (a :: l) (b :: m) = (a <=? b) && mi_leb l m. Proof. reflexivity. Qed.
Lemma mi_leb_Forall2 a b : length a = length b -> (mi_leb a b = true <-> Forall2 (fun y x => x <= y) b a).
Proof.
  revert b. induction a as [|x a IH]; intros [|y b] E; try discriminate; [split; constructor|]. rewrite mi_leb_cons, andb_true_iff, Nat.leb_le, IH by (cbn in E; lia).
  split; [intros [H1 H2]; constructor; assumption|]. intros H. inversion H. auto.
Qed.
Lemma mi_minus_ok a b : length a = length b -> mi_leb b a = true -> mi_minus a b = Ok (mi_sub a b).
Proof.
  intros E H. unfold mi_minus. replace (forallb _ (combine a b)) with true; [reflexivity|]. symmetry. revert b E H.
  induction a as [|x a IH]; intros [|y b] E H; try discriminate; [reflexivity|]. rewrite mi_leb_cons in H. apply andb_prop in H as [H1 H2]. cbn [combine forallb fst snd].
  rewrite H1. apply IH; [cbn in E; lia|exact H2].
Qed.
Lemma mi_add_sub a b : length a = length b -> mi_leb a b = true -> mi_add a (mi_sub b a) = b.
Proof.
  revert b. induction a as [|x a IH]; intros [|y b] E H; try discriminate; [reflexivity|]. rewrite mi_leb_cons in H. apply andb_prop in H as [H1 H2]. apply Nat.leb_le in H1.
  rewrite mi_sub_cons, mi_add_cons, IH by (assumption || cbn in E; lia). f_equal. lia.
Qed.
Lemma mi_sub_add a b : length a = length b -> mi_sub (mi_add a b) a = b.
Proof.
  revert b. induction a as [|x a IH]; intros [|y b] E; try discriminate; [reflexivity|]. rewrite mi_add_cons, mi_sub_cons, IH by (cbn in E; lia). f_equal. lia.
Qed.
Lemma mi_leb_add a b : length a = length b -> mi_leb a (mi_add a b) = true.
Proof.
  revert b. induction a as [|x a IH]; intros [|y b] E; try discriminate; [reflexivity|]. rewrite mi_add_cons, mi_leb_cons, IH by (cbn in E; lia).
  replace (x <=? x + y) with true by (symmetry; apply Nat.leb_le; lia). reflexivity.
Qed.
Lemma mi_sub_sum a b : length a = length b -> mi_leb a b = true -> nsum (mi_sub b a) = nsum b - nsum a /\ nsum a <= nsum b.
Proof.
  intros E H. pose proof (mi_add_sub a b E H) as EA. assert (EL : length a = length (mi_sub b a)) by (rewrite mi_sub_length by congruence; exact E).
  pose proof (mi_add_sum a (mi_sub b a) EL) as ES. rewrite EA in ES. lia.
Qed.

Section Ops.
  Context {F : fld}.
  Add Field Kfield10 : (kth F).
  Local Open Scope fld_scope.

  Lemma foldM_sum {A} (f : F -> A -> result F) (g : A -> F) l acc : (forall s a, In a l -> f s a = Ok (s + g a)) -> foldM f acc l = Ok (acc + ksum l g).
  Proof.
    revert acc. induction l as [|a l IH]; intros acc H; cbn [foldM]; [rewrite ksum_nil; f_equal; ring|]. rewrite (H acc a) by (left; reflexivity). cbn [bind].
    rewrite IH by (intros s b Hb; apply H; right; exact Hb). rewrite ksum_cons. f_equal. ring.
  Qed.

  (** *** Reindexing double sums over pairs by their sum *)
  Theorem ksum_convolution m r s (g : list nat -> list nat -> F) :
    ksum (all_mi m r) (fun nu => ksum (all_mi m s) (fun sg => g nu sg)) =
    ksum (all_mi m (r + s)) (fun tau => ksum (all_mi m r) (fun nu => if mi_leb nu tau && (nsum (mi_sub tau nu) <=? s)%nat then g nu (mi_sub tau nu) else 0)).
  Proof.
    rewrite ksum_swap with (l := all_mi m (r + s)). apply ksum_ext. intros nu Hnu. apply in_all_mi in Hnu as [N1 N2].
    rewrite <- ksum_filter with (f := fun tau => g nu (mi_sub tau nu)).
    apply (ksum_bij _ _ (fun sg => mi_add nu sg)).
    - apply NoDup_all_mi.
    - apply NoDup_filter, NoDup_all_mi.
    - intros sg Hs. apply in_all_mi in Hs as [S1 S2]. apply filter_In. rewrite in_all_mi, mi_add_length, mi_add_sum, mi_leb_add, mi_sub_add by congruence. cbn [andb].
      split; [split; lia|]. apply Nat.leb_le. exact S2.
    - intros a b Ha Hb E. apply in_all_mi in Ha as [A1 _]. apply in_all_mi in Hb as [B1 _]. rewrite <- (mi_sub_add nu a), <- (mi_sub_add nu b) by congruence. rewrite E. reflexivity.
    - intros tau Ht. apply filter_In in Ht as [Ht1 Ht2]. apply in_all_mi in Ht1 as [T1 T2]. apply andb_prop in Ht2 as [T3 T4]. apply Nat.leb_le in T4.
      exists (mi_sub tau nu). rewrite in_all_mi, mi_sub_length by congruence. split; [auto|]. apply mi_add_sub; [congruence|exact T3].
    - intros sg Hs. apply in_all_mi in Hs as [S1 S2]. rewrite mi_sub_add by congruence. reflexivity.
  Qed.
  (** The same terms in the order the code goes through them. *)
  Lemma ksum_cap m r s tau (g : list nat -> F) : length tau = m ->
    ksum (all_cap tau) (fun nu => if (s <? nsum (mi_sub tau nu))%nat then 0 else if (r <? nsum nu)%nat then 0 else g nu) =
    ksum (all_mi m r) (fun nu => if mi_leb nu tau && (nsum (mi_sub tau nu) <=? s)%nat then g nu else 0).
  Proof.
    intros Ht. rewrite <- (ksum_filter (fun nu => mi_leb nu tau && (nsum (mi_sub tau nu) <=? s)%nat)).
    rewrite (ksum_ext _ (fun nu => if (nsum (mi_sub tau nu) <=? s)%nat && (nsum nu <=? r)%nat then g nu else 0)).
    2:{ intros nu _. rewrite !Nat.ltb_antisym. destruct (nsum (mi_sub tau nu) <=? s)%nat; cbn [negb andb]; [|reflexivity]. destruct (nsum nu <=? r)%nat; reflexivity. }
    rewrite <- (ksum_filter (fun nu => (nsum (mi_sub tau nu) <=? s)%nat && (nsum nu <=? r)%nat)). apply ksum_perm, NoDup_Permutation.
    - apply NoDup_filter, NoDup_all_cap.
    - apply NoDup_filter, NoDup_all_mi.
    - intros nu. rewrite !filter_In, in_all_cap, in_all_mi, !andb_true_iff, !Nat.leb_le. split.
      + intros (H1 & H2 & H3). pose proof (Forall2_len _ _ _ H1) as HL. rewrite mi_leb_Forall2 by congruence. rewrite <- HL. auto.
      + intros ((H1 & H2) & H3 & H4). rewrite mi_leb_Forall2 in H3 by congruence. auto.
  Qed.
  Lemma ksum_1 r (f : list nat -> F) : ksum (all_mi 1 r) f = ksum (seq 0 (S r)) (fun k => f [k]).
  Proof. rewrite all_mi_1, ksum_map. reflexivity. Qed.
  Lemma mi_leb_1 a b : mi_leb [a] [b] = (a <=? b)%nat.
  Proof. unfold mi_leb. cbn. apply andb_true_r. Qed.
  (** A sum over a window of [0 .. r]. *)
  Lemma ksum_window r k s (g : nat -> F) : (k <= r + s)%nat ->
    ksum (seq (k - s) (S (Nat.min r k) - (k - s))) g = ksum (seq 0 (S r)) (fun i => if (i <=? k)%nat && (k - i <=? s)%nat then g i else 0).
  Proof.
    intros Hk. rewrite <- (ksum_filter (fun i => (i <=? k)%nat && (k - i <=? s)%nat)). apply ksum_perm, NoDup_Permutation.
    - apply seq_NoDup.
    - apply NoDup_filter, seq_NoDup.
    - intros i. rewrite filter_In, !in_seq, andb_true_iff, !Nat.leb_le. lia.
  Qed.

  (** *** Monomial coefficients *)
  Lemma mval_ext m r (c : list F) (f : list nat -> F) x : c = map f (all_mi m r) -> mval m r c x = ksum (all_mi m r) (fun nu => f nu * mpow x nu).
  Proof. intros ->. unfold mval. apply ksum_ext. intros nu Hnu. apply in_all_mi in Hnu as [H1 H2]. rewrite cf_map by assumption. reflexivity. Qed.
  Lemma bval_ext m r (c : list F) (f : list nat -> F) x : c = map f (all_mi m r) -> bval m r c x = ksum (all_mi m r) (fun nu => f nu * bern r nu x).
  Proof. intros ->. unfold bval. apply ksum_ext. intros nu Hnu. apply in_all_mi in Hnu as [H1 H2]. rewrite cf_map by assumption. reflexivity. Qed.

  Lemma generate_nth m r i d : i < get_dimension r m -> generate m r i = Ok (nth i (all_mi m r) d).
  Proof. intros H. rewrite generate_eq. rewrite (nth_error_nth' _ d) by (rewrite <- dim_all_mi; exact H). reflexivity. Qed.
  Lemma set_app (l : list F) v0 m v n : n = length l -> set (l ++ v0 :: m) n v = Ok (l ++ v :: m).
  Proof.
    intros ->.    unfold set. rewrite app_length. cbn [length]. replace (length l <? length l + S (length m))%nat with true by (symmetry; apply Nat.ltb_lt; lia). f_equal.
    induction l as [|a l IH]; [reflexivity|]. cbn [app length upd]. rewrite IH. reflexivity.
  Qed.

  Theorem elevate_monomial_eq m r s (c : list F) : (r <= s)%nat -> length c = get_dimension r m -> elevate_monomial m r s c = Ok (map (cf m r c) (all_mi m s)).
  Proof.
    intros Hrs Hc. unfold elevate_monomial. pose proof (get_dimension_pos r m) as Hp. rewrite (generate_nth m r 0 []) by exact Hp. cbn [bind]. rewrite generate_all_eq. cbn [bind].
    set (Lr := all_mi m r). pose (sel := fun a : list nat => (nsum a <=? r)%nat).
    assert (HF : filter sel (all_mi m s) = Lr) by (apply all_mi_filter; exact Hrs).
    assert (G : forall suf pre idx cur, all_mi m s = pre ++ suf -> idx = length (filter sel pre) -> In cur Lr ->
      (forall x t, filter sel suf = x :: t -> cur = x) ->
      exists st, foldM (elevate_step m r c) (map (cf m r c) pre ++ repeat 0 (length suf), idx, cur) (combine (seq (length pre) (length suf)) suf) = Ok st /\
        fst (fst st) = map (cf m r c) (all_mi m s)).
    { induction suf as [|mi suf IH]; intros pre idx cur E Ei Hcur Hx; cbn [length seq combine foldM repeat].
      - rewrite app_nil_r in *. eexists. split; [reflexivity|]. cbn [fst]. rewrite E. reflexivity.
      - cbn [elevate_step fst snd]. assert (E' : all_mi m s = (pre ++ [mi]) ++ suf) by (rewrite <- app_assoc; exact E). pose proof HF as HF'. rewrite E' in HF'. rewrite filter_app, filter_app in HF'. cbn [filter] in HF', Hx.
        destruct (sel mi) eqn:Es.
        + rewrite (Hx mi _ eq_refl), leqb_refl. rewrite <- app_assoc in HF'. cbn [app] in HF'.
          assert (Hn : nth_error Lr idx = Some mi) by (rewrite <- HF', Ei; rewrite nth_error_app2 by lia; rewrite Nat.sub_diag; reflexivity).
          assert (Hidx : (idx < length c)%nat) by (rewrite Hc, dim_all_mi; apply nth_error_Some; fold Lr; congruence).
          unfold get. rewrite (nth_error_nth' c 0 Hidx). cbn [bind].
          rewrite set_app by (symmetry; apply map_length). cbn [bind].
          assert (Hv : nth idx c 0 = cf m r c mi) by (unfold cf, cfl; rewrite (pos_nth_error _ _ idx (NoDup_all_mi m r) Hn); reflexivity).
          rewrite Hv. replace (map (cf m r c) pre ++ cf m r c mi :: repeat 0 (length suf)) with (map (cf m r c) (pre ++ [mi]) ++ repeat 0 (length suf)) by (rewrite map_app, <- app_assoc; reflexivity).
          replace (S (length pre)) with (length (pre ++ [mi])) by (rewrite app_length; cbn; lia).
          assert (Ei' : S idx = length (filter sel (pre ++ [mi]))) by (rewrite filter_app, app_length; cbn [filter]; rewrite Es; cbn; lia).
          destruct (Nat.ltb_spec (S idx) (length c)) as [Hl|Hl].
          * rewrite (generate_nth m r (S idx) []) by (rewrite <- Hc; exact Hl). cbn [bind]. apply IH; [exact E'|exact Ei'| |].
            -- apply nth_In. unfold Lr. rewrite <- dim_all_mi, <- Hc. exact Hl.
            -- intros x t Ex. fold Lr. rewrite <- HF', Ei, app_nth2 by lia. replace (S (length (filter sel pre)) - length (filter sel pre))%nat with 1%nat by lia. cbn [nth]. rewrite Ex. reflexivity.
          * cbn [bind]. apply IH; [exact E'|exact Ei'|rewrite <- HF'; apply in_or_app; right; left; reflexivity|].
            intros x t Ex. exfalso. rewrite Hc, dim_all_mi in Hl. fold Lr in Hl. rewrite <- HF', app_length in Hl. cbn [length] in Hl. rewrite Ex in Hl. cbn [length] in Hl. lia.
        + destruct (leqb mi cur) eqn:El.
          { exfalso. apply leqb_eq in El. rewrite <- El in Hcur. apply in_all_mi in Hcur as [_ Hcur]. unfold sel in Es. apply Nat.leb_gt in Es. lia. }
          cbn [bind]. assert (Hz : cf m r c mi = 0) by (apply cf_out; unfold sel in Es; apply Nat.leb_gt in Es; exact Es).
          replace (map (cf m r c) pre ++ 0 :: repeat 0 (length suf)) with (map (cf m r c) (pre ++ [mi]) ++ repeat 0 (length suf)) by (rewrite map_app, <- app_assoc; cbn [map app]; rewrite Hz; reflexivity).
          replace (S (length pre)) with (length (pre ++ [mi])) by (rewrite app_length; cbn; lia).
          apply IH; [exact E'| |exact Hcur|exact Hx]. rewrite filter_app, app_length. cbn [filter]. rewrite Es. cbn. lia. }
    destruct (G (all_mi m s) [] 0%nat (nth 0 Lr [])) as (st & E & Ef).
    - reflexivity.
    - reflexivity.
    - apply nth_In. unfold Lr. rewrite <- dim_all_mi. exact Hp.
    - intros x t Ex. rewrite HF in Ex. rewrite Ex. reflexivity.
    - cbn [map app length] in E. rewrite (dim_all_mi s m). rewrite E. cbn [bind]. rewrite Ef. reflexivity.
  Qed.
  Theorem mval_elevate m r s (c x : list F) : (r <= s)%nat -> mval m s (map (cf m r c) (all_mi m s)) x = mval m r c x.
  Proof.
    intros H. rewrite (mval_ext m s _ (cf m r c) x eq_refl). unfold mval. transitivity (ksum (filter (fun a => (nsum a <=? r)%nat) (all_mi m s)) (fun nu => cf m r c nu * mpow x nu)); [|rewrite (all_mi_filter m r s H); reflexivity]. rewrite ksum_filter. apply ksum_ext. intros nu Hnu.
    destruct (Nat.leb_spec (nsum nu) r) as [Hn|Hn]; [reflexivity|]. rewrite cf_out by exact Hn. ring.
  Qed.

  Lemma upd_same_length {A} (l : list A) i v : length (upd l i v) = length l. Proof. apply upd_length. Qed.
  Lemma mval_bump m r tau k (c x : list F) v : pos (all_mi m r) tau = Some k -> length c = get_dimension r m ->
    mval m r (upd c k (nth k c 0 + v)) x = mval m r c x + v * mpow x tau.
  Proof.
    intros Hk Hc. unfold mval. rewrite <- (ksum_delta mi_dec (fun mu => v * mpow x mu) (all_mi m r) tau); [|apply NoDup_all_mi|eapply nth_error_In, pos_nth; eassumption].
    rewrite <- ksum_plus. apply ksum_ext. intros nu _. rewrite (cf_upd m r tau) by assumption. destruct (mi_dec nu tau) as [E|E]; [|ring].
    rewrite E. unfold cf, cfl. rewrite Hk. ring.
  Qed.

  (** *** Products of monomial coefficients *)
  Lemma combine_nth_sum {A} (c : list F) (L : list A) d (g : A -> F) : length c = length L ->
    ksum (combine c L) (fun p => fst p * g (snd p)) = ksum (seq 0 (length c)) (fun i => nth i c 0 * g (nth i L d)).
  Proof.
    revert L. induction c as [|a c IH]; intros [|l L] E; try discriminate; [reflexivity|]. cbn [combine length]. rewrite ksum_cons, ksum_seq_S. cbn [fst snd nth].
    rewrite IH by (cbn in E; lia). reflexivity.
  Qed.
  Lemma ksum_comm0 (a : F) : 0 + a = a. Proof. ring. Qed.
  Theorem mul_monomial_ok m r s (a b : list F) : length a = get_dimension r m -> length b = get_dimension s m ->
    exists c, mul_monomial m r s a b = Ok c /\ length c = get_dimension (r + s) m /\ forall x, length x = m -> mval m (r + s) c x = mval m r a x * mval m s b x.
  Proof.
    intros Ha Hb. unfold mul_monomial. destruct (Nat.eqb_spec m 1) as [->|Hm].
    - eexists. split; [reflexivity|]. rewrite !get_dimension_1 in *. split; [unfold convolve; rewrite map_length, seq_length; lia|]. intros x Hx.
      assert (EC : convolve a b = map (fun tau => ksum (all_mi 1 r) (fun nu => if mi_leb nu tau && (nsum (mi_sub tau nu) <=? s)%nat then cf 1 r a nu * cf 1 s b (mi_sub tau nu) else 0)) (all_mi 1 (r + s))).
      { unfold convolve. rewrite (all_mi_1 (r + s)), map_map, Ha, Hb. replace (S r + S s - 1)%nat with (S (r + s)) by lia. apply map_ext_in. intros k Hk. apply in_seq in Hk.
        rewrite ksum_1. replace (ksum (seq 0 (S k)) (fun i => nth i a 0 * nth (k - i) b 0)) with (ksum (seq (k - s) (S (Nat.min r k) - (k - s))) (fun i => nth i a 0 * nth (k - i) b 0)).
        - rewrite ksum_window by lia. apply ksum_ext. intros i Hi. apply in_seq in Hi. rewrite mi_leb_1. replace (nsum (mi_sub [k] [i])) with (k - i)%nat by (cbn; lia).
          destruct ((i <=? k)%nat && (k - i <=? s)%nat) eqn:E; [|reflexivity]. apply andb_prop in E as [_ E]. apply Nat.leb_le in E.
          rewrite nth_cf by (rewrite ?get_dimension_1; lia). change (mi_sub [k] [i]) with [(k - i)%nat]. rewrite nth_cf by (rewrite ?get_dimension_1; lia). reflexivity.
        - rewrite ksum_window by lia.
          assert (X : forall n (f : nat -> F), ksum (seq 0 n) f = ksum (seq 0 (S (r + s))) (fun i => if (i <? n)%nat then f i else 0) \/ (S (r + s) < n)%nat).
          { intros n f. destruct (Nat.le_gt_cases n (S (r + s))) as [H|H]; [left|right; exact H]. rewrite <- (ksum_filter (fun i => (i <? n)%nat)). apply ksum_perm, NoDup_Permutation; [apply seq_NoDup|apply NoDup_filter, seq_NoDup|].
            intros i. rewrite filter_In, !in_seq, Nat.ltb_lt. lia. }
          destruct (X (S r) (fun i => if (i <=? k)%nat && (k - i <=? s)%nat then nth i a 0 * nth (k - i) b 0 else 0)) as [->|]; [|lia].
          destruct (X (S k) (fun i => nth i a 0 * nth (k - i) b 0)) as [->|]; [|lia]. apply ksum_ext. intros i Hi.
          destruct (Nat.ltb_spec i (S r)) as [H1|H1], (Nat.ltb_spec i (S k)) as [H2|H2]; cbn [andb]; try reflexivity.
          + replace (i <=? k)%nat with true by (symmetry; apply Nat.leb_le; lia). destruct (Nat.leb_spec (k - i) s) as [H3|H3]; cbn [andb]; [reflexivity|]. rewrite (nth_overflow b) by lia. ring.
          + replace (i <=? k)%nat with false by (symmetry; apply Nat.leb_gt; lia). reflexivity.
          + rewrite (nth_overflow a) by lia. ring. }
      rewrite (mval_ext 1 (r + s) _ _ x EC). unfold mval. rewrite ksum_mul, ksum_convolution. apply ksum_ext. intros tau Ht. apply in_all_mi in Ht as [T1 _].
      rewrite <- ksum_scale_r. apply ksum_ext. intros nu Hn. apply in_all_mi in Hn as [N1 _]. destruct (mi_leb nu tau) eqn:El; cbn [andb]; [|ring].
      destruct (nsum (mi_sub tau nu) <=? s)%nat; [|ring]. rewrite <- (mi_add_sub nu tau) at 2 by congruence. rewrite mpow_add by (rewrite ?mi_sub_length; congruence). ring.
    - rewrite !generate_all_eq. cbn [bind].
      pose (P := fun (q : nat) (acc : list F) => length acc = get_dimension (r + s) m).
      assert (IN : forall i mu, nth_error (all_mi m r) i = Some mu -> forall js acc, (forall j, In j js -> (j < length b)%nat) -> length acc = get_dimension (r + s) m ->
        exists acc', foldM (fun acc j => let* bj := get b j in if kdec bj 0 then Ok acc else
             let* nu := get (all_mi m s) j in let* k := get_index (mi_add mu nu) (r + s) in let* old := get acc k in set acc k (old + nth i a 0 * bj)) acc js = Ok acc' /\
          length acc' = get_dimension (r + s) m /\
          forall x, length x = m -> mval m (r + s) acc' x = mval m (r + s) acc x + ksum js (fun j => nth i a 0 * nth j b 0 * (mpow x mu * mpow x (nth j (all_mi m s) [])))).
      { intros i mu Hi. induction js as [|j js IH]; intros acc Hjs Hacc.
        - exists acc. split; [reflexivity|]. split; [exact Hacc|]. intros x _. rewrite ksum_nil. ring.
        - cbn [foldM]. pose proof (Hjs j (or_introl eq_refl)) as Hj. unfold get at 1. rewrite (nth_error_nth' b 0 Hj). cbn [bind]. destruct (kdec (nth j b 0) 0) as [E0|E0].
          + cbn [bind]. destruct (IH acc) as (acc' & E & Hl & HV); [intros j' Hj'; apply Hjs; right; exact Hj'|exact Hacc|]. exists acc'. split; [exact E|]. split; [exact Hl|].
            intros x Hx. rewrite (HV x Hx), ksum_cons, E0. ring.
          + assert (Hj' : (j < length (all_mi m s))%nat) by (rewrite <- dim_all_mi, <- Hb; exact Hj). unfold get at 1. rewrite (nth_error_nth' _ [] Hj'). cbn [bind].
            assert (Hmu : length mu = m /\ nsum mu <= r) by (apply in_all_mi; eapply nth_error_In; eassumption). destruct Hmu as [U1 U2].
            assert (Hnu : length (nth j (all_mi m s) []) = m /\ nsum (nth j (all_mi m s) []) <= s) by (apply in_all_mi, nth_In; exact Hj'). destruct Hnu as [V1 V2].
            destruct (index_cf m (r + s) (mi_add mu (nth j (all_mi m s) [])) acc) as (k & Hk & Ek & Hb' & Eg); [rewrite mi_add_length by congruence; exact U1|rewrite mi_add_sum by congruence; lia|exact Hacc|].
            rewrite Ek. cbn [bind]. unfold get at 1. rewrite (nth_error_nth' acc 0 Hb'). cbn [bind]. unfold set at 1. apply Nat.ltb_lt in Hb'. rewrite Hb'. cbn [bind].
            destruct (IH (upd acc k (nth k acc 0 + nth i a 0 * nth j b 0))) as (acc' & E & Hl & HV); [intros j' H'; apply Hjs; right; exact H'|rewrite upd_length; exact Hacc|].
            exists acc'. split; [exact E|]. split; [exact Hl|]. intros x Hx. rewrite (HV x Hx), ksum_cons, (mval_bump _ _ _ _ _ _ _ Hk Hacc), mpow_add by congruence. ring. }
      assert (OUT : forall is acc, (forall i, In i is -> (i < length a)%nat) -> length acc = get_dimension (r + s) m ->
        exists acc', foldM (fun acc i => let* ai := get a i in if kdec ai 0 then Ok acc else
             let* mu := get (all_mi m r) i in foldM (fun acc j => let* bj := get b j in if kdec bj 0 then Ok acc else
             let* nu := get (all_mi m s) j in let* k := get_index (mi_add mu nu) (r + s) in let* old := get acc k in set acc k (old + ai * bj)) acc (seq 0 (length b))) acc is = Ok acc' /\
          length acc' = get_dimension (r + s) m /\
          forall x, length x = m -> mval m (r + s) acc' x = mval m (r + s) acc x + ksum is (fun i => ksum (seq 0 (length b)) (fun j => nth i a 0 * nth j b 0 * (mpow x (nth i (all_mi m r) []) * mpow x (nth j (all_mi m s) []))))).
      { induction is as [|i is IH]; intros acc His Hacc.
        - exists acc. split; [reflexivity|]. split; [exact Hacc|]. intros x _. rewrite ksum_nil. ring.
        - cbn [foldM]. pose proof (His i (or_introl eq_refl)) as Hi. unfold get at 1. rewrite (nth_error_nth' a 0 Hi). cbn [bind].
          assert (His' : forall i', In i' is -> (i' < length a)%nat) by (intros i' H'; apply His; right; exact H'). destruct (kdec (nth i a 0) 0) as [E0|E0].
          + cbn [bind]. destruct (IH acc His' Hacc) as (acc' & E & Hl & HV). exists acc'. split; [exact E|]. split; [exact Hl|].
            intros x Hx. rewrite (HV x Hx), ksum_cons. rewrite (ksum_zero (fun j => nth i a 0 * nth j b 0 * _)); [ring|]. intros j _. rewrite E0. ring.
          + assert (Hi' : (i < length (all_mi m r))%nat) by (rewrite <- dim_all_mi, <- Ha; exact Hi). unfold get at 1. rewrite (nth_error_nth' _ [] Hi'). cbn [bind].
            destruct (IN i _ (nth_error_nth' _ [] Hi') (seq 0 (length b)) acc) as (acc1 & E1 & Hl1 & HV1); [intros j Hj; apply in_seq in Hj; lia|exact Hacc|].
            rewrite E1. cbn [bind]. destruct (IH acc1 His' Hl1) as (acc' & E & Hl & HV). exists acc'. split; [exact E|]. split; [exact Hl|].
            intros x Hx. rewrite (HV x Hx), (HV1 x Hx), ksum_cons. ring. }
      destruct (OUT (seq 0 (length a)) (repeat 0 (get_dimension (r + s) m))) as (c & E & Hl & HV); [intros i Hi; apply in_seq in Hi; lia|apply repeat_length|].
      exists c. split; [exact E|]. split; [exact Hl|].
      intros x Hx. rewrite (HV x Hx). unfold mval at 1. rewrite (ksum_zero (A := list nat)) by (intros nu _; rewrite cf_repeat; ring).
      unfold mval. rewrite <- (sum_cf m r a _ Ha), <- (sum_cf m s b _ Hb), !(combine_nth_sum _ _ []) by (rewrite ?Ha, ?Hb; apply dim_all_mi).
      rewrite ksum_mul, ksum_comm0. apply ksum_ext. intros i _. apply ksum_ext. intros j _. ring.
  Qed.
End Ops.
