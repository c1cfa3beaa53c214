(** Cycles, transpositions and the sign (model in Permutations.v). *)
From Verif Require Import Base MultiIndex MultiCapFacts Permutations PermFacts.

(** [path f x t y]: from [x], following [f], one visits the elements of [t] in
    order and the next one is [y]. *)
Fixpoint path (f : nat -> nat) (x : nat) (t : list nat) (y : nat) : Prop :=
  match t with
  | [] => f x = y
  | z :: t' => f x = z /\ path f z t' y
  end.

Lemma path_split f x t1 z t2 y : path f x (t1 ++ z :: t2) y <-> path f x t1 z /\ path f z t2 y.
Proof.
  revert x; induction t1 as [|w t1 IH]; intros x; cbn; [tauto|]. rewrite IH. tauto.
Qed.
Lemma path_snoc f x t z : path f x t z -> path f x (t ++ [z]) (f z).
Proof. intros H. apply path_split. split; [exact H|reflexivity]. Qed.
Lemma path_last f x t y : path f x t y -> exists a, In a (x :: t) /\ f a = y.
Proof.
  revert x; induction t as [|z t IH]; intros x H; cbn in H.
  - exists x. split; [left|]; auto.
  - destruct H as [_ H]. apply IH in H as (a & Ha & E). exists a. split; [right; exact Ha|exact E].
Qed.
Lemma iter_S_r (f : nat -> nat) k x : Nat.iter (S k) f x = Nat.iter k f (f x).
Proof. induction k as [|k IH]; [reflexivity|]. change (Nat.iter (S (S k)) f x) with (f (Nat.iter (S k) f x)). rewrite IH. reflexivity. Qed.
Lemma path_iter f x t y k : path f x t y -> k < length (x :: t) -> nth k (x :: t) 0 = Nat.iter k f x.
Proof.
  revert x k; induction t as [|z t IH]; intros x k H Hk; cbn [length] in Hk.
  - replace k with 0 by lia. reflexivity.
  - destruct H as [E H]. destruct k as [|k]; [reflexivity|].
    change (nth (S k) (x :: z :: t) 0) with (nth k (z :: t) 0). rewrite IH by (auto; cbn; lia).
    rewrite <- E, iter_S_r. reflexivity.
Qed.
Lemma path_end_iter f x t y : path f x t y -> y = Nat.iter (length (x :: t)) f x.
Proof.
  revert x; induction t as [|z t IH]; intros x H; cbn in H.
  - cbn. auto.
  - destruct H as [E H]. apply IH in H. rewrite H. rewrite <- E.
    change (length (x :: f x :: t)) with (S (length (f x :: t))). rewrite iter_S_r. reflexivity.
Qed.

Lemma NoDup_app_l {A} (a b : list A) : NoDup (a ++ b) -> NoDup a.
Proof.
  induction a as [|x a IH]; intros H; [constructor|]. inversion H; subst. constructor; auto.
  rewrite in_app_iff in *. tauto.
Qed.
Lemma NoDup_app_r {A} (a b : list A) : NoDup (a ++ b) -> NoDup b.
Proof. induction a as [|x a IH]; intros H; [exact H|]. inversion H; auto. Qed.
Lemma NoDup_app_disj {A} (a b : list A) x : NoDup (a ++ b) -> In x a -> ~ In x b.
Proof.
  induction a as [|y a IH]; intros H Hx; [destruct Hx|]. inversion H; subst.
  destruct Hx as [->|Hx]; [rewrite in_app_iff in *; tauto|auto].
Qed.

Definition bounded (n : nat) (l : list nat) : Prop := forall x, In x l -> x < n.

Lemma NoDup_bounded_length n l : NoDup l -> bounded n l -> length l <= n.
Proof.
  intros HN HB. rewrite <- (seq_length n 0). apply NoDup_incl_length; [exact HN|].
  intros x Hx. apply in_seq. specialize (HB x Hx). lia.
Qed.

Section Perm.
  Variables (n : nat) (p : list nat).
  Hypothesis HP : is_perm n p.
  Let f (i : nat) : nat := nth i p 0.

  Definition is_cycle (c : list nat) : Prop :=
    exists x t, c = x :: t /\ path f x t x /\ NoDup c /\ bounded n c.

  Lemma f_inj i j : i < n -> j < n -> f i = f j -> i = j.
  Proof. apply is_perm_inj. exact HP. Qed.
  Lemma f_bound i : i < n -> f i < n.
  Proof. apply is_perm_nth. exact HP. Qed.

  Lemma path_fresh x t y : path f x t y -> NoDup (x :: t) -> bounded n (x :: t) -> ~ In y t.
  Proof.
    intros H HN HB HI. apply in_split in HI as (t1 & t2 & ->).
    apply path_split in H as [H1 H2].
    apply path_last in H1 as (a & Ha & Ea). apply path_last in H2 as (b & Hb & Eb).
    assert (a = b).
    { apply f_inj; [| |congruence].
      - apply HB. rewrite app_comm_cons. apply in_app_iff. auto.
      - apply HB. rewrite app_comm_cons. apply in_app_iff. auto. }
    subst b. rewrite app_comm_cons in HN. exact (NoDup_app_disj _ _ _ HN Ha Hb).
  Qed.

  Lemma cycle_loop_spec start fuel : forall t next,
    path f start t next -> NoDup (start :: t) -> bounded n (start :: t) ->
    n + 1 <= length (start :: t) + fuel ->
    exists t', cycle_loop fuel p start (start :: t) next = Ok (start :: t') /\ is_cycle (start :: t').
  Proof.
    induction fuel as [|fuel IH]; intros t next HPa HN HB HF.
    - pose proof (NoDup_bounded_length _ _ HN HB). lia.
    - cbn [cycle_loop]. destruct (Nat.eqb_spec next start) as [->|Hne].
      + exists t. split; [reflexivity|]. exists start, t. auto.
      + assert (Hfr : ~ In next (start :: t)).
        { intros [E|H]; [congruence|]. exact (path_fresh _ _ _ HPa HN HB H). }
        assert (Hnx : next < n).
        { apply path_last in HPa as (a & Ha & <-). apply f_bound, HB, Ha. }
        rewrite (get_ok _ _ 0) by (rewrite (is_perm_length _ _ HP); exact Hnx). cbn [bind].
        fold (f next). change ((start :: t) ++ [next]) with (start :: (t ++ [next])).
        apply IH.
        * apply path_snoc. exact HPa.
        * rewrite app_comm_cons. apply NoDup_app_intro; [exact HN|repeat constructor; auto|].
          intros z Hz [<-|[]]. auto.
        * intros z. rewrite app_comm_cons, in_app_iff. intros [Hz|[<-|[]]]; [apply HB, Hz|exact Hnx].
        * cbn [length] in *. rewrite app_length. cbn. lia.
  Qed.

  Lemma cycle_spec start fuel : start < n -> n <= fuel ->
    exists t, cycle_fuel fuel p start = Ok (start :: t) /\ is_cycle (start :: t).
  Proof.
    intros Hs Hf. unfold cycle_fuel. rewrite (get_ok _ _ 0) by (rewrite (is_perm_length _ _ HP); exact Hs).
    cbn [bind]. apply cycle_loop_spec.
    - reflexivity.
    - repeat constructor. auto.
    - intros x [<-|[]]. exact Hs.
    - cbn. lia.
  Qed.

  Lemma cycle_pre c x : is_cycle c -> x < n -> In (f x) c -> In x c.
  Proof.
    intros (y & t & -> & HPa & HN & HB) Hx HI.
    assert (exists t1 t2, t = t1 ++ t2 /\ path f y t1 (f x)) as (t1 & t2 & -> & H1).
    { destruct HI as [E|HI].
      - exists t, []. rewrite app_nil_r. split; [reflexivity|]. rewrite <- E. exact HPa.
      - apply in_split in HI as (t1 & t2 & ->). exists t1, (f x :: t2). split; [reflexivity|].
        apply path_split in HPa as [H1 _]. exact H1. }
    apply path_last in H1 as (a & Ha & Ea).
    assert (a = x); [|subst a].
    { apply f_inj; auto. apply HB. rewrite app_comm_cons. apply in_app_iff. auto. }
    rewrite app_comm_cons. apply in_app_iff. auto.
  Qed.

  Lemma path_pre c x t z : is_cycle c -> bounded n (x :: t) -> path f x t z -> In z c -> In x c.
  Proof.
    intros Hc. revert x; induction t as [|w t IH]; intros x HB H HI; cbn in H.
    - subst z. apply cycle_pre; auto. apply HB. left; auto.
    - destruct H as [E H]. apply cycle_pre; auto; [apply HB; left; auto|].
      rewrite E. apply IH; auto. intros v Hv. apply HB. right. exact Hv.
  Qed.

  Lemma cycle_disjoint c i t : is_cycle c -> is_cycle (i :: t) -> ~ In i c ->
    forall z, In z (i :: t) -> ~ In z c.
  Proof.
    intros Hc (y & t' & E & HPa & HN & HB) Hi z Hz HI. injection E as <- <-. apply Hi.
    destruct Hz as [<-|Hz]; [exact HI|].
    apply in_split in Hz as (t1 & t2 & ->). apply path_split in HPa as [H1 _].
    apply (path_pre c i t1 z); [exact Hc| |exact H1|exact HI].
    intros v Hv. apply HB. rewrite app_comm_cons. apply in_app_iff. auto.
  Qed.

  Lemma mark_spec c : forall visited, length visited = n -> bounded n c ->
    exists v', mark visited c = Ok v' /\ length v' = n /\
      forall j, j < n -> (nth j v' false = true <-> nth j visited false = true \/ In j c).
  Proof.
    induction c as [|x c IH]; intros visited HL HB; cbn [mark].
    - exists visited. split; [reflexivity|]. split; [exact HL|]. intros j _. cbn. tauto.
    - assert (Hx : x < n) by (apply HB; left; auto).
      rewrite set_ok by lia. cbn [bind].
      destruct (IH (upd visited x true)) as (v' & E & HL' & H).
      { rewrite upd_length; exact HL. } { intros z Hz. apply HB. right. exact Hz. }
      exists v'. split; [exact E|]. split; [exact HL'|]. intros j Hjn. split.
      + intros Hj. apply H in Hj; [|assumption]. destruct (Nat.eq_dec x j) as [->|Hne]; [right; left; auto|].
        rewrite nth_upd_other in Hj by auto. cbn. tauto.
      + intros Hj. apply H; [assumption|]. destruct (Nat.eq_dec x j) as [->|Hne].
        * left. apply nth_upd_same. lia.
        * rewrite nth_upd_other by auto. cbn in Hj. destruct Hj as [?|[?|?]]; auto; congruence.
  Qed.

  Definition cycles_inv (k : nat) (cs : list (list nat)) : Prop :=
    Forall is_cycle cs /\ NoDup (concat cs) /\ (forall j, j < k -> In j (concat cs)).

  Lemma cycles_loop_spec m : forall k visited cs,
    k + m = n -> length visited = n -> cycles_inv k cs ->
    (forall j, j < n -> (nth j visited false = true <-> In j (concat cs))) ->
    exists cs', cycles_loop p (seq k m) visited cs = Ok cs' /\ cycles_inv n cs'.
  Proof.
    induction m as [|m IH]; intros k visited cs Hk HL HI HV; cbn [seq cycles_loop].
    - exists cs. split; [reflexivity|]. rewrite Nat.add_0_r in Hk. subst k. exact HI.
    - rewrite (get_ok _ _ false) by lia. cbn [bind].
      destruct HI as (Hc & HN & Hin).
      destruct (nth k visited false) eqn:Ek.
      + apply IH; auto; [lia|]. split; [exact Hc|]. split; [exact HN|].
        intros j Hj. destruct (Nat.eq_dec j k) as [->|]; [apply HV; auto; lia|apply Hin; lia].
      + destruct (cycle_spec k (length p)) as (t & Et & Hct); [lia|rewrite (is_perm_length _ _ HP); lia|].
        unfold cycle. rewrite Et. cbn [bind].
        destruct (mark_spec (k :: t) visited HL) as (v' & Ev & HL' & Hv').
        { destruct Hct as (? & ? & _ & _ & _ & HB). exact HB. }
        rewrite Ev. cbn [bind].
        assert (Hdis : forall z, In z (k :: t) -> ~ In z (concat cs)).
        { intros z Hz HI. apply in_concat in HI as (c & Hcc & Hzc).
          rewrite Forall_forall in Hc. eapply cycle_disjoint; [exact (Hc c Hcc)|exact Hct| |exact Hz|exact Hzc].
          intros Hkc. assert (nth k visited false = true); [|congruence].
          apply HV; [lia|]. apply in_concat. eauto. }
        apply IH; [lia|exact HL'| |].
        * split; [apply Forall_app; auto|]. rewrite concat_app. cbn [concat]. rewrite app_nil_r. split.
          -- apply NoDup_app_intro; [exact HN| |].
             ++ destruct Hct as (? & ? & _ & _ & H & _). exact H.
             ++ intros z Hz Hz'. exact (Hdis z Hz' Hz).
          -- intros j Hj. apply in_app_iff. destruct (Nat.eq_dec j k) as [->|]; [right; left; auto|left; apply Hin; lia].
        * intros j Hj. rewrite Hv' by exact Hj. rewrite HV by exact Hj.
          rewrite concat_app. cbn [concat]. rewrite app_nil_r, in_app_iff. tauto.
  Qed.

  Lemma to_cycle_notation_spec :
    exists cs, to_cycle_notation p = Ok cs /\ Forall is_cycle cs /\ is_perm n (concat cs).
  Proof.
    unfold to_cycle_notation. pose proof (is_perm_length _ _ HP) as HL. rewrite HL.
    destruct (cycles_loop_spec n 0 (repeat false n) []) as (cs & E & Hc & HN & Hin).
    - lia.
    - apply repeat_length.
    - repeat split; [constructor|constructor|lia].
    - intros j Hj. cbn. rewrite nth_repeat. split; [discriminate|tauto].
    - exists cs. split; [exact E|]. split; [exact Hc|].
      assert (HB : bounded n (concat cs)).
      { intros x Hx. apply in_concat in Hx as (c & Hcc & Hx). rewrite Forall_forall in Hc.
        destruct (Hc c Hcc) as (? & ? & _ & _ & _ & HB). auto. }
      unfold is_perm. apply NoDup_Permutation; [apply seq_NoDup|exact HN|].
      intros x. rewrite in_seq. split; [intros; apply Hin; lia|]. intros Hx. apply HB in Hx. lia.
  Qed.

  (** from_cycle_notation *)
  Lemma record_cycle_spec first t : forall x (im : list (option nat)),
    length im = n -> path f x t first -> NoDup (x :: t) -> bounded n (x :: t) ->
    exists im', record_cycle im first (x :: t) = Ok im' /\ length im' = n /\
      (forall j, In j (x :: t) -> nth j im' None = Some (f j)) /\
      (forall j, ~ In j (x :: t) -> nth j im' None = nth j im None).
  Proof.
    induction t as [|y t IH]; intros x im HL HPa HN HB.
    - cbn [record_cycle]. assert (x < n) by (apply HB; left; auto). rewrite set_ok by lia.
      eexists. split; [reflexivity|]. split; [rewrite upd_length; exact HL|]. split.
      + intros j [<-|[]]. rewrite nth_upd_same by lia. cbn in HPa. congruence.
      + intros j Hj. apply nth_upd_other. intros ->. apply Hj. left. auto.
    - assert (x < n) by (apply HB; left; auto).
      change (record_cycle im first (x :: y :: t)) with
        (let* im1 := set im x (Some y) in record_cycle im1 first (y :: t)).
      rewrite set_ok by lia. cbn [bind]. destruct HPa as [E HPa]. inversion HN as [|? ? Hn1 Hn2]; subst x0 l. subst y.
      destruct (IH (f x) (upd im x (Some (f x)))) as (im' & E' & HL' & H1 & H2); auto.
      { rewrite upd_length. exact HL. } { intros z Hz. apply HB. right. exact Hz. }
      exists im'. split; [exact E'|]. split; [exact HL'|]. split.
      + intros j [<-|Hj]; [|auto]. rewrite H2 by assumption. rewrite nth_upd_same by lia. reflexivity.
      + intros j Hj. rewrite H2 by (intros ?; apply Hj; right; auto). apply nth_upd_other.
        intros ->. apply Hj. left. auto.
  Qed.

  Lemma record_cycles_spec cs : forall im : list (option nat),
    length im = n -> Forall is_cycle cs -> NoDup (concat cs) ->
    exists im', record_cycles im cs = Ok im' /\ length im' = n /\
      (forall j, In j (concat cs) -> nth j im' None = Some (f j)) /\
      (forall j, ~ In j (concat cs) -> nth j im' None = nth j im None).
  Proof.
    induction cs as [|c cs IH]; intros im HL Hc HN; cbn [record_cycles].
    - exists im. cbn. repeat split; auto. tauto.
    - apply Forall_cons_iff in Hc as [Hc1 Hc2]. destruct Hc1 as (x & t & -> & HPa & HNc & HB).
      cbn [hd]. destruct (record_cycle_spec x t x im HL HPa HNc HB) as (im1 & E1 & HL1 & H1 & H2).
      rewrite E1. cbn [bind]. cbn [concat] in HN.
      destruct (IH im1 HL1 Hc2 (NoDup_app_r _ _ HN)) as (im2 & E2 & HL2 & H3 & H4).
      exists im2. split; [exact E2|]. split; [exact HL2|]. cbn [concat]. split.
      + intros j Hj. apply in_app_iff in Hj as [Hj|Hj]; [|auto].
        rewrite H4 by (eapply NoDup_app_disj; eauto). auto.
      + intros j Hj. rewrite in_app_iff in Hj. rewrite H4, H2; auto.
  Qed.

  Lemma fill_spec im : forall i k, k < length im ->
    nth k (fill i im) 0 = match nth k im None with Some v => v | None => i + k end.
  Proof.
    induction im as [|o im IH]; intros i k Hk; cbn in Hk; [lia|].
    destruct o as [v|]; cbn [fill]; destruct k as [|k]; cbn [nth]; try reflexivity; try lia.
    - rewrite IH by lia. destruct (nth k im None); auto. lia.
    - rewrite IH by lia. destruct (nth k im None); auto. lia.
  Qed.
  Lemma fill_length im i : length (fill i im) = length im.
  Proof. revert i; induction im as [|[v|] im IH]; intros i; cbn; auto. Qed.

  Lemma from_cycle_notation_spec cs : Forall is_cycle cs -> NoDup (concat cs) ->
    (forall i, i < n -> ~ In i (concat cs) -> f i = i) ->
    from_cycle_notation cs n = Ok p.
  Proof.
    intros Hc HN Hfix. unfold from_cycle_notation.
    destruct (record_cycles_spec cs (repeat None n)) as (im & E & HL & H1 & H2); auto.
    { apply repeat_length. }
    rewrite E. cbn [bind]. f_equal. apply (list_eq_nth 0).
    - rewrite fill_length, (is_perm_length _ _ HP). exact HL.
    - rewrite fill_length. intros i Hi. rewrite fill_spec by exact Hi.
      destruct (in_dec Nat.eq_dec i (concat cs)) as [Hin|Hout].
      + rewrite H1 by exact Hin. reflexivity.
      + rewrite H2 by exact Hout. rewrite nth_repeat. cbn. symmetry. apply Hfix; auto. lia.
  Qed.

  Lemma cycle_roundtrip : exists cs, to_cycle_notation p = Ok cs /\ from_cycle_notation cs n = Ok p.
  Proof.
    destruct to_cycle_notation_spec as (cs & E & Hc & HPc). exists cs. split; [exact E|].
    apply from_cycle_notation_spec; auto; [eapply is_perm_NoDup; exact HPc|].
    intros i Hi Hn. exfalso. apply Hn. apply (is_perm_in _ _ _ HPc). exact Hi.
  Qed.

  (** transpositions *)
  Lemma swaps_app ts1 : forall ts2 q, swaps q (ts1 ++ ts2) = let* q' := swaps q ts1 in swaps q' ts2.
  Proof.
    induction ts1 as [|t ts1 IH]; intros ts2 q; cbn [app swaps bind]; [reflexivity|].
    destruct (swap q t); cbn [bind]; auto.
  Qed.

  Lemma swaps_cycle x t : forall q, length q = n -> bounded n (x :: t) -> NoDup (x :: t) ->
    (forall j, In j (x :: t) -> nth j q 0 = j) ->
    match t with [] => True | y :: t' => path f y t' x end ->
    exists q', swaps q (rev (map (fun y => (x, y)) t)) = Ok q' /\ length q' = n /\
      nth x q' 0 = hd x t /\ (forall j, In j t -> nth j q' 0 = f j) /\
      (forall j, ~ In j (x :: t) -> nth j q' 0 = nth j q 0).
  Proof.
    induction t as [|y t IH]; intros q HL HB HN Hq HPa.
    - exists q. cbn. repeat split; auto; try tauto. apply Hq. left; auto.
    - cbn [map rev]. pose proof HN as HN0. apply NoDup_cons_iff in HN0 as [Hx HN']. pose proof HN' as HN1. apply NoDup_cons_iff in HN1 as [Hy HN''].
      assert (Hxn : x < n) by (apply HB; left; auto).
      assert (Hyn : y < n) by (apply HB; right; left; auto).
      destruct (IH q) as (q1 & E & HL1 & H1 & H2 & H3); auto.
      { intros z [<-|Hz]; auto. apply HB. right; right; auto. }
      { constructor; auto. intros ?; apply Hx; right; auto. }
      { intros j [<-|Hj]; apply Hq; [left|right; right]; auto. }
      { destruct t as [|z t]; [exact I|]. destruct HPa as [_ HPa]. exact HPa. }
      rewrite swaps_app, E. cbn [bind swaps].
      rewrite swap_spec by lia. cbn [bind]. fold (swapf q1 x y). exists (swapf q1 x y).
      assert (Hxy : x <> y) by (intros ->; apply Hx; left; auto).
      split; [reflexivity|]. split; [rewrite swapf_length; exact HL1|].
      rewrite !swapf_nth by lia. split; [|split].
      + destruct (Nat.eqb_spec x y) as [|_]; [congruence|]. rewrite Nat.eqb_refl. cbn [hd].
        rewrite H3; [apply Hq; right; left; auto|]. intros [?|?]; auto.
      + intros j Hj. rewrite swapf_nth by lia. destruct Hj as [<-|Hj].
        * rewrite Nat.eqb_refl, H1. destruct t as [|z t]; cbn in HPa |- *; [auto|destruct HPa; auto].
        * destruct (Nat.eqb_spec j y) as [->|_]; [contradiction|].
          destruct (Nat.eqb_spec j x) as [->|_]; [exfalso; apply Hx; right; auto|]. auto.
      + intros j Hj. rewrite swapf_nth by lia.
        destruct (Nat.eqb_spec j y) as [->|_]; [exfalso; apply Hj; right; left; auto|].
        destruct (Nat.eqb_spec j x) as [->|_]; [exfalso; apply Hj; left; auto|].
        apply H3. intros [?|?]; apply Hj; [left|right; right]; auto.
  Qed.

  Lemma swaps_cycles cs : Forall is_cycle cs -> NoDup (concat cs) ->
    exists q', swaps (seq 0 n) (rev (flat_map cycle_transpositions cs)) = Ok q' /\ length q' = n /\
      (forall j, In j (concat cs) -> nth j q' 0 = f j) /\
      (forall j, j < n -> ~ In j (concat cs) -> nth j q' 0 = j).
  Proof.
    induction cs as [|c cs IH]; intros Hc HN.
    - exists (seq 0 n). cbn. repeat split; auto using seq_length; [tauto|]. intros j Hj _. apply nth_seq0, Hj.
    - apply Forall_cons_iff in Hc as [Hc1 Hc2]. cbn [concat] in HN.
      destruct (IH Hc2 (NoDup_app_r _ _ HN)) as (q & E & HL & H1 & H2).
      cbn [flat_map]. rewrite rev_app_distr, swaps_app, E. cbn [bind].
      destruct Hc1 as (x & t & -> & HPa & HNc & HB). cbn [cycle_transpositions].
      destruct (swaps_cycle x t q HL HB HNc) as (q' & E' & HL' & H3 & H4 & H5).
      { intros j Hj. apply H2; [apply HB, Hj|]. eapply NoDup_app_disj; eauto. }
      { destruct t as [|y t]; [exact I|]. destruct HPa as [_ HPa]. exact HPa. }
      exists q'. split; [exact E'|]. split; [exact HL'|]. cbn [concat]. split.
      + intros j Hj. apply in_app_iff in Hj as [[<-|Hj]|Hj].
        * rewrite H3. destruct t as [|y t]; cbn in HPa |- *; [auto|destruct HPa; auto].
        * auto.
        * rewrite H5; [auto|]. intros Hj'. exact (NoDup_app_disj _ _ _ HN Hj' Hj).
      + intros j Hj Hn. rewrite in_app_iff in Hn. rewrite H5 by tauto. apply H2; tauto.
  Qed.

  Lemma cycles_length cs : Forall is_cycle cs ->
    length (flat_map cycle_transpositions cs) + length cs = length (concat cs).
  Proof.
    induction 1 as [|c cs Hc _ IH]; [reflexivity|]. cbn [flat_map concat length].
    rewrite !app_length. destruct Hc as (x & t & -> & _). cbn [cycle_transpositions length].
    rewrite map_length. lia.
  Qed.

  Lemma transposition_roundtrip :
    exists ts cs, to_transpositions p = Ok ts /\ to_cycle_notation p = Ok cs /\
      from_transpositions ts n = Ok p /\ length ts + length cs = n /\
      Forall (fun t => fst t < n /\ snd t < n /\ fst t <> snd t) ts.
  Proof.
    destruct to_cycle_notation_spec as (cs & E & Hc & HPc).
    exists (flat_map cycle_transpositions cs), cs. unfold to_transpositions. rewrite E.
    split; [reflexivity|]. split; [reflexivity|].
    destruct (swaps_cycles cs Hc (is_perm_NoDup _ _ HPc)) as (q & Eq & HL & H1 & _).
    split; [|split].
    - unfold from_transpositions. rewrite Eq. f_equal. apply (list_eq_nth 0).
      + rewrite HL. symmetry. apply is_perm_length, HP.
      + intros i Hi. apply H1. apply (is_perm_in _ _ _ HPc). lia.
    - rewrite cycles_length by exact Hc. apply is_perm_length, HPc.
    - clear -Hc. induction Hc as [|c cs Hc _ IH]; [constructor|]. cbn [flat_map]. apply Forall_app.
      split; [|exact IH]. destruct Hc as (x & t & -> & _ & HN & HB). cbn [cycle_transpositions].
      apply Forall_map. apply Forall_forall. intros y Hy. cbn. inversion HN; subst.
      split; [apply HB; left; auto|]. split; [apply HB; right; auto|]. intros ->. contradiction.
  Qed.
End Perm.

(** Parity of swaps. *)
Lemma swaps_parity n ts : forall q q', is_perm n q ->
  Forall (fun t => fst t < n /\ snd t < n /\ fst t <> snd t) ts -> swaps q ts = Ok q' ->
  is_perm n q' /\ Nat.odd (inversions q') = xorb (Nat.odd (inversions q)) (Nat.odd (length ts)).
Proof.
  induction ts as [|[i j] ts IH]; intros q q' HP HF H; cbn [swaps] in H.
  - injection H as <-. split; [exact HP|]. cbn. rewrite xorb_false_r. reflexivity.
  - inversion HF as [|? ? (Hi & Hj & Hij) HF']; subst. cbn [fst snd] in *.
    pose proof (is_perm_length _ _ HP) as HL.
    rewrite swap_spec in H by lia. cbn [bind] in H. fold (swapf q i j) in H.
    apply IH in H; [|unfold is_perm; rewrite <- swapf_perm by lia; exact HP|exact HF'].
    destruct H as [H1 H2]. split; [exact H1|].
    rewrite swapf_parity in H2; [|eapply is_perm_NoDup; exact HP|lia|lia|exact Hij].
    rewrite H2. cbn [length]. rewrite Nat.odd_succ, <- Nat.negb_odd.
    destruct (Nat.odd (inversions q)), (Nat.odd (length ts)); reflexivity.
Qed.

Lemma pow_m1 k : ((-1) ^ Z.of_nat k = if Nat.odd k then -1 else 1)%Z.
Proof.
  induction k as [|k IH]; [reflexivity|]. rewrite Nat2Z.inj_succ, Z.pow_succ_r by lia. rewrite IH.
  rewrite Nat.odd_succ, <- Nat.negb_odd. destruct (Nat.odd k); reflexivity.
Qed.

Lemma even_cycles_parity n p cs : Forall (is_cycle n p) cs ->
  Nat.odd (length (filter (fun c => Nat.even (length c)) cs)) =
  Nat.odd (length (flat_map cycle_transpositions cs)).
Proof.
  induction 1 as [|c cs Hc _ IH]; [reflexivity|]. cbn [filter flat_map].
  destruct Hc as (x & t & -> & _). cbn [cycle_transpositions length].
  rewrite app_length, map_length, Nat.odd_add, <- IH. rewrite Nat.even_succ.
  destruct (Nat.odd (length t)) eqn:E; cbn [length].
  - rewrite Nat.odd_succ, <- Nat.negb_odd. destruct (Nat.odd _); reflexivity.
  - destruct (Nat.odd _); reflexivity.
Qed.

Lemma sign_inversions n p : is_perm n p -> sign p = Ok ((-1) ^ Z.of_nat (inversions p))%Z.
Proof.
  intros HP. unfold sign. destruct (to_cycle_notation_spec n p HP) as (cs & E & Hc & HPc).
  destruct (transposition_roundtrip n p HP) as (ts & cs' & E1 & E2 & E3 & _ & HF).
  unfold to_transpositions in E1. rewrite E in *. cbn [bind] in *. injection E1 as <-. injection E2 as <-.
  unfold from_transpositions in E3.
  apply (swaps_parity n) in E3; [|apply is_perm_id|].
  2:{ apply Forall_rev. exact HF. }
  destruct E3 as [_ E3]. rewrite inversions_seq, rev_length in E3. cbn [Nat.odd Nat.even negb xorb] in E3.
  f_equal. rewrite !pow_m1. rewrite E3, (even_cycles_parity n p) by exact Hc. destruct (Nat.odd (length (flat_map cycle_transpositions cs))); reflexivity.
Qed.

Lemma swaps_map (s : nat -> nat) ts : forall q q', swaps q ts = Ok q' ->
  swaps (map s q) ts = Ok (map s q').
Proof.
  induction ts as [|[i j] ts IH]; intros q q' H; cbn [swaps] in *.
  - injection H as <-. reflexivity.
  - destruct (swap q (i, j)) as [q1|] eqn:E; [|discriminate]. cbn [bind] in H.
    assert (Hij : i < length q /\ j < length q).
    { unfold swap in E. destruct (get q j) eqn:E1; [|discriminate]. destruct (get q i) eqn:E2; [|discriminate].
      apply (get_inv _ _ _ 0) in E1, E2. tauto. }
    destruct Hij as [Hi Hj]. rewrite swap_spec in E |- * by (rewrite ?map_length; auto). injection E as <-.
    cbn [bind]. rewrite <- (IH _ _ H). f_equal. apply (list_eq_nth 0).
    + rewrite !upd_length, !map_length, !upd_length. reflexivity.
    + intros k Hk. rewrite !upd_length, map_length in Hk.
      fold (swapf (map s q) i j). fold (swapf q i j).
      rewrite (nth_map_in s (swapf q i j) k 0) by (rewrite swapf_length; exact Hk).
      rewrite !swapf_nth by (rewrite ?map_length; auto).
      rewrite !(nth_map_in s q _ 0) by auto. destruct (k =? j), (k =? i); reflexivity.
Qed.

Lemma map_nth_seq (l : list nat) : map (fun i => nth i l 0) (seq 0 (length l)) = l.
Proof.
  apply (list_eq_nth 0); [rewrite map_length, seq_length; reflexivity|].
  intros i Hi. rewrite map_length, seq_length in Hi.
  rewrite (nth_map_in _ _ _ 0) by (rewrite seq_length; exact Hi). rewrite nth_seq0; auto.
Qed.

Lemma sign_pm p s : sign p = Ok s -> s = 1%Z \/ s = (-1)%Z.
Proof.
  unfold sign. destruct (to_cycle_notation p); [|discriminate]. cbn [bind]. injection 1 as <-.
  rewrite pow_m1. destruct (Nat.odd _); auto.
Qed.

Lemma sign_composition n s p : 0 < n -> is_perm n s -> is_perm n p ->
  exists t a b, composition s p = Ok t /\ sign s = Ok a /\ sign p = Ok b /\ sign t = Ok (a * b)%Z.
Proof.
  intros Hn Hs Hp.
  destruct (composition_spec n s p Hn (is_perm_length _ _ Hs) Hp) as (t & Et & HLt & Ht).
  pose proof (composition_perm n s p t Hn Hs Hp HLt Ht) as HPt.
  exists t, ((-1) ^ Z.of_nat (inversions s))%Z, ((-1) ^ Z.of_nat (inversions p))%Z.
  split; [exact Et|]. split; [apply (sign_inversions n), Hs|]. split; [apply (sign_inversions n), Hp|].
  rewrite (sign_inversions n) by exact HPt. f_equal.
  destruct (transposition_roundtrip n p Hp) as (ts & cs & _ & _ & E3 & _ & HF).
  unfold from_transpositions in E3.
  assert (E4 : swaps s (rev ts) = Ok t).
  { apply (swaps_map (fun i => nth i s 0)) in E3.
    rewrite <- (is_perm_length _ _ Hs), map_nth_seq in E3. rewrite E3. f_equal.
    apply (list_eq_nth 0); rewrite map_length, (is_perm_length _ _ Hp); [auto|].
    intros i Hi. rewrite Ht by exact Hi. rewrite (nth_map_in _ _ _ 0); [reflexivity|].
    rewrite (is_perm_length _ _ Hp). exact Hi. }
  apply (swaps_parity n) in E3; [|apply is_perm_id|apply Forall_rev; exact HF].
  apply (swaps_parity n) in E4; [|exact Hs|apply Forall_rev; exact HF].
  destruct E3 as [_ E3], E4 as [_ E4]. rewrite inversions_seq in E3. cbn [Nat.odd Nat.even negb xorb] in E3.
  rewrite !pow_m1. rewrite E4, E3.
  destruct (Nat.odd (inversions s)), (Nat.odd (length (rev ts))); reflexivity.
Qed.
