(** Proofs about the capped multi-index enumeration, the exact norm
    conversion and the increasing multi-indices of MultiIndex.v. *)
From Verif Require Import Base ModArith MultiIndex MultiIndexFacts.

(** ** Specification of the capped enumeration *)
Fixpoint all_cap (r : list nat) : list (list nat) :=
  match r with
  | [] => [[]]
  | ri :: r' => flat_map (fun t => map (fun a => a :: t) (seq 0 (S ri))) (all_cap r')
  end.

Fixpoint csucc (r c : list nat) : option (list nat) :=
  match r, c with
  | ri :: r', a :: t => if a =? ri then option_map (cons 0) (csucc r' t) else Some (S a :: t)
  | _, _ => None
  end.

Definition chelp (r c : list nat) : list imod :=
  map (fun p => mkIM (Z.of_nat (snd p)) (Z.of_nat (fst p) + 1)) (combine r c).

Lemma csucc_inv r c c' :
  Forall2 (fun ri a => a <= ri) r c -> csucc r c = Some c' -> Forall2 (fun ri a => a <= ri) r c'.
Proof.
  intros HF. revert c'; induction HF as [|ri a r c H HF IH]; intros c' E; cbn [csucc] in E; [discriminate|].
  destruct (Nat.eqb_spec a ri) as [Ha|Ha].
  - destruct (csucc r c) as [t'|]; [|discriminate]. injection E as <-. constructor; [lia|auto].
  - injection E as <-. constructor; [lia|auto].
Qed.

Lemma combine_app {A B} (l1 l2 : list A) (m1 m2 : list B) :
  length l1 = length m1 -> combine (l1 ++ l2) (m1 ++ m2) = combine l1 m1 ++ combine l2 m2.
Proof.
  revert m1; induction l1 as [|a l1 IH]; intros [|b m1] H; cbn in *; try discriminate; auto.
  f_equal. apply IH. lia.
Qed.

Lemma chelp_length r c : length r = length c -> length (chelp r c) = length c.
Proof. intros H. unfold chelp. rewrite map_length, combine_length. lia. Qed.

Lemma chelp_app r1 r2 c1 c2 :
  length r1 = length c1 -> chelp (r1 ++ r2) (c1 ++ c2) = chelp r1 c1 ++ chelp r2 c2.
Proof. intros H. unfold chelp. rewrite combine_app by exact H. apply map_app. Qed.

Lemma chelp_cons ri r a t :
  chelp (ri :: r) (a :: t) = mkIM (Z.of_nat a) (Z.of_nat ri + 1) :: chelp r t.
Proof. reflexivity. Qed.

Lemma cap_increase_spec : forall r c r0 i fuel n,
  Forall2 (fun ri a => a <= ri) r c -> length r0 = i ->
  n = i + length c -> length c < fuel ->
  cap_increase fuel n (repeat 0 i ++ c) (chelp (r0 ++ r) (repeat 0 i ++ c)) i =
  match csucc r c with
  | Some c' => ((repeat 0 i ++ c', chelp (r0 ++ r) (repeat 0 i ++ c')), None)
  | None => ((repeat 0 n, chelp (r0 ++ r) (repeat 0 n)), Some StopIteration)
  end.
Proof.
  intros r c r0 i fuel n HF. revert r0 i fuel n.
  induction HF as [|ri a r t Ha HF IH]; intros r0 i fuel n Hr0 Hn Hf;
    (destruct fuel as [|fuel]; [cbn in Hf; lia|]); cbn [cap_increase csucc].
  - cbn [length] in Hn. rewrite Nat.add_0_r in Hn. subst n.
    rewrite Nat.leb_refl, !app_nil_r. reflexivity.
  - cbn [length] in *. destruct (Nat.leb_spec n i) as [H|H]; [lia|]. clear H.
    assert (Hlen : length r0 = length (repeat 0 i)) by (rewrite repeat_length; exact Hr0).
    assert (Hch : length (chelp r0 (repeat 0 i)) = i) by (rewrite chelp_length, repeat_length; auto).
    rewrite (nth_app_exact (repeat 0 i) t a 0 i) by apply repeat_length.
    rewrite !chelp_app by exact Hlen. rewrite !chelp_cons.
    rewrite !(upd_app_at _ _ _ _ i) by (rewrite ?repeat_length; auto).
    rewrite (nth_app_exact (chelp r0 (repeat 0 i)) _ _ _ i) by exact Hch.
    unfold im_add; cbn [im_i im_n]. rewrite im_new_ok by lia. cbn [im_eq im_i].
    destruct (Nat.eqb_spec a ri) as [E|E].
    + subst ri. rewrite Z_mod_same_full. cbn [Z.eqb].
      replace (repeat 0 i ++ 0 :: t) with (repeat 0 (i + 1) ++ t)
        by (rewrite <- repeat_snoc, <- app_assoc; reflexivity).
      rewrite ?(upd_app_at (chelp r0 (repeat 0 i))) by exact Hch.
      replace (chelp r0 (repeat 0 i) ++ mkIM 0 (Z.of_nat a + 1) :: chelp r t)
        with (chelp ((r0 ++ [a]) ++ r) (repeat 0 (i + 1) ++ t)).
      2:{ rewrite chelp_app by (rewrite app_length, repeat_length; cbn; lia).
          rewrite <- repeat_snoc, chelp_app by exact Hlen. rewrite <- app_assoc. reflexivity. }
      rewrite IH by (rewrite ?app_length; cbn [length]; lia).
      rewrite <- app_assoc. cbn [app].
      destruct (csucc r t) as [t'|]; cbn [option_map].
      * replace (repeat 0 (i + 1) ++ t') with (repeat 0 i ++ 0 :: t')
          by (rewrite <- repeat_snoc, <- app_assoc; reflexivity). reflexivity.
      * reflexivity.
    + rewrite Z.mod_small by lia.
      destruct (Z.eqb_spec (Z.of_nat a + 1) 0) as [E0|E0]; [lia|].
      rewrite ?(upd_app_at (chelp r0 (repeat 0 i))) by exact Hch.
      rewrite (chelp_app r0 (ri :: r)) by exact Hlen.
      rewrite ?chelp_cons.
      replace (a + 1) with (S a) by lia.
      replace (Z.of_nat a + 1)%Z with (Z.of_nat (S a)) by lia. reflexivity.
Qed.

Lemma Forall2_len {A B} (R : A -> B -> Prop) l m : Forall2 R l m -> length l = length m.
Proof. induction 1; cbn; auto. Qed.

Definition cst_at (r c : list nat) : citer := mkCiter (length r) r (Some c) (chelp r c).

Lemma citer_next_at r c :
  Forall2 (fun ri a => a <= ri) r c ->
  citer_next (cst_at r c) =
  match csucc r c with
  | Some c' => (Ok c', cst_at r c')
  | None => (Err StopIteration, cst_at r (repeat 0 (length r)))
  end.
Proof.
  intros HF. unfold citer_next, cst_at; cbn [ci_comps ci_n ci_r ci_help].
  pose proof (Forall2_len _ _ _ HF) as HL.
  pose proof (cap_increase_spec r c [] 0 (S (length r)) (length r) HF eq_refl) as H.
  cbn [repeat app] in H. rewrite H by lia. destruct (csucc r c); reflexivity.
Qed.

Lemma Forall2_zero r : Forall2 (fun ri a => a <= ri) r (repeat 0 (length r)).
Proof. induction r; cbn; constructor; auto. lia. Qed.

Lemma citer_new_eq r :
  citer_new (length r) r = Ok (mkCiter (length r) r None (chelp r (repeat 0 (length r)))).
Proof.
  unfold citer_new, assert_. rewrite Nat.eqb_refl. cbn [bind]. do 2 f_equal.
  induction r as [|ri r IH]; [reflexivity|]. cbn [map length repeat chelp combine fst snd].
  rewrite Z.mod_0_l by lia. f_equal. exact IH.
Qed.

Lemma chain_cblock ri r t rest k a :
  a + k = ri ->
  (match rest with
   | [] => csucc r t = None
   | y :: _ => chain (csucc (ri :: r)) rest /\ option_map (cons 0) (csucc r t) = Some y
   end) ->
  chain (csucc (ri :: r)) (map (fun a => a :: t) (seq a (S k)) ++ rest).
Proof.
  revert a; induction k as [|k IH]; intros a Hk Hrest.
  - cbn [seq map app]. assert (E : a = ri) by lia. apply Nat.eqb_eq in E.
    destruct rest as [|y rest].
    + apply chain_one. cbn [csucc]. rewrite E, Hrest. reflexivity.
    + destruct Hrest as [Hc Hy]. apply chain_cons; [|exact Hc]. cbn [csucc]. rewrite E. exact Hy.
  - change (seq a (S (S k))) with (a :: seq (S a) (S k)). cbn [map app].
    assert (H : chain (csucc (ri :: r)) (map (fun a0 => a0 :: t) (seq (S a) (S k)) ++ rest))
      by (apply IH; [lia|exact Hrest]).
    cbn [seq map app] in *. apply chain_cons; [|exact H].
    cbn [csucc]. destruct (Nat.eqb_spec a ri); [lia|reflexivity].
Qed.

Lemma all_cap_chain r :
  chain (csucc r) (all_cap r) /\ hd_error (all_cap r) = Some (repeat 0 (length r)).
Proof.
  induction r as [|ri r [IH1 IH2]].
  - split; [apply chain_one; reflexivity | reflexivity].
  - cbn [all_cap length repeat].
    enough (H : forall L, chain (csucc r) L ->
      chain (csucc (ri :: r)) (flat_map (fun t => map (fun a => a :: t) (seq 0 (S ri))) L) /\
      hd_error (flat_map (fun t => map (fun a => a :: t) (seq 0 (S ri))) L) = option_map (cons 0) (hd_error L)).
    { destruct (H _ IH1) as [H1 H2]. split; [exact H1|]. rewrite H2, IH2. reflexivity. }
    intros L HC. induction HC as [x Hx|x y l Hxy HC IH].
    + cbn [flat_map]. split; [|reflexivity]. apply chain_cblock; [lia|exact Hx].
    + destruct IH as [C1 C2]. split; [|reflexivity].
      change (flat_map ?g (x :: y :: l)) with (g x ++ flat_map g (y :: l)).
      set (R := flat_map (fun t => map (fun a => a :: t) (seq 0 (S ri))) (y :: l)) in *.
      apply chain_cblock; [lia|]. destruct R as [|z R']; [discriminate|].
      split; [exact C1|]. cbn in C2. injection C2 as ->. rewrite Hxy. reflexivity.
Qed.

Lemma all_cap_nonempty r : exists l, all_cap r = repeat 0 (length r) :: l.
Proof.
  destruct (all_cap_chain r) as [_ H]. destruct (all_cap r) as [|x l]; [discriminate|].
  injection H as ->. eauto.
Qed.

Lemma cdrain_chain r l fuel x :
  chain (csucc r) (x :: l) -> Forall2 (fun ri a => a <= ri) r x -> length l < fuel ->
  cdrain fuel (cst_at r x) = Ok l.
Proof.
  revert fuel x; induction l as [|y l IH]; intros fuel x HC Hx Hf; (destruct fuel as [|fuel]; [lia|]);
    cbn [cdrain]; rewrite citer_next_at by assumption; inversion HC as [x' Hn|x' y' l' Hn HC']; subst; rewrite Hn.
  - reflexivity.
  - cbn [length] in Hf. rewrite IH by (eauto using csucc_inv; lia). reflexivity.
Qed.

Lemma all_cap_length r : length (all_cap r) = fold_right (fun ri k => S ri * k) 1 r.
Proof.
  induction r as [|ri r IH]; [reflexivity|]. cbn [all_cap fold_right].
  enough (H : forall L, length (flat_map (fun t => map (fun a => a :: t) (seq 0 (S ri))) L) = S ri * length L)
    by (rewrite H, IH; reflexivity).
  induction L as [|t L IHL]; cbn [flat_map length]; [lia|].
  rewrite app_length, map_length, seq_length, IHL. lia.
Qed.

Theorem generate_all_multi_cap_eq r : generate_all_multi_cap r = Ok (all_cap r).
Proof.
  unfold generate_all_multi_cap. rewrite citer_new_eq. cbn [bind].
  destruct (all_cap_nonempty r) as [l El]. destruct (all_cap_chain r) as [HC _].
  pose proof (all_cap_length r) as HL. fold (cap_count r) in HL. rewrite El in *.
  cbn [length] in HL. cbn [cdrain]. unfold citer_next at 1; cbn [ci_comps ci_n ci_r ci_help].
  change (mkCiter (length r) r (Some (repeat 0 (length r))) (chelp r (repeat 0 (length r))))
    with (cst_at r (repeat 0 (length r))).
  rewrite (cdrain_chain r l) by (auto using Forall2_zero; lia). reflexivity.
Qed.

Lemma in_all_cap r mi : In mi (all_cap r) <-> Forall2 (fun ri a => a <= ri) r mi.
Proof.
  revert mi; induction r as [|ri r IH]; intros mi; cbn [all_cap].
  - split; [intros [<-|[]]; constructor | intros H; inversion H; left; reflexivity].
  - rewrite in_flat_map. split.
    + intros (t & Ht & Hm). apply in_map_iff in Hm as (a & <- & Ha). apply in_seq in Ha.
      constructor; [lia | apply IH; exact Ht].
    + intros H. inversion H as [|? a ? t Ha Ht]; subst. exists t. split; [apply IH; exact Ht|].
      apply in_map_iff. exists a. split; [reflexivity|]. apply in_seq. lia.
Qed.

Lemma NoDup_all_cap r : NoDup (all_cap r).
Proof.
  induction r as [|ri r IH]; cbn [all_cap].
  - repeat constructor. intros [].
  - apply NoDup_flat_map; [exact IH| |].
    + intros t _. apply NoDup_map_inj; [|apply seq_NoDup]. intros x y _ _ H. congruence.
    + intros x y b _ _ Hx Hy. apply in_map_iff in Hx as (a & <- & _).
      apply in_map_iff in Hy as (a' & E & _). congruence.
Qed.

(** Mixed radix value of a capped multi-index. *)
Fixpoint radix_value (r c : list nat) : nat :=
  match r, c with
  | ri :: r', a :: t => a + (ri + 1) * radix_value r' t
  | _, _ => 0
  end.

Lemma flat_map_nth {A B} (g : A -> list B) L k i :
  0 < k -> (forall t, length (g t) = k) ->
  nth_error (flat_map g L) i = match nth_error L (i / k) with
                               | Some t => nth_error (g t) (i mod k) | None => None end.
Proof.
  intros Hk Hg. revert i; induction L as [|t L IH]; intros i; cbn [flat_map].
  - destruct (i / k); cbn; destruct i; reflexivity.
  - destruct (Nat.lt_ge_cases i k) as [Hi|Hi].
    + rewrite nth_error_app1 by (rewrite Hg; exact Hi).
      rewrite Nat.div_small, Nat.mod_small by exact Hi. reflexivity.
    + rewrite nth_error_app2 by (rewrite Hg; exact Hi). rewrite Hg, IH.
      assert (E1 : i / k = S ((i - k) / k)).
      { replace i with (i - k + 1 * k) at 1 by lia. rewrite Nat.div_add by lia. lia. }
      assert (E2 : i mod k = (i - k) mod k).
      { replace i with (i - k + 1 * k) at 1 by lia. rewrite Nat.mod_add by lia. reflexivity. }
      rewrite E1, E2. reflexivity.
Qed.

Lemma nth_error_seq a k i : i < k -> nth_error (seq a k) i = Some (a + i).
Proof.
  revert a i; induction k as [|k IH]; intros a [|i] H; cbn; try lia.
  - f_equal; lia.
  - rewrite IH by lia. f_equal; lia.
Qed.

Theorem generate_multi_cap_nth r i :
  i < cap_count r -> nth_error (all_cap r) i = Some (generate_multi_cap r i).
Proof.
  revert i; induction r as [|ri r IH]; intros i Hi.
  - cbn in Hi. assert (i = 0) by lia. subst. reflexivity.
  - cbn [all_cap generate_multi_cap]. cbn [cap_count fold_right] in Hi. fold (cap_count r) in Hi.
    rewrite (flat_map_nth _ _ (S ri) i); [|lia|intros; rewrite map_length, seq_length; reflexivity].
    rewrite Nat.add_1_r. rewrite IH by (apply Nat.div_lt_upper_bound; lia).
    assert (i mod S ri < S ri) by (apply Nat.mod_upper_bound; lia).
    erewrite map_nth_error by (apply nth_error_seq; assumption). reflexivity.
Qed.

Lemma generate_multi_cap_value r c :
  Forall2 (fun ri a => a <= ri) r c -> generate_multi_cap r (radix_value r c) = c /\ radix_value r c < cap_count r.
Proof.
  induction 1 as [|ri a r c Ha HF [IH1 IH2]]; cbn [generate_multi_cap radix_value cap_count fold_right]; [split; [reflexivity|lia]|].
  fold (cap_count r).
  replace (a + (ri + 1) * radix_value r c) with (a + radix_value r c * (ri + 1)) by lia.
  rewrite Nat.mod_add, Nat.div_add by lia.
  rewrite Nat.mod_small, Nat.div_small by lia. cbn [Nat.add]. rewrite IH1. split; [reflexivity|nia].
Qed.

Lemma generate_multi_cap_wrap r i : generate_multi_cap r (i + cap_count r) = generate_multi_cap r i.
Proof.
  revert i; induction r as [|ri r IH]; intros i; cbn [generate_multi_cap cap_count fold_right]; [reflexivity|].
  fold (cap_count r). replace (i + S ri * cap_count r) with (i + cap_count r * (ri + 1)) by lia.
  rewrite Nat.mod_add, Nat.div_add by lia. rewrite IH. reflexivity.
Qed.

Lemma csucc_value r c c' b :
  Forall2 (fun ri a => a <= ri) r c -> Forall (fun ri => ri < b) r ->
  csucc r c = Some c' -> digits_value b c < digits_value b c'.
Proof.
  intros HF. revert c'; induction HF as [|ri a r c Ha HF IH]; intros c' Hb E; cbn [csucc] in E; [discriminate|].
  inversion Hb; subst.
  destruct (Nat.eqb_spec a ri) as [Ea|Ea].
  - destruct (csucc r c) as [t'|]; [|discriminate]. injection E as <-. cbn [digits_value].
    specialize (IH t' ltac:(assumption) eq_refl). nia.
  - injection E as <-. cbn [digits_value]. lia.
Qed.

Lemma all_cap_sorted r b :
  Forall (fun ri => ri < b) r ->
  StronglySorted (fun x y => digits_value b x < digits_value b y) (all_cap r).
Proof.
  intros Hb. destruct (all_cap_chain r) as [HC _].
  assert (HF : Forall (fun c => Forall2 (fun ri a => a <= ri) r c) (all_cap r))
    by (apply Forall_forall; intros x Hx; apply in_all_cap; exact Hx).
  apply Sorted_StronglySorted; [intros x y z; lia|].
  induction HC as [x Hx|x y l Hxy HC IH]; inversion HF; subst.
  - repeat constructor.
  - constructor; [apply IH; assumption|]. constructor. eapply csucc_value; eassumption.
Qed.

(** ** Exact norm *)
Lemma general_to_exact_norm_ok a r :
  nsum a <= r -> general_to_exact_norm a r = Ok ((r - nsum a) :: a).
Proof. intros H. unfold general_to_exact_norm, norm. apply Nat.leb_le in H. rewrite H. reflexivity. Qed.

Lemma mapM_map {A B} (f : A -> result B) (g : A -> B) l :
  (forall x, In x l -> f x = Ok (g x)) -> mapM f l = Ok (map g l).
Proof.
  induction l as [|a l IH]; intros H; cbn [mapM map]; [reflexivity|].
  rewrite H by (left; reflexivity). cbn [bind]. rewrite IH by (intros; apply H; right; assumption). reflexivity.
Qed.

Lemma generate_all_exact_norm_eq n r :
  generate_all_exact_norm n r = Ok (map (fun a => (r - nsum a) :: a) (all_mi (n - 1) r)).
Proof.
  unfold generate_all_exact_norm. rewrite generate_all_eq. cbn [bind].
  apply mapM_map. intros x Hx. apply in_all_mi in Hx. apply general_to_exact_norm_ok. lia.
Qed.

Lemma in_exact_norm n r mi :
  0 < n ->
  In mi (map (fun a => (r - nsum a) :: a) (all_mi (n - 1) r)) <-> length mi = n /\ nsum mi = r.
Proof.
  intros Hn. rewrite in_map_iff. setoid_rewrite in_all_mi. split.
  - intros (a & <- & Hl & Hs). rewrite nsum_cons. cbn [length]. lia.
  - intros [Hl Hs]. destruct mi as [|b a]; [cbn in Hl; lia|]. rewrite nsum_cons in Hs. cbn [length] in Hl.
    exists a. split; [f_equal; lia | lia].
Qed.

Lemma NoDup_exact_norm n r : NoDup (map (fun a => (r - nsum a) :: a) (all_mi n r)).
Proof. apply NoDup_map_inj; [|apply NoDup_all_mi]. intros x y _ _ H. congruence. Qed.

(** ** Increasing and non-decreasing multi-indices *)
Lemma is_increasing_sorted a : is_increasing a = true <-> StronglySorted lt a.
Proof.
  split.
  - intros H. apply Sorted_StronglySorted; [intros x y z; lia|].
    induction a as [|x [|y t] IH]; [constructor|repeat constructor|].
    cbn [is_increasing] in H. destruct (Nat.leb_spec y x); [discriminate|].
    constructor; [apply IH; exact H | constructor; exact H0].
  - intros H. apply StronglySorted_Sorted in H.
    induction a as [|x [|y t] IH]; [reflexivity|reflexivity|].
    inversion H as [|? ? H1 H2]; subst. inversion H2; subst. cbn [is_increasing].
    destruct (Nat.leb_spec y x); [lia|]. apply IH; exact H1.
Qed.

Lemma is_non_decreasing_sorted a : is_non_decreasing a = true <-> StronglySorted le a.
Proof.
  split.
  - intros H. apply Sorted_StronglySorted; [intros x y z; lia|].
    induction a as [|x [|y t] IH]; [constructor|repeat constructor|].
    cbn [is_non_decreasing] in H. destruct (Nat.ltb_spec y x); [discriminate|].
    constructor; [apply IH; exact H | constructor; exact H0].
  - intros H. apply StronglySorted_Sorted in H.
    induction a as [|x [|y t] IH]; [reflexivity|reflexivity|].
    inversion H as [|? ? H1 H2]; subst. inversion H2; subst. cbn [is_non_decreasing].
    destruct (Nat.ltb_spec y x); [lia|]. apply IH; exact H1.
Qed.

Lemma Forall2_repeat r n a :
  Forall2 (fun ri x => x <= ri) (repeat r n) a <-> length a = n /\ Forall (fun x => x <= r) a.
Proof.
  revert a; induction n as [|n IH]; intros a; cbn [repeat].
  - split; [intros H; inversion H; auto | intros [H _]; destruct a; [constructor|discriminate]].
  - split.
    + intros H. inversion H as [|? x ? t Hx Ht]; subst. apply IH in Ht as [H1 H2].
      cbn [length]. split; [lia|constructor; auto].
    + intros [Hl HF]. destruct a as [|x a]; [discriminate|]. inversion HF; subst.
      constructor; [assumption|]. apply IH. cbn in Hl. auto.
Qed.

(** Reference enumeration of increasing tuples with entries in [lo, lo+m). *)
Fixpoint inc_from (n lo m : nat) : list (list nat) :=
  match n with
  | O => [[]]
  | S n' => (fix go (lo m : nat) : list (list nat) :=
               match m with
               | O => []
               | S m' => map (cons lo) (inc_from n' (S lo) m') ++ go (S lo) m'
               end) lo m
  end.

Lemma inc_from_S n lo m :
  inc_from (S n) lo (S m) = map (cons lo) (inc_from n (S lo) m) ++ inc_from (S n) (S lo) m.
Proof. reflexivity. Qed.

Lemma in_inc_from n : forall m lo a,
  In a (inc_from n lo m) <->
  length a = n /\ StronglySorted lt a /\ Forall (fun x => lo <= x < lo + m) a.
Proof.
  induction n as [|n IHn]; intros m.
  - intros lo a. cbn [inc_from]. split.
    + intros [<-|[]]. repeat split; constructor.
    + intros (H & _). destruct a; [left; reflexivity|discriminate].
  - induction m as [|m IHm]; intros lo a.
    + cbn [inc_from]. split; [intros []|]. intros (H1 & _ & H3).
      destruct a as [|x a]; [discriminate|]. inversion H3; lia.
    + rewrite inc_from_S, in_app_iff, in_map_iff, IHm. split.
      * intros [(t & <- & Ht)|(H1 & H2 & H3)].
        -- apply IHn in Ht as (H1 & H2 & H3). cbn [length]. repeat split; [lia| |].
           ++ constructor; [exact H2|]. eapply Forall_impl; [|exact H3]. cbn. lia.
           ++ constructor; [lia|]. eapply Forall_impl; [|exact H3]. cbn. lia.
        -- repeat split; auto. eapply Forall_impl; [|exact H3]. cbn. lia.
      * intros (H1 & H2 & H3). destruct a as [|x a]; [discriminate|].
        inversion H2 as [|? ? H2a H2b]; subst. inversion H3 as [|? ? H3a H3b]; subst.
        cbn [length] in H1.
        destruct (Nat.eq_dec x lo) as [->|Hx].
        -- left. exists a. split; [reflexivity|]. apply IHn. repeat split; [lia|exact H2a|].
           apply Forall_forall. intros y Hy.
           rewrite Forall_forall in H2b, H3b. specialize (H2b y Hy). specialize (H3b y Hy). lia.
        -- right. repeat split; [cbn [length]; lia|constructor; assumption|].
           constructor; [lia|]. apply Forall_forall. intros y Hy.
           rewrite Forall_forall in H2b, H3b. specialize (H2b y Hy). specialize (H3b y Hy). lia.
Qed.

Lemma NoDup_inc_from n : forall m lo, NoDup (inc_from n lo m).
Proof.
  induction n as [|n IHn]; intros m.
  - intros lo. cbn. repeat constructor. intros [].
  - induction m as [|m IHm]; intros lo; [constructor|].
    rewrite inc_from_S. apply NoDup_app_intro; [|apply IHm|].
    + apply NoDup_map_inj; [|apply IHn]. intros x y _ _ H; congruence.
    + intros a Ha Hb. apply in_map_iff in Ha as (t & <- & _).
      apply in_inc_from in Hb as (_ & _ & H). inversion H; lia.
Qed.

Lemma length_inc_from n : forall m lo, length (inc_from n lo m) = binomial m n.
Proof.
  induction n as [|n IHn]; intros m.
  - intros lo. rewrite binomial_0_r. reflexivity.
  - induction m as [|m IHm]; intros lo; [reflexivity|].
    rewrite inc_from_S, app_length, map_length, IHn, IHm. reflexivity.
Qed.

(** Reference enumeration of non-decreasing tuples with entries in [lo, lo+m). *)
Fixpoint nd_from (n m lo : nat) : list (list nat) :=
  match m with
  | O => match n with O => [[]] | S _ => [] end
  | S m' => (fix go (n : nat) : list (list nat) :=
               match n with
               | O => [[]]
               | S n' => map (cons lo) (go n') ++ nd_from (S n') m' (S lo)
               end) n
  end.

Lemma nd_from_S n lo m :
  nd_from (S n) (S m) lo = map (cons lo) (nd_from n (S m) lo) ++ nd_from (S n) m (S lo).
Proof. reflexivity. Qed.

Lemma in_nd_from m : forall n lo a,
  In a (nd_from n m lo) <->
  length a = n /\ StronglySorted le a /\ Forall (fun x => lo <= x < lo + m) a.
Proof.
  induction m as [|m IHm]; intros n.
  - intros lo a. destruct n as [|n]; cbn [nd_from]; split.
    + intros [<-|[]]. repeat split; constructor.
    + intros (H & _). destruct a; [left; reflexivity|discriminate].
    + intros [].
    + intros (H1 & _ & H3). destruct a as [|x a]; [discriminate|]. inversion H3; lia.
  - induction n as [|n IHn]; intros lo a.
    + cbn [nd_from]. split.
      * intros [<-|[]]. repeat split; constructor.
      * intros (H & _). destruct a; [left; reflexivity|discriminate].
    + rewrite nd_from_S, in_app_iff, in_map_iff, IHm. split.
      * intros [(t & <- & Ht)|(H1 & H2 & H3)].
        -- apply IHn in Ht as (H1 & H2 & H3). cbn [length]. repeat split; [lia| |].
           ++ constructor; [exact H2|]. eapply Forall_impl; [|exact H3]. cbn. lia.
           ++ constructor; [lia|]. eapply Forall_impl; [|exact H3]. cbn. lia.
        -- repeat split; auto. eapply Forall_impl; [|exact H3]. cbn. lia.
      * intros (H1 & H2 & H3). destruct a as [|x a]; [discriminate|].
        inversion H2 as [|? ? H2a H2b]; subst. inversion H3 as [|? ? H3a H3b]; subst.
        cbn [length] in H1.
        destruct (Nat.eq_dec x lo) as [->|Hx].
        -- left. exists a. split; [reflexivity|]. apply IHn. repeat split; [lia|exact H2a|exact H3b].
        -- right. repeat split; [cbn [length]; lia|constructor; assumption|].
           constructor; [lia|]. apply Forall_forall. intros y Hy.
           rewrite Forall_forall in H2b, H3b. specialize (H2b y Hy). specialize (H3b y Hy). lia.
Qed.

Lemma NoDup_nd_from m : forall n lo, NoDup (nd_from n m lo).
Proof.
  induction m as [|m IHm]; intros n.
  - intros lo. destruct n; cbn; repeat constructor. intros [].
  - induction n as [|n IHn]; intros lo; [cbn; repeat constructor; intros []|].
    rewrite nd_from_S. apply NoDup_app_intro; [|apply IHm|].
    + apply NoDup_map_inj; [|apply IHn]. intros x y _ _ H; congruence.
    + intros a Ha Hb. apply in_map_iff in Ha as (t & <- & _).
      apply in_nd_from in Hb as (_ & _ & H). inversion H; lia.
Qed.

Lemma length_nd_from m : forall n lo, length (nd_from n (S m) lo) = binomial (n + m) n.
Proof.
  induction m as [|m IHm]; intros n.
  - induction n as [|n IHn]; intros lo; [reflexivity|].
    rewrite nd_from_S. change (nd_from (S n) 0 (S lo)) with (@nil (list nat)). rewrite app_nil_r, map_length, IHn, !Nat.add_0_r, !binomial_diag. reflexivity.
  - induction n as [|n IHn]; intros lo; [rewrite binomial_0_r; reflexivity|].
    rewrite nd_from_S, app_length, map_length, IHn, IHm.
    replace (S n + S m) with (S (n + S m)) by lia. cbn [binomial].
    replace (S n + m) with (n + S m) by lia. reflexivity.
Qed.

Lemma in_generate_increasing n r a :
  In a (filter is_increasing (all_cap (repeat r n))) <->
  length a = n /\ StronglySorted lt a /\ Forall (fun x => x <= r) a.
Proof. rewrite filter_In, in_all_cap, Forall2_repeat, is_increasing_sorted. tauto. Qed.

Lemma in_generate_non_decreasing n r a :
  In a (filter is_non_decreasing (all_cap (repeat r n))) <->
  length a = n /\ StronglySorted le a /\ Forall (fun x => x <= r) a.
Proof. rewrite filter_In, in_all_cap, Forall2_repeat, is_non_decreasing_sorted. tauto. Qed.

Lemma length_generate_increasing n r :
  length (filter is_increasing (all_cap (repeat r n))) = binomial (r + 1) n.
Proof.
  rewrite <- (length_inc_from n (r + 1) 0). apply Permutation_length, NoDup_Permutation.
  - apply NoDup_filter, NoDup_all_cap.
  - apply NoDup_inc_from.
  - intros a. rewrite in_generate_increasing, in_inc_from. rewrite !Forall_forall.
    split; intros (H1 & H2 & H3); (split; [exact H1|split; [exact H2|]]);
      intros x Hx; specialize (H3 x Hx); lia.
Qed.

Lemma length_generate_non_decreasing n r :
  length (filter is_non_decreasing (all_cap (repeat r n))) = binomial (n + r) n.
Proof.
  rewrite <- (length_nd_from r n 0). apply Permutation_length, NoDup_Permutation.
  - apply NoDup_filter, NoDup_all_cap.
  - apply NoDup_nd_from.
  - intros a. rewrite in_generate_non_decreasing, in_nd_from. rewrite !Forall_forall.
    split; intros (H1 & H2 & H3); (split; [exact H1|split; [exact H2|]]);
      intros x Hx; specialize (H3 x Hx); lia.
Qed.
