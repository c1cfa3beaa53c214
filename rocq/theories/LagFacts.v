(** The Lagrange basis coefficients: existence, uniqueness and the table. *)
From Verif Require Import Base MultiIndex MultiIndexFacts MultiCapFacts MultiIndexCache Fld CodeGen CodeGenFacts LinSolve MultiCoef MultiCoefFacts LagrangeCache Unisolv Poly PolyFacts.
From Coq Require Import Field_theory Field.

Section Lag.
  Context {F : fld}.
  Add Field Kfield8 : (kth F).
  Local Open Scope fld_scope.

  (** Value of the polynomial with monomial coefficients [c]. *)
  Definition mval (m r : nat) (c x : list F) : F := ksum (all_mi m r) (fun nu => cf m r c nu * mpow x nu).

  Definition node (r : nat) (k : nat) : F := match r with O => kofnat k | _ => kofnat k / kofnat r end.
  Lemma node_inj r : inj (node r).
  Proof. destruct r as [|r]; [exact kofnat_inj_fun|]. apply kofnat_div_inj. discriminate. Qed.
  Lemma lagrange_point_pt m r nu : length nu = m -> nsum nu <= r -> generate_lagrange_point m r nu = pt (repeat (node r) m) nu.
  Proof.
    intros Hl Hs. unfold generate_lagrange_point. revert m Hl. induction nu as [|a nu IH]; intros m <-; [destruct r; reflexivity|].
    cbn [length repeat]. unfold pt. cbn [combine map fst snd]. change (map (fun p => fst p (snd p)) (combine (repeat (node r) (length nu)) nu)) with (pt (repeat (node r) (length nu)) nu).
    rewrite nsum_cons in Hs. rewrite <- (IH ltac:(lia) (length nu) eq_refl). destruct r as [|r].
    - replace a with O by lia. reflexivity.
    - reflexivity.
  Qed.
  Lemma lagrange_point_length m r nu : length nu = m -> length (generate_lagrange_point (F := F) m r nu) = m.
  Proof. intros H. unfold generate_lagrange_point. destruct r; [apply repeat_length|]. rewrite map_length. exact H. Qed.

  Lemma lagrange_points_eq n r : generate_lagrange_points (F := F) n r = Ok (map (generate_lagrange_point n r) (all_mi n r)).
  Proof.
    unfold generate_lagrange_points. destruct (Nat.eqb_spec n 1) as [->|Hn].
    - rewrite all_mi_1, map_map. reflexivity || (apply (f_equal Ok), map_ext; intros i; destruct r; reflexivity).
    - destruct r as [|r].
      + rewrite dim_all_mi, all_mi_r0. reflexivity.
      + rewrite generate_all_eq. reflexivity.
  Qed.

  (** Uniqueness: a polynomial is determined by its values at the points. *)
  Theorem nodal_zero m r (c : list nat -> F) :
    (forall nu, length nu = m -> nsum nu <= r -> ksum (all_mi m r) (fun mu => c mu * mpow (generate_lagrange_point m r nu) mu) = 0) ->
    forall mu, In mu (all_mi m r) -> c mu = 0.
  Proof.
    intros H. apply (unisolvence m r (repeat (node r) m)).
    - apply repeat_length.
    - intros f Hf. apply repeat_spec in Hf. rewrite Hf. apply node_inj.
    - intros nu H1 H2. rewrite <- (H nu H1 H2). apply ksum_ext. intros mu _. rewrite (lagrange_point_pt m r nu H1 H2). reflexivity.
  Qed.
  Theorem nodal_unique m r (c d : list F) : length c = get_dimension r m -> length d = get_dimension r m ->
    (forall nu, length nu = m -> nsum nu <= r -> mval m r c (generate_lagrange_point m r nu) = mval m r d (generate_lagrange_point m r nu)) -> c = d.
  Proof.
    intros Hc Hd H. apply (cf_ext_eq m r); [exact Hc|exact Hd|]. intros nu H1 H2. apply ksub_eq_0.
    apply (nodal_zero m r (fun nu => cf m r c nu - cf m r d nu)); [|apply in_all_mi; split; assumption].
    intros mu H3 H4. transitivity (mval m r c (generate_lagrange_point m r mu) - mval m r d (generate_lagrange_point m r mu)).
    - unfold mval. rewrite <- ksum_minus. apply ksum_ext. intros t _. ring.
    - rewrite (H mu H3 H4). ring.
  Qed.

  Definition vmat (n r : nat) : list (list F) := map (fun nu => map (mpow (generate_lagrange_point n r nu)) (all_mi n r)) (all_mi n r).
  Lemma mpow_1 (p : list F) j : length p = 1%nat -> mpow p [j] = kpow (hd 0 p) j.
  Proof. intros H. destruct p as [|a [|]]; try discriminate. cbn [mpow hd]. ring. Qed.
  Lemma vandermonde_eq n r : vandermonde n r (map (generate_lagrange_point n r) (all_mi n r)) = Ok (vmat n r).
  Proof.
    unfold vandermonde, vmat. destruct (Nat.eqb_spec n 1) as [->|Hn].
    - f_equal. rewrite map_length, map_map. apply map_ext_in. intros nu Hnu. apply in_all_mi in Hnu as [Hnu _].
      rewrite all_mi_1, map_length, seq_length, map_map. apply map_ext. intros j. symmetry. apply mpow_1. apply lagrange_point_length. exact Hnu.
    - rewrite generate_all_eq. cbn [bind]. rewrite (mapM_ok _ (fun p => map (mpow p) (all_mi n r))); [rewrite map_map; reflexivity|].
      intros p Hp. apply in_map_iff in Hp as (nu & <- & Hnu). apply in_all_mi in Hnu as [Hnu _]. apply mapM_ok. intros mu Hmu. apply in_all_mi in Hmu as [Hmu _].
      apply power_mpow. rewrite lagrange_point_length by exact Hnu. congruence.
  Qed.
  Lemma dot_map (f : list nat -> F) L v : NoDup L -> length v = length L -> dot (map f L) v = ksum L (fun nu => cfl L v nu * f nu).
  Proof.
    intros HN E. rewrite <- (sum_cfl L v f HN E). unfold dot. revert v E. clear HN. induction L as [|l L IH]; intros [|v0 v] E; try discriminate; [reflexivity|].
    cbn [map combine]. rewrite !ksum_cons. cbn [fst snd]. rewrite IH by (cbn in E; lia). ring.
  Qed.
  Lemma dot_mval m r nu v : length v = get_dimension r m -> dot (map (mpow (generate_lagrange_point m r nu)) (all_mi m r)) v = mval m r v (generate_lagrange_point m r nu).
  Proof. intros E. apply dot_map; [apply NoDup_all_mi|]. rewrite E. apply dim_all_mi. Qed.

  (** [lag_ok m r l]: column [j] of [l] has the value 1 at the Lagrange point
      [j] and 0 at the others. *)
  Definition lag_ok (m r : nat) (l : list (list F)) : Prop :=
    length l = get_dimension r m /\ (forall row, In row l -> length row = get_dimension r m) /\
    forall i j nu, nth_error (all_mi m r) i = Some nu -> j < get_dimension r m ->
      mval m r (mat_col l j) (generate_lagrange_point m r nu) = if Nat.eqb i j then 1 else 0.

  Lemma mat_col_length (l : list (list F)) j : length (mat_col l j) = length l.
  Proof. apply map_length. Qed.
  Lemma nth_identity n i j : i < n -> j < n -> nth j (nth i (identity (F := F) n) []) 0 = if Nat.eqb i j then 1 else 0.
  Proof.
    intros Hi Hj. unfold identity. rewrite (nth_indep _ [] (map (fun j => if Nat.eqb n j then 1 else 0) (seq 0 n))) by (rewrite map_length, seq_length; exact Hi).
    rewrite (map_nth (fun i => map (fun j => if Nat.eqb i j then 1 else 0) (seq 0 n))), seq_nth by exact Hi. cbn [Nat.add].
    rewrite (nth_indep _ 0 (if Nat.eqb i n then 1 else 0)) by (rewrite map_length, seq_length; exact Hj).
    rewrite (map_nth (fun j => if Nat.eqb i j then 1 else 0)), seq_nth by exact Hj. reflexivity.
  Qed.
  Theorem generate_lagrange_ok r n : exists l, generate_lagrange_base_coefficients r n = Ok l /\ lag_ok n r l.
  Proof.
    unfold generate_lagrange_base_coefficients. rewrite lagrange_points_eq. cbn [bind]. rewrite vandermonde_eq. cbn [bind].
    rewrite map_length, <- dim_all_mi. pose proof (dim_all_mi r n) as Hd. pose proof (get_dimension_pos r n) as Hp.
    destruct (solve_ok (get_dimension r n) (get_dimension r n) (vmat n r) (identity (get_dimension r n))) as (l & E & Hl & Hr & HS).
    - unfold vmat. rewrite map_length. symmetry. exact Hd.
    - unfold identity. rewrite map_length, seq_length. reflexivity.
    - intros row Hrow. apply in_map_iff in Hrow as (nu & <- & _). rewrite map_length. symmetry. exact Hd.
    - intros row Hrow. apply in_map_iff in Hrow as (i & <- & _). rewrite map_length, seq_length. reflexivity.
    - lia.
    - intros v Hv H0. apply (nodal_unique n r); [exact Hv|apply repeat_length|]. intros nu H1 H2. rewrite <- dot_mval by exact Hv.
      rewrite H0; [|unfold vmat; apply in_map_iff; exists nu; split; [reflexivity|]; apply in_all_mi; split; assumption].
      symmetry. apply ksum_zero. intros mu _. rewrite cf_repeat. ring.
    - exists l. split; [exact E|]. split; [exact Hl|]. split; [exact Hr|]. intros i j nu Hi Hj.
      assert (Hil : i < get_dimension r n) by (rewrite Hd; apply nth_error_Some; congruence).
      specialize (HS i j Hil). rewrite nth_identity in HS by assumption. rewrite <- HS. symmetry.
      rewrite <- dot_mval by (rewrite mat_col_length; exact Hl). f_equal. apply nth_error_nth. unfold vmat. apply (map_nth_error (fun nu => map (mpow (generate_lagrange_point n r nu)) (all_mi n r)) _ _ Hi).
  Qed.
  Lemma rows_eq (l l' : list (list F)) n : length l = length l' -> (forall row, In row l -> length row = n) -> (forall row, In row l' -> length row = n) ->
    (forall j, j < n -> mat_col l j = mat_col l' j) -> l = l'.
  Proof.
    revert l'. induction l as [|u l IH]; intros [|v l'] E H1 H2 H; try discriminate; [reflexivity|]. f_equal.
    - apply (nth_ext _ _ 0 0); [rewrite (H1 u), (H2 v) by (left; reflexivity); reflexivity|]. intros j Hj. rewrite (H1 u) in Hj by (left; reflexivity).
      specialize (H j Hj). cbn [mat_col map] in H. injection H as H _. exact H.
    - apply IH; [cbn in E; lia|intros row Hr; apply H1; right; exact Hr|intros row Hr; apply H2; right; exact Hr|]. intros j Hj. specialize (H j Hj).
      cbn [mat_col map] in H. injection H as _ H. exact H.
  Qed.
  Theorem lag_unique m r l l' : lag_ok m r l -> lag_ok m r l' -> l = l'.
  Proof.
    intros (A1 & A2 & A3) (B1 & B2 & B3). apply (rows_eq l l' (get_dimension r m)); [congruence|exact A2|exact B2|]. intros j Hj.
    apply (nodal_unique m r); [rewrite mat_col_length; exact A1|rewrite mat_col_length; exact B1|]. intros nu H1 H2.
    assert (Hin : In nu (all_mi m r)) by (apply in_all_mi; split; assumption). apply In_nth_error in Hin as [i Hi].
    rewrite (A3 i j nu Hi Hj), (B3 i j nu Hi Hj). reflexivity.
  Qed.

  (** ** Integers in a field *)
  Lemma kofZ_sub a b : kofZ (Z.of_nat a - Z.of_nat b) = kofnat (F := F) a - kofnat b.
  Proof.
    destruct (Nat.le_gt_cases b a) as [H|H].
    - replace (Z.of_nat a - Z.of_nat b)%Z with (Z.of_nat (a - b)) by lia. replace (kofnat (F := F) a) with (kofnat (F := F) (a - b) + kofnat b) by (rewrite <- kofnat_add; f_equal; lia).
      transitivity (kofnat (F := F) (a - b)); [|ring]. destruct (a - b)%nat as [|k]; [reflexivity|]. cbn [Z.of_nat kofZ]. rewrite SuccNat2Pos.id_succ. reflexivity.
    - replace (Z.of_nat a - Z.of_nat b)%Z with (- Z.of_nat (b - a))%Z by lia. replace (kofnat (F := F) b) with (kofnat (F := F) (b - a) + kofnat a) by (rewrite <- kofnat_add; f_equal; lia).
      transitivity (- kofnat (F := F) (b - a)); [|ring]. destruct (b - a)%nat as [|k]; [cbn; rewrite kofnat_0; ring|]. cbn [Z.of_nat Z.opp kofZ]. rewrite SuccNat2Pos.id_succ. reflexivity.
  Qed.
  Lemma Z_split z : exists a b, z = (Z.of_nat a - Z.of_nat b)%Z.
  Proof. exists (Z.to_nat z), (Z.to_nat (- z)). lia. Qed.
  Lemma kofZ_nat a : kofZ (Z.of_nat a) = kofnat (F := F) a.
  Proof. replace (Z.of_nat a) with (Z.of_nat a - Z.of_nat 0)%Z by lia. rewrite kofZ_sub, kofnat_0. ring. Qed.
  Lemma kofZ_add a b : kofZ (F := F) (a + b) = kofZ a + kofZ b.
  Proof.
    destruct (Z_split a) as (p & q & ->), (Z_split b) as (s & t & ->). replace (Z.of_nat p - Z.of_nat q + (Z.of_nat s - Z.of_nat t))%Z with (Z.of_nat (p + s) - Z.of_nat (q + t))%Z by lia.
    rewrite !kofZ_sub, !kofnat_add. ring.
  Qed.
  Lemma kofZ_mul a b : kofZ (F := F) (a * b) = kofZ a * kofZ b.
  Proof.
    destruct (Z_split a) as (p & q & ->), (Z_split b) as (s & t & ->).
    replace ((Z.of_nat p - Z.of_nat q) * (Z.of_nat s - Z.of_nat t))%Z with (Z.of_nat (p * s + q * t) - Z.of_nat (p * t + q * s))%Z by nia.
    rewrite !kofZ_sub, !kofnat_add, !kofnat_mul. ring.
  Qed.
  Lemma kofZ_pow a n : kofZ (F := F) (a ^ Z.of_nat n) = kpow (kofZ a) n.
  Proof. induction n as [|n IH]; [cbn; apply kofnat_1|]. rewrite Nat2Z.inj_succ, Z.pow_succ_r by lia. rewrite kofZ_mul, IH. reflexivity. Qed.
  Lemma kofZ_0 : kofZ 0 = (0 : F). Proof. reflexivity. Qed.
  Lemma kofZ_1 : kofZ 1 = (1 : F). Proof. cbn. apply kofnat_1. Qed.

  (** ** The table, checked completely in integer arithmetic after
      multiplication by [denominator * r^r]. *)
  Definition denominator : Z := 6.
  Fixpoint zmpow (x a : list nat) : Z :=
    match x, a with xi :: x', ai :: a' => (Z.of_nat xi ^ Z.of_nat ai * zmpow x' a')%Z | _, _ => 1%Z end.
  Fixpoint zsum (r : nat) (nu : list nat) (cs : list (Z * nat)) (mus : list (list nat)) : Z :=
    match cs, mus with
    | (p, q) :: cs', mu :: mus' => (p * (denominator / Z.of_nat q) * (zmpow nu mu * Z.of_nat r ^ Z.of_nat (r - nsum mu)) + zsum r nu cs' mus')%Z
    | _, _ => 0%Z
    end.
  Definition entry_ok (n r : nat) (mis : list (list nat)) (e : list nat * list (Z * nat)) : bool :=
    (length (snd e) =? length mis)%nat &&
    forallb (fun pq => negb (snd pq =? 0)%nat && (denominator mod Z.of_nat (snd pq) =? 0)%Z) (snd e) &&
    forallb (fun nu => (zsum r nu (snd e) mis =? (if leqb nu (fst e) then denominator * Z.of_nat r ^ Z.of_nat r else 0))%Z) mis.
  Definition table_ok (n r : nat) (d : list (list nat * list (Z * nat))) : bool :=
    let mis := all_mi n r in
    (length d =? length mis)%nat && forallb (fun p => leqb (fst p) (snd p)) (combine (map fst d) mis) && forallb (entry_ok n r mis) d.
  Definition tables_ok : bool :=
    forallb (fun nt => forallb (fun rd => table_ok (S (fst nt)) (S (fst rd)) (snd rd)) (combine (seq 0 (length (snd nt))) (snd nt)))
      (combine (seq 0 (length lagrange_basis_coefficients_cache)) lagrange_basis_coefficients_cache).
  Lemma tables_checked : tables_ok = true.
  Proof. vm_compute. reflexivity. Qed.

  Lemma nth_error_combine_seq {A} (l : list A) i v : nth_error l i = Some v -> In (i, v) (combine (seq 0 (length l)) l).
  Proof.
    intros H. assert (G : forall k, In ((k + i)%nat, v) (combine (seq k (length l)) l)).
    { revert i H. induction l as [|a l IH]; intros [|i] H k; cbn [nth_error] in H; try discriminate; cbn [length seq combine].
      - injection H as ->. left. f_equal. lia.
      - right. replace (k + S i)%nat with (S k + i)%nat by lia. apply IH. exact H. }
    apply (G 0%nat).
  Qed.
  Lemma cached_checked n r d : cached n r = Some d -> table_ok n r d = true /\ n <> 0%nat /\ r <> 0%nat.
  Proof.
    intros H. unfold cached in H. destruct n as [|n]; [discriminate|]. destruct r as [|r]; [discriminate|].
    destruct (nth_error lagrange_basis_coefficients_cache n) as [t|] eqn:E; [|discriminate]. split; [|split; discriminate].
    pose proof tables_checked as HT. unfold tables_ok in HT. rewrite forallb_forall in HT.
    specialize (HT (n, t) (nth_error_combine_seq _ _ _ E)). cbn [fst snd] in HT. rewrite forallb_forall in HT.
    exact (HT (r, d) (nth_error_combine_seq _ _ _ H)).
  Qed.

  Lemma zmpow_ok r nu mu : r <> 0%nat -> length nu = length mu ->
    kofZ (zmpow nu mu) = mpow (map (fun a => kofnat (F := F) a / kofnat r) nu) mu * kpow (kofnat r) (nsum mu).
  Proof.
    intros Hr. pose proof (@kofnat_neq F r Hr) as Hn. revert mu. induction nu as [|a nu IH]; intros [|b mu] E; try discriminate.
    - cbn. rewrite kofnat_1. ring.
    - cbn [zmpow map mpow]. rewrite nsum_cons, kofZ_mul, kofZ_pow, kofZ_nat, IH by (cbn in E; lia). rewrite kpow_add.
      transitivity (kpow (kofnat (F := F) a / kofnat r * kofnat r) b * mpow (map (fun a => kofnat a / kofnat r) nu) mu * kpow (kofnat r) (nsum mu)).
      + replace (kofnat (F := F) a / kofnat r * kofnat r) with (kofnat (F := F) a) by (field; exact Hn). ring.
      + rewrite kpow_mul_base. ring.
  Qed.
  Lemma cached_number_eq p q : q <> 0%nat -> cached_number (F := F) (p, q) = kofZ p / kofnat q.
  Proof.
    intros Hq. unfold cached_number. cbn [fst snd]. destruct q as [|[|q]]; [congruence| |reflexivity]. rewrite kofnat_1. field. apply k1_neq_0.
  Qed.
  Lemma denom_div q : q <> 0%nat -> (denominator mod Z.of_nat q)%Z = 0%Z -> kofZ (denominator / Z.of_nat q) = kofZ denominator / kofnat (F := F) q.
  Proof.
    intros Hq Hm. pose proof (@kofnat_neq F q Hq) as Hn. rewrite (Z_div_exact_full_2 denominator (Z.of_nat q)) at 2 by (assumption || lia).
    rewrite kofZ_mul, kofZ_nat. field. exact Hn.
  Qed.
  Lemma zsum_ok n r nu cs : r <> 0%nat -> length nu = n ->
    (forall pq, In pq cs -> snd pq <> 0%nat /\ (denominator mod Z.of_nat (snd pq))%Z = 0%Z) -> forall mus, (forall mu, In mu mus -> length mu = n /\ nsum mu <= r) ->
    kofZ (zsum r nu cs mus) = kofZ denominator * kpow (kofnat r) r *
      ksum (combine (map (@cached_number F) cs) mus) (fun p => fst p * mpow (generate_lagrange_point n r nu) (snd p)).
  Proof.
    intros Hr Hn. induction cs as [|[p q] cs IH]; intros Hcs mus Hm.
    - cbn. ring.
    - destruct mus as [|mu mus]; [cbn; ring|]. cbn [zsum map combine]. rewrite ksum_cons. cbn [fst snd].
      destruct (Hcs (p, q) (or_introl eq_refl)) as [Hq Hd]. destruct (Hm mu (or_introl eq_refl)) as [Hl Hs]. cbn [snd] in Hq, Hd.
      rewrite kofZ_add, IH by (auto using in_cons || (intros; apply Hcs || apply Hm; right; assumption)).
      rewrite !kofZ_mul, kofZ_pow, kofZ_nat, (denom_div q Hq Hd), cached_number_eq by exact Hq.
      rewrite (zmpow_ok r nu mu) by (assumption || congruence). replace (kpow (kofnat (F := F) r) r) with (kpow (kofnat (F := F) r) (nsum mu) * kpow (kofnat r) (r - nsum mu)) by (rewrite <- kpow_add; f_equal; lia).
      unfold generate_lagrange_point. destruct r as [|r]; [congruence|]. field. apply kofnat_neq. exact Hq.
  Qed.
  Lemma denominator_neq : kofZ denominator <> (0 : F).
  Proof. cbn [kofZ denominator]. apply kofnat_neq. lia. Qed.

  (** Every entry is the coefficient vector of the nodal polynomial. *)
  Theorem table_entry_ok n r d nu c : cached n r = Some d -> In (nu, c) d ->
    length nu = n /\ nsum nu <= r /\ length c = get_dimension r n /\
    forall mu, length mu = n -> nsum mu <= r ->
      mval n r (map cached_number c) (generate_lagrange_point n r mu) = if mi_dec mu nu then 1 else 0.
  Proof.
    intros Hd Hin. destruct (cached_checked n r d Hd) as (HT & _ & Hr0). unfold table_ok in HT. apply andb_prop in HT as [HT H3]. apply andb_prop in HT as [H1 H2].
    apply Nat.eqb_eq in H1. rewrite forallb_forall in H2, H3.
    assert (Hnu : In nu (all_mi n r)).
    { apply In_nth_error in Hin as [i Hi]. assert (Hb : i < length d) by (apply nth_error_Some; congruence). rewrite H1 in Hb.
      destruct (nth_error (all_mi n r) i) as [mu|] eqn:Em; [|apply nth_error_None in Em; lia].
      assert (HC : In (nu, mu) (combine (map fst d) (all_mi n r))).
      { clear -Hi Em. revert i Hi Em. generalize (all_mi n r). induction d as [|e d IH]; intros [|m L] [|i] H1 H2; cbn [nth_error] in *; try discriminate.
        - injection H1 as ->. injection H2 as ->. left. reflexivity.
        - right. apply (IH L i); assumption. }
      specialize (H2 _ HC). cbn [fst snd] in H2. apply leqb_eq in H2. rewrite H2. eapply nth_error_In; eassumption. }
    specialize (H3 _ Hin). unfold entry_ok in H3. cbn [fst snd] in H3. apply andb_prop in H3 as [H3 H6]. apply andb_prop in H3 as [H4 H5]. apply Nat.eqb_eq in H4. rewrite forallb_forall in H5, H6.
    apply in_all_mi in Hnu as [L1 L2]. split; [exact L1|]. split; [exact L2|]. split; [rewrite H4; symmetry; apply dim_all_mi|]. intros mu M1 M2.
    assert (Hmu : In mu (all_mi n r)) by (apply in_all_mi; split; assumption). specialize (H6 mu Hmu). apply Z.eqb_eq in H6. apply (f_equal (@kofZ F)) in H6.
    rewrite (zsum_ok n) in H6; [|exact Hr0|exact M1| |].
    - rewrite sum_cf in H6 by (rewrite map_length, H4; symmetry; apply dim_all_mi).
      fold (mval n r (map cached_number c) (generate_lagrange_point n r mu)) in H6.
      apply (kmul_cancel (kofZ denominator * kpow (kofnat r) r)); [apply kmul_neq; [apply denominator_neq|apply kpow_neq, kofnat_neq; exact Hr0]|].
      rewrite H6. destruct (mi_dec mu nu) as [E|E].
      + rewrite E, leqb_refl. rewrite kofZ_mul, kofZ_pow, kofZ_nat. ring.
      + destruct (leqb mu nu) eqn:El; [apply leqb_eq in El; contradiction|]. rewrite kofZ_0. ring.
    - intros pq Hpq. specialize (H5 pq Hpq). apply andb_prop in H5 as [G1 G2]. apply negb_true_iff, Nat.eqb_neq in G1. apply Z.eqb_eq in G2. split; assumption.
    - intros t Ht. apply in_all_mi in Ht. exact Ht.
  Qed.
  Lemma table_keys n r d : cached n r = Some d -> map fst d = all_mi n r.
  Proof.
    intros Hd. destruct (cached_checked n r d Hd) as (HT & _ & Hr0). unfold table_ok in HT. apply andb_prop in HT as [HT _]. apply andb_prop in HT as [H1 H2].
    apply Nat.eqb_eq in H1. revert H1 H2. generalize (all_mi n r). clear. induction d as [|e d IH]; intros [|m L] H1 H2; try discriminate; [reflexivity|].
    cbn [map combine forallb length] in *. apply andb_prop in H2 as [H2 H3]. cbn [fst snd] in H2. apply leqb_eq in H2. rewrite H2, (IH L) by (assumption || lia). reflexivity.
  Qed.
  Lemma nth_error_col (rows : list (list F)) k j : j < k -> (forall row, In row rows -> length row = k) -> mat_col (transpose k rows) j = nth j (map (fun j => map (fun row => nth j row 0) (transpose k rows)) (seq 0 k)) [].
  Proof.
    intros Hj _. rewrite (nth_indep _ [] (map (fun row => nth k row 0) (transpose k rows))) by (rewrite map_length, seq_length; exact Hj).
    rewrite (map_nth (fun j => map (fun row => nth j row 0) (transpose k rows))), seq_nth by exact Hj. reflexivity.
  Qed.
  Lemma mat_col_transpose (rows : list (list F)) k j row : nth_error rows j = Some row -> length row = k -> mat_col (transpose k rows) j = row.
  Proof.
    intros Hj Hl. unfold mat_col at 1, transpose. rewrite map_map. apply (nth_ext _ _ 0 0); [rewrite map_length, seq_length; congruence|].
    rewrite map_length, seq_length. intros i Hi. rewrite (nth_indep _ 0 (nth j (mat_col rows k) 0)) by (rewrite map_length, seq_length; exact Hi).
    rewrite (map_nth (fun i => nth j (mat_col rows i) 0)), seq_nth by exact Hi. unfold mat_col. cbn [Nat.add].
    apply nth_error_nth. apply (map_nth_error (fun row => nth i row 0)). exact Hj.
  Qed.

  Theorem get_lagrange_ok r n : exists l, get_lagrange_base_coefficients (F := F) r n = Ok l /\ lag_ok n r l.
  Proof.
    unfold get_lagrange_base_coefficients. destruct (cached n r) as [d|] eqn:Hd; [|apply generate_lagrange_ok].
    eexists. split; [reflexivity|]. pose proof (table_keys n r d Hd) as HK. pose proof (table_entry_ok n r d) as HE.
    set (rows := map (fun e => map (@cached_number F) (snd e)) d).
    assert (Hrl : forall row, In row rows -> length row = get_dimension r n).
    { intros row Hr. apply in_map_iff in Hr as ([nu c] & <- & Hin). cbn [snd]. rewrite map_length. apply (HE nu c Hd Hin). }
    assert (Hdl : length d = get_dimension r n) by (rewrite dim_all_mi, <- HK, map_length; reflexivity).
    assert (Hh : length (hd [] rows) = get_dimension r n).
    { pose proof (get_dimension_pos r n). unfold rows in *. destruct d as [|e d']; [cbn in Hdl; lia|]. apply Hrl. left. reflexivity. }
    rewrite Hh. split; [unfold transpose; rewrite map_length, seq_length; reflexivity|]. split.
    - intros row Hr. apply in_map_iff in Hr as (j & <- & _). rewrite mat_col_length. unfold rows. rewrite map_length. exact Hdl.
    - intros i j nu Hi Hj. destruct (nth_error d j) as [[mu c]|] eqn:Ej; [|apply nth_error_None in Ej; idtac; exfalso; rewrite Hdl in Ej; apply (Nat.lt_irrefl j); eapply Nat.lt_le_trans; eassumption].
      rewrite (mat_col_transpose rows _ j (map cached_number c)).
      + destruct (HE mu c Hd (nth_error_In _ _ Ej)) as (_ & _ & _ & HV). assert (Hin : In nu (all_mi n r)) by (eapply nth_error_In; eassumption).
        apply in_all_mi in Hin as [N1 N2]. rewrite (HV nu N1 N2).
        assert (Ej' : nth_error (all_mi n r) j = Some mu) by (rewrite <- HK; apply (map_nth_error fst _ _ Ej)).
        destruct (mi_dec nu mu) as [E|E]; destruct (Nat.eqb_spec i j) as [E'|E']; try reflexivity.
        * exfalso. apply E'. rewrite E in Hi. pose proof (NoDup_all_mi n r) as HN. rewrite NoDup_nth_error in HN. apply HN; [apply nth_error_Some; congruence|congruence].
        * exfalso. apply E. rewrite E' in Hi. congruence.
      + unfold rows. apply (map_nth_error (fun e => map (@cached_number F) (snd e)) _ _ Ej).
      + rewrite map_length. apply (HE mu c Hd (nth_error_In _ _ Ej)).
  Qed.
  Theorem get_eq_generate_lagrange r n : get_lagrange_base_coefficients (F := F) r n = generate_lagrange_base_coefficients r n.
  Proof.
    destruct (get_lagrange_ok r n) as (l & E & H), (generate_lagrange_ok r n) as (l' & E' & H'). rewrite E, E'. f_equal. apply (lag_unique n r); assumption.
  Qed.

  Lemma lookup_ok {B} (d : list (list nat * B)) nu : In nu (map fst d) -> exists c, lookup d nu = Ok c /\ In (nu, c) d.
  Proof.
    induction d as [|[k v] d IH]; intros H; [destruct H|]. cbn [lookup]. destruct (leqb k nu) eqn:E.
    - apply leqb_eq in E. exists v. split; [reflexivity|]. left. congruence.
    - destruct H as [H|H]; [cbn in H; rewrite H, leqb_refl in E; discriminate|]. destruct (IH H) as (c & Hc & Hin). exists c. split; [exact Hc|right; exact Hin].
  Qed.
  (** The coefficients of one basis function. *)
  Theorem lagrange_basis_fn_coefficients_ok nu r : nsum nu <= r ->
    exists c, get_lagrange_basis_fn_coefficients (F := F) nu r = Ok c /\ length c = get_dimension r (length nu) /\
      forall mu, length mu = length nu -> nsum mu <= r ->
        mval (length nu) r c (generate_lagrange_point (length nu) r mu) = if mi_dec mu nu then 1 else 0.
  Proof.
    intros Hs. unfold get_lagrange_basis_fn_coefficients. destruct (cached (length nu) r) as [d|] eqn:Hd.
    - destruct (lookup_ok d nu) as (c & Hc & Hin); [rewrite (table_keys _ _ _ Hd); apply in_all_mi; split; [reflexivity|exact Hs]|].
      rewrite Hc. cbn [bind]. eexists. split; [reflexivity|]. rewrite map_length. destruct (table_entry_ok _ _ _ _ _ Hd Hin) as (_ & _ & H1 & H2). split; assumption.
    - unfold generate_lagrange_basis_fn_coefficients. destruct (index_cf (length nu) r nu (repeat (0 : F) (get_dimension r (length nu))) eq_refl Hs (repeat_length _ _)) as (i & Hp & Hi & Hb & _).
      rewrite repeat_length in Hb. rewrite Hi. cbn [bind]. destruct (generate_lagrange_ok r (length nu)) as (l & -> & (L1 & L2 & L3)). cbn [bind]. eexists. split; [reflexivity|].
      rewrite mat_col_length. split; [exact L1|]. intros mu M1 M2. assert (Hin : In mu (all_mi (length nu) r)) by (apply in_all_mi; split; assumption).
      apply In_nth_error in Hin as [k Hk]. rewrite (L3 k i mu Hk Hb). apply pos_nth in Hp.
      destruct (mi_dec mu nu) as [E|E]; destruct (Nat.eqb_spec k i) as [E'|E']; try reflexivity.
      + exfalso. apply E'. rewrite E in Hk. pose proof (NoDup_all_mi (length nu) r) as HN. rewrite NoDup_nth_error in HN. apply HN; [apply nth_error_Some; congruence|congruence].
      + exfalso. apply E. rewrite E' in Hk. congruence.
  Qed.
End Lag.
