(** Degree elevated Bernstein basis functions, vector valued bases, dual
    integrals. *)
From Verif Require PermFacts.
From Verif Require Import Base MultiIndex MultiIndexFacts MultiCapFacts MultiIndexCache Fld CodeGen CodeGenFacts LinSolve MultiCoef MultiCoefFacts LagrangeCache Unisolv Poly PolyFacts LagFacts PolyEval PolyOps PolyOpsB PolyDeriv PolyObj PolyPow PolyCalls IntegralCache Integrate IntFacts HasInt QHom Gram Bases DualOne BasesFacts DerivFacts BasesCalls.
From Coq Require Import Field_theory Field.

Section More.
  Context {F : fld}.
  Add Field Kfield31 : (kth F).
  Local Open Scope fld_scope.

  Lemma foldM_set_cf {A} m s (key : A -> list nat) (g : list nat -> F) (step : list F -> A -> result (list F)) L :
    (forall a, In a L -> length (key a) = m /\ (nsum (key a) <= s)%nat) ->
    (forall a i c, In a L -> pos (all_mi m s) (key a) = Some i -> length c = get_dimension s m -> step c a = Ok (upd c i (g (key a)))) ->
    forall c, length c = get_dimension s m -> exists c', foldM step c L = Ok c' /\ length c' = get_dimension s m /\
      forall tau, cf m s c' tau = if in_dec mi_dec tau (map key L) then g tau else cf m s c tau.
  Proof.
    induction L as [|a L IH]; intros Hk Hs c Hc.
    - exists c. split; [reflexivity|]. split; [exact Hc|]. intros tau. reflexivity.
    - destruct (Hk a (or_introl eq_refl)) as [K1 K2]. destruct (pos_in (all_mi m s) (key a)) as [i Hi]; [apply in_all_mi; auto|]. cbn [foldM]. rewrite (Hs a i c (or_introl eq_refl) Hi Hc). cbn [bind].
      destruct (IH (fun b Hb => Hk b (or_intror Hb)) (fun b j d Hb => Hs b j d (or_intror Hb)) (upd c i (g (key a))) ltac:(rewrite upd_length; exact Hc)) as (c' & E & L' & H). exists c'. split; [exact E|]. split; [exact L'|].
      intros tau. rewrite H. cbn [map]. rewrite (cf_upd m s (key a) i c _ tau Hi Hc). destruct (in_dec mi_dec tau (map key L)) as [I|I], (in_dec mi_dec tau (key a :: map key L)) as [I'|I']; try reflexivity.
      + exfalso. apply I'. right. exact I.
      + destruct I' as [E1|I']; [|contradiction]. destruct (mi_dec tau (key a)) as [E2|E2]; [rewrite E2; reflexivity|congruence].
      + destruct (mi_dec tau (key a)) as [E2|E2]; [|reflexivity]. exfalso. apply I'. left. symmetry. exact E2.
  Qed.
  Definition elev (r s : nat) (nu tau : list nat) : F := M r nu * M (s - r) (mi_sub tau nu) / M s tau.
  Lemma mi_sub_add nu mu : length nu = length mu -> mi_sub (mi_add nu mu) nu = mu /\ mi_leb nu (mi_add nu mu) = true.
  Proof.
    revert mu. induction nu as [|a nu IH]; intros [|b mu] E; try discriminate; [split; reflexivity|]. injection E as E. destruct (IH mu E) as [H1 H2]. unfold mi_sub, mi_add, mi_leb in *. cbn [combine map fst snd forallb] in *. rewrite H1, H2. split; [f_equal; lia|]. rewrite andb_true_r. apply Nat.leb_le. lia.
  Qed.
  Lemma mi_add_sub nu tau : length nu = length tau -> mi_leb nu tau = true -> mi_add nu (mi_sub tau nu) = tau.
  Proof.
    revert tau. induction nu as [|a nu IH]; intros [|b tau] E; try discriminate; [reflexivity|]. injection E as E. unfold mi_sub, mi_add, mi_leb in *. cbn [combine map fst snd forallb] in *. intros H. apply andb_prop in H as [H1 H2]. apply Nat.leb_le in H1. rewrite IH by assumption. f_equal. lia.
  Qed.
  Lemma in_shift m nu k tau : length nu = m -> length tau = m -> In tau (map (mi_add nu) (all_mi m k)) <-> mi_leb nu tau = true /\ (nsum (mi_sub tau nu) <= k)%nat.
  Proof.
    intros N T. rewrite in_map_iff. split.
    - intros (mu & <- & Hmu). apply in_all_mi in Hmu as [M1 M2]. destruct (mi_sub_add nu mu) as [E1 E2]; [congruence|]. rewrite E1. auto.
    - intros [H1 H2]. exists (mi_sub tau nu). split; [apply mi_add_sub; congruence || exact H1|]. apply in_all_mi. split; [|exact H2]. unfold mi_sub. rewrite map_length, combine_length. lia.
  Qed.
  Lemma bprod_unit m r s nu tau : length nu = m -> (nsum nu <= r)%nat -> (r <= s)%nat -> length tau = m ->
    bprod m r (s - r) (cf m r (unit_column m r nu)) (fun _ => 1) tau = if in_dec mi_dec tau (map (mi_add nu) (all_mi m (s - r))) then elev r s nu tau else 0.
  Proof.
    intros N1 N2 Hrs T. unfold bprod. rewrite (ksum_ext _ (fun mu => if mi_dec mu nu then (if mi_leb mu tau && (nsum (mi_sub tau mu) <=? s - r)%nat then elev r s mu tau else 0) else 0)).
    - rewrite (ksum_delta mi_dec (fun mu => if mi_leb mu tau && (nsum (mi_sub tau mu) <=? s - r)%nat then elev r s mu tau else 0)); [|apply NoDup_all_mi|apply in_all_mi; auto].
      destruct (in_dec mi_dec tau (map (mi_add nu) (all_mi m (s - r)))) as [I|I].
      + apply (in_shift m nu (s - r) tau N1 T) in I as [I1 I2]. rewrite I1. apply Nat.leb_le in I2. rewrite I2. reflexivity.
      + destruct (mi_leb nu tau) eqn:E1; [|reflexivity]. destruct (Nat.leb_spec (nsum (mi_sub tau nu)) (s - r)) as [E2|E2]; [|reflexivity]. exfalso. apply I. apply in_shift; auto.
    - intros mu Hmu. apply in_all_mi in Hmu as [M1 M2]. unfold unit_column. rewrite cf_map by assumption. unfold elev. replace (r + (s - r))%nat with s by lia. destruct (mi_dec mu nu), (mi_leb mu tau && (nsum (mi_sub tau mu) <=? s - r)%nat); try reflexivity; field; apply M_neq.
  Qed.
  Theorem degree_elevated_ok nu r s : (list_sum nu <= r)%nat -> (r < s)%nat -> ((0 < length nu)%nat -> (s < 20)%nat) ->
    exists p q, basis_fn (F := F) Bernstein nu r = Ok p /\ degree_elevated_bernstein_basis_fn nu r s = Ok q /\ poly_of Bernstein (length nu) 1 s q /\
      forall x, length x = length nu -> exists u, call p x = Ok u /\ call q x = Ok u.
  Proof.
    intros Hnu Hrs Hs. change (list_sum nu) with (nsum nu) in Hnu. destruct (basis_fn_ok (F := F) Bernstein nu r Hnu ltac:(lia)) as (p & Ep & (Vp & Pb & Pc & Pr & Pm)). remember (length nu) as m eqn:Em. exists p.
    assert (Hc : exists c, length c = get_dimension s m /\ (forall tau, length tau = m -> (nsum tau <= s)%nat -> cf m s c tau = if in_dec mi_dec tau (map (mi_add nu) (all_mi m (s - r))) then elev r s nu tau else 0) /\
       degree_elevated_bernstein_basis_fn nu r s = new_poly Bernstein [c] (Some s) m).
    { unfold degree_elevated_bernstein_basis_fn. replace (r <? s)%nat with true by (symmetry; apply Nat.ltb_lt; exact Hrs). cbn [assert_ bind]. rewrite <- Em. destruct (Nat.eqb_spec m 1) as [E|E].
      - assert (exists i, nu = [i]) as [i Ei] by (rewrite E in Em; destruct nu as [|i [|? ?]]; try discriminate; exists i; reflexivity). rewrite Ei, E in *. cbn [hd]. assert (Hi : (i <= r)%nat) by (cbn in Hnu; lia).
        destruct (foldM_set_cf 1 s (fun k => [k]) (elev r s [i]) (fun coeff k => set coeff k (binomF r i * binomF (s - r) (k - i) / binomF s k)) (seq i (s - r + 1))) with (c := repeat (0 : F) (get_dimension s 1)) as (c & Ec & Lc & Hc).
        + intros k Hk. apply in_seq in Hk. cbn. lia.
        + intros k j c Hk Hj Lc. apply in_seq in Hk. assert (j = k) as ->.
          { rewrite all_mi_1 in Hj. apply pos_nth in Hj. rewrite nth_error_map in Hj. destruct (nth_error (seq 0 (S s)) j) as [v|] eqn:Ev; [|discriminate]. injection Hj as ->. pose proof (nth_error_nth _ _ 0%nat Ev) as Hn. assert (j < length (seq 0 (S s)))%nat as Hl by (apply nth_error_Some; congruence). rewrite seq_length in Hl. rewrite seq_nth in Hn by exact Hl. lia. }
          rewrite PermFacts.set_ok by (rewrite Lc, get_dimension_1; lia). f_equal. f_equal. unfold elev. change (mi_sub [k] [i]) with [(k - i)%nat]. rewrite !M_1 by lia. reflexivity.
        + apply repeat_length.
        + exists c. split; [exact Lc|]. rewrite Ec. cbn [bind]. split; [|reflexivity]. intros tau T1 T2. rewrite Hc, cf_repeat. destruct (in_dec mi_dec tau (map (fun k => [k]) (seq i (s - r + 1)))) as [I|I], (in_dec mi_dec tau (map (mi_add [i]) (all_mi 1 (s - r)))) as [I'|I']; try reflexivity; exfalso.
          * apply I'. apply in_map_iff in I as (k & <- & Hk). apply in_seq in Hk. apply in_map_iff. exists [(k - i)%nat]. split; [unfold mi_add; cbn; f_equal; lia|]. apply in_all_mi. cbn. lia.
          * apply I. apply in_map_iff in I' as (mu & <- & Hmu). apply in_all_mi in Hmu as [M1 M2]. destruct mu as [|k [|? ?]]; try discriminate. apply in_map_iff. exists (i + k)%nat. split; [reflexivity|]. cbn in M2. apply in_seq. lia.
      - rewrite multinom_general_eq by exact Hnu. cbn [bind]. rewrite generate_all_eq. cbn [bind].
        match goal with |- context [foldM ?f (repeat 0 (get_dimension s m)) _] => set (step := f) end.
        destruct (foldM_set_cf m s (mi_add nu) (elev r s nu) step (all_mi m (s - r))) with (c := repeat (0 : F) (get_dimension s m)) as (c & Ec & Lc & Hc).
        + intros mu Hmu. apply in_all_mi in Hmu as [M1 M2]. rewrite mi_add_length by congruence. split; [symmetry; exact Em|]. rewrite mi_add_sum by congruence. lia.
        + intros mu i c Hmu Hi Lc. apply in_all_mi in Hmu as [M1 M2]. assert (S1 : (nsum (mi_add nu mu) <= s)%nat) by (rewrite mi_add_sum by congruence; lia). unfold step. assert (L1 : length (mi_add nu mu) = m) by (rewrite Em; apply mi_add_length; congruence). rewrite (get_index_pos _ s i) by (rewrite ?L1; assumption). cbn [bind].
          rewrite multinom_general_eq by exact S1. cbn [bind]. rewrite PermFacts.set_ok by (rewrite Lc, dim_all_mi; apply (pos_bound _ _ _ Hi)). f_equal. f_equal. unfold elev. destruct (mi_sub_add nu mu ltac:(congruence)) as [-> _]. rewrite <- (M_multinom (s - r) mu) by exact M2. unfold norm. field. apply M_neq.
        + apply repeat_length.
        + exists c. split; [exact Lc|]. rewrite Ec. cbn [bind]. split; [|reflexivity]. intros tau T1 T2. rewrite Hc, cf_repeat. reflexivity. }
    destruct Hc as (c & Lc & Hc & Ec). destruct (new_poly_ok Bernstein [c] s m) as (q & Eq & (Vq & Qb & Qc & Qr & Qm)); [split; [discriminate|]; intros c' [<-|[]]; exact Lc|exact Hs|].
    exists q. split; [exact Ep|]. split; [congruence|]. assert (Hq : poly_of Bernstein m 1 s q) by (apply poly_of_intro; try congruence; rewrite Qc; reflexivity). split; [exact Hq|]. intros x Hx. exists (pv p x). split; [apply call_ok; congruence|]. rewrite (proj1 (call_pv _ _ _ _ _ x Hq Hx)). f_equal.
    unfold pv. rewrite Pb, Pc, Pr, Pm, Qb, Qc, Qr, Qm. cbn [map val]. f_equal. rewrite <- (bval_elevate m r s (unit_column m r nu) x) by (lia || exact Hx). f_equal. apply (cf_ext_eq m s); [exact Lc|apply map_all_mi_length|]. intros tau T1 T2. rewrite cf_map by assumption. rewrite bprod_unit by (assumption || (symmetry; exact Em) || lia). apply Hc; assumption.
  Qed.

  (** ** Vector valued bases *)
  Lemma map_upd_ {A B} (f : A -> B) l : forall i v, map f (upd l i v) = upd (map f l) i (f v).
  Proof. induction l as [|a l IH]; intros [|i] v; cbn [upd map]; try reflexivity. rewrite IH. reflexivity. Qed.
  Lemma basis_fn_deg (b : basis) (nu : list nat) (r : nat) : (list_sum nu <= r)%nat -> exists s, (list_sum nu <= s <= r)%nat /\ polynomial_basis_fn (F := F) nu r b = basis_fn b nu s /\ forall i n, vector_valued_polynomial_basis_fn (F := F) nu r i n b = vector_valued_basis_fn b nu s i n.
  Proof. intros H. destruct b; [exists (norm nu)|exists r|exists r]; (split; [change (norm nu) with (list_sum nu) || idtac; lia|]); split; reflexivity. Qed.
  Theorem vector_valued_fn_ok b nu r i n : n <> 1%nat -> (i < n)%nat -> (list_sum nu <= r)%nat -> ((0 < length nu)%nat -> (r < 20)%nat) ->
    exists p q, polynomial_basis_fn (F := F) nu r b = Ok p /\ vector_valued_polynomial_basis_fn nu r i n b = Ok q /\ poly_of b (length nu) n (degree p) q /\
      forall x, length x = length nu -> exists v, call p x = Ok [v] /\ call q x = Ok (upd (repeat 0 n) i v).
  Proof.
    intros Hn Hi Hnu Hr. destruct (basis_fn_deg b nu r Hnu) as (s & Hs & E1 & E2). rewrite E1, E2. clear E1 E2. change (list_sum nu) with (nsum nu) in Hs.
    destruct (basis_fn_ok (F := F) b nu s ltac:(lia) ltac:(lia)) as (p & Ep & (Vp & Pb & Pc & Pr & Pm)). unfold vector_valued_basis_fn. destruct (Nat.eqb_spec n 1) as [|_]; [contradiction|]. replace (i <? n)%nat with true by (symmetry; apply Nat.ltb_lt; exact Hi). cbn [assert_ bind].
    destruct (unit_column_set (F := F) (length nu) s nu eq_refl ltac:(lia)) as (k & Ek & Es). rewrite Ek. cbn [bind]. rewrite Es. cbn [bind].
    destruct (new_poly_ok b (upd (repeat (repeat (0 : F) (get_dimension s (length nu))) n) i (unit_column (length nu) s nu)) s (length nu)) as (q & Eq & (Vq & Qb & Qc & Qr & Qm)); [|lia|].
    { split; [intros E; apply (f_equal (@length _)) in E; rewrite upd_length, repeat_length in E; cbn in E; lia|]. intros c Hc. apply In_nth with (d := []) in Hc as (j & Hj & <-). rewrite upd_length, repeat_length in Hj. destruct (Nat.eq_dec j i) as [E|E].
      - rewrite E, nth_upd_eq by (rewrite repeat_length; exact Hi). apply map_all_mi_length.
      - rewrite nth_upd_neq by congruence. rewrite (nth_indep _ [] (repeat 0 (get_dimension s (length nu)))) by (rewrite repeat_length; exact Hj). rewrite nth_repeat. apply repeat_length. }
    exists p, q. split; [exact Ep|]. split; [exact Eq|]. assert (Hq : poly_of b (length nu) n (degree p) q) by (apply poly_of_intro; unfold degree; try congruence; rewrite Qc, upd_length, repeat_length; reflexivity). split; [exact Hq|].
    intros x Hx. exists (val b (length nu) s (unit_column (length nu) s nu) x). split.
    - rewrite call_ok by congruence. unfold pv. rewrite Pb, Pc, Pr, Pm. reflexivity.
    - rewrite (proj1 (call_pv _ _ _ _ _ x Hq Hx)). f_equal. unfold pv. rewrite Qb, Qc, Qr, Qm, map_upd_. f_equal. clear. induction n as [|n IH]; [reflexivity|]. cbn [repeat map]. rewrite IH, val_zero. reflexivity.
  Qed.
  Lemma list_prod_nth {A B} (l : list A) (k : list B) i j da db : (i < length l)%nat -> (j < length k)%nat -> nth_error (list_prod l k) (i * length k + j) = Some (nth i l da, nth j k db).
  Proof.
    revert i. induction l as [|a l IH]; intros i Hi Hj; cbn [length] in Hi; [lia|]. cbn [list_prod]. destruct i as [|i]; cbn [Nat.mul].
    - rewrite nth_error_app1 by (rewrite map_length; exact Hj). apply (map_nth_error (fun y => (a, y))). apply nth_error_nth'. exact Hj.
    - rewrite nth_error_app2 by (rewrite map_length; lia). rewrite map_length. replace (length k + i * length k + j - length k)%nat with (i * length k + j)%nat by lia. cbn [nth]. apply IH; [lia|exact Hj].
  Qed.
  Lemma mapM_nth {A B} (f : A -> result B) l r k a : mapM f l = Ok r -> nth_error l k = Some a -> exists b, f a = Ok b /\ nth_error r k = Some b.
  Proof.
    intros H. apply mapM_inv in H. revert k. induction H as [|x y l r Hxy HF IH]; intros [|k] Ha; cbn [nth_error] in *; try discriminate; [injection Ha as <-; exists y; auto|apply IH; exact Ha].
  Qed.
  Theorem vector_valued_basis_ok r m n b il mis : n <> 1%nat -> ((0 < m)%nat -> (r < 20)%nat) -> generate_all m r = Ok mis ->
    exists ps, vector_valued_polynomial_basis (F := F) r m n b il = Ok ps /\ length ps = (n * length mis)%nat /\
      forall i j nu, (i < n)%nat -> nth_error mis j = Some nu -> exists q, nth_error ps (if il then j * n + i else i * length mis + j)%nat = Some q /\ vector_valued_polynomial_basis_fn nu r i n b = Ok q.
  Proof.
    intros Hn Hr Hmis. unfold vector_valued_polynomial_basis. destruct (Nat.eqb_spec n 1) as [|_]; [contradiction|]. rewrite Hmis. cbn [bind]. rewrite generate_all_eq in Hmis. injection Hmis as <-.
    assert (HV : forall nu i, In nu (all_mi m r) -> (i < n)%nat -> exists q, vector_valued_polynomial_basis_fn (F := F) nu r i n b = Ok q).
    { intros nu i Hnu Hi. apply in_all_mi in Hnu as [N1 N2]. destruct (vector_valued_fn_ok b nu r i n Hn Hi N2) as (p & q & _ & E & _); [rewrite N1; exact Hr|]. exists q. exact E. }
    destruct il.
    - destruct (mapM_exists (fun mi_i => vector_valued_polynomial_basis_fn (F := F) (fst mi_i) r (snd mi_i) n b) (fun _ _ => True) (list_prod (all_mi m r) (seq 0 n))) as (ps & E & _).
      + intros [nu i] H. apply in_prod_iff in H as [H1 H2]. apply in_seq in H2. destruct (HV nu i H1 ltac:(lia)) as [q Eq]. exists q. auto.
      + exists ps. split; [exact E|]. split; [rewrite (mapM_length _ _ _ E), prod_length, seq_length; lia|]. intros i j nu Hi Hj. assert (Lj : (j < length (all_mi m r))%nat) by (apply nth_error_Some; congruence).
        pose proof (list_prod_nth (all_mi m r) (seq 0 n) j i [] 0%nat Lj ltac:(rewrite seq_length; exact Hi)) as HN. rewrite seq_length, seq_nth in HN by exact Hi. rewrite (nth_error_nth _ _ _ Hj) in HN. destruct (mapM_nth _ _ _ _ _ E HN) as (q & E1 & E2). exists q. auto.
    - destruct (mapM_exists (fun i_mi => vector_valued_polynomial_basis_fn (F := F) (snd i_mi) r (fst i_mi) n b) (fun _ _ => True) (list_prod (seq 0 n) (all_mi m r))) as (ps & E & _).
      + intros [i nu] H. apply in_prod_iff in H as [H2 H1]. apply in_seq in H2. destruct (HV nu i H1 ltac:(lia)) as [q Eq]. exists q. auto.
      + exists ps. split; [exact E|]. split; [rewrite (mapM_length _ _ _ E), prod_length, seq_length; lia|]. intros i j nu Hi Hj. assert (Lj : (j < length (all_mi m r))%nat) by (apply nth_error_Some; congruence).
        pose proof (list_prod_nth (seq 0 n) (all_mi m r) i j 0%nat [] ltac:(rewrite seq_length; exact Hi) Lj) as HN. rewrite seq_nth in HN by exact Hi. rewrite (nth_error_nth _ _ _ Hj) in HN. destruct (mapM_nth _ _ _ _ _ E HN) as (q & E1 & E2). exists q. auto.
  Qed.
  (** ** Polynomials with barycentric coefficients *)
  Theorem barycentric_polynomial_ok r m (a x : list F) mis : length x = m -> length a = get_dimension r m -> generate_all m r = Ok mis ->
    barycentric_polynomial_general r a x = Ok (ksum (combine mis a) (fun na => snd na * (mpow x (fst na) * kpow (1 - ksum x (fun v => v)) (r - list_sum (fst na))))).
  Proof.
    intros Hx Ha Hmis. rewrite generate_all_eq in Hmis. injection Hmis as <-. unfold barycentric_polynomial_general. rewrite Hx. destruct (Nat.eqb_spec m 1) as [E|E].
    - rewrite E in *. rewrite get_dimension_1 in Ha. assert (exists t, x = [t]) as [t ->] by (destruct x as [|t [|? ?]]; try discriminate; exists t; reflexivity). cbn [hd].
      rewrite (foldM_sum _ (fun i => nth i a 0 * kpow t i * kpow (1 - t) (r - i))).
      + f_equal. rewrite Ha, all_mi_1. assert (G : forall k, ksum (combine (map (fun k => [k]) (seq k (length a))) a) (fun na => snd na * (mpow [t] (fst na) * kpow (1 - ksum [t] (fun v => v)) (r - list_sum (fst na)))) = ksum (seq k (length a)) (fun i => nth (i - k) a 0 * kpow t i * kpow (1 - t) (r - i))).
        { clear. induction a as [|c a IH]; intros k; [reflexivity|]. cbn [length seq map combine]. rewrite !ksum_cons, IH. cbn [fst snd mpow list_sum fold_right nth]. rewrite Nat.sub_diag, Nat.add_0_r. f_equal.
          - replace (t + ksum [] (fun v => v)) with t by (rewrite ksum_nil; ring). ring.
          - apply ksum_ext. intros i Hi. apply in_seq in Hi. replace (i - k)%nat with (S (i - S k)) by lia. reflexivity. }
        rewrite <- Ha at 2. rewrite G, Ha. transitivity (ksum (seq 0 (S r)) (fun i => nth i a 0 * kpow t i * kpow (1 - t) (r - i))); [ring|]. apply ksum_ext. intros i _. rewrite Nat.sub_0_r. reflexivity.
      + intros acc i Hi. apply in_seq in Hi. rewrite (PermFacts.get_ok _ _ 0) by lia. cbn [bind]. replace (i <=? r)%nat with true by (symmetry; apply Nat.leb_le; lia). reflexivity.
    - rewrite generate_all_eq. cbn [bind]. set (g := fun (st : F * nat) (nu : list nat) => let* ai := get a (snd st) in let* xn := power x nu in Ok (fst st + ai * xn * kpow (1 - ksum x (fun v => v)) (r - norm nu), S (snd st))).
      assert (G : forall L pre post acc, a = pre ++ post -> length post = length L -> (forall nu, In nu L -> length nu = m) ->
        foldM g (acc, length pre) L = Ok (acc + ksum (combine L post) (fun na => snd na * (mpow x (fst na) * kpow (1 - ksum x (fun v => v)) (r - list_sum (fst na)))), length a)).
      { induction L as [|nu L IH]; intros pre post acc Ea Lp HL.
        - destruct post; [|discriminate]. cbn [foldM combine]. rewrite ksum_nil, Ea, app_nil_r. f_equal. f_equal. ring.
        - destruct post as [|c post]; [discriminate|]. cbn [foldM]. unfold g at 1. cbn [fst snd]. replace (get a (length pre)) with (Ok c) by (rewrite Ea; unfold get; rewrite nth_error_app2, Nat.sub_diag by lia; reflexivity). cbn [bind]. rewrite power_mpow by (rewrite (HL nu (or_introl eq_refl)); exact Hx). cbn [bind].
          replace (S (length pre)) with (length (pre ++ [c])) by (rewrite app_length; cbn; lia). rewrite (IH (pre ++ [c]) post); [|rewrite <- app_assoc; exact Ea|cbn in Lp; lia|intros; apply HL; right; assumption]. cbn [combine]. rewrite ksum_cons. cbn [fst snd]. f_equal. f_equal. change (norm nu) with (list_sum nu). ring. }
      change (0%nat) with (length (@nil F)). fold g. rewrite (G (all_mi m r) [] a 0 eq_refl); [|rewrite Ha; apply dim_all_mi|intros nu Hnu; apply in_all_mi in Hnu; tauto]. cbn [bind fst]. f_equal. ring.
  Qed.
End More.
