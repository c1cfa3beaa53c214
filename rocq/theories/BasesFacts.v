(** Facts about the dual Bernstein basis and basis conversion. *)
From Verif Require PermFacts.
From Verif Require Import Base MultiIndex MultiIndexFacts MultiCapFacts MultiIndexCache Fld CodeGen CodeGenFacts LinSolve MultiCoef MultiCoefFacts LagrangeCache Unisolv Poly PolyFacts LagFacts PolyEval PolyOps PolyOpsB PolyDeriv PolyObj PolyPow PolyCalls IntegralCache Integrate IntFacts HasInt QHom Gram Bases DualOne.
From Coq Require Import Field_theory Field.

Section BasesFacts.
  Context {F : fld}.
  Add Field Kfield28 : (kth F).
  Local Open Scope fld_scope.

  Lemma gram_entry_ok r m i j : (i < get_dimension r m)%nat -> (j < get_dimension r m)%nat ->
    gram_entry r m (all_mi m r) i j = Ok (gram (F := F) m r (nth i (all_mi m r) []) (nth j (all_mi m r) [])).
  Proof.
    intros Hi Hj. rewrite dim_all_mi in Hi, Hj. unfold gram_entry, get.
    rewrite !(nth_error_nth' (all_mi m r) []) by lia. cbn [bind].
    assert (G : forall a b, In a (all_mi m r) -> In b (all_mi m r) -> (let* f1 := multinom_general r a in let* f2 := multinom_general r b in let* g := multinom_general (2 * r) (mi_add a b) in Ok (f1 * f2 / g * integrate_bernstein_basis_fn_unit_simplex (2 * r) m)) = Ok (gram (F := F) m r a b)).
    { intros a b Ha Hb. apply in_all_mi in Ha as [A1 A2], Hb as [B1 B2]. rewrite !multinom_general_eq by (rewrite ?mi_add_sum by congruence; lia). cbn [bind]. rewrite int_bern_basis. unfold gram. replace (2 * r)%nat with (r + r)%nat by lia. reflexivity. }
    rewrite G by (apply nth_In; lia). f_equal. destruct (Nat.le_ge_cases i j) as [H|H].
    - rewrite Nat.min_l, Nat.max_r by exact H. reflexivity.
    - rewrite Nat.min_r, Nat.max_l by exact H. apply gram_sym.
  Qed.
  Lemma map_seq_nth {A B} (f : A -> B) (l : list A) d : map (fun i => f (nth i l d)) (seq 0 (length l)) = map f l.
  Proof.
    rewrite <- (map_map (fun i => nth i l d) f). f_equal. induction l as [|a l IH]; [reflexivity|]. cbn [length seq map]. f_equal. rewrite <- seq_shift, map_map. exact IH.
  Qed.
  Lemma gram_matrix_ok r m : mapM (fun i => mapM (gram_entry (F := F) r m (all_mi m r) i) (seq 0 (get_dimension r m))) (seq 0 (get_dimension r m)) = Ok (map (gram_row m r) (all_mi m r)).
  Proof.
    rewrite (mapM_ok _ (fun i => gram_row (F := F) m r (nth i (all_mi m r) []))).
    - rewrite (dim_all_mi r m) at 1. rewrite map_seq_nth. reflexivity.
    - intros i Hi. apply in_seq in Hi. rewrite (mapM_ok _ (fun j => gram (F := F) m r (nth i (all_mi m r) []) (nth j (all_mi m r) []))).
      + rewrite (dim_all_mi r m) at 1. unfold gram_row. rewrite map_seq_nth. reflexivity.
      + intros j Hj. apply in_seq in Hj. apply gram_entry_ok; lia.
  Qed.
  Definition unit_list (n i : nat) : list F := upd (repeat 0 n) i 1.
  Lemma dot_unit : forall n i (row : list F), length row = n -> (i < n)%nat -> dot row (upd (repeat 0 n) i 1) = nth i row 0.
  Proof.
    induction n as [|n IH]; intros i row Hr Hi; [lia|]. destruct row as [|a row]; [discriminate|]. injection Hr as Hr. unfold dot. destruct i as [|i]; cbn [repeat upd combine nth]; rewrite ksum_cons; cbn [fst snd].
    - transitivity (a + dot row (repeat 0 n)); [unfold dot; ring|]. enough (E : dot row (repeat 0 n) = 0) by (rewrite E; ring). clear. unfold dot. revert n. induction row as [|b row IH]; intros [|n]; try reflexivity. cbn [repeat combine]. rewrite ksum_cons, IH. cbn [fst snd]. ring.
    - fold (dot row (upd (repeat 0 n) i 1)). rewrite (IH i row Hr) by lia. ring.
  Qed.
  Lemma identity_nth n i j : (i < n)%nat -> (j < n)%nat -> nth j (nth i (identity (F := F) n) []) 0 = if Nat.eqb i j then 1 else 0.
  Proof. intros Hi Hj. unfold identity. rewrite (map_nth_map _ _ 0%nat) by (rewrite seq_length; lia). rewrite (map_nth_map _ _ 0%nat) by (rewrite seq_length; lia). rewrite !seq_nth by lia. reflexivity. Qed.

  (** The dual basis polynomials: their coefficients solve the Gram system. *)
  Theorem dual_polynomial_ok mu r : (nsum mu <= r)%nat -> ((0 < length mu)%nat -> (r < 20)%nat) ->
    exists d X, dual_bernstein_basis_polynomial (F := F) mu r = Ok d /\ pbuilt Bernstein [X] r (length mu) d /\ length X = get_dimension r (length mu) /\
      forall nu, In nu (all_mi (length mu) r) -> dot (gram_row (length mu) r nu) X = if mi_dec nu mu then 1 else 0.
  Proof.
    intros Hmu Hr. set (m := length mu) in *. assert (Imu : In mu (all_mi m r)) by (apply in_all_mi; split; [reflexivity|exact Hmu]).
    assert (new : forall X : list F, length X = get_dimension r m -> exists d, new_poly Bernstein [X] (Some r) m = Ok d /\ pbuilt Bernstein [X] r m d).
    { intros X HX. apply new_poly_ok; [|exact Hr]. split; [discriminate|]. intros c [<-|[]]. exact HX. }
    unfold dual_bernstein_basis_polynomial. fold m. destruct (Nat.eqb_spec r 0) as [-> |Hr0].
    - destruct (new (repeat 1 (get_dimension 0 m)) (repeat_length _ _)) as (u & Eu & Hu). destruct Hu as (_ & Ub & Uc & Ur & Um).
      unfold unit_polynomial. cbn [repeat]. rewrite Eu. cbn [bind]. unfold truediv. rewrite Ub, Uc, Ur, Um. cbn [map].
      destruct (new (map (fun v => v / volume_unit m) (repeat 1 (get_dimension 0 m))) ltac:(rewrite map_length, repeat_length; reflexivity)) as (d & Ed & Hd).
      exists d, (map (fun v => v / volume_unit m) (repeat 1 (get_dimension 0 m))). split; [exact Ed|]. split; [exact Hd|]. split; [rewrite map_length, repeat_length; reflexivity|].
      intros nu Hnu. unfold gram_row. rewrite dim_all_mi. rewrite all_mi_r0 in *. destruct Hnu as [<-|[]]. destruct Imu as [Emu|[]]. destruct (mi_dec (repeat 0%nat m) mu) as [_|N]; [|contradiction].
      cbn [length repeat map]. unfold dot. cbn [combine]. rewrite ksum_cons. cbn [fst snd]. unfold gram, volume_unit.
      assert (Z : mi_add (repeat 0%nat m) (repeat 0%nat m) = repeat 0%nat m) by (clear; induction m as [|m IH]; [reflexivity|]; cbn; f_equal; exact IH).
      rewrite Z. assert (M1 : M (F := F) 0 (repeat 0%nat m) = 1).
      { clear. induction m as [|m IH]; [apply M_nil|]. cbn [repeat]. rewrite M_cons, IH by (rewrite nsum_repeat0; lia). rewrite nsum_repeat0. unfold binomF. change (binomial (0 - 0) 0) with 1%nat. rewrite kofnat_1. ring. }
      change (0 + 0)%nat with 0%nat. rewrite !M1. change (0 + m)%nat with m. change (fact 0) with 1%nat. rewrite kofnat_1. change (ksum [] (fun p : F * F => fst p * snd p)) with (0 : F). field. split; [apply kfact_neq|apply k1_neq_0].
    - destruct (Nat.eqb_spec m 1) as [Em|Em].
      + destruct mu as [|j [|? ?]]; try discriminate. cbn [hd]. cbn [length] in m. change m with 1%nat in *. cbn [nsum list_sum fold_right] in Hmu. rewrite get_dimension_1 in *.
        set (X := map (dual_coeff_1 (F := F) r j) (seq 0 (S r))). assert (LX : length X = S r) by (unfold X; rewrite map_length, seq_length; reflexivity). destruct (new X LX) as (d & Ed & Hd).
        exists d, X. split; [exact Ed|]. split; [exact Hd|]. split; [exact LX|]. intros nu Hnu. unfold gram_row. rewrite dot_map_l by (rewrite get_dimension_1; exact LX). rewrite ksum_1. rewrite all_mi_1 in Hnu. apply in_map_iff in Hnu as (i & <- & Hi). apply in_seq in Hi.
        rewrite (ksum_ext _ (fun k => gram 1 r [i] [k] * dual_coeff_1 r j k)).
        * rewrite dual_coeff_1_inverse by (specialize (Hr ltac:(lia)); lia). destruct (Nat.eqb_spec i j) as [N|N], (mi_dec [i] [j]) as [E|E]; try reflexivity; congruence.
        * intros k Hk. apply in_seq in Hk. rewrite nth_cf by (rewrite ?get_dimension_1; lia). f_equal. unfold X. rewrite (map_nth_map _ _ 0%nat) by (rewrite seq_length; lia). rewrite seq_nth by lia. reflexivity.
      + rewrite generate_all_eq. cbn [bind]. rewrite gram_matrix_ok. cbn [bind]. unfold np_inv. rewrite map_length, <- dim_all_mi.
        destruct (gram_solve (F := F) m r (get_dimension r m) (identity (get_dimension r m)) (gram_regular m r)) as (x & Ex & Lx & Rx & Hx).
        { unfold identity. rewrite map_length, seq_length. reflexivity. }
        { intros row Hrow. unfold identity in Hrow. apply in_map_iff in Hrow as (i & <- & _). rewrite map_length, seq_length. reflexivity. }
        rewrite Ex. cbn [bind]. destruct (pos_in _ _ Imu) as [i Hi]. rewrite (get_index_pos mu r i Hi Hmu). cbn [bind]. pose proof (pos_bound _ _ _ Hi) as Bi. rewrite <- dim_all_mi in Bi.
        rewrite PermFacts.set_ok by (rewrite repeat_length; exact Bi). cbn [bind].
        assert (EX : mat_vec x (upd (repeat 0 (get_dimension r m)) i 1) = mat_col x i).
        { unfold mat_vec, mat_col. apply map_ext_in. intros row Hrow. apply dot_unit; [apply Rx, Hrow|exact Bi]. }
        rewrite EX. assert (LX : length (mat_col x i) = get_dimension r m) by (unfold mat_col; rewrite map_length; exact Lx). destruct (new _ LX) as (d & Ed & Hd).
        exists d, (mat_col x i). split; [exact Ed|]. split; [exact Hd|]. split; [exact LX|]. intros nu Hnu. destruct (pos_in _ _ Hnu) as [k Hk]. pose proof (pos_bound _ _ _ Hk) as Bk. rewrite <- dim_all_mi in Bk. specialize (Hx k i Bk).
        rewrite identity_nth in Hx by assumption. rewrite (map_nth_map _ _ ([] : list nat)) in Hx by (rewrite <- dim_all_mi; exact Bk). rewrite (nth_error_nth _ _ _ (pos_nth _ _ _ Hk)) in Hx. rewrite Hx.
        destruct (Nat.eqb_spec k i) as [E|E], (mi_dec nu mu) as [E'|E']; try reflexivity; [|rewrite E' in Hk; congruence]. exfalso. apply E'. apply (pos_inj (all_mi m r) nu mu k Hk). rewrite E. exact Hi.
  Qed.

  (** Every polynomial has Bernstein coefficients. *)
  Lemma mpow_bernstein m r nu : In nu (all_mi m r) -> exists e : list nat -> F, forall x, length x = m -> mpow x nu = ksum (all_mi m r) (fun tau => e tau * bern r tau x).
  Proof.
    intros Hnu. apply in_all_mi in Hnu as [N1 N2]. set (s := nsum nu). set (c := map (fun mu => if mi_dec mu nu then 1 / M (F := F) s nu else 0) (all_mi m s)).
    exists (bprod m s (r - s) (cf m s c) (fun _ => 1)). intros x Hx. rewrite <- (bval_ext m r (map (bprod m s (r - s) (cf m s c) (fun _ => 1)) (all_mi m r))) by reflexivity. rewrite bval_elevate by (try exact N2; exact Hx).
    rewrite (bval_ext m s c (fun mu => if mi_dec mu nu then 1 / M (F := F) s nu else 0) x) by reflexivity. rewrite (ksum_ext _ (fun mu => if mi_dec mu nu then 1 / M (F := F) s nu * bern s mu x else 0)).
    - rewrite (ksum_delta mi_dec (fun mu => 1 / M s nu * bern s mu x)); [|apply NoDup_all_mi|apply in_all_mi; unfold s; split; [exact N1|lia]]. unfold bern, s. rewrite Nat.sub_diag. cbn [kpow]. field. apply M_neq.
    - intros mu _. destruct (mi_dec mu nu); ring.
  Qed.
  Lemma val_bernstein b m r (c : list F) : length c = get_dimension r m -> exists d, length d = get_dimension r m /\ forall x, length x = m -> val b m r c x = bval m r d x.
  Proof.
    intros Hc. destruct (val_monomial b m r c Hc) as (c' & Hc' & Hv).
    assert (H : forall L, (forall nu, In nu L -> In nu (all_mi m r)) -> exists e : list nat -> F, forall x, length x = m -> ksum L (fun nu => cf m r c' nu * mpow x nu) = ksum (all_mi m r) (fun tau => e tau * bern r tau x)).
    { induction L as [|nu L IH]; intros HL.
      - exists (fun _ => 0). intros x _. cbn. symmetry. apply ksum_zero. intros. ring.
      - destruct IH as [e He]; [intros; apply HL; right; assumption|]. destruct (mpow_bernstein m r nu (HL nu (or_introl eq_refl))) as [e' He']. exists (fun tau => cf m r c' nu * e' tau + e tau). intros x Hx. rewrite ksum_cons, (He x Hx), (He' x Hx), <- ksum_scale_l, <- ksum_plus. apply ksum_ext. intros. ring. }
    destruct (H (all_mi m r) (fun _ h => h)) as [e He]. exists (map e (all_mi m r)). split; [apply map_all_mi_length|]. intros x Hx. rewrite (Hv x Hx). unfold mval. rewrite (He x Hx). symmetry. apply bval_ext. reflexivity.
  Qed.

  Lemma one_col {A} (l : list A) : length l = 1%nat -> exists a, l = [a].
  Proof. destruct l as [|a [|b l]]; try discriminate. intros _. exists a. reflexivity. Qed.
  (** The integral of a product with a dual basis polynomial *)
  Lemma dual_int m r b (X d ct : list F) mu : length X = get_dimension r m -> In mu (all_mi m r) -> (forall nu, In nu (all_mi m r) -> dot (gram_row m r nu) X = if mi_dec nu mu then 1 else 0) ->
    (forall x, length x = m -> val b m (r + r) ct x = bval m r X x * bval m r d x) -> val_int b m (r + r) ct = cf m r d mu.
  Proof.
    intros HX Hmu HG Hv. apply (has_int_unique m (val b m (r + r) ct)); [apply has_int_val|].
    rewrite <- (gram_left m r mu X HX Hmu HG (cf m r d)). apply (has_int_ext m (fun x => ksum (all_mi m r) (fun nu => cf m r X nu * bern r nu x) * ksum (all_mi m r) (fun nu => cf m r d nu * bern r nu x))); [|apply gram_form].
    intros x Hx. rewrite (Hv x Hx). reflexivity.
  Qed.
  Theorem dual_bernstein_ok mu r (p : poly F) c d : valid p -> p_m p = length mu -> p_r p = r -> p_cols p = [c] -> (nsum mu <= r)%nat -> ((0 < length mu)%nat -> (2 * r < 20)%nat) ->
    (forall x, length x = length mu -> val (p_basis p) (length mu) r c x = bval (length mu) r d x) -> dual_bernstein_basis_fn mu r p = Ok [cf (length mu) r d mu].
  Proof.
    intros Vp Pm Pr Pc Hmu Hr Hd. set (m := length mu) in *. unfold dual_bernstein_basis_fn. fold m. destruct (dual_polynomial_ok mu r Hmu ltac:(fold m; lia)) as (D & X & ED & (VD & Db & Dc & Dr & Dm) & LX & HG). fold m in Dm, LX, HG. rewrite ED. cbn [bind].
    assert (Imu : In mu (all_mi m r)) by (apply in_all_mi; split; [reflexivity|exact Hmu]). replace (2 * r)%nat with (r + r)%nat by lia.
    assert (PD : forall x, pv D x = [bval m r X x]) by (intros x; unfold pv; rewrite Db, Dc, Dm, Dr; reflexivity).
    assert (PP : forall x, length x = m -> pv p x = [bval m r d x]) by (intros x Hx; unfold pv; rewrite Pc, Pm, Pr; cbn [map]; rewrite (Hd x Hx); reflexivity).
    assert (B : p_basis p = Bernstein -> (let* t := mul D p in mapM (fun c => integrate_bernstein_polynomial_unit_simplex (r + r) c m) (p_cols t)) = Ok [cf m r d mu]).
    { intros Pb. destruct (mul_ok D p VD Vp) as (t & Et & Vt & Tb & Tm & Tn & Tr & Tv); [congruence|rewrite Dc; reflexivity|rewrite Pc; reflexivity|congruence|rewrite Dm, Dr, Pr; lia|].
      rewrite Et. cbn [bind]. destruct (one_col _ Tn) as [ct Ect]. rewrite Ect. pose proof Vt as [[_ Rt] _]. assert (Lct : length ct = get_dimension (r + r) m) by (rewrite (Rt ct ltac:(rewrite Ect; left; reflexivity)), Tr, Tm, Dm, Dr, Pr; reflexivity).
      cbn [mapM]. rewrite int_bernstein_eq by exact Lct. cbn [bind]. change (bern_int m (r + r) ct) with (val_int Bernstein m (r + r) ct). rewrite (dual_int m r Bernstein X d ct mu LX Imu HG); [reflexivity|].
      intros x Hx. specialize (Tv x (bval m r X x) (bval m r d x) ltac:(congruence) (PD x) (PP x Hx)). unfold pv in Tv. rewrite Ect, Tb, Tm, Tr, Dm, Dr, Pr, Db in Tv. cbn [map] in Tv. congruence. }
    assert (N : (let* dm := to_monomial_basis D in let* pm := to_monomial_basis p in let* t := mul dm pm in mapM (integrate_polynomial_unit_simplex (r + r) m) (p_cols t)) = Ok [cf m r d mu]).
    { destruct (to_monomial_ok D VD) as (D' & ED' & VD' & D'b & D'm & D'n & D'r & D'v). rewrite ED'. cbn [bind]. destruct (to_monomial_ok p Vp) as (P' & EP' & VP' & P'b & P'm & P'n & P'r & P'v). rewrite EP'. cbn [bind].
      destruct (mul_ok D' P' VD' VP') as (t & Et & Vt & Tb & Tm & Tn & Tr & Tv); [congruence|rewrite D'n, Dc; reflexivity|rewrite P'n, Pc; reflexivity|congruence|rewrite D'm, D'r, P'r, Dm, Dr, Pr; lia|].
      rewrite Et. cbn [bind]. destruct (one_col _ Tn) as [ct Ect]. rewrite Ect. pose proof Vt as [[_ Rt] _]. assert (Lct : length ct = get_dimension (r + r) m) by (rewrite (Rt ct ltac:(rewrite Ect; left; reflexivity)), Tr, Tm, D'm, Dm, D'r, P'r, Dr, Pr; reflexivity).
      cbn [mapM]. rewrite int_monomial_eq by exact Lct. cbn [bind]. change (mono_int m (r + r) ct) with (val_int Monomial m (r + r) ct). rewrite (dual_int m r Monomial X d ct mu LX Imu HG); [reflexivity|].
      intros x Hx. specialize (Tv x (bval m r X x) (bval m r d x) ltac:(congruence)). rewrite (D'v x), (P'v x), PD, (PP x Hx) in Tv by congruence. specialize (Tv eq_refl eq_refl). unfold pv in Tv. rewrite Ect, Tb, Tm, Tr, D'm, D'r, P'r, Dm, Dr, Pr, D'b in Tv. cbn [map] in Tv. congruence. }
    destruct (p_basis p); [exact N|exact (B eq_refl)|exact N].
  Qed.

  (** ** Conversion *)
  Definition column (b' : basis) (m r : nat) (q : poly F) : result (list F) := mapM (fun mu => let* v := dual_polynomial_basis_fn mu r b' q in scalar v) (all_mi m r).
  Lemma column_ok b' m r (q : poly F) c : b' <> Monomial -> (b' = Bernstein -> (0 < m)%nat -> (2 * r < 20)%nat) -> valid q -> p_m q = m -> p_r q = r -> p_cols q = [c] ->
    exists e, column b' m r q = Ok e /\ length e = get_dimension r m /\ forall x, length x = m -> val b' m r e x = val (p_basis q) m r c x.
  Proof.
    intros Hb Hd Vq Qm Qr Qc. pose proof Vq as [[_ Rq] _]. assert (Lc : length c = get_dimension r m) by (rewrite (Rq c ltac:(rewrite Qc; left; reflexivity)), Qm, Qr; reflexivity).
    destruct b'; [contradiction| |].
    - destruct (val_bernstein (p_basis q) m r c Lc) as (d & Ld & Hv). exists d. split; [|split; [exact Ld|intros x Hx; symmetry; apply Hv, Hx]].
      unfold column. rewrite (mapM_ok _ (cf m r d)); [rewrite map_cf by exact Ld; reflexivity|]. intros mu Hmu. apply in_all_mi in Hmu as [M1 M2]. cbn [dual_polynomial_basis_fn].
      rewrite (dual_bernstein_ok mu r q c d Vq ltac:(congruence) Qr Qc M2); [rewrite M1; reflexivity|rewrite M1; auto|rewrite M1; exact Hv].
    - exists (map (fun mu => val (p_basis q) m r c (generate_lagrange_point m r mu)) (all_mi m r)). split; [|split; [apply map_all_mi_length|]].
      + unfold column. apply mapM_ok. intros mu Hmu. apply in_all_mi in Hmu as [M1 M2]. cbn [dual_polynomial_basis_fn]. unfold dual_lagrange_basis_fn. rewrite M1. rewrite call_ok; [|exact Vq|rewrite Qm; apply lagrange_point_length, M1]. cbn [bind]. unfold pv. rewrite Qc, Qm, Qr. reflexivity.
      + intros x Hx. cbn [val]. apply (lval_interp m r (val (p_basis q) m r c) x); [|exact Hx]. apply polydeg_val. exact Lc.
  Qed.
  Lemma mapM_exists {A B} (f : A -> result B) (P : A -> B -> Prop) l : (forall a, In a l -> exists b, f a = Ok b /\ P a b) -> exists bs, mapM f l = Ok bs /\ Forall2 P l bs.
  Proof.
    induction l as [|a l IH]; intros H; [exists []; split; [reflexivity|constructor]|]. destruct (H a (or_introl eq_refl)) as (b & E & Pb). destruct IH as (bs & Es & Ps); [intros; apply H; right; assumption|].
    exists (b :: bs). cbn [mapM]. rewrite E. cbn [bind]. rewrite Es. split; [reflexivity|constructor; assumption].
  Qed.
  Theorem convert_ok (p : poly F) b' : valid p -> (b' = Bernstein -> p_basis p <> Bernstein -> (0 < p_m p)%nat -> (2 * p_r p < 20)%nat) ->
    exists q, convert_polynomial_to_basis p b' = Ok q /\ valid q /\ p_basis q = b' /\ p_m q = p_m p /\ p_r q = p_r p /\ length (p_cols q) = length (p_cols p) /\
      forall x, length x = p_m p -> pv q x = pv p x.
  Proof.
    intros Vp Hd. unfold convert_polynomial_to_basis. destruct (basis_eqb (p_basis p) b') eqn:Eb.
    - exists p. assert (p_basis p = b') by (destruct (p_basis p), b'; try reflexivity; discriminate). repeat split; try reflexivity; try assumption; apply Vp.
    - assert (Nb : p_basis p <> b') by (intros E; rewrite E in Eb; destruct b'; discriminate).
      assert (Hmain : b' <> Monomial -> exists cols, (if (target_dimension p =? 1)%nat then let* c := column b' (p_m p) (p_r p) p in Ok [c] else mapM (fun j => let* q := getitem p j in column b' (p_m p) (p_r p) q) (seq 0 (target_dimension p))) = Ok cols /\
        Forall2 (fun c e => length e = get_dimension (p_r p) (p_m p) /\ forall x, length x = p_m p -> val b' (p_m p) (p_r p) e x = val (p_basis p) (p_m p) (p_r p) c x) (p_cols p) cols).
      { intros Hb. assert (Hd' : b' = Bernstein -> (0 < p_m p)%nat -> (2 * p_r p < 20)%nat) by (intros E; apply Hd; [exact E|congruence]). unfold target_dimension. destruct (Nat.eqb_spec (length (p_cols p)) 1) as [E1|E1].
        - destruct (one_col _ E1) as [c Ec]. destruct (column_ok b' (p_m p) (p_r p) p c Hb Hd' Vp eq_refl eq_refl Ec) as (e & Ee & Le & He). rewrite Ee. exists [e]. split; [reflexivity|]. rewrite Ec. constructor; [split; assumption|constructor].
        - destruct (mapM_exists (fun j => let* q := getitem p j in column b' (p_m p) (p_r p) q) (fun j e => length e = get_dimension (p_r p) (p_m p) /\ forall x, length x = p_m p -> val b' (p_m p) (p_r p) e x = val (p_basis p) (p_m p) (p_r p) (nth j (p_cols p) []) x) (seq 0 (length (p_cols p)))) as (cols & Ec & HF).
          + intros j Hj. apply in_seq in Hj. destruct (getitem_ok p j Vp ltac:(lia)) as (q & Eq & Vq & Qb & Qm & Qr & Qc & _). rewrite Eq. cbn [bind]. destruct (column_ok b' (p_m p) (p_r p) q _ Hb Hd' Vq Qm Qr Qc) as (e & Ee & Le & He). exists e. rewrite Qb in He. auto.
          + exists cols. split; [exact Ec|]. rewrite <- (map_id (p_cols p)). rewrite <- (map_seq_nth (fun c => c) (p_cols p) []). clear Ec. induction HF; cbn [map]; constructor; assumption. }
      assert (Hfin : b' <> Monomial -> exists q, (let* cols := (if (target_dimension p =? 1)%nat then let* c := column b' (p_m p) (p_r p) p in Ok [c] else mapM (fun j => let* q := getitem p j in column b' (p_m p) (p_r p) q) (seq 0 (target_dimension p))) in new_poly b' cols (Some (p_r p)) (p_m p)) = Ok q /\
        valid q /\ p_basis q = b' /\ p_m q = p_m p /\ p_r q = p_r p /\ length (p_cols q) = length (p_cols p) /\ forall x, length x = p_m p -> pv q x = pv p x).
      { intros Hb. destruct (Hmain Hb) as (cols & -> & HF). cbn [bind]. destruct (new_poly_ok b' cols (p_r p) (p_m p)) as (q & Eq & (Vq & Qb & Qc & Qr & Qm)).
        - split; [destruct Vp as [[Np _] _]; destruct HF; [congruence|discriminate]|]. intros c Hc. clear - HF Hc. induction HF as [|a b l l' [H1 _] HF IH]; [destruct Hc|]. destruct Hc as [<-|Hc]; auto.
        - apply Vp.
        - exists q. split; [exact Eq|]. split; [exact Vq|]. split; [exact Qb|]. split; [exact Qm|]. split; [exact Qr|]. split; [rewrite Qc; clear - HF; induction HF; cbn; congruence|].
          intros x Hx. unfold pv. rewrite Qb, Qc, Qr, Qm. clear - HF Hx. induction HF as [|a b l l' [_ H] HF IH]; [reflexivity|]. cbn [map]. rewrite IH, (H x Hx). reflexivity. }
      destruct b'.
      + destruct (to_monomial_ok p Vp) as (q & Eq & Vq & Qb & Qm & Qn & Qr & Qv). exists q. repeat (split; [assumption|]). exact Qv.
      + unfold domain_dimension, degree. rewrite generate_all_eq. cbn [bind]. apply (Hfin ltac:(discriminate)).
      + unfold domain_dimension, degree. rewrite generate_all_eq. cbn [bind]. apply (Hfin ltac:(discriminate)).
  Qed.
End BasesFacts.
