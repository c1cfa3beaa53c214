(** Operations on polynomial objects. *)
From Verif Require Import Base MultiIndex MultiIndexFacts MultiCapFacts MultiIndexCache Fld CodeGen CodeGenFacts LinSolve MultiCoef MultiCoefFacts LagrangeCache Unisolv Poly PolyFacts LagFacts PolyEval PolyOps PolyOpsB PolyDeriv.
From Coq Require Import Field_theory Field.

Section Obj.
  Context {F : fld}.
  Add Field Kfield13 : (kth F).
  Local Open Scope fld_scope.

  (** *** Values are linear in the coefficients *)
  Lemma val_basis b m r : exists B : list nat -> list F -> F, forall c x, length c = get_dimension r m -> val b m r c x = ksum (all_mi m r) (fun nu => cf m r c nu * B nu x).
  Proof.
    destruct b.
    - exists (fun nu x => mpow x nu). reflexivity.
    - exists (fun nu x => bern r nu x). reflexivity.
    - destruct (get_lagrange_ok (F := F) r m) as (l & El & (L1 & L2 & L3)).
      exists (fun nu x => match pos (all_mi m r) nu with Some j => mval m r (mat_col l j) x | None => 0 end). intros c x Hc. cbn [val]. unfold lval, lagc. rewrite El, mval_mat_vec by assumption.
      rewrite <- (sum_cf m r c (fun nu => match pos (all_mi m r) nu with Some j => mval m r (mat_col l j) x | None => 0 end) Hc).
      rewrite (combine_nth_sum c (all_mi m r) [] (fun nu => match pos (all_mi m r) nu with Some j => mval m r (mat_col l j) x | None => 0 end)) by (rewrite Hc; apply dim_all_mi). rewrite Hc. apply ksum_ext. intros j Hj. apply in_seq in Hj.
      rewrite (pos_nth_error _ (nth j (all_mi m r) []) j (NoDup_all_mi m r)); [reflexivity|]. apply nth_error_nth'. rewrite <- dim_all_mi. lia.
  Qed.
  Definition cop (op : F -> F -> F) (c d : list F) : list F := map (fun v => op (fst v) (snd v)) (combine c d).
  Lemma cop_length op c d : length c = length d -> length (cop op c d) = length c.
  Proof. intros E. unfold cop. rewrite map_length, combine_length. lia. Qed.
  Lemma nth_cop op c d i : length c = length d -> op 0 0 = 0 -> nth i (cop op c d) 0 = op (nth i c 0) (nth i d 0).
  Proof.
    intros E Ho. revert d i E. unfold cop. induction c as [|a c IH]; intros [|b d] i E; try discriminate; [destruct i; cbn; congruence|]. destruct i as [|i]; cbn [combine map nth fst snd]; [reflexivity|].
    apply IH. cbn in E. lia.
  Qed.
  Lemma cf_cop m r op c d nu : length c = length d -> op 0 0 = 0 -> cf m r (cop op c d) nu = op (cf m r c nu) (cf m r d nu).
  Proof. intros E Ho. unfold cf, cfl. destruct (pos (all_mi m r) nu); [apply nth_cop; assumption|congruence]. Qed.
  Lemma cf_scale m r (c : list F) k nu : cf m r (map (fun v => v * k) c) nu = cf m r c nu * k.
  Proof.
    unfold cf, cfl. destruct (pos (all_mi m r) nu) as [i|]; [|ring]. replace (0 : F) with (0 * k) at 1 by ring. apply (map_nth (fun v => v * k)).
  Qed.
  Lemma val_scale b m r (c : list F) k x : length c = get_dimension r m -> val b m r (map (fun v => v * k) c) x = val b m r c x * k.
  Proof.
    intros Hc. destruct (val_basis b m r) as [B HB]. rewrite !HB by (rewrite ?map_length; exact Hc). rewrite <- ksum_scale_r. apply ksum_ext. intros nu _. rewrite cf_scale. ring.
  Qed.
  Lemma val_cop b m r op k (c d : list F) x : (forall u v, op u v = u + k * v) -> length c = get_dimension r m -> length d = get_dimension r m ->
    val b m r (cop op c d) x = op (val b m r c x) (val b m r d x).
  Proof.
    intros Ho Hc Hd. destruct (val_basis b m r) as [B HB]. rewrite !HB by (rewrite ?cop_length; congruence). rewrite Ho, <- ksum_scale_l, <- ksum_plus. apply ksum_ext. intros nu _.
    rewrite cf_cop, Ho by (try congruence; rewrite Ho; ring). ring.
  Qed.

  (** *** Functions that are polynomials of degree at most [s] *)
  Definition polydeg (m s : nat) (f : list F -> F) : Prop := exists d, length d = get_dimension s m /\ forall x, length x = m -> f x = mval m s d x.
  Lemma polydeg_val b m r (c : list F) : length c = get_dimension r m -> polydeg m r (val b m r c).
  Proof. apply val_monomial. Qed.
  Lemma polydeg_elevate m r s f : (r <= s)%nat -> polydeg m r f -> polydeg m s f.
  Proof. intros H (d & Hd & E). exists (map (cf m r d) (all_mi m s)). split; [apply map_all_mi_length|]. intros x Hx. rewrite mval_elevate by exact H. apply E. exact Hx. Qed.
  Lemma polydeg_mul m r s f g : polydeg m r f -> polydeg m s g -> polydeg m (r + s) (fun x => f x * g x).
  Proof.
    intros (c & Hc & Ec) (d & Hd & Ed). destruct (mul_monomial_ok m r s c d Hc Hd) as (e & _ & He & HV). exists e. split; [exact He|]. intros x Hx. rewrite (HV x Hx), <- Ec, <- Ed by exact Hx. reflexivity.
  Qed.
  Lemma mval_0 m (c x : list F) : mval m 0 c x = cf m 0 c (repeat 0%nat m).
  Proof. unfold mval. rewrite all_mi_r0, ksum_cons, ksum_nil, mpow_zero. ring. Qed.
  Lemma polydeg_const m v : polydeg m 0 (fun _ => v).
  Proof.
    exists (map (fun _ => v) (all_mi m 0)). split; [apply map_all_mi_length|]. intros x _. rewrite mval_0, cf_map; [reflexivity|apply repeat_length|]. rewrite nsum_repeat0. lia.
  Qed.
  Lemma polydeg_pow m r f k : polydeg m r f -> polydeg m (r * k) (fun x => kpow (f x) k).
  Proof.
    intros H. induction k as [|k IH]; [rewrite Nat.mul_0_r; exact (polydeg_const m 1)|]. rewrite Nat.mul_succ_r, Nat.add_comm. cbn [kpow]. apply polydeg_mul; assumption.
  Qed.
  Lemma polydeg_ext m r f g : (forall x, length x = m -> f x = g x) -> polydeg m r f -> polydeg m r g.
  Proof. intros E (d & Hd & H). exists d. split; [exact Hd|]. intros x Hx. rewrite <- E by exact Hx. apply H. exact Hx. Qed.
  (** Interpolation at the Lagrange points. *)
  Theorem lval_interp m s f x : polydeg m s f -> length x = m -> lval m s (map (fun mu => f (generate_lagrange_point m s mu)) (all_mi m s)) x = f x.
  Proof.
    intros (d & Hd & E) Hx. unfold lval. rewrite (lval_unique m s _ d); [symmetry; apply E; exact Hx|apply map_all_mi_length|exact Hd|]. intros nu H1 H2.
    rewrite cf_map by assumption. symmetry. apply E. apply lagrange_point_length. exact H1.
  Qed.

  Lemma map_nth_map {A B} (f : A -> B) l d k e : k < length l -> nth k (map f l) e = f (nth k l d).
  Proof. intros H. rewrite (nth_indep _ e (f d)) by (rewrite map_length; exact H). apply map_nth. Qed.
  Lemma map_seq_nth {A B} (f : A -> B) l d : map (fun k => f (nth k l d)) (seq 0 (length l)) = map f l.
  Proof.
    induction l as [|a l IH]; [reflexivity|]. cbn [length seq map nth]. f_equal. rewrite <- seq_shift, map_map. exact IH.
  Qed.
  Lemma cols_of_rows_pv (p : poly F) (xs : list (list F)) : cols_of_rows (target_dimension p) (map (pv p) xs) = map (fun c => map (val (p_basis p) (p_m p) (p_r p) c) xs) (p_cols p).
  Proof.
    unfold cols_of_rows, target_dimension. rewrite <- (map_seq_nth (fun c => map (val (p_basis p) (p_m p) (p_r p) c) xs) (p_cols p) []). apply map_ext_in. intros k Hk. apply in_seq in Hk.
    rewrite map_map. apply map_ext. intros x. unfold pv. apply (map_nth_map (fun c => val (p_basis p) (p_m p) (p_r p) c x)). lia.
  Qed.
  Lemma rect_map len len' (f : list F -> list F) cols : rect len cols -> (forall c, length c = len -> length (f c) = len') -> rect len' (map f cols).
  Proof.
    intros [H1 H2] Hf. split; [destruct cols; [congruence|discriminate]|]. intros c Hc. apply in_map_iff in Hc as (d & <- & Hd). apply Hf, H2, Hd.
  Qed.

  (** Same function, in another representation. *)
  Record same_shape (p q : poly F) : Prop := mkShape {
    sh_basis : p_basis q = p_basis p; sh_m : p_m q = p_m p; sh_n : length (p_cols q) = length (p_cols p) }.

  Theorem degree_elevate_ok p s : valid p -> (p_r p <= s)%nat -> (0 < p_m p -> (s < 20)%nat) ->
    exists q, degree_elevate p s = Ok q /\ valid q /\ same_shape p q /\ p_r q = s /\ forall x, length x = p_m p -> pv q x = pv p x.
  Proof.
    intros Hp Hs Hm. pose proof Hp as (HR & _ & _). unfold degree_elevate. replace (p_r p <=? s)%nat with true by (symmetry; apply Nat.leb_le; exact Hs). cbn [assert_ bind].
    destruct (Nat.eqb_spec s (p_r p)) as [E|E].
    - exists p. rewrite valid_renew by exact Hp. split; [reflexivity|]. split; [exact Hp|]. split; [constructor; reflexivity|]. split; [congruence|reflexivity].
    - assert (GO : exists f : list F -> list F, (forall c, length (f c) = get_dimension s (p_m p)) /\
        (forall c x, In c (p_cols p) -> length x = p_m p -> val (p_basis p) (p_m p) s (f c) x = val (p_basis p) (p_m p) (p_r p) c x) /\
        match p_basis p with Monomial => mapM (elevate_monomial (p_m p) (p_r p) s) (p_cols p) | Bernstein => mapM (elevate_bernstein (p_m p) (p_r p) s) (p_cols p) | Lagrange => elevate_lagrange p s end
        = Ok (map f (p_cols p))).
      { destruct HR as [_ HR]. destruct (p_basis p) eqn:Eb; cbn [val].
        - exists (fun c => map (cf (p_m p) (p_r p) c) (all_mi (p_m p) s)). split; [intros c; apply map_all_mi_length|]. split; [intros c x _ _; apply mval_elevate; exact Hs|].
          apply mapM_ok. intros c Hc. apply elevate_monomial_eq; [exact Hs|apply HR, Hc].
        - exists (fun c => map (bprod (p_m p) (p_r p) (s - p_r p) (cf (p_m p) (p_r p) c) (fun _ => 1)) (all_mi (p_m p) s)). split; [intros c; apply map_all_mi_length|].
          split; [intros c x _ Hx; apply bval_elevate; assumption|]. apply mapM_ok. intros c Hc. apply elevate_bernstein_eq; [exact Hs|apply HR, Hc].
        - exists (fun c => map (fun mu => lval (p_m p) (p_r p) c (generate_lagrange_point (p_m p) s mu)) (all_mi (p_m p) s)). split; [intros c; apply map_all_mi_length|].
          split; [intros c x Hc Hx; apply lval_interp; [|exact Hx]; apply (polydeg_elevate _ (p_r p)); [exact Hs|]; apply (polydeg_val Lagrange), HR, Hc|].
          unfold elevate_lagrange. rewrite generate_all_eq. cbn [bind]. rewrite (mapM_ok _ (fun mu => pv p (generate_lagrange_point (p_m p) s mu))).
          + cbn [bind]. rewrite <- (map_map (generate_lagrange_point (p_m p) s) (pv p)), cols_of_rows_pv. f_equal. apply map_ext. intros c. rewrite map_map, Eb. reflexivity.
          + intros mu Hmu. apply in_all_mi in Hmu as [M1 _]. unfold dual_lagrange_basis_fn. rewrite M1. apply call_ok; [exact Hp|]. apply lagrange_point_length. exact M1. }
      destruct GO as (f & F1 & F2 & F3). rewrite F3. cbn [bind].
      destruct (new_poly_ok (p_basis p) (map f (p_cols p)) s (p_m p)) as (q & Eq & Hv & Q1 & Q2 & Q3 & Q4); [|exact Hm|].
      + apply (rect_map _ _ _ _ HR). intros c _. apply F1.
      + exists q. split; [exact Eq|]. split; [exact Hv|]. split; [constructor; [congruence|congruence|rewrite Q2; apply map_length]|]. split; [exact Q3|]. intros x Hx.
        unfold pv. rewrite Q1, Q2, Q3, Q4, map_map. apply map_ext_in. intros c Hc. apply F2; assumption.
  Qed.

  (** *** Sums and differences *)
  Lemma basis_eqb_refl b : basis_eqb b b = true. Proof. destruct b; reflexivity. Qed.
  Lemma map_combine_pv op b m r (k : F) x : (forall u v, op u v = u + k * v) -> forall cs ds, length cs = length ds ->
    (forall c, In c cs -> length c = get_dimension r m) -> (forall c, In c ds -> length c = get_dimension r m) ->
    map (fun c => val b m r c x) (map (fun cd => cop op (fst cd) (snd cd)) (combine cs ds)) = cop op (map (fun c => val b m r c x) cs) (map (fun c => val b m r c x) ds).
  Proof.
    intros Ho. unfold cop at 2. induction cs as [|c cs IH]; intros [|d ds] E H1 H2; try discriminate; [reflexivity|]. cbn [combine map fst snd]. rewrite (val_cop _ _ _ _ k) by (auto using in_eq). f_equal.
    apply IH; [cbn in E; lia|intros; apply H1; right; assumption|intros; apply H2; right; assumption].
  Qed.
  Lemma same_degree_ok op k p q : (forall u v, op u v = u + k * v) -> valid p -> valid q -> same_shape p q -> p_r p = p_r q ->
    exists s, same_degree op p q = Ok s /\ valid s /\ same_shape p s /\ p_r s = p_r p /\ forall x, length x = p_m p -> pv s x = cop op (pv p x) (pv q x).
  Proof.
    intros Ho Hp Hq [S1 S2 S3] Er. pose proof Hp as ((P1 & P2) & P3 & _). pose proof Hq as ((Q1 & Q2) & _ & _). unfold same_degree, check_operands, domain_dimension, target_dimension.
    rewrite S1, S2, S3, !Nat.eqb_refl, basis_eqb_refl. cbn [assert_ bind]. rewrite <- Er, S2 in Q2.
    change (map (fun cd => map (fun v => op (fst v) (snd v)) (combine (fst cd) (snd cd))) (combine (p_cols p) (p_cols q))) with (map (fun cd => cop op (fst cd) (snd cd)) (combine (p_cols p) (p_cols q))).
    destruct (new_poly_ok (p_basis p) (map (fun cd => cop op (fst cd) (snd cd)) (combine (p_cols p) (p_cols q))) (p_r p) (p_m p)) as (s & Es & Hv & R1 & R2 & R3 & R4); [|exact P3|].
    - split.
      + destruct (p_cols p); [congruence|]. destruct (p_cols q); [congruence|discriminate].
      + intros c Hc. apply in_map_iff in Hc as ([u v] & <- & Huv). pose proof (in_combine_l _ _ _ _ Huv). apply in_combine_r in Huv. cbn [fst snd]. rewrite cop_length; [apply P2; assumption|]. rewrite (P2 u), (Q2 v) by assumption. reflexivity.
    - exists s. split; [exact Es|]. split; [exact Hv|]. split; [constructor; [congruence|congruence|rewrite R2, map_length, combine_length; lia]|]. split; [exact R3|]. intros x Hx.
      unfold pv. rewrite R1, R2, R3, R4, S1, S2, <- Er. apply (map_combine_pv op _ _ _ k); [exact Ho|congruence|exact P2|exact Q2].
  Qed.
  Theorem linear_op_ok op k p q : (forall u v, op u v = u + k * v) -> valid p -> valid q -> same_shape p q ->
    exists s, linear_op op p q = Ok s /\ valid s /\ same_shape p s /\ p_r s = Nat.max (p_r p) (p_r q) /\ forall x, length x = p_m p -> pv s x = cop op (pv p x) (pv q x).
  Proof.
    intros Ho Hp Hq HS. pose proof HS as [S1 S2 S3]. unfold linear_op, check_operands, domain_dimension, target_dimension, degree. rewrite S1, S2, S3, !Nat.eqb_refl, basis_eqb_refl. cbn [assert_ bind].
    destruct (Nat.eqb_spec (p_r p) (p_r q)) as [E|E].
    - destruct (same_degree_ok op k p q Ho Hp Hq HS E) as (s & Es & H1 & H2 & H3 & H4). exists s. rewrite Es. repeat (split; [assumption || reflexivity || lia|]). exact H4.
    - destruct (Nat.ltb_spec (p_r q) (p_r p)) as [El|El].
      + destruct (degree_elevate_ok q (p_r p) Hq ltac:(lia)) as (q' & Eq & V1 & [W1 W2 W3] & V2 & V3); [rewrite S2; apply Hp|]. rewrite Eq. cbn [bind].
        destruct (same_degree_ok op k p q' Ho Hp V1) as (s & Es & H1 & H2 & H3 & H4); [constructor; congruence|congruence|].
        exists s. rewrite Es. repeat (split; [assumption || reflexivity || lia|]). intros x Hx. rewrite (H4 x Hx), V3 by congruence. reflexivity.
      + destruct (degree_elevate_ok p (p_r q) Hp ltac:(lia)) as (p' & Ep & V1 & [W1 W2 W3] & V2 & V3); [rewrite <- S2; apply Hq|]. rewrite Ep. cbn [bind].
        destruct (same_degree_ok op k p' q Ho V1 Hq) as (s & Es & H1 & [X1 X2 X3] & H3 & H4); [constructor; congruence|congruence|].
        exists s. rewrite Es. split; [reflexivity|]. split; [exact H1|]. split; [constructor; congruence|]. split; [lia|]. intros x Hx. rewrite (H4 x) by congruence. rewrite V3 by exact Hx. reflexivity.
  Qed.
  Theorem add_ok p q : valid p -> valid q -> same_shape p q ->
    exists s, add p q = Ok s /\ valid s /\ same_shape p s /\ p_r s = Nat.max (p_r p) (p_r q) /\ forall x, length x = p_m p -> pv s x = vadd (pv p x) (pv q x).
  Proof. apply (linear_op_ok kadd 1). intros u v. ring. Qed.
  Theorem sub_ok p q : valid p -> valid q -> same_shape p q ->
    exists s, sub p q = Ok s /\ valid s /\ same_shape p s /\ p_r s = Nat.max (p_r p) (p_r q) /\ forall x, length x = p_m p -> pv s x = vsub (pv p x) (pv q x).
  Proof. apply (linear_op_ok ksub (- (1))). intros u v. ring. Qed.

  (** *** Multiples *)
  Theorem scale_ok p k : valid p -> exists s, scale p k = Ok s /\ valid s /\ same_shape p s /\ p_r s = p_r p /\ forall x, length x = p_m p -> pv s x = map (fun v => v * k) (pv p x).
  Proof.
    intros Hp. pose proof Hp as (HR & P3 & _). unfold scale. destruct (new_poly_ok (p_basis p) (map (map (fun v => v * k)) (p_cols p)) (p_r p) (p_m p)) as (s & Es & Hv & R1 & R2 & R3 & R4); [|exact P3|].
    - apply (rect_map _ _ _ _ HR). intros c Hc. rewrite map_length. exact Hc.
    - exists s. split; [exact Es|]. split; [exact Hv|]. split; [constructor; [congruence|congruence|rewrite R2; apply map_length]|]. split; [exact R3|]. intros x Hx.
      unfold pv. rewrite R1, R2, R3, R4, !map_map. apply map_ext_in. intros c Hc. apply val_scale. apply HR, Hc.
  Qed.
  Theorem truediv_ok p k : k <> 0 -> valid p -> exists s, truediv p k = Ok s /\ valid s /\ same_shape p s /\ p_r s = p_r p /\ forall x, length x = p_m p -> pv s x = map (fun v => v / k) (pv p x).
  Proof.
    intros Hk Hp. destruct (scale_ok p (1 / k) Hp) as (s & Es & H1 & H2 & H3 & H4). exists s. split.
    - rewrite <- Es. unfold truediv, scale. f_equal. apply map_ext. intros c. apply map_ext. intros v. field. exact Hk.
    - repeat (split; [assumption|]). intros x Hx. rewrite (H4 x Hx). apply map_ext. intros v. field. exact Hk.
  Qed.
  Theorem outer_ok p (k : list F) : valid p -> length (p_cols p) = 1%nat -> k <> [] ->
    exists s, outer p k = Ok s /\ valid s /\ p_basis s = p_basis p /\ p_m s = p_m p /\ p_r s = p_r p /\ length (p_cols s) = length k /\
      forall x (v : F), length x = p_m p -> pv p x = [v] -> pv s x = map (fun ki => v * ki) k.
  Proof.
    intros Hp H1 Hk. pose proof Hp as (HR & P3 & _). unfold outer, target_dimension. rewrite H1. cbn [Nat.eqb assert_ bind].
    destruct (new_poly_ok (p_basis p) (map (fun ck => map (fun v => v * ck) (hd [] (p_cols p))) k) (p_r p) (p_m p)) as (s & Es & Hv & R1 & R2 & R3 & R4); [|exact P3|].
    - split; [destruct k; [congruence|discriminate]|]. intros c Hc. apply in_map_iff in Hc as (v & <- & _). rewrite map_length. apply (hd_rect _ _ HR).
    - exists s. split; [exact Es|]. split; [exact Hv|]. split; [exact R1|]. split; [exact R4|]. split; [exact R3|]. split; [rewrite R2; apply map_length|]. intros x v Hx Ev.
      unfold pv in *. destruct (p_cols p) as [|c [|]]; try discriminate. cbn [map hd] in *. injection Ev as Ev. rewrite R1, R2, R3, R4, map_map. apply map_ext. intros ki. rewrite val_scale; [rewrite Ev; reflexivity|]. apply HR. left. reflexivity.
  Qed.

  (** *** Products *)
  Lemma scalar_pv (p : poly F) : length (p_cols p) = 1%nat -> exists c, p_cols p = [c] /\ hd [] (p_cols p) = c /\ forall x, pv p x = [val (p_basis p) (p_m p) (p_r p) c x].
  Proof. intros H. unfold pv. destruct (p_cols p) as [|c [|]]; try discriminate. exists c. auto. Qed.
  Lemma rect1 len (c : list F) : length c = len -> rect len [c].
  Proof. intros H. split; [discriminate|]. intros d [<-|[]]. exact H. Qed.
  Theorem mul_ok (p q : poly F) : valid p -> valid q -> p_m q = p_m p -> length (p_cols p) = 1%nat -> length (p_cols q) = 1%nat -> (p_basis p <> Lagrange -> p_basis q = p_basis p) ->
    (0 < p_m p -> (p_r p + p_r q < 20)%nat) ->
    exists s, mul p q = Ok s /\ valid s /\ p_basis s = p_basis p /\ p_m s = p_m p /\ length (p_cols s) = 1%nat /\ p_r s = (p_r p + p_r q)%nat /\
      forall x (u v : F), length x = p_m p -> pv p x = [u] -> pv q x = [v] -> pv s x = [u * v].
  Proof.
    intros Hp Hq Em Np Nq Hb Hd. pose proof Hp as ((_ & HP) & _ & _). pose proof Hq as ((_ & HQ) & _ & _).
    destruct (scalar_pv p Np) as (a & Ea & Eha & Va). destruct (scalar_pv q Nq) as (b & Eb & Ehb & Vb).
    assert (La : length a = get_dimension (p_r p) (p_m p)) by (apply HP; rewrite Ea; left; reflexivity). assert (Lb : length b = get_dimension (p_r q) (p_m p)) by (rewrite <- Em; apply HQ; rewrite Eb; left; reflexivity).
    unfold mul, domain_dimension, target_dimension. rewrite Em, Np, Nq, Nat.eqb_refl. cbn [Nat.eqb assert_ bind]. rewrite Eha, Ehb.
    assert (FIN : forall c, length c = get_dimension (p_r p + p_r q) (p_m p) ->
      (forall x, length x = p_m p -> val (p_basis p) (p_m p) (p_r p + p_r q) c x = val (p_basis p) (p_m p) (p_r p) a x * val (p_basis q) (p_m p) (p_r q) b x) ->
      exists s, new_poly (p_basis p) [c] (Some (p_r p + p_r q)%nat) (p_m p) = Ok s /\ valid s /\ p_basis s = p_basis p /\ p_m s = p_m p /\ length (p_cols s) = 1%nat /\ p_r s = (p_r p + p_r q)%nat /\
      forall x (u v : F), length x = p_m p -> pv p x = [u] -> pv q x = [v] -> pv s x = [u * v]).
    { intros c Lc HV. destruct (new_poly_ok (p_basis p) [c] (p_r p + p_r q) (p_m p) (rect1 _ _ Lc) Hd) as (s & Es & Hv & R1 & R2 & R3 & R4).
      exists s. split; [exact Es|]. split; [exact Hv|]. split; [exact R1|]. split; [exact R4|]. split; [rewrite R2; reflexivity|]. split; [exact R3|]. intros x u v Hx Eu Ev.
      rewrite Va in Eu. rewrite Vb, Em in Ev. injection Eu as <-. injection Ev as <-. unfold pv. rewrite R1, R2, R3, R4. cbn [map]. rewrite HV by exact Hx. reflexivity. }
    revert FIN Hb Va. destruct (p_basis p) eqn:Ebp; intros FIN Hb Va.
    - pose proof (Hb ltac:(discriminate)) as Ebq. rewrite Ebq in *. cbn [basis_eqb assert_ bind]. destruct (mul_monomial_ok _ _ _ a b La Lb) as (c & Ec & Lc & HV). rewrite Ec. cbn [bind]. apply FIN; [exact Lc|exact HV].
    - pose proof (Hb ltac:(discriminate)) as Ebq. rewrite Ebq in *. cbn [basis_eqb assert_ bind]. destruct (mul_bernstein_ok _ _ _ a b La Lb) as (c & Ec & Lc & HV). rewrite Ec. cbn [bind]. apply FIN; [exact Lc|exact HV].
    - pose (f := fun x => val Lagrange (p_m p) (p_r p) a x * val (p_basis q) (p_m p) (p_r q) b x).
      unfold mul_lagrange. rewrite lagrange_points_eq. cbn [bind]. rewrite (mapM_ok _ f).
      + cbn [bind]. rewrite map_map. apply FIN; [apply map_all_mi_length|]. intros x Hx. apply lval_interp; [|exact Hx]. apply polydeg_mul; apply polydeg_val; assumption.
      + intros x Hx. apply in_map_iff in Hx as (mu & <- & Hmu). apply in_all_mi in Hmu as [M1 _]. unfold call1. rewrite !call_ok by (assumption || (rewrite ?Em; apply lagrange_point_length; exact M1)).
        cbn [bind]. rewrite Va, Vb, Em. reflexivity.
  Qed.
  (** Products of degree 20 and more cannot be constructed. *)
  Theorem mul_limit (p q : poly F) : valid p -> valid q -> p_m q = p_m p -> length (p_cols p) = 1%nat -> length (p_cols q) = 1%nat -> (p_basis p <> Lagrange -> p_basis q = p_basis p) ->
    0 < p_m p -> (20 <= p_r p + p_r q)%nat -> mul p q = Err AssertionError.
  Proof.
    intros Hp Hq Em Np Nq Hb Hm Hd. pose proof Hp as ((_ & HP) & _ & _). pose proof Hq as ((_ & HQ) & _ & _).
    destruct (scalar_pv p Np) as (a & Ea & Eha & Va). destruct (scalar_pv q Nq) as (b & Eb & Ehb & Vb).
    assert (La : length a = get_dimension (p_r p) (p_m p)) by (apply HP; rewrite Ea; left; reflexivity). assert (Lb : length b = get_dimension (p_r q) (p_m p)) by (rewrite <- Em; apply HQ; rewrite Eb; left; reflexivity).
    unfold mul, domain_dimension, target_dimension. rewrite Em, Np, Nq, Nat.eqb_refl. cbn [Nat.eqb assert_ bind]. rewrite Eha, Ehb.
    assert (FIN : forall bb (c : list F), length c = get_dimension (p_r p + p_r q) (p_m p) -> new_poly bb [c] (Some (p_r p + p_r q)%nat) (p_m p) = Err AssertionError).
    { intros bb c Lc. unfold new_poly. cbn [hd]. rewrite Lc. pose proof (get_dimension_pos (p_r p + p_r q) (p_m p)) as Hpos. apply Nat.ltb_lt in Hpos. rewrite Hpos. cbn [assert_ bind].
      apply Nat.ltb_lt in Hm as Hm'. rewrite Hm'. unfold get_degree_from_dimension. destruct (find _ (seq 0 20)) as [d|] eqn:Ef; [|reflexivity]. exfalso.
      apply find_some in Ef as [H1 H2]. apply in_seq in H1. apply Nat.eqb_eq in H2. apply get_dimension_inj in H2; [lia|exact Hm]. }
    revert FIN Hb Va. destruct (p_basis p) eqn:Ebp; intros FIN Hb Va.
    - pose proof (Hb ltac:(discriminate)) as Ebq. rewrite Ebq in *. cbn [basis_eqb assert_ bind]. destruct (mul_monomial_ok _ _ _ a b La Lb) as (c & Ec & Lc & HV). rewrite Ec. cbn [bind]. apply FIN; exact Lc.
    - pose proof (Hb ltac:(discriminate)) as Ebq. rewrite Ebq in *. cbn [basis_eqb assert_ bind]. destruct (mul_bernstein_ok _ _ _ a b La Lb) as (c & Ec & Lc & HV). rewrite Ec. cbn [bind]. apply FIN; exact Lc.
    - pose (f := fun x => val Lagrange (p_m p) (p_r p) a x * val (p_basis q) (p_m p) (p_r q) b x).
      unfold mul_lagrange. rewrite lagrange_points_eq. cbn [bind]. rewrite (mapM_ok _ f).
      + cbn [bind]. rewrite map_map. apply FIN, map_all_mi_length.
      + intros x Hx. apply in_map_iff in Hx as (mu & <- & Hmu). apply in_all_mi in Hmu as [M1 _]. unfold call1. rewrite !call_ok by (assumption || (rewrite ?Em; apply lagrange_point_length; exact M1)).
        cbn [bind]. rewrite Va, Vb, Em. reflexivity.
  Qed.

  (** *** Constant polynomials and basis functions *)
  Lemma val_zero b m r x : val b m r (repeat 0 (get_dimension r m)) x = (0 : F).
  Proof. destruct (val_basis b m r) as [B HB]. rewrite HB by apply repeat_length. apply ksum_zero. intros nu _. rewrite cf_repeat. ring. Qed.
  Lemma rect_repeat len (c : list F) n : n <> 0%nat -> length c = len -> rect len (repeat c n).
  Proof. intros Hn Hc. split; [destruct n; [congruence|discriminate]|]. intros d Hd. apply repeat_spec in Hd. rewrite Hd. exact Hc. Qed.
  Lemma map_repeat {A B} (f : A -> B) a n : map f (repeat a n) = repeat (f a) n.
  Proof. induction n as [|n IH]; [reflexivity|]. cbn [repeat map]. rewrite IH. reflexivity. Qed.
  Theorem zero_polynomial_ok b r m n : n <> 0%nat -> (0 < m -> (r < 20)%nat) ->
    exists z, zero_polynomial (F := F) b r m n = Ok z /\ valid z /\ p_basis z = b /\ p_m z = m /\ p_r z = r /\ length (p_cols z) = n /\ forall x, length x = m -> pv z x = repeat 0 n.
  Proof.
    intros Hn Hr. unfold zero_polynomial. destruct (new_poly_ok b (repeat (repeat (0 : F) (get_dimension r m)) n) r m) as (z & Ez & Hv & R1 & R2 & R3 & R4); [apply rect_repeat; [exact Hn|apply repeat_length]|exact Hr|].
    exists z. split; [exact Ez|]. split; [exact Hv|]. split; [exact R1|]. split; [exact R4|]. split; [exact R3|]. split; [rewrite R2; apply repeat_length|]. intros x _. unfold pv. rewrite R1, R2, R3, R4, map_repeat, val_zero. reflexivity.
  Qed.
  Lemma cf_ones m r nu : length nu = m -> nsum nu <= r -> cf m r (repeat (1 : F) (get_dimension r m)) nu = 1.
  Proof.
    intros H1 H2. assert (Hin : In nu (all_mi m r)) by (apply in_all_mi; split; assumption). destruct (pos_in _ _ Hin) as [i Hi]. unfold cf, cfl. rewrite Hi.
    pose proof (pos_bound _ _ _ Hi) as Hb. rewrite <- dim_all_mi in Hb. apply nth_error_nth. rewrite (nth_error_nth' _ (1 : F)) by (rewrite repeat_length; exact Hb). f_equal. apply nth_repeat.
  Qed.
  Lemma pos_zero m r : pos (all_mi m r) (repeat 0%nat m) = Some 0%nat.
  Proof. destruct (all_mi_nonempty m r) as [l ->]. cbn [pos]. rewrite leqb_refl. reflexivity. Qed.
  Definition one_column (b : basis) (r m : nat) : list F := match b with Monomial => upd (repeat 0 (get_dimension r m)) 0 1 | _ => repeat 1 (get_dimension r m) end.
  Lemma one_column_length b r m : length (one_column b r m) = get_dimension r m.
  Proof. destruct b; cbn [one_column]; rewrite ?upd_length; apply repeat_length. Qed.
  Lemma one_column_val b r m x : length x = m -> val b m r (one_column b r m) x = 1.
  Proof.
    intros Hx. destruct b; cbn [val one_column].
    - unfold mval. rewrite (ksum_ext _ (fun nu => if mi_dec nu (repeat 0%nat m) then 1 else 0)).
      + rewrite (ksum_delta mi_dec (fun _ => 1)); [reflexivity|apply NoDup_all_mi|]. apply in_all_mi. rewrite repeat_length, nsum_repeat0. split; [reflexivity|lia].
      + intros nu _. rewrite (cf_upd m r (repeat 0%nat m)) by (apply pos_zero || apply repeat_length). destruct (mi_dec nu (repeat 0%nat m)) as [->|]; [rewrite mpow_zero; ring|]. rewrite cf_repeat. ring.
    - unfold bval. rewrite (ksum_ext _ (fun nu => bern r nu x)); [apply bern_partition; exact Hx|]. intros nu Hn. apply in_all_mi in Hn as [N1 N2]. rewrite cf_ones by assumption. ring.
    - replace (repeat 1 (get_dimension r m)) with (map (fun mu => (fun _ : list F => 1 : F) (generate_lagrange_point m r mu)) (all_mi m r)).
      + apply (lval_interp m r (fun _ => 1)); [|exact Hx]. apply (polydeg_elevate m 0 r); [lia|apply polydeg_const].
      + rewrite dim_all_mi. generalize (all_mi m r). intros l. induction l as [|a l IH]; [reflexivity|]. cbn [map length repeat]. rewrite IH. reflexivity.
  Qed.
  Theorem unit_polynomial_ok b r m n : n <> 0%nat -> (0 < m -> (r < 20)%nat) ->
    exists z, unit_polynomial (F := F) b r m n = Ok z /\ valid z /\ p_basis z = b /\ p_m z = m /\ p_r z = r /\ length (p_cols z) = n /\ forall x, length x = m -> pv z x = repeat 1 n.
  Proof.
    intros Hn Hr. unfold unit_polynomial. fold (one_column b r m). destruct (new_poly_ok b (repeat (one_column b r m) n) r m) as (z & Ez & Hv & R1 & R2 & R3 & R4); [apply rect_repeat; [exact Hn|apply one_column_length]|exact Hr|].
    exists z. split; [exact Ez|]. split; [exact Hv|]. split; [exact R1|]. split; [exact R4|]. split; [exact R3|]. split; [rewrite R2; apply repeat_length|]. intros x Hx. unfold pv. rewrite R1, R2, R3, R4, map_repeat, one_column_val by exact Hx. reflexivity.
  Qed.
  (** The column with a single one. *)
  Definition unit_column (m r : nat) (nu : list nat) : list F := map (fun mu => if mi_dec mu nu then 1 else 0) (all_mi m r).
  Lemma unit_column_set m r nu : length nu = m -> nsum nu <= r -> exists i, get_index nu r = Ok i /\ set (repeat 0 (get_dimension r m)) i 1 = Ok (unit_column m r nu).
  Proof.
    intros H1 H2. destruct (index_cf (F := F) m r nu (repeat 0 (get_dimension r m)) H1 H2 (repeat_length _ _)) as (i & Hi & Ei & Hb & _). exists i. split; [exact Ei|].
    unfold set. apply Nat.ltb_lt in Hb. rewrite Hb. f_equal. apply (cf_ext_eq m r); [rewrite upd_length; apply repeat_length|apply map_all_mi_length|]. intros mu M1 M2.
    unfold unit_column. rewrite cf_map by assumption. rewrite (cf_upd m r nu) by (assumption || apply repeat_length). rewrite cf_repeat. reflexivity.
  Qed.
  Theorem basis_fn_ok b nu r : nsum nu <= r -> (0 < length nu -> (r < 20)%nat) ->
    exists p, basis_fn (F := F) b nu r = Ok p /\ pbuilt b [unit_column (length nu) r nu] r (length nu) p.
  Proof.
    intros H Hr. unfold basis_fn. destruct (unit_column_set (length nu) r nu eq_refl H) as (i & Ei & Es). rewrite Ei. cbn [bind]. rewrite Es. cbn [bind]. apply new_poly_ok; [apply rect1, map_all_mi_length|exact Hr].
  Qed.
  (** The value of a polynomial is the combination of the basis functions with
      the coefficients. *)
  Theorem val_combination b m r (c x : list F) : length c = get_dimension r m -> val b m r c x = ksum (all_mi m r) (fun nu => cf m r c nu * val b m r (unit_column m r nu) x).
  Proof.
    intros Hc. destruct (val_basis b m r) as [B HB]. rewrite HB by exact Hc. apply ksum_ext. intros nu Hn. f_equal. rewrite HB by apply map_all_mi_length.
    rewrite <- (ksum_delta mi_dec (fun mu => B mu x) (all_mi m r) nu (NoDup_all_mi m r) Hn) at 1. apply ksum_ext. intros mu Hmu. apply in_all_mi in Hmu as [M1 M2]. unfold unit_column. rewrite cf_map by assumption. destruct (mi_dec mu nu); ring.
  Qed.

  (** *** Conversion to the monomial basis *)
  Definition mono_of (b : basis) (m r : nat) (nu : list nat) : list F :=
    match b with
    | Lagrange => match get_lagrange_basis_fn_coefficients nu r with Ok c => c | Err _ => [] end
    | _ => bern_c m r nu
    end.
  Lemma mono_of_ok b m r nu : b <> Monomial -> length nu = m -> nsum nu <= r -> (0 < m -> (r < 20)%nat) ->
    length (mono_of b m r nu) = get_dimension r m /\ (forall x, length x = m -> mval m r (mono_of b m r nu) x = val b m r (unit_column m r nu) x) /\
    exists p, match b with Lagrange => lagrange_basis_fn_monomial nu r | _ => bernstein_basis_fn_monomial nu r end = Ok p /\ pbuilt Monomial [mono_of b m r nu] r m p.
  Proof.
    intros Hb H1 H2 Hr. destruct b; [congruence| |]; cbn [mono_of val].
    - split; [apply map_all_mi_length|]. split.
      + intros x Hx. unfold bern_c. rewrite (mval_ext _ _ _ _ _ eq_refl), <- (bern_monomial m) by assumption. unfold bval, unit_column.
        rewrite <- (ksum_delta mi_dec (fun mu => bern r mu x) (all_mi m r) nu (NoDup_all_mi m r)) by (apply in_all_mi; split; assumption). apply ksum_ext. intros mu Hmu. apply in_all_mi in Hmu as [M1 M2]. rewrite cf_map by assumption. destruct (mi_dec mu nu); ring.
      + unfold bernstein_basis_fn_monomial. replace (norm nu <=? r)%nat with true by (symmetry; apply Nat.leb_le; exact H2). cbn [assert_ bind]. rewrite generate_all_eq. cbn [bind]. rewrite bern_c_fill by exact H2. cbn [bind]. rewrite H1.
        apply new_poly_ok; [apply rect1, map_all_mi_length|exact Hr].
    - destruct (lagrange_basis_fn_coefficients_ok (F := F) nu r H2) as (c & Ec & Lc & HV). rewrite Ec. rewrite H1 in *. split; [exact Lc|]. split.
      + intros x Hx. unfold lval. rewrite (lval_unique m r _ c); [reflexivity|apply map_all_mi_length|exact Lc|]. intros mu M1 M2. unfold unit_column. rewrite cf_map by assumption. apply HV; assumption.
      + unfold lagrange_basis_fn_monomial. rewrite Ec. cbn [bind]. rewrite H1. apply new_poly_ok; [apply rect1; exact Lc|exact Hr].
  Qed.

  Lemma basis_monomial_ok b m r : b <> Monomial -> (0 < m -> (r < 20)%nat) ->
    exists bs, basis_monomial b r m = Ok bs /\ Forall2 (fun nu p => pbuilt Monomial [mono_of b m r nu] r m p) (all_mi m r) bs.
  Proof.
    intros Hb Hr. unfold basis_monomial. rewrite generate_all_eq. cbn [bind].
    assert (G : forall l, (forall nu, In nu l -> length nu = m /\ nsum nu <= r) -> exists bs, mapM (fun mi => match b with Lagrange => lagrange_basis_fn_monomial mi r | _ => bernstein_basis_fn_monomial mi r end) l = Ok bs /\
        Forall2 (fun nu p => pbuilt Monomial [mono_of b m r nu] r m p) l bs).
    { induction l as [|nu l IH]; intros H; [exists []; split; [reflexivity|constructor]|]. destruct (H nu (or_introl eq_refl)) as [N1 N2]. destruct (mono_of_ok b m r nu Hb N1 N2 Hr) as (_ & _ & p & Ep & Hp).
      destruct IH as (bs & Ebs & Hbs); [intros mu Hmu; apply H; right; exact Hmu|]. exists (p :: bs). cbn [mapM]. rewrite Ep. cbn [bind]. rewrite Ebs. split; [reflexivity|]. constructor; assumption. }
    apply G. intros nu Hn. apply in_all_mi in Hn. exact Hn.
  Qed.
  Lemma mul_entry_ok p (k : list F) : valid p -> length (p_cols p) = 1%nat -> k <> [] ->
    exists s, mul_entry p k = Ok s /\ valid s /\ p_basis s = p_basis p /\ p_m s = p_m p /\ p_r s = p_r p /\ length (p_cols s) = length k /\
      forall x (v : F), length x = p_m p -> pv p x = [v] -> pv s x = map (fun ki => v * ki) k.
  Proof.
    intros Hp H1 Hk. destruct k as [|k0 [|k1 k]]; [congruence| |].
    - cbn [mul_entry]. destruct (scale_ok p k0 Hp) as (s & Es & V & [S1 S2 S3] & S4 & S5). exists s. repeat (split; [assumption|]). split; [rewrite S3; exact H1|]. intros x v Hx Ev. rewrite (S5 x Hx), Ev. reflexivity.
    - cbn [mul_entry]. apply outer_ok; [exact Hp|exact H1|discriminate].
  Qed.
  Lemma fold_add_ok m n r : forall (terms : list (poly F)) (acc : poly F), valid acc -> p_basis acc = Monomial -> p_m acc = m -> length (p_cols acc) = n -> (p_r acc <= r)%nat ->
    (forall t, In t terms -> valid t /\ p_basis t = Monomial /\ p_m t = m /\ length (p_cols t) = n /\ p_r t = r) ->
    exists s, foldM add acc terms = Ok s /\ valid s /\ p_basis s = Monomial /\ p_m s = m /\ length (p_cols s) = n /\ p_r s = (match terms with [] => p_r acc | _ => r end) /\
      forall x, length x = m -> pv s x = fold_left (fun v t => vadd v (pv t x)) terms (pv acc x).
  Proof.
    induction terms as [|t terms IH]; intros acc V B E N D H; cbn [foldM fold_left].
    - exists acc. repeat (split; [assumption || reflexivity|]). reflexivity.
    - destruct (H t (or_introl eq_refl)) as (T1 & T2 & T3 & T4 & T5). destruct (add_ok acc t V T1) as (s & Es & S1 & [S2 S3 S4] & S5 & S6); [constructor; congruence|]. rewrite Es. cbn [bind].
      destruct (IH s) as (s' & Es' & S1' & S2' & S3' & S4' & S5' & S6'); try congruence; [rewrite S5, T5; lia|intros u Hu; apply H; right; exact Hu|].
      exists s'. repeat (split; [assumption|]). split; [rewrite S5'; destruct terms; [rewrite S5, T5; lia|reflexivity]|]. intros x Hx. rewrite (S6' x Hx), (S6 x) by congruence. reflexivity.
  Qed.
  Lemma Forall2_mapM {A B C} (R : A -> B -> Prop) (f : B -> result C) (Q : A -> C -> Prop) l l' : Forall2 R l l' -> (forall a b, In a l -> R a b -> exists c, f b = Ok c /\ Q a c) -> exists cs, mapM f l' = Ok cs /\ Forall2 Q l cs.
  Proof.
    induction 1 as [|a b l l' Hab H IH]; intros HQ; [exists []; split; [reflexivity|constructor]|]. destruct (HQ a b (or_introl eq_refl) Hab) as (c & Ec & Hc). destruct IH as (cs & Ecs & Hcs); [intros a' b' Ha'; apply HQ; right; exact Ha'|].
    exists (c :: cs). cbn [mapM]. rewrite Ec. cbn [bind]. rewrite Ecs. split; [reflexivity|]. constructor; assumption.
  Qed.
  Lemma Forall2_combine_seq {A B} (R : A -> B -> Prop) l l' : Forall2 R l l' -> Forall2 (fun a ib => R a (snd ib) /\ nth_error l (fst ib) = Some a) l (combine (seq 0 (length l)) l').
  Proof.
    intros H. assert (G : forall pre, Forall2 (fun a ib => R a (snd ib) /\ nth_error (pre ++ l) (fst ib) = Some a) l (combine (seq (length pre) (length l)) l')).
    { induction H as [|a b l l' Hab H IH]; intros pre; cbn [length seq combine]; constructor.
      - cbn [fst snd]. split; [exact Hab|]. rewrite nth_error_app2 by lia. rewrite Nat.sub_diag. reflexivity.
      - specialize (IH (pre ++ [a])). rewrite app_length in IH. cbn [length] in IH. rewrite Nat.add_1_r in IH. rewrite <- app_assoc in IH. exact IH. }
    apply (G []).
  Qed.
  Lemma vadd_repeat0 (v : list F) : vadd (repeat 0 (length v)) v = v.
  Proof. induction v as [|a v IH]; [reflexivity|]. cbn [length repeat]. unfold vadd in *. cbn [combine map fst snd]. rewrite IH. f_equal. ring. Qed.
  Lemma fold_vadd_nth {A} (l : list A) (g : A -> list F) n : (forall a, In a l -> length (g a) = n) -> forall acc, length acc = n -> length (fold_left (fun v t => vadd v (g t)) l acc) = n /\
    forall k, nth k (fold_left (fun v t => vadd v (g t)) l acc) 0 = nth k acc 0 + ksum l (fun a => nth k (g a) 0).
  Proof.
    induction l as [|a l IH]; intros H acc Ha; cbn [fold_left]; [split; [exact Ha|]; intros k; rewrite ksum_nil; ring|].
    assert (Hg : length (g a) = n) by (apply H; left; reflexivity). destruct (IH (fun b Hb => H b (or_intror Hb)) (vadd acc (g a))) as [I1 I2]; [rewrite vadd_length; congruence|]. split; [exact I1|]. intros k. rewrite I2, ksum_cons, nth_vadd by congruence. ring.
  Qed.
  Lemma ksum_Forall2 {A B} (R : A -> B -> Prop) (f : A -> F) (g : B -> F) l l' : Forall2 R l l' -> (forall a b, In a l -> R a b -> f a = g b) -> ksum l f = ksum l' g.
  Proof.
    induction 1 as [|a b l l' Hab H IH]; intros E; [reflexivity|]. rewrite !ksum_cons, (E a b) by (auto using in_eq). rewrite IH by (intros a' b' Ha'; apply E; right; exact Ha'). reflexivity.
  Qed.

  Theorem to_monomial_ok (p : poly F) : valid p -> exists q, to_monomial_basis p = Ok q /\ valid q /\ p_basis q = Monomial /\ p_m q = p_m p /\ length (p_cols q) = length (p_cols p) /\ p_r q = p_r p /\
    forall x, length x = p_m p -> pv q x = pv p x.
  Proof.
    intros Hp. pose proof Hp as ((HP1 & HP2) & HP3 & _). unfold to_monomial_basis.
    assert (GO : p_basis p <> Monomial -> exists q, (let* bs := basis_monomial (p_basis p) (p_r p) (p_m p) in
      let* terms := mapM (fun ib => mul_entry (snd ib) (row (p_cols p) (fst ib))) (combine (seq 0 (length (hd [] (p_cols p)))) bs) in
      let* z := zero_polynomial Monomial 0 (p_m p) (target_dimension p) in foldM add z terms) = Ok q /\ valid q /\ p_basis q = Monomial /\ p_m q = p_m p /\ length (p_cols q) = length (p_cols p) /\ p_r q = p_r p /\
      forall x, length x = p_m p -> pv q x = pv p x).
    { intros Hb. set (m := p_m p) in *. set (r := p_r p) in *. destruct (basis_monomial_ok (p_basis p) m r Hb HP3) as (bs & Ebs & Hbs). rewrite Ebs. cbn [bind].
      rewrite (hd_rect _ _ (conj HP1 HP2)), dim_all_mi.
      destruct (Forall2_mapM _ (fun ib => mul_entry (snd ib) (row (p_cols p) (fst ib))) (fun nu t => valid t /\ p_basis t = Monomial /\ p_m t = m /\ length (p_cols t) = length (p_cols p) /\ p_r t = r /\
          forall x, length x = m -> pv t x = map (fun c => val (p_basis p) m r (unit_column m r nu) x * cf m r c nu) (p_cols p)) _ _ (Forall2_combine_seq _ _ _ Hbs)) as (terms & Et & Hterms).
      { intros nu [i q] Hn [Hq Hi]. cbn [fst snd] in *. destruct Hq as (Q0 & Q1 & Q2 & Q3 & Q4). apply in_all_mi in Hn as [N1 N2]. destruct (mono_of_ok (p_basis p) m r nu Hb N1 N2 HP3) as (L1 & L2 & _).
        destruct (mul_entry_ok q (row (p_cols p) i)) as (t & Et & T1 & T2 & T3 & T4 & T5 & T6); [exact Q0|rewrite Q2; reflexivity|unfold row; destruct (p_cols p); [congruence|discriminate]|].
        exists t. split; [exact Et|]. split; [exact T1|]. split; [congruence|]. split; [congruence|]. split; [rewrite T5; apply map_length|]. split; [congruence|]. intros x Hx.
        rewrite (T6 x (val (p_basis p) m r (unit_column m r nu) x)); [|congruence|].
        - unfold row. rewrite map_map. apply map_ext. intros c. f_equal. unfold cf, cfl. rewrite (pos_nth_error _ _ i (NoDup_all_mi m r) Hi). reflexivity.
        - unfold pv. rewrite Q1, Q2, Q3, Q4. cbn [map val]. rewrite <- L2 by exact Hx. reflexivity. }
      rewrite Et. cbn [bind]. unfold target_dimension. destruct (zero_polynomial_ok Monomial 0 m (length (p_cols p))) as (z & Ez & Z1 & Z2 & Z3 & Z4 & Z5 & Z6); [destruct (p_cols p); [congruence|discriminate]|lia|].
      rewrite Ez. cbn [bind]. destruct (fold_add_ok m (length (p_cols p)) r terms z) as (q & Eq & Q1 & Q2 & Q3 & Q4 & Q5 & Q6); try assumption; [lia| |].
      - intros t Ht. clear -Ht Hterms. induction Hterms as [|a b l l' Hab _ IH]; [destruct Ht|]. destruct Ht as [<-|Ht]; [|apply IH; exact Ht]. destruct Hab as (A1 & A2 & A3 & A4 & A5 & _). auto.
      - exists q. split; [exact Eq|]. split; [exact Q1|]. split; [exact Q2|]. split; [exact Q3|]. split; [exact Q4|]. split.
        + rewrite Q5. destruct terms; [|reflexivity]. exfalso. destruct (all_mi_nonempty m r) as [l El]. rewrite El in Hterms. inversion Hterms.
        + intros x Hx. rewrite (Q6 x Hx), (Z6 x Hx).
          assert (HLt : forall t, In t terms -> length (pv t x) = length (p_cols p)).
          { intros t Ht. unfold pv. rewrite map_length. clear -Ht Hterms. induction Hterms as [|a b l l' Hab _ IH]; [destruct Ht|]. destruct Ht as [<-|Ht]; [|apply IH; exact Ht]. apply Hab. }
          destruct (fold_vadd_nth terms (fun t => pv t x) (length (p_cols p)) HLt (repeat 0 (length (p_cols p))) (repeat_length _ _)) as [G1 G2].
          apply (nth_ext _ _ 0 0); [rewrite G1; unfold pv; rewrite map_length; reflexivity|]. rewrite G1. intros k Hk. rewrite G2, nth_repeat. unfold pv at 2. rewrite (map_nth_map _ _ [] k 0 Hk). fold m r.
          rewrite val_combination by (apply HP2, nth_In, Hk). rewrite ksum_comm0. symmetry.
          apply (ksum_Forall2 _ _ _ _ _ Hterms). intros nu t _ (_ & _ & _ & _ & _ & HV). rewrite (HV x Hx), (map_nth_map _ _ [] k 0 Hk). ring. }
    destruct (p_basis p) eqn:Eb; [|apply GO; discriminate|apply GO; discriminate]. exists p. repeat (split; [assumption || reflexivity|]). reflexivity.
  Qed.

  (** *** Partial derivatives *)
  Definition pderivs (p q : poly F) (i : nat) : Prop :=
    Forall2 (fun c d => forall x, length x = p_m p -> is_pderiv (val (p_basis p) (p_m p) (p_r p) c) i x (val (p_basis q) (p_m q) (p_r q) d x)) (p_cols p) (p_cols q).
  Lemma Forall2_map_r {A B} (R : A -> B -> Prop) (f : A -> B) l : (forall a, In a l -> R a (f a)) -> Forall2 R l (map f l).
  Proof. induction l as [|a l IH]; intros H; cbn [map]; constructor; [apply H; left; reflexivity|]. apply IH. intros b Hb. apply H. right. exact Hb. Qed.
  Lemma Forall2_repeat_r {A B} (R : A -> B -> Prop) b l : (forall a, In a l -> R a b) -> Forall2 R l (repeat b (length l)).
  Proof. induction l as [|a l IH]; intros H; cbn [length repeat]; constructor; [apply H; left; reflexivity|]. apply IH. intros c Hc. apply H. right. exact Hc. Qed.
  Lemma val_deriv_0 b m i (c x : list F) : length c = get_dimension 0 m -> length x = m -> i < m -> is_pderiv (val b m 0 c) i x 0.
  Proof.
    intros Hc Hx Hi. destruct (polydeg_val b m 0 c Hc) as (d & Hd & E). apply (pderiv_ext (mval m 0 d) _ i x 0 0 m Hx); [intros y Hy; symmetry; apply E; exact Hy|reflexivity|]. apply pderiv_const_0; assumption.
  Qed.
  Lemma zero_deriv_ok (p : poly F) b i : valid p -> i < p_m p -> p_r p = 0%nat -> exists q, zero_polynomial b 0 (p_m p) (length (p_cols p)) = Ok q /\ valid q /\ p_basis q = b /\ p_m q = p_m p /\ length (p_cols q) = length (p_cols p) /\
    p_r q = 0%nat /\ pderivs p q i.
  Proof.
    intros Hp Hi Hr. pose proof Hp as ((HP1 & HP2) & _ & _).
    destruct (new_poly_ok b (repeat (repeat (0 : F) (get_dimension 0 (p_m p))) (length (p_cols p))) 0 (p_m p)) as (z & Ez & Hv & R1 & R2 & R3 & R4); [apply rect_repeat; [destruct (p_cols p); [congruence|discriminate]|apply repeat_length]|lia|].
    exists z. split; [exact Ez|]. split; [exact Hv|]. split; [exact R1|]. split; [exact R4|]. split; [rewrite R2; apply repeat_length|]. split; [exact R3|].
    unfold pderivs. rewrite R1, R2, R3, R4. apply Forall2_repeat_r. intros c Hc x Hx. rewrite val_zero, Hr. apply val_deriv_0; [|exact Hx|exact Hi]. rewrite <- Hr. apply HP2, Hc.
  Qed.
  Lemma derive_poly_monomial_ok p i : valid p -> p_basis p = Monomial -> i < p_m p ->
    exists q, derive_poly_monomial p i = Ok q /\ valid q /\ p_basis q = Monomial /\ p_m q = p_m p /\ length (p_cols q) = length (p_cols p) /\ p_r q = (p_r p - 1)%nat /\ pderivs p q i.
  Proof.
    intros Hp Hb Hi. pose proof Hp as (HR & HP3 & _). unfold derive_poly_monomial. replace (i <? p_m p)%nat with true by (symmetry; apply Nat.ltb_lt; exact Hi). cbn [assert_ bind].
    destruct (Nat.eqb_spec (p_r p) 0) as [E|E].
    - destruct (zero_deriv_ok p Monomial i Hp Hi E) as (q & H1 & H2 & H3 & H4 & H5 & H6 & H7). exists q. unfold target_dimension. repeat (split; [assumption|]). split; [lia|exact H7].
    - rewrite (mapM_ok _ (fun c => map (fun tau => kofnat (S (nth i tau 0%nat)) * cf (p_m p) (p_r p) c (up tau i)) (all_mi (p_m p) (p_r p - 1)))) by (intros c Hc; apply derive_monomial_eq; [exact Hi|lia|apply HR, Hc]). cbn [bind].
      match goal with |- context [map ?f (p_cols p)] => destruct (new_poly_ok Monomial (map f (p_cols p)) (p_r p - 1) (p_m p)) as (q & Eq & Hv & R1 & R2 & R3 & R4) end.
      + apply (rect_map _ _ _ _ HR). intros c _. apply map_all_mi_length.
      + intros Hm. specialize (HP3 Hm). lia.
      + exists q. split; [exact Eq|]. split; [exact Hv|]. split; [exact R1|]. split; [exact R4|]. split; [rewrite R2; apply map_length|]. split; [exact R3|].
        unfold pderivs. rewrite R1, R2, R3, R4, Hb. apply Forall2_map_r. intros c Hc x Hx. cbn [val]. apply mval_deriv; [exact Hi|lia|exact Hx].
  Qed.
  Lemma pv_cols_eq (p q : poly F) : p_m q = p_m p -> length (p_cols q) = length (p_cols p) -> (forall x, length x = p_m p -> pv q x = pv p x) ->
    Forall2 (fun c d => forall x, length x = p_m p -> val (p_basis q) (p_m q) (p_r q) d x = val (p_basis p) (p_m p) (p_r p) c x) (p_cols p) (p_cols q).
  Proof.
    intros Em. unfold pv. generalize (p_cols p) (p_cols q). induction l as [|c cs IH]; intros [|d ds] E H; cbn [length] in E; try discriminate; constructor.
    - intros x Hx. specialize (H x Hx). cbn [map] in H. injection H as H _. exact H.
    - apply IH; [lia|]. intros x Hx. specialize (H x Hx). cbn [map] in H. injection H as _ H. exact H.
  Qed.
  Theorem partial_derivative_ok p i : valid p -> i < p_m p ->
    exists q, partial_derivative p i = Ok q /\ valid q /\ same_shape p q /\ p_r q = (p_r p - 1)%nat /\ pderivs p q i.
  Proof.
    intros Hp Hi. pose proof Hp as (HR & HP3 & _). unfold partial_derivative. assert (Hlt : (i <? p_m p)%nat = true) by (apply Nat.ltb_lt; exact Hi). destruct (p_basis p) eqn:Eb.
    - destruct (derive_poly_monomial_ok p i Hp Eb Hi) as (q & H1 & H2 & H3 & H4 & H5 & H6 & H7). exists q. split; [exact H1|]. split; [exact H2|]. split; [constructor; congruence|]. split; assumption.
    - rewrite Hlt. cbn [assert_ bind]. destruct (Nat.eqb_spec (p_r p) 0) as [E|E].
      + destruct (zero_deriv_ok p Bernstein i Hp Hi E) as (q & H1 & H2 & H3 & H4 & H5 & H6 & H7). exists q. split; [exact H1|]. split; [exact H2|]. split; [constructor; congruence|]. split; [lia|exact H7].
      + rewrite (mapM_ok _ (fun c => map (fun mu => (cf (p_m p) (p_r p) c (up mu i) - cf (p_m p) (p_r p) c mu) * kofnat (p_r p)) (all_mi (p_m p) (p_r p - 1)))) by (intros c Hc; apply derive_bernstein_eq; [exact Hi|lia|apply HR, Hc]). cbn [bind].
        match goal with |- context [map ?f (p_cols p)] => destruct (new_poly_ok Bernstein (map f (p_cols p)) (p_r p - 1) (p_m p)) as (q & Eq & Hv & R1 & R2 & R3 & R4) end.
        * apply (rect_map _ _ _ _ HR). intros c _. apply map_all_mi_length.
        * intros Hm. specialize (HP3 Hm). lia.
        * exists q. split; [exact Eq|]. split; [exact Hv|]. split; [constructor; [congruence|congruence|rewrite R2; apply map_length]|]. split; [exact R3|].
          unfold pderivs. rewrite R1, R2, R3, R4, Eb. apply Forall2_map_r. intros c Hc x Hx. cbn [val]. apply bval_deriv; [exact Hi|lia|exact Hx].
    - rewrite Hlt. cbn [assert_ bind]. destruct (Nat.eqb_spec (p_r p) 0) as [E|E].
      + destruct (zero_deriv_ok p Lagrange i Hp Hi E) as (q & H1 & H2 & H3 & H4 & H5 & H6 & H7). exists q. split; [exact H1|]. split; [exact H2|]. split; [constructor; congruence|]. split; [lia|exact H7].
      + destruct (to_monomial_ok p Hp) as (q & E1 & Q1 & Q2 & Q3 & Q4 & Q5 & Q6). rewrite E1. cbn [bind].
        destruct (derive_poly_monomial_ok q i Q1 Q2 ltac:(congruence)) as (dq & E2 & D1 & D2 & D3 & D4 & D5 & D6). rewrite E2. cbn [bind]. rewrite lagrange_points_eq. cbn [bind].
        rewrite (mapM_ok _ (pv dq)); [|intros x Hx; apply in_map_iff in Hx as (mu & <- & Hmu); apply in_all_mi in Hmu as [M1 _]; apply call_ok; [exact D1|rewrite lagrange_point_length by exact M1; congruence]]. cbn [bind].
        replace (target_dimension p) with (target_dimension dq) by (unfold target_dimension; congruence). rewrite cols_of_rows_pv.
        match goal with |- context [map ?f (p_cols dq)] => destruct (new_poly_ok Lagrange (map f (p_cols dq)) (p_r p - 1) (p_m p)) as (s & Es & Hv & R1 & R2 & R3 & R4) end.
        * pose proof D1 as (DR & _ & _). apply (rect_map _ _ _ _ DR). intros c _. rewrite !map_length, dim_all_mi. reflexivity.
        * intros Hm. specialize (HP3 Hm). lia.
        * exists s. split; [exact Es|]. split; [exact Hv|]. split; [constructor; [congruence|congruence|rewrite R2, map_length; congruence]|]. split; [exact R3|].
          unfold pderivs. rewrite R1, R2, R3, R4, Eb. pose proof (pv_cols_eq p q Q3 Q4 Q6) as HC. unfold pderivs in D6. rewrite Eb in HC.
          pose proof D1 as ((_ & DL) & _ & _). rewrite D5, D3, Q3, Q5 in DL. rewrite D2, D3, D5, Q2, Q3, Q5 in *. clear - HC D6 DL Hi HP3.
          revert D6 DL. generalize (p_cols dq). revert HC. generalize (p_cols q) (p_cols p). intros qs ps HC. induction HC as [|c d ps qs Hcd _ IH]; intros ds D6 DL; inversion D6; subst; constructor.
          -- intros x Hx. rewrite map_map. cbn [val]. change (fun x0 : list nat => mval (p_m p) (p_r p - 1) y (generate_lagrange_point (p_m p) (p_r p - 1) x0)) with (fun mu : list nat => val Monomial (p_m p) (p_r p - 1) y (generate_lagrange_point (p_m p) (p_r p - 1) mu)). rewrite (lval_interp (p_m p) (p_r p - 1) (val Monomial (p_m p) (p_r p - 1) y)); [|apply polydeg_val, DL; left; reflexivity|exact Hx].
             apply (pderiv_ext (val Monomial (p_m p) (p_r p) d) _ i x (val Monomial (p_m p) (p_r p - 1) y x) _ (p_m p) Hx); [exact Hcd|reflexivity|apply H1; exact Hx].
          -- apply IH; [assumption|]. intros c' Hc'. apply DL. right. exact Hc'.
  Qed.
End Obj.
