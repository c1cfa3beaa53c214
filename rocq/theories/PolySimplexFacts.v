(** Polynomials on a simplex as pullbacks of polynomials on the unit simplex. *)
From Verif Require PermFacts.
From Verif Require Import Base MultiIndex MultiIndexFacts MultiCapFacts MultiIndexCache Fld FldInst CodeGen CodeGenFacts LinSolve Det Linalg VecFacts Simplicial SimplexGeo SimplexFacts SimplexMetric AffineFacts MultiCoef MultiCoefFacts LagrangeCache Unisolv Poly PolyFacts LagFacts PolyEval PolyOps PolyOpsB PolyDeriv PolyObj PolyPow PolyCalls IntegralCache Integrate IntFacts HasInt Bases BasesFacts DerivFacts BasesCalls SubstFacts PolySimplex.
From Coq Require Import Field_theory Field.

Section Lift.
  Context {Q : ofld} (ksqrt : Q -> Q) (tol : Q) (veq : list (list Q) -> list (list Q) -> bool).
  Add Field Kfield54 : (kth Q).
  Local Open Scope fld_scope.
  Notation pt := SimplexGeo.pt.

  (** A simplex with [n + 1] vertices in the space of dimension [n]. *)
  Definition simplex (n : nat) (vs : list (list Q)) : Prop := n <> 0%nat /\ rows_of (S n) n vs /\ affine_independent n vs.

  (** The affine map to the unit simplex, with linear part [B] *)
  Definition coords (n : nat) (vs : list (list Q)) (B : nat -> nat -> Q) (y : list Q) : list Q :=
    map (fun k => ksum (seq 0 n) (fun l => B k l * (nth l y 0 - ent vs 0 l))) (seq 0 n).
  Definition point (n : nat) (vs : list (list Q)) (x : list Q) : list Q :=
    map (fun j => ent vs 0 j + ksum (seq 0 n) (fun i => edge vs i j * nth i x 0)) (seq 0 n).
  Lemma coords_length n vs B y : length (coords n vs B y) = n. Proof. unfold coords. rewrite map_length, seq_length. reflexivity. Qed.
  Lemma point_length n vs x : length (point n vs x) = n. Proof. unfold point. rewrite map_length, seq_length. reflexivity. Qed.

  Record to_unit (n : nat) (vs : list (list Q)) (ab : arr Q * arr Q) (phi : arr Q -> result (arr Q)) (B : nat -> nat -> Q) : Prop := mkToUnit {
    tu_n : n <> 0%nat;
    tu_rows : rows_of (S n) n vs;
    tu_ab : affine_transformation_to_unit vs = Ok ab;
    tu_map : affine_map_to_unit ksqrt tol vs = Ok phi;
    tu_phi : forall y, length y = n -> phi (pt y) = Ok (pt (coords n vs B y));
    tu_sc : n = 1%nat -> fst ab = Sc (B 0%nat 0%nat);
    tu_mat : n <> 1%nat -> exists rows, fst ab = Mat rows /\ rows_of n n rows /\ forall k i, ent rows k i = B k i;
    tu_comb : forall x y, affine_comb n (bary_of x) vs y -> x = coords n vs B y;
    tu_coords : forall y, length y = n -> affine_comb n (bary_of (coords n vs B y)) vs y }.

  Lemma point_comb n vs x : rows_of (S n) n vs -> length x = n -> affine_comb n (bary_of x) vs (point n vs x).
  Proof.
    intros HV Lx. apply (edges_comb n n); [exact HV|exact Lx|apply point_length|]. intros j Hj. unfold point. rewrite nth_mapseq by exact Hj. f_equal. apply ksum_ext. intros; ring.
  Qed.
  Theorem to_unit_exists n vs : simplex n vs -> exists ab phi B, to_unit n vs ab phi B.
  Proof.
    intros (Hn & HV & HI). assert (L0 : length (nth 0 vs []) = n) by (apply (rows_len (S n) n); [exact HV|lia]). destruct (to_unit_full ksqrt tol n vs Hn HV HI) as (phi & Ephi & Hphi).
    assert (FIN : forall ab B, affine_transformation_to_unit vs = Ok ab -> (n = 1%nat -> fst ab = Sc (B 0%nat 0%nat)) -> (n <> 1%nat -> exists rows, fst ab = Mat rows /\ rows_of n n rows /\ forall k i, ent rows k i = B k i) ->
      (forall x y, affine_comb n (bary_of x) vs y -> x = coords n vs B y) -> to_unit n vs ab phi B).
    { intros ab B Eab H1 H2 H3.
      assert (HC : forall y, length y = n -> affine_comb n (bary_of (coords n vs B y)) vs y).
      { intros y Ly. destruct (coords_exist n vs y Hn HV (proj1 (affine_independent_det n vs Hn (proj1 HV)) HI) Ly) as (c & HC). pose proof HC as (Lc & _ & S1 & _). rewrite (proj1 HV) in Lc. assert (Ec : bary_of (tl c) = c) by (apply bary_of_tl; [lia|exact S1]). rewrite <- Ec in HC. rewrite <- (H3 _ _ HC). exact HC. }
      constructor; try assumption. intros y Ly. apply Hphi, HC, Ly. }
    destruct (Nat.eq_dec n 1) as [E1|N1].
    - assert (HV1 : rows_of 2 1 vs) by (rewrite E1 in HV; exact HV). assert (HI1 : affine_independent 1 vs) by (rewrite E1 in HI; exact HI). eexists _, phi, (fun _ _ => 1 / edge vs 0 0). apply FIN; [apply to_unit_1d; assumption|reflexivity|intros N; contradiction|].
      intros x y HC. rewrite E1 in HC. destruct (comb_1d vs x y HV1 HC) as (t & -> & ->). unfold coords. rewrite E1. cbn [seq map]. rewrite ksum_cons, ksum_nil. cbn [nth]. f_equal. field. exact (edge_1d vs HV1 HI1).
    - destruct (to_unit_pair n n vs Hn (le_n _) ltac:(lia) HV HI) as (B & EB & [RB HB] & _). eexists _, phi, (ent B). apply FIN; [exact EB|intros; contradiction|intros _; exists B; split; [reflexivity|]; split; [exact RB|reflexivity]|].
      intros x y HC. assert (Lx : length x = n) by (destruct HC as (Lc & _); rewrite (proj1 HV) in Lc; unfold bary_of in Lc; cbn [length] in Lc; lia). apply (vec_ext _ _ n); [exact Lx|apply coords_length|]. intros i Hi. unfold coords. rewrite nth_mapseq by exact Hi.
      pose proof (HB y _ HC i Hi) as H. unfold bary_of in H. cbn [nth] in H. rewrite <- H. rewrite !(mat_vec_sum n n) by (try assumption; apply HC). rewrite <- ksum_minus. apply ksum_ext. intros k _. unfold ent. ring.
  Qed.

  Section One.
    Context (n : nat) (vs : list (list Q)) (ab : arr Q * arr Q) (phi : arr Q -> result (arr Q)) (B : nat -> nat -> Q) (TU : to_unit n vs ab phi B).
    Notation X := (coords n vs B).
    Definition lift (u : poly Q) : spoly Q := mkSpoly vs u ab phi.
    Lemma hd_vs : exists v0 rest, vs = v0 :: rest /\ length v0 = n.
    Proof. destruct TU as [Hn [L R] _ _ _ _ _ _ _]. destruct vs as [|v0 rest]; [discriminate L|]. exists v0, rest. split; [reflexivity|]. apply R. left. reflexivity. Qed.
    Lemma coords_point x : length x = n -> X (point n vs x) = x.
    Proof. intros Lx. symmetry. apply (tu_comb _ _ _ _ _ TU). apply point_comb; [exact (tu_rows _ _ _ _ _ TU)|exact Lx]. Qed.
    Lemma new_spoly_eq b cols r : new_spoly ksqrt tol b cols vs r = let* u := new_poly b cols r n in Ok (lift u).
    Proof.
      destruct hd_vs as (v0 & rest & E & L0). unfold new_spoly. rewrite E at 1. rewrite L0. destruct (new_poly b cols r n) as [u|]; [|reflexivity]. cbn [bind]. rewrite (tu_ab _ _ _ _ _ TU). cbn [bind]. rewrite (tu_map _ _ _ _ _ TU). reflexivity.
    Qed.
    Lemma renew u b cols r : valid u -> p_m u = n -> p_basis u = b -> p_cols u = cols -> p_r u = r -> new_spoly ksqrt tol b cols vs (Some r) = Ok (lift u).
    Proof. intros Vu Hm <- <- <-. rewrite new_spoly_eq, <- Hm, valid_renew by exact Vu. reflexivity. Qed.
    (** ** Values *)
    Lemma lift_call u y : valid u -> p_m u = n -> length y = n -> sp_call (lift u) (pt y) = Ok (pv u (X y)).
    Proof.
      intros Vu Hm Ly. unfold sp_call, lift. cbn [sp_phi sp_u]. rewrite (tu_phi _ _ _ _ _ TU y Ly). cbn [bind]. rewrite <- (call_ok u (X y) Vu) by (rewrite coords_length; congruence). pose proof (coords_length n vs B y) as LX. pose proof (tu_n _ _ _ _ _ TU) as Hn.
      destruct (X y) as [|t [|t' x]]; cbn [length] in LX; [lia| |].
      - cbn [SimplexGeo.pt call_arr]. rewrite Hm, <- LX. reflexivity.
      - cbn [SimplexGeo.pt call_arr]. rewrite Hm, <- LX. reflexivity.
    Qed.
    (** ** Operations of the class *)
    Lemma lift_scale u c : p_m u = n -> sp_scale ksqrt tol (lift u) c = let* v := scale u c in Ok (lift v).
    Proof. intros Hm. unfold scale. rewrite Hm. apply new_spoly_eq. Qed.
    Lemma lift_truediv u c : p_m u = n -> sp_truediv ksqrt tol (lift u) c = let* v := truediv u c in Ok (lift v).
    Proof. intros Hm. unfold truediv. rewrite Hm. apply new_spoly_eq. Qed.
    Lemma lift_outer u c : p_m u = n -> sp_outer ksqrt tol (lift u) c = let* v := outer u c in Ok (lift v).
    Proof. intros Hm. unfold sp_outer, outer. rewrite Hm. change (sp_n (lift u)) with (target_dimension u). destruct (target_dimension u =? 1)%nat; [|reflexivity]. cbn [assert_ bind]. apply new_spoly_eq. Qed.
    Lemma lift_getitem u i : p_m u = n -> sp_getitem ksqrt tol (lift u) i = let* v := getitem u i in Ok (lift v).
    Proof.
      intros Hm. unfold sp_getitem, getitem. rewrite Hm. change (sp_n (lift u)) with (target_dimension u). destruct (i <? target_dimension u)%nat; [|reflexivity]. cbn [assert_ bind]. destruct (target_dimension u =? 1)%nat; [apply new_spoly_eq|]. change (sp_cols (lift u)) with (p_cols u). destruct (get (p_cols u) i); [|reflexivity]. cbn [bind]. apply new_spoly_eq.
    Qed.
    Lemma lift_elevate u s : valid u -> p_m u = n -> (p_r u <= s < 20)%nat -> sp_degree_elevate ksqrt tol (lift u) s = let* v := degree_elevate u s in Ok (lift v).
    Proof.
      intros Vu Hm [H1 H2]. destruct (degree_elevate_ok u s Vu H1 ltac:(lia)) as (q & Eq & Vq & [Q1 Q2 Q3] & Qr & _). unfold sp_degree_elevate. change (sp_r (lift u)) with (p_r u). destruct (Nat.leb_spec (p_r u) s); [|lia]. cbn [assert_ bind].
      destruct (Nat.eqb_spec s (p_r u)) as [Es|Es].
      - unfold degree_elevate. destruct (Nat.leb_spec (p_r u) s); [|lia]. cbn [assert_ bind]. rewrite (proj2 (Nat.eqb_eq _ _) Es), new_spoly_eq, Hm. reflexivity.
      - change (sp_u (lift u)) with u. rewrite Eq. cbn [bind]. apply renew; congruence || assumption.
    Qed.
    Lemma lift_check u v : (forall w, veq w w = true) -> p_m u = n -> p_m v = n -> sp_check veq (lift u) (lift v) = check_operands u v.
    Proof.
      intros Hv Hu Hw. unfold sp_check, check_operands, same_sbasis, lift, sp_m, sp_n, sp_basis, domain_dimension. cbn [sp_u sp_vs]. rewrite Hv, Bool.andb_true_r. reflexivity.
    Qed.
    Lemma lift_same_degree op u v : (forall w, veq w w = true) -> p_m u = n -> p_m v = n -> sp_same_degree ksqrt tol veq op (lift u) (lift v) = let* w := same_degree op u v in Ok (lift w).
    Proof. intros Hv Hu Hw. unfold sp_same_degree, same_degree. rewrite lift_check by assumption. destruct (check_operands u v); [|reflexivity]. cbn [bind]. rewrite Hu. apply new_spoly_eq. Qed.
    Lemma lift_linear_op op u v : (forall w, veq w w = true) -> valid u -> valid v -> p_m u = n -> p_m v = n -> sp_linear_op ksqrt tol veq op (lift u) (lift v) = let* w := linear_op op u v in Ok (lift w).
    Proof.
      intros Hv Vu Vv Hu Hw. pose proof (tu_n _ _ _ _ _ TU) as Hn. assert (Ru : (p_r u < 20)%nat) by (apply Vu; lia). assert (Rv : (p_r v < 20)%nat) by (apply Vv; lia).
      unfold sp_linear_op, linear_op, degree. rewrite lift_check by assumption. destruct (check_operands u v); [|reflexivity]. cbn [bind]. change (sp_r (lift u)) with (p_r u). change (sp_r (lift v)) with (p_r v).
      destruct (Nat.eqb_spec (p_r u) (p_r v)); [apply lift_same_degree; assumption|]. destruct (Nat.ltb_spec (p_r v) (p_r u)).
      - rewrite lift_elevate by (assumption || lia). destruct (degree_elevate_ok v (p_r u) Vv ltac:(lia) ltac:(lia)) as (q & Eq & Vq & [Q1 Q2 Q3] & Qr & _). rewrite Eq. cbn [bind]. apply lift_same_degree; congruence || assumption.
      - rewrite lift_elevate by (assumption || lia). destruct (degree_elevate_ok u (p_r v) Vu ltac:(lia) ltac:(lia)) as (q & Eq & Vq & [Q1 Q2 Q3] & Qr & _). rewrite Eq. cbn [bind]. apply lift_same_degree; congruence || assumption.
    Qed.
    Lemma lift_zero b r k : sp_zero ksqrt tol b vs r k = let* v := zero_polynomial b r n k in Ok (lift v).
    Proof. destruct hd_vs as (v0 & rest & E & L0). unfold sp_zero. rewrite E at 1. rewrite L0. apply new_spoly_eq. Qed.
    (** ** Derivatives *)
    Definition Dk (u : poly Q) (k : nat) : poly Q := match partial_derivative u k with Ok d => d | Err _ => u end.
    Lemma Dk_ok u k : valid u -> (k < p_m u)%nat -> partial_derivative u k = Ok (Dk u k) /\ valid (Dk u k) /\ same_shape u (Dk u k) /\ p_r (Dk u k) = (p_r u - 1)%nat /\ pderivs u (Dk u k) k.
    Proof. intros Vu Hk. destruct (partial_derivative_ok u k Vu Hk) as (q & E & H). unfold Dk. rewrite E. split; [reflexivity|exact H]. Qed.
    Lemma pderivs_nth (u q : poly Q) i j x : pderivs u q i -> (j < length (p_cols u))%nat -> length x = p_m u -> is_pderiv (fun x => nth j (pv u x) 0) i x (nth j (pv q x) 0).
    Proof.
      unfold pderivs, pv. generalize (p_cols u) (p_cols q). intros cs ds H. revert j. induction H as [|c d cs ds Hcd H IH]; intros j Hj Lx; cbn [length] in Hj; [lia|]. destruct j as [|j]; cbn [map nth]; [apply Hcd, Lx|]. apply IH; [lia|exact Lx].
    Qed.
    Lemma pv_polydeg (u : poly Q) j : valid u -> (j < length (p_cols u))%nat -> polydeg (p_m u) (p_r u) (fun x => nth j (pv u x) 0).
    Proof.
      intros ((_ & HR) & _) Hj. unfold pv. apply (polydeg_ext _ _ (val (p_basis u) (p_m u) (p_r u) (nth j (p_cols u) []))); [intros x _; symmetry; exact (map_nth_map (fun c => val (p_basis u) (p_m u) (p_r u) c x) (p_cols u) [] j 0 Hj)|]. apply polydeg_val. apply HR, nth_In, Hj.
    Qed.
    Lemma Dk_const u k j x : valid u -> p_r u = 0%nat -> (k < p_m u)%nat -> length x = p_m u -> nth j (pv (Dk u k) x) 0 = 0.
    Proof.
      intros Vu Hr Hk Lx. destruct (Dk_ok u k Vu Hk) as (_ & _ & [_ _ S3] & _ & HD). destruct (Nat.lt_ge_cases j (length (p_cols u))) as [Hj|Hj]; [|apply nth_overflow; rewrite pv_length, S3; exact Hj].
      apply (pderiv_unique (fun x => nth j (pv u x) 0) k x); [apply pderivs_nth; assumption|]. destruct (pv_polydeg u j Vu Hj) as (c & Lc & Hc). rewrite Hr in *. apply (pderiv_ext (mval (p_m u) 0 c) _ k x 0 0 (p_m u) Lx); [intros y Hy; symmetry; apply Hc, Hy|reflexivity|]. apply pderiv_const_0; assumption.
    Qed.
    Lemma map_const_seq {A} (a : A) k s : map (fun _ => a) (seq s k) = repeat a k.
    Proof. revert s. induction k as [|k IH]; intros s; [reflexivity|]. cbn [seq map repeat]. rewrite IH. reflexivity. Qed.
    Lemma Forall2_len {A C} (R : A -> C -> Prop) l k : Forall2 R l k -> length l = length k.
    Proof. induction 1; cbn [length]; congruence. Qed.
    Lemma foldM_range {S} (f : S -> nat -> result S) (P : nat -> S -> Prop) m s0 : (1 <= m)%nat -> P 1%nat s0 -> (forall k s, (1 <= k < m)%nat -> P k s -> exists s', f s k = Ok s' /\ P (Datatypes.S k) s') ->
      exists s, foldM f s0 (seq 1 (m - 1)) = Ok s /\ P m s.
    Proof.
      intros Hm H0 HS. assert (G : forall c a s, (1 <= a)%nat -> (a + c = m)%nat -> P a s -> exists s', foldM f s (seq a c) = Ok s' /\ P m s').
      { induction c as [|c IH]; intros a s Ha E HP; [exists s; split; [reflexivity|]; replace m with a by lia; exact HP|]. cbn [seq foldM]. destruct (HS a s ltac:(lia) HP) as (s' & E' & HP'). rewrite E'. cbn [bind]. apply IH; [lia|lia|exact HP']. }
      apply G; [lia|lia|exact H0].
    Qed.
    Lemma ksum_last (f : nat -> Q) k : ksum (seq 0 (S k)) f = ksum (seq 0 k) f + f k.
    Proof. rewrite seq_S, ksum_app, ksum_cons, ksum_nil. cbn [Nat.add]. ring. Qed.
    Lemma pv_one (u : poly Q) x : length (p_cols u) = 1%nat -> pv u x = [nth 0 (pv u x) 0].
    Proof. intros H. pose proof (pv_length u x) as L. rewrite H in L. destruct (pv u x) as [|a [|]]; try discriminate L. reflexivity. Qed.
    Lemma pv_list (u : poly Q) x : pv u x = map (fun j => nth j (pv u x) 0) (seq 0 (length (p_cols u))).
    Proof. apply (nth_ext _ _ 0 0); [rewrite map_length, seq_length; apply pv_length|]. intros j Hj. rewrite pv_length in Hj. rewrite nth_mapseq by exact Hj. reflexivity. Qed.
    Lemma entry_ok rows k i : rows_of n n rows -> (k < n)%nat -> (i < n)%nat -> entry (Q := Q) (Mat rows) k i = Ok (ent rows k i).
    Proof.
      intros HR Hk Hi. cbn [entry]. rewrite (PermFacts.get_ok _ _ []) by (rewrite (proj1 HR); exact Hk). cbn [bind]. apply PermFacts.get_ok. rewrite (rows_len n n rows k HR Hk). exact Hi.
    Qed.
    Theorem lift_partial u i : (forall w, veq w w = true) -> valid u -> p_m u = n -> (i < n)%nat ->
      exists u', sp_partial_derivative ksqrt tol veq (lift u) i = Ok (lift u') /\ valid u' /\ same_shape u u' /\ p_r u' = (p_r u - 1)%nat /\
        forall x, length x = n -> pv u' x = map (fun j => ksum (seq 0 n) (fun k => nth j (pv (Dk u k) x) 0 * B k i)) (seq 0 (length (p_cols u))).
    Proof.
      intros Hveq Vu Hm Hi. pose proof (tu_n _ _ _ _ _ TU) as Hn. assert (HR : (p_r u < 20)%nat) by (apply Vu; lia). unfold sp_partial_derivative. change (sp_m (lift u)) with (p_m u). change (sp_n (lift u)) with (length (p_cols u)). change (sp_r (lift u)) with (p_r u). change (sp_basis (lift u)) with (p_basis u). change (sp_vs (lift u)) with vs. change (sp_u (lift u)) with u. change (sp_ab (lift u)) with ab. rewrite Hm.
      destruct (Nat.ltb_spec i n); [|lia]. cbn [assert_ bind]. assert (Hk0 : length (p_cols u) <> 0%nat) by (destruct Vu as ((Hc & _) & _); destruct (p_cols u); [contradiction|discriminate]).
      destruct (Nat.eqb_spec (p_r u) 0) as [R0|R0].
      { destruct (zero_polynomial_ok (F := Q) (p_basis u) 0 n (length (p_cols u)) Hk0 ltac:(lia)) as (z & Ez & Vz & Zb & Zm & Zr & Zn & Zv). exists z. rewrite lift_zero, Ez. split; [reflexivity|]. split; [exact Vz|]. split; [constructor; congruence|]. split; [lia|]. intros x Lx. rewrite (Zv x Lx).
        rewrite (map_ext_in _ (fun _ => 0)); [symmetry; apply map_const_seq|]. intros j _. apply ksum_zero. intros k Hk. apply in_seq in Hk. rewrite Dk_const by (congruence || lia). ring. }
      assert (HDk : forall k, (k < n)%nat -> partial_derivative u k = Ok (Dk u k) /\ valid (Dk u k) /\ same_shape u (Dk u k) /\ p_r (Dk u k) = (p_r u - 1)%nat) by (intros k Hk; destruct (Dk_ok u k Vu ltac:(lia)) as (? & ? & ? & ? & _); auto).
      assert (NEW : forall k, (k < n)%nat -> new_spoly ksqrt tol (p_basis u) (p_cols (Dk u k)) vs (Some (p_r u - 1)%nat) = Ok (lift (Dk u k))) by (intros k Hk; destruct (HDk k Hk) as (_ & ? & [? ? ?] & ?); apply renew; congruence || assumption).
      assert (SC : forall k s, (k < n)%nat -> exists t, sp_scale ksqrt tol (lift (Dk u k)) s = Ok (lift t) /\ valid t /\ same_shape u t /\ p_r t = (p_r u - 1)%nat /\ forall x, length x = n -> pv t x = map (fun v => v * s) (pv (Dk u k) x)).
      { intros k s Hk. destruct (HDk k Hk) as (_ & Vd & [D1 D2 D3] & Dr). rewrite lift_scale by congruence. destruct (scale_ok (Dk u k) s Vd) as (t & Et & Vt & [T1 T2 T3] & Tr & Tv). exists t. rewrite Et. split; [reflexivity|]. split; [exact Vt|]. split; [constructor; congruence|]. split; [congruence|]. intros x Lx. apply Tv. congruence. }
      assert (JAC : exists q : nat -> nat -> poly Q, exists h, jacobian u = Ok h /\ (forall j, (j < length (p_cols u))%nat -> get h j = Ok (nth j h [])) /\
        forall j k, (j < length (p_cols u))%nat -> (k < n)%nat -> get (nth j h []) k = Ok (q j k) /\ rect (get_dimension (p_r u - 1) n) [hd [] (p_cols (q j k))] /\ forall x, length x = n -> val (p_basis u) n (p_r u - 1) (hd [] (p_cols (q j k))) x = nth j (pv (Dk u k) x) 0).
      { assert (Hu : poly_of (p_basis u) n (length (p_cols u)) (p_r u) u) by (apply poly_of_intro; congruence || assumption). destruct (jacobian_ok _ _ _ _ u Hu) as (h & Eh & Lh & Hh). exists (fun j k => match nth_error (nth j h []) k with Some q => q | None => u end), h. split; [exact Eh|]. split; [intros j Hj; apply PermFacts.get_ok; lia|]. intros j k Hj Hk.
        destruct (Hh j k Hj Hk) as (q & d & Eq & Ed & Hq & Hv). rewrite Eq. split; [unfold get; rewrite Eq; reflexivity|]. pose proof (poly_of_valid _ _ _ _ _ Hq) as (Vq & Qb & Qm & Qn & Qr). destruct (p_cols q) as [|c [|]] eqn:Ec; try discriminate Qn. cbn [hd].
        split; [split; [discriminate|]; intros c' [<-|[]]; destruct Vq as ((_ & HRq) & _); rewrite <- Qm, <- Qr; apply HRq; rewrite Ec; left; reflexivity|]. intros x Lx. destruct (Hv x Lx) as (v & E1 & E2). destruct (HDk k Hk) as (E3 & Vd & [D1 D2 D3] & Dr). assert (d = Dk u k) by congruence. rewrite call_ok in E1 by congruence. assert (v = pv (Dk u k) x) by congruence.
        destruct (call_pv _ _ _ _ _ x Hq Lx) as [E4 _]. assert (E5 : pv q x = [nth j v 0]) by congruence. unfold pv in E5 at 1. rewrite Ec, Qb, Qm, Qr in E5. cbn [map] in E5. congruence. }
      assert (COLS : forall cl : nat -> list Q, (forall j, (j < length (p_cols u))%nat -> length (cl j) = get_dimension (p_r u - 1) n) -> exists t, new_spoly ksqrt tol (p_basis u) (map cl (seq 0 (length (p_cols u)))) vs (Some (p_r u - 1)%nat) = Ok (lift t) /\ valid t /\ same_shape u t /\ p_r t = (p_r u - 1)%nat /\ forall x, pv t x = map (fun j => val (p_basis u) n (p_r u - 1) (cl j) x) (seq 0 (length (p_cols u)))).
      { intros cl Hcl. destruct (new_poly_ok (p_basis u) (map cl (seq 0 (length (p_cols u)))) (p_r u - 1) n) as (t & Et & (Vt & Tb & Tc & Tr & Tm)); [|lia|].
        - split; [destruct (length (p_cols u)); [contradiction|discriminate]|]. intros c Hc. apply in_map_iff in Hc as (j & <- & Hj). apply in_seq in Hj. apply Hcl. lia.
        - exists t. rewrite new_spoly_eq, Et. split; [reflexivity|]. split; [exact Vt|]. split; [constructor; [exact Tb|congruence|rewrite Tc, map_length, seq_length; reflexivity]|]. split; [exact Tr|]. intros x. unfold pv. rewrite Tb, Tc, Tr, Tm, map_map. reflexivity. }
      destruct (Nat.eqb_spec n 1) as [N1|N1].
      - rewrite (tu_sc _ _ _ _ _ TU N1). assert (i = 0)%nat by lia. assert (S1 : forall f : nat -> Q, ksum (seq 0 n) f = f 0%nat) by (intros f; rewrite N1; cbn [seq]; rewrite ksum_cons, ksum_nil; ring). destruct (Nat.eqb_spec (length (p_cols u)) 1) as [K1|K1].
        + destruct (HDk 0%nat ltac:(lia)) as (E0 & _). rewrite E0. cbn [bind]. rewrite NEW by lia. cbn [bind]. destruct (SC 0%nat (B 0%nat 0%nat) ltac:(lia)) as (t & Et & Vt & St & Tr & Tv). exists t. split; [exact Et|]. split; [exact Vt|]. split; [exact St|]. split; [exact Tr|]. intros x Lx. rewrite (Tv x Lx), (pv_list (Dk u 0) x), map_map.
          destruct (HDk 0%nat ltac:(lia)) as (_ & _ & [_ _ D3] & _). rewrite D3. apply map_ext. intros j. rewrite S1. replace i with 0%nat by lia. reflexivity.
        + destruct JAC as (q & h & Eh & Hg & Hq). rewrite Eh. cbn [bind]. rewrite (mapM_ok _ (fun j => scaled_column (q j 0%nat) (B 0%nat 0%nat))).
          * cbn [bind]. destruct (COLS (fun j => scaled_column (q j 0%nat) (B 0%nat 0%nat))) as (t & Et & Vt & St & Tr & Tv); [intros j Hj; unfold scaled_column; rewrite map_length; destruct (Hq j 0%nat Hj ltac:(lia)) as (_ & [_ Hl] & _); apply Hl; left; reflexivity|].
            exists t. split; [exact Et|]. split; [exact Vt|]. split; [exact St|]. split; [exact Tr|]. intros x Lx. rewrite Tv. apply map_ext_in. intros j Hj. apply in_seq in Hj. destruct (Hq j 0%nat ltac:(lia) ltac:(lia)) as (_ & [_ Hl] & Hvx). unfold scaled_column. rewrite val_scale by (apply Hl; left; reflexivity). rewrite Hvx, S1 by exact Lx. replace i with 0%nat by lia. reflexivity.
          * intros j Hj. apply in_seq in Hj. rewrite Hg by lia. cbn [bind]. destruct (Hq j 0%nat ltac:(lia) ltac:(lia)) as (-> & _). reflexivity.
      - destruct (tu_mat _ _ _ _ _ TU N1) as (rows & Ea & HRows & HB). rewrite Ea. assert (EN : forall k, (k < n)%nat -> entry (Mat rows) k i = Ok (B k i)) by (intros k Hk; rewrite entry_ok, HB by assumption; reflexivity). destruct (Nat.eqb_spec (length (p_cols u)) 1) as [K1|K1].
        + unfold gradient1, domain_dimension. rewrite Hm, (mapM_ok _ (Dk u)) by (intros k Hk; apply in_seq in Hk; apply HDk; lia). cbn [bind].
          pose (term := fun k => let* g := get (map (Dk u) (seq 0 n)) k in let* d := new_spoly ksqrt tol (p_basis u) (p_cols g) vs (Some (p_r u - 1)%nat) in let* s := entry (Mat rows) k i in sp_scale ksqrt tol d s).
          change (exists u', (let* d0 := term 0%nat in foldM (fun d k => let* t := term k in sp_add ksqrt tol veq d t) d0 (seq 1 (n - 1))) = Ok (lift u') /\ valid u' /\ same_shape u u' /\ p_r u' = (p_r u - 1)%nat /\ forall x, length x = n -> pv u' x = map (fun j => ksum (seq 0 n) (fun k => nth j (pv (Dk u k) x) 0 * B k i)) (seq 0 (length (p_cols u)))).
          assert (HT : forall k, (k < n)%nat -> exists t, term k = Ok (lift t) /\ valid t /\ same_shape u t /\ p_r t = (p_r u - 1)%nat /\ forall x, length x = n -> pv t x = map (fun v => v * B k i) (pv (Dk u k) x)).
          { intros k Hk. destruct (SC k (B k i) Hk) as (t & Et & Ht). exists t. split; [|exact Ht]. unfold term. rewrite (PermFacts.get_ok _ _ (Dk u 0)) by (rewrite map_length, seq_length; exact Hk). rewrite nth_mapseq by exact Hk. cbn [bind]. rewrite NEW by exact Hk. cbn [bind]. rewrite EN by exact Hk. cbn [bind]. exact Et. }
          destruct (HT 0%nat ltac:(lia)) as (t0 & Et0 & V0 & [S01 S02 S03] & R0t & Hv0). rewrite Et0. cbn [bind].
          destruct (foldM_range (fun d k => let* t := term k in sp_add ksqrt tol veq d t) (fun k s => exists t, s = lift t /\ valid t /\ same_shape u t /\ p_r t = (p_r u - 1)%nat /\ forall x, length x = n -> pv t x = [ksum (seq 0 k) (fun k => nth 0 (pv (Dk u k) x) 0 * B k i)]) n (lift t0) ltac:(lia)) as (s & Es & (t & -> & Vt & St & Tr & Tv)).
          * exists t0. split; [reflexivity|]. split; [exact V0|]. split; [constructor; assumption|]. split; [exact R0t|]. intros x Lx. rewrite (Hv0 x Lx). destruct (HDk 0%nat ltac:(lia)) as (_ & _ & [_ _ D3] & _). rewrite (pv_one (Dk u 0) x) by congruence. cbn [map nth seq]. rewrite ksum_cons, ksum_nil. f_equal. ring.
          * intros k s [Hk1 Hk2] (t & -> & Vt & [T1 T2 T3] & Tr & Tv). destruct (HT k Hk2) as (tk & Ek & Vk & [K1' K2 K3] & Rk & Hvk). rewrite Ek. cbn [bind]. unfold sp_add. rewrite lift_linear_op by (assumption || congruence). destruct (add_ok t tk Vt Vk) as (w & Ew & Vw & [W1 W2 W3] & Wr & Wv); [constructor; congruence|]. unfold add in Ew. rewrite Ew. cbn [bind]. eexists. split; [reflexivity|]. exists w. split; [reflexivity|]. split; [exact Vw|]. split; [constructor; congruence|]. split; [rewrite Wr, Tr, Rk; lia|].
            intros x Lx. rewrite Wv by congruence. rewrite (Tv x Lx), (Hvk x Lx). destruct (HDk k Hk2) as (_ & _ & [_ _ D3] & _). rewrite (pv_one (Dk u k) x) by congruence. rewrite ksum_last. reflexivity.
          * exists t. split; [exact Es|]. split; [exact Vt|]. split; [exact St|]. split; [exact Tr|]. intros x Lx. rewrite (Tv x Lx), K1. reflexivity.
        + destruct JAC as (q & h & Eh & Hg & Hq). rewrite Eh. cbn [bind].
          destruct (mapM_exists (fun j => let* row := get h j in let term := fun k => let* d := get row k in let* s := entry (Mat rows) k i in Ok (scaled_column d s) in let* c0 := term 0%nat in foldM (fun c k => let* t := term k in Ok (column_sum c t)) c0 (seq 1 (n - 1)))
            (fun j c => length c = get_dimension (p_r u - 1) n /\ forall x, length x = n -> val (p_basis u) n (p_r u - 1) c x = ksum (seq 0 n) (fun k => nth j (pv (Dk u k) x) 0 * B k i)) (seq 0 (length (p_cols u)))) as (cols & Ec & HF).
          * intros j Hj. apply in_seq in Hj. rewrite Hg by lia. cbn [bind]. pose (term := fun k => let* d := get (nth j h []) k in let* s := entry (Mat rows) k i in Ok (scaled_column d s)).
            change (exists c, (let* c0 := term 0%nat in foldM (fun c k => let* t := term k in Ok (column_sum c t)) c0 (seq 1 (n - 1))) = Ok c /\ length c = get_dimension (p_r u - 1) n /\ forall x, length x = n -> val (p_basis u) n (p_r u - 1) c x = ksum (seq 0 n) (fun k => nth j (pv (Dk u k) x) 0 * B k i)). assert (HT : forall k, (k < n)%nat -> term k = Ok (scaled_column (q j k) (B k i))).
            { intros k Hk. unfold term. destruct (Hq j k ltac:(lia) Hk) as (-> & _). cbn [bind]. rewrite EN by exact Hk. reflexivity. }
            assert (HL : forall k, (k < n)%nat -> length (scaled_column (q j k) (B k i)) = get_dimension (p_r u - 1) n /\ forall x, length x = n -> val (p_basis u) n (p_r u - 1) (scaled_column (q j k) (B k i)) x = nth j (pv (Dk u k) x) 0 * B k i).
            { intros k Hk. destruct (Hq j k ltac:(lia) Hk) as (_ & [_ Hl] & Hvx). unfold scaled_column. split; [rewrite map_length; apply Hl; left; reflexivity|]. intros x Lx. rewrite val_scale by (apply Hl; left; reflexivity). rewrite Hvx by exact Lx. reflexivity. }
            rewrite HT by lia. cbn [bind]. apply (foldM_range _ (fun k c => length c = get_dimension (p_r u - 1) n /\ forall x, length x = n -> val (p_basis u) n (p_r u - 1) c x = ksum (seq 0 k) (fun k => nth j (pv (Dk u k) x) 0 * B k i))); [lia| |].
            -- destruct (HL 0%nat ltac:(lia)) as [L1 L2]. split; [exact L1|]. intros x Lx. rewrite L2 by exact Lx. cbn [seq]. rewrite ksum_cons, ksum_nil. ring.
            -- intros k c [Hk1 Hk2] [Lc Hc]. rewrite HT by exact Hk2. cbn [bind]. eexists. split; [reflexivity|]. destruct (HL k Hk2) as [L1 L2]. change (column_sum c (scaled_column (q j k) (B k i))) with (cop kadd c (scaled_column (q j k) (B k i))). split; [unfold cop; rewrite map_length, combine_length, Lc, L1; lia|]. intros x Lx. rewrite (val_cop _ _ _ kadd 1) by (assumption || intros; ring). rewrite Hc, L2, ksum_last by exact Lx. reflexivity.
          * cbv zeta in Ec |- *.  rewrite Ec. cbn [bind]. assert (E : exists cl, cols = map cl (seq 0 (length (p_cols u))) /\ forall j, (j < length (p_cols u))%nat -> length (cl j) = get_dimension (p_r u - 1) n /\ forall x, length x = n -> val (p_basis u) n (p_r u - 1) (cl j) x = ksum (seq 0 n) (fun k => nth j (pv (Dk u k) x) 0 * B k i)).
            { exists (fun j => nth j cols []). assert (Lc : length cols = length (p_cols u)) by (apply Forall2_len in HF; rewrite seq_length in HF; congruence). split; [apply (nth_ext _ _ [] []); [rewrite map_length, seq_length; exact Lc|]; intros j Hj; rewrite (nth_mapseq (fun j => nth j cols [])) by lia; reflexivity|].
              intros j Hj. clear - HF Hj. assert (G : forall s k cols, Forall2 (fun j c => length c = get_dimension (p_r u - 1) n /\ forall x, length x = n -> val (p_basis u) n (p_r u - 1) c x = ksum (seq 0 n) (fun k => nth j (pv (Dk u k) x) 0 * B k i)) (seq s k) cols -> forall j, (j < k)%nat -> length (nth j cols []) = get_dimension (p_r u - 1) n /\ forall x, length x = n -> val (p_basis u) n (p_r u - 1) (nth j cols []) x = ksum (seq 0 n) (fun k => nth (s + j) (pv (Dk u k) x) 0 * B k i)).
              { intros s k. revert s. induction k as [|k IH]; intros s cs H j' Hj'; [lia|]. cbn [seq] in H. inversion H as [|? c ? cs' H1 H2]. destruct j' as [|j']; cbn [nth]; [rewrite Nat.add_0_r; exact H1|]. replace (s + S j')%nat with (S s + j')%nat by lia. apply IH; [exact H2|lia]. }
              apply (G 0%nat _ _ HF j Hj). }
            destruct E as (cl & -> & Hcl). destruct (COLS cl) as (t & Et & Vt & St & Tr & Tv); [intros j Hj; apply Hcl, Hj|]. exists t. split; [exact Et|]. split; [exact Vt|]. split; [exact St|]. split; [exact Tr|]. intros x Lx. rewrite Tv. apply map_ext_in. intros j Hj. apply in_seq in Hj. apply Hcl; [lia|exact Lx].
    Qed.
  End One.
End Lift.
