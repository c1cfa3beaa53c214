(** Facts for C92-C95. *)
From Verif Require Import Base Fld FldInst MultiIndex LinSolve PolyEval Det Linalg VecFacts GramSchmidt Basis.
From Coq Require Import Field_theory Field.

(** ** Gram-Schmidt for a general inner product *)
Section IP.
  Context {Q : ofld} (ksqrt : Q -> Q) (Hsqrt : sqrt_ok ksqrt) (d : nat) (ip : list Q -> list Q -> Q).
  Add Field Kfield75 : (kth Q).
  Local Open Scope fld_scope.
  Definition inner_product : Prop :=
    (forall u v, length u = d -> length v = d -> ip u v = ip v u) /\
    (forall u v w, length u = d -> length v = d -> length w = d -> ip u (vadd v w) = ip u v + ip u w) /\
    (forall c u v, length u = d -> length v = d -> ip u (vscale c v) = c * ip u v) /\
    (forall u, length u = d -> (exists j, (j < d)%nat /\ nth j u 0 <> 0) -> klt 0 (ip u u)).
  Hypothesis HIP : inner_product.
  Lemma ip_sym u v : length u = d -> length v = d -> ip u v = ip v u. Proof. apply HIP. Qed.
  Lemma ip_scale c u v : length u = d -> length v = d -> ip u (vscale c v) = c * ip u v. Proof. apply HIP. Qed.
  Lemma ip_sub u v w : length u = d -> length v = d -> length w = d -> ip u (vsub v w) = ip u v - ip u w.
  Proof.
    intros Hu Hv Hw. assert (E : vsub v w = vadd v (vscale (- (1)) w)).
    { apply (vec_ext _ _ d); [apply vsub_len; assumption|apply vadd_len; [assumption|apply vscale_len; assumption]|]. intros j Hj. rewrite nth_vsub, nth_vadd, nth_vscale by (rewrite ?(vscale_len _ _ d Hw); congruence). ring. }
    rewrite E. destruct HIP as (_ & A & S & _). rewrite A, S by (try apply vscale_len; assumption). ring.
  Qed.
  Lemma ip_lin u k : forall w (c : nat -> Q) (b : list (list Q)), length u = d -> length w = d -> (forall i, (i < k)%nat -> length (nth i b []) = d) ->
    (forall j, (j < d)%nat -> nth j w 0 = ksum (seq 0 k) (fun i => c i * ent b i j)) -> ip u w = ksum (seq 0 k) (fun i => c i * ip u (nth i b [])).
  Proof.
    induction k as [|k IH]; intros w c b Hu Hw Hb H.
    - cbn [seq]. rewrite ksum_nil. assert (E : w = vscale 0 w). { apply (vec_ext _ _ d Hw); [apply vscale_len; exact Hw|]. intros j Hj. rewrite nth_vscale, H by exact Hj. cbn [seq]. rewrite ksum_nil. ring. }
      rewrite E, ip_scale by assumption. ring.
    - rewrite ksum_Sn. set (w0 := vsub w (vscale (c k) (nth k b []))). assert (Lb : length (nth k b []) = d) by (apply Hb; lia). assert (Lw : length w0 = d) by (apply vsub_len; [exact Hw|apply vscale_len; exact Lb]).
      assert (E : w = vadd w0 (vscale (c k) (nth k b []))).
      { apply (vec_ext _ _ d Hw); [apply vadd_len; [exact Lw|apply vscale_len; exact Lb]|]. intros j Hj. pose proof (vscale_len (c k) _ d Lb) as Ls. rewrite nth_vadd by congruence. unfold w0. rewrite nth_vsub, nth_vscale by congruence. ring. }
      rewrite E. destruct HIP as (_ & A & S & _). rewrite A, S by (try apply vscale_len; assumption). f_equal. apply IH; try assumption; [intros; apply Hb; lia|].
      intros j Hj. unfold w0. rewrite nth_vsub, nth_vscale, H, ksum_Sn by (rewrite ?(vscale_len _ _ d Lb); congruence || exact Hj). unfold ent. ring.
  Qed.

  Definition orthonormal_ip (q : list (list Q)) : Prop :=
    forall i j, (i < length q)%nat -> (j < length q)%nat -> ip (nth i q []) (nth j q []) = if (i =? j)%nat then 1 else 0.
  Lemma vadd_len' (u v : list Q) : length u = d -> length v = d -> length (vadd u v) = d. Proof. apply vadd_len. Qed.
  (** the projections taken from the reduced vector are those of the given one *)
  Lemma reduce_ip (v : list Q) : length v = d -> forall post pre u, (forall q, In q (pre ++ post) -> length q = d) -> orthonormal_ip (pre ++ post) -> length u = d ->
    (forall q, In q post -> ip u q = ip v q) ->
    let u' := fold_left (fun u q => vsub u (vscale (ip u q) q)) post u in length u' = d /\ forall j, nth j u' 0 = nth j u 0 - ksum post (fun q => ip v q * nth j q 0).
  Proof.
    intros Lv. induction post as [|q post IH]; intros pre u Hq HO Hu HV; cbv zeta; cbn [fold_left].
    - split; [exact Hu|]. intros. rewrite ksum_nil. ring.
    - assert (Lq : length q = d) by (apply Hq, in_or_app; right; left; reflexivity). rewrite (HV q (or_introl eq_refl)).
      destruct (IH (pre ++ [q]) (vsub u (vscale (ip v q) q))) as [I1 I2].
      + rewrite <- app_assoc. exact Hq.
      + rewrite <- app_assoc. exact HO.
      + apply vsub_len; [exact Hu|apply vscale_len; exact Lq].
      + intros q' Hq'. assert (Lq' : length q' = d) by (apply Hq, in_or_app; right; right; exact Hq'). rewrite ip_sym, ip_sub, ip_scale by (try apply vsub_len; try apply vscale_len; assumption).
        assert (Z : ip q' q = 0).
        { destruct (In_nth post q' [] Hq') as (i & Hi & Ei). pose proof (HO (length pre + S i)%nat (length pre)) as K. rewrite app_length in K. cbn [length] in K. specialize (K ltac:(lia) ltac:(lia)).
          rewrite !app_nth2 in K by lia. replace (length pre + S i - length pre)%nat with (S i) in K by lia. rewrite Nat.sub_diag in K. cbn [nth] in K. rewrite Ei in K. rewrite K. destruct (Nat.eqb_spec (length pre + S i) (length pre)); [lia|reflexivity]. }
        rewrite Z. rewrite (ip_sym q' u) by assumption. rewrite HV by (right; exact Hq'). ring.
      + split; [exact I1|]. intros j. rewrite I2, nth_vsub, nth_vscale, ksum_cons by (rewrite (vscale_len _ _ d Lq); exact Hu). ring.
  Qed.

  Definition gs_ip (b q : list (list Q)) : Prop :=
    rows_of (length b) d q /\ orthonormal_ip q /\
    (exists T : nat -> nat -> Q, (forall i l, (i < l)%nat -> T i l = 0) /\ forall i j, (i < length b)%nat -> (j < d)%nat -> ent q i j = ksum (seq 0 (length b)) (fun l => T i l * ent b l j)) /\
    (forall i, (i < length b)%nat -> (forall l, (i < l < length b)%nat -> ip (nth i b []) (nth l q []) = 0) /\ klt 0 (ip (nth i b []) (nth i q [])) /\
      forall j, (j < d)%nat -> ent b i j = ksum (seq 0 (length b)) (fun l => ip (nth i b []) (nth l q []) * ent q l j)).

  Lemma gram_schmidt_ip (b : list (list Q)) : (forall v, In v b -> length v = d) -> indep d b -> gs_ip b (fold_left (ortho_step ksqrt ip) b []).
  Proof.
    induction b as [|v b IH] using rev_ind; intros Hlen HI.
    - unfold gs_ip. cbn [fold_left length]. split; [split; [reflexivity|intros r []]|]. split; [intros i j Hi; cbn in Hi; lia|]. split; [exists (fun _ _ => 0); split; intros; [reflexivity|lia]|intros; lia].
    - assert (Lb : forall v, In v b -> length v = d) by (intros; apply Hlen, in_or_app; left; assumption).
      assert (Lv : length v = d) by (apply Hlen, in_or_app; right; left; reflexivity).
      specialize (IH Lb (indep_snoc d b v HI)). rewrite fold_left_app. cbn [fold_left]. remember (fold_left (ortho_step ksqrt ip) b []) as q eqn:Eq. clear Eq.
      destruct IH as (Hq & HO & (T & HT0 & HT) & HR). remember (length b) as k eqn:Ek. pose proof Hq as [Lq Rq]. unfold ortho_step.
      destruct (reduce_ip v Lv q [] v Rq HO Lv (fun _ _ => eq_refl)) as [Lu Hu]. remember (fold_left (fun u q => vsub u (vscale (ip u q) q)) q v) as u eqn:Eu. clear Eu.
      assert (Hu' : forall j, nth j u 0 = nth j v 0 - ksum (seq 0 k) (fun l => ip v (nth l q []) * ent q l j)) by (intros j; rewrite Hu, (ksum_list []), Lq; reflexivity). clear Hu.
      assert (LQ : forall i, (i < k)%nat -> length (nth i q []) = d) by (intros; apply (rows_len k d); assumption).
      assert (LB : forall i, (i < k)%nat -> length (nth i b []) = d) by (intros; apply Lb, nth_In; lia).
      assert (UD : forall x, length x = d -> ip x u = ip x v - ksum (seq 0 k) (fun l => ip v (nth l q []) * ip x (nth l q []))).
      { intros x Lx. rewrite <- (ip_lin x k (lincomb d k (fun l => ip v (nth l q [])) q) (fun l => ip v (nth l q [])) q Lx (lincomb_length _ _ _ _) LQ) by (intros; apply nth_lincomb; assumption).
        rewrite <- ip_sub by (try apply lincomb_length; assumption). f_equal. apply (vec_ext _ _ d Lu); [apply vsub_len; [exact Lv|apply lincomb_length]|]. intros j Hj. rewrite Hu', nth_vsub, nth_lincomb by (try rewrite lincomb_length; assumption). reflexivity. }
      assert (UO : forall i, (i < k)%nat -> ip (nth i q []) u = 0).
      { intros i Hi. rewrite UD by (apply LQ; exact Hi). rewrite (ksum_ext _ (fun l => (if (l =? i)%nat then 1 else 0) * ip v (nth l q []))) by (intros l Hl; apply in_seq in Hl; rewrite HO by lia; rewrite Nat.eqb_sym; ring). rewrite delta_sum by exact Hi. rewrite (ip_sym v) by (try apply LQ; assumption). ring. }
      assert (UN : exists j, (j < d)%nat /\ nth j u 0 <> 0).
      { destruct (Forall_Exists_dec (fun x => x = (0 : Q)) (fun x => kdec x 0) u) as [HF|HE].
        - exfalso. rewrite Forall_forall in HF.
          assert (Z : forall j, (j < d)%nat -> nth j u 0 = 0) by (intros j Hj; apply HF, nth_In; lia).
          set (c := fun m => if (m <? k)%nat then - ksum (seq 0 k) (fun l => ip v (nth l q []) * T l m) else 1).
          assert (C : c k = 0).
          { apply (HI c); rewrite app_length, <- Ek; cbn [length]; [|lia]. intros j Hj. replace (k + 1)%nat with (S k) by lia. rewrite ksum_Sn. rewrite ent_snoc, <- Ek, Nat.ltb_irrefl by lia. unfold c at 2. rewrite Nat.ltb_irrefl.
            rewrite (ksum_ext _ (fun m => - ksum (seq 0 k) (fun l => ip v (nth l q []) * (T l m * ent b m j)))).
            2:{ intros m Hm. apply in_seq in Hm. rewrite ent_snoc, <- Ek by lia. unfold c. destruct (Nat.ltb_spec m k); [|lia]. transitivity (- (ksum (seq 0 k) (fun l => ip v (nth l q []) * T l m) * ent b m j)); [ring|]. rewrite <- ksum_scale_r. f_equal. apply ksum_ext. intros; ring. }
            rewrite ksum_opp, ksum_swap. rewrite (ksum_ext _ (fun l => ip v (nth l q []) * ent q l j)) by (intros l Hl; apply in_seq in Hl; rewrite ksum_scale_l, <- HT by lia; reflexivity).
            refine (eq_trans _ (Z j Hj)). rewrite Hu'. ring. }
          unfold c in C. rewrite Nat.ltb_irrefl in C. exact (k1_neq_0 (F := Q) C).
        - apply Exists_exists in HE as (x & Hx & N). destruct (In_nth u x 0 Hx) as (j & Hj & Ej). exists j. split; [lia|]. rewrite Ej. exact N. }
      assert (Pu : klt 0 (ip u u)) by (apply HIP; assumption). destruct (Hsqrt (ip u u)) as [S0 Ns]; [intros K; exact (klt_irrefl Q 0 (klt_trans Q _ _ _ Pu K))|].
      remember (ksqrt (ip u u)) as s eqn:Es. clear Es. assert (Nn : s <> 0) by (intros E; rewrite E in Ns; apply (klt_neq0 (ip u u) Pu); rewrite <- Ns; ring).
      assert (Np : klt 0 s) by (destruct (klt_total Q 0 s) as [K|[K|K]]; [exact K|congruence|contradiction]).
      remember (vscale (1 / s) u) as w eqn:Ew. assert (Lw : length w = d) by (rewrite Ew; apply vscale_len; exact Lu). assert (Hw : forall j, nth j w 0 = 1 / s * nth j u 0) by (intros; rewrite Ew; apply nth_vscale).
      assert (WU : forall x, length x = d -> ip x w = 1 / s * ip x u) by (intros x Lx; rewrite Ew; apply ip_scale; assumption). clear Ew.
      assert (WQ : forall i, (i < k)%nat -> ip (nth i q []) w = 0) by (intros i Hi; rewrite WU, UO by (try apply LQ; exact Hi); ring).
      assert (UV : ip v u = s * s).
      { transitivity (ip u u); [|symmetry; exact Ns]. rewrite (UD u Lu). rewrite ksum_zero by (intros l Hl; apply in_seq in Hl; rewrite (ip_sym u), UO by (try apply LQ; try assumption; lia); ring). rewrite (ip_sym v) by assumption. ring. }
      assert (WW : ip w w = 1). { rewrite (WU w Lw), (ip_sym w), (WU u Lu), <- Ns by assumption. field. exact Nn. }
      assert (WV : ip v w = s). { rewrite (WU v Lv), UV. field. exact Nn. }
      unfold gs_ip. rewrite app_length, <- Ek. cbn [length]. replace (k + 1)%nat with (S k) by lia. split; [|split; [|split]].
      + split; [rewrite app_length, Lq; cbn [length]; lia|]. intros r Hr. apply in_app_or in Hr as [Hr|[<-|[]]]; [apply Rq; exact Hr|exact Lw].
      + intros i j. rewrite app_length, Lq. cbn [length]. intros Hi Hj. rewrite !nth_snoc, Lq by lia.
        destruct (Nat.ltb_spec i k), (Nat.ltb_spec j k).
        * apply HO; lia.
        * rewrite WQ by lia. destruct (Nat.eqb_spec i j); [lia|reflexivity].
        * rewrite ip_sym, WQ by (try apply LQ; try assumption; lia). destruct (Nat.eqb_spec i j); [lia|reflexivity].
        * rewrite WW. destruct (Nat.eqb_spec i j); [reflexivity|lia].
      + exists (fun i l => if (i <? l)%nat then 0 else if (i <? k)%nat then (if (l <? k)%nat then T i l else 0) else if (l <? k)%nat then - (1 / s * ksum (seq 0 k) (fun m => ip v (nth m q []) * T m l)) else 1 / s).
        split; [intros i l Hil; destruct (Nat.ltb_spec i l); [reflexivity|lia]|].
        intros i j Hi Hj. rewrite ent_snoc, Lq, ksum_Sn by lia. rewrite ent_snoc, <- Ek, Nat.ltb_irrefl by lia. destruct (Nat.ltb_spec i k).
        * rewrite HT by lia. rewrite (ksum_ext (fun l => T i l * ent b l j) (fun l => (if (i <? l)%nat then 0 else if (l <? k)%nat then T i l else 0) * ent (b ++ [v]) l j)); [destruct (i <? k)%nat; ring|].
          intros l Hl. apply in_seq in Hl. rewrite ent_snoc, <- Ek by lia. destruct (Nat.ltb_spec l k); [|lia]. destruct (Nat.ltb_spec i l); [rewrite HT0 by lia; ring|reflexivity].
        * rewrite Hw, Hu'. rewrite (ksum_ext (fun l => (if (i <? l)%nat then _ else _) * _) (fun l => - (1 / s) * ksum (seq 0 k) (fun m => ip v (nth m q []) * (T m l * ent b l j)))).
          2:{ intros l Hl. apply in_seq in Hl. rewrite ent_snoc, <- Ek by lia. destruct (Nat.ltb_spec l k); [|lia]. destruct (Nat.ltb_spec i l); [lia|]. transitivity (- (1 / s) * (ksum (seq 0 k) (fun m => ip v (nth m q []) * T m l) * ent b l j)); [ring|]. rewrite <- ksum_scale_r. f_equal. apply ksum_ext. intros; ring. }
          rewrite ksum_scale_l, ksum_swap. rewrite (ksum_ext (fun a => ksum _ _) (fun l => ip v (nth l q []) * ent q l j)) by (intros l Hl; apply in_seq in Hl; rewrite ksum_scale_l, <- HT by lia; reflexivity). destruct (Nat.ltb_spec i k); [lia|]. ring.
      + intros i Hi. destruct (Nat.eq_dec i k) as [->|Hik].
        * split; [intros; lia|]. rewrite !nth_snoc, <- Ek, Lq, Nat.ltb_irrefl by lia. rewrite WV. split; [exact Np|].
          intros j Hj. rewrite ent_snoc, <- Ek, Nat.ltb_irrefl, ksum_Sn by lia. rewrite nth_snoc, ent_snoc, Lq, Nat.ltb_irrefl by lia. rewrite WV, Hw, Hu'.
          rewrite (ksum_ext (fun l => ip v (nth l (q ++ [w]) []) * ent (q ++ [w]) l j) (fun l => ip v (nth l q []) * ent q l j)); [field; exact Nn|].
          intros l Hl. apply in_seq in Hl. rewrite nth_snoc, ent_snoc, Lq by lia. destruct (Nat.ltb_spec l k); [reflexivity|lia].
        * destruct (HR i) as (R1 & R2 & R3); [lia|]. rewrite !nth_snoc, <- Ek, Lq by lia. destruct (Nat.ltb_spec i k); [|lia].
          assert (BW : ip (nth i b []) w = 0).
          { rewrite ip_sym by (try apply LB; try assumption; lia). rewrite (ip_lin w k (nth i b []) (fun l => ip (nth i b []) (nth l q [])) q Lw (LB i ltac:(lia)) LQ) by (intros; apply R3; assumption).
            apply ksum_zero. intros l Hl. apply in_seq in Hl. rewrite (ip_sym w), WQ by (try apply LQ; try assumption; lia). ring. }
          split; [|split; [exact R2|]].
          -- intros l Hl. rewrite nth_snoc, Lq by lia. destruct (Nat.ltb_spec l k); [apply R1; lia|exact BW].
          -- intros j Hj. rewrite ent_snoc, <- Ek, ksum_Sn by lia. destruct (Nat.ltb_spec i k); [|lia]. rewrite nth_snoc, Lq, Nat.ltb_irrefl, BW, R3 by lia.
             rewrite (ksum_ext (fun l => ip (nth i b []) (nth l (q ++ [w]) []) * ent (q ++ [w]) l j) (fun l => ip (nth i b []) (nth l q []) * ent q l j)); [ring|].
             intros l Hl. apply in_seq in Hl. rewrite nth_snoc, ent_snoc, Lq by lia. destruct (Nat.ltb_spec l k); [reflexivity|lia].
  Qed.
End IP.

(** ** Uniqueness *)
Section Unique.
  Context {Q : ofld} (d : nat).
  Add Field Kfield76 : (kth Q).
  Local Open Scope fld_scope.
  (** [b] expressed triangularly by the orthonormal [q], with positive diagonal *)
  Definition triangular_in (b q : list (list Q)) : Prop :=
    forall i, (i < length b)%nat -> (forall l, (i < l < length b)%nat -> dot (nth i b []) (nth l q []) = 0) /\ klt 0 (dot (nth i b []) (nth i q [])) /\
      forall j, (j < d)%nat -> ent b i j = ksum (seq 0 (length b)) (fun l => dot (nth i b []) (nth l q []) * ent q l j).
  Lemma ksum_trunc k i (f : nat -> Q) : (i < k)%nat -> (forall l, (i < l < k)%nat -> f l = 0) -> ksum (seq 0 k) f = ksum (seq 0 i) f + f i.
  Proof.
    intros Hi H. induction k as [|k IH]; [lia|]. rewrite ksum_Sn. destruct (Nat.eq_dec i k) as [->|N]; [reflexivity|]. rewrite IH by (try lia; intros; apply H; lia). rewrite (H k) by lia. ring.
  Qed.
  Lemma square_eq (x y : Q) : klt 0 x -> klt 0 y -> x * x = y * y -> x = y.
  Proof.
    intros Hx Hy E. assert (Z : (x - y) * (x + y) = 0) by (transitivity (x * x - y * y); [ring|rewrite E; ring]). destruct (kdec (x - y) 0) as [D|D]; [transitivity (x - y + y); [ring|rewrite D; ring]|exfalso].
    assert (S : x + y = 0). { transitivity (1 / (x - y) * ((x - y) * (x + y))); [field; exact D|rewrite Z; ring]. }
    pose proof (klt_add Q 0 x y Hx) as K. apply (klt_irrefl Q 0). apply (klt_trans Q 0 y 0 Hy). replace (0 : Q) with (x + y) at 1 by exact S. replace (x + y) with (y + x) by ring. rewrite S in K. replace (0 + y) with y in K by ring.
    exfalso. exact (klt_irrefl Q 0 (klt_trans Q _ _ _ Hy K)).
  Qed.
  Lemma gs_unique k (b q q' : list (list Q)) : rows_of k d b -> rows_of k d q -> rows_of k d q' -> orthonormal q -> orthonormal q' -> triangular_in b q -> triangular_in b q' -> q = q'.
  Proof.
    intros Hb Hq Hq' HO HO' HT HT'. pose proof Hb as [Lb _]. pose proof Hq as [Lq _]. pose proof Hq' as [Lq' _].
    assert (E : forall i, (i < k)%nat -> nth i q [] = nth i q' []).
    { intros i. induction i as [i IH] using lt_wf_ind. intros Hi. destruct (HT i ltac:(lia)) as (T1 & T2 & T3). destruct (HT' i ltac:(lia)) as (T1' & T2' & T3'). rewrite Lb in *.
      set (s := dot (nth i b []) (nth i q [])) in *. set (s' := dot (nth i b []) (nth i q' [])) in *.
      assert (X : forall j, (j < d)%nat -> s * ent q i j = s' * ent q' i j).
      { intros j Hj. pose proof (T3 j Hj) as A. pose proof (T3' j Hj) as B. rewrite (ksum_trunc k i) in A by (try exact Hi; intros l Hl; rewrite T1 by lia; ring). rewrite (ksum_trunc k i) in B by (try exact Hi; intros l Hl; rewrite T1' by lia; ring). fold s in A. fold s' in B.
        rewrite (ksum_ext _ (fun l => dot (nth i b []) (nth l q' []) * ent q' l j)) in A by (intros l Hl; apply in_seq in Hl; unfold ent; rewrite IH by lia; reflexivity).
        set (S0 := ksum (seq 0 i) (fun l => dot (nth i b []) (nth l q' []) * ent q' l j)) in *. transitivity (S0 + s * ent q i j - S0); [ring|]. rewrite <- A, B. ring. }
      assert (L1 : length (nth i q []) = d) by (apply (rows_len k d); assumption). assert (L2 : length (nth i q' []) = d) by (apply (rows_len k d); assumption).
      assert (N1 : ksum (seq 0 d) (fun j => ent q i j * ent q i j) = 1) by (pose proof (HO i i ltac:(lia) ltac:(lia)) as K; rewrite Nat.eqb_refl, (dot_seq _ _ d) in K by assumption; exact K).
      assert (N2 : ksum (seq 0 d) (fun j => ent q' i j * ent q' i j) = 1) by (pose proof (HO' i i ltac:(lia) ltac:(lia)) as K; rewrite Nat.eqb_refl, (dot_seq _ _ d) in K by assumption; exact K).
      assert (SS : s = s').
      { apply square_eq; try assumption. transitivity (ksum (seq 0 d) (fun j => (s * s) * (ent q i j * ent q i j))); [rewrite ksum_scale_l, N1; ring|]. transitivity (ksum (seq 0 d) (fun j => (s' * s') * (ent q' i j * ent q' i j))); [|rewrite ksum_scale_l, N2; ring].
        apply ksum_ext. intros j Hj. apply in_seq in Hj. transitivity ((s * ent q i j) * (s * ent q i j)); [ring|]. rewrite X by lia. ring. }
      apply (vec_ext _ _ d L1 L2). intros j Hj. specialize (X j Hj). rewrite SS in X. pose proof (klt_neq0 s' T2') as Ns. change (ent q i j = ent q' i j). transitivity (1 / s' * (s' * ent q i j)); [field; exact Ns|]. rewrite X. field. exact Ns. }
    apply (nth_ext _ _ [] []); [congruence|]. intros i Hi. apply E. lia.
  Qed.

  (** a QR decomposition, [b] and [q] given by columns *)
  Definition qr_decomposition (k : nat) (b q : list (list Q)) (r : nat -> nat -> Q) : Prop :=
    rows_of k d q /\ orthonormal q /\ (forall l i, (i < l)%nat -> r l i = 0) /\
    forall i j, (i < k)%nat -> (j < d)%nat -> ent b i j = ksum (seq 0 k) (fun l => ent q l j * r l i).
  Lemma qr_coef k b q r : rows_of k d b -> qr_decomposition k b q r -> forall i l, (i < k)%nat -> (l < k)%nat -> dot (nth i b []) (nth l q []) = r l i.
  Proof.
    intros Hb (Hq & HO & Hr & E) i l Hi Hl. pose proof Hq as [Lq _]. rewrite dot_comm. rewrite (dot_lin d (nth l q []) (nth i b []) k (fun m => r m i) q) by (try apply (rows_len k d); try assumption; intros j Hj; change (nth j (nth i b []) 0) with (ent b i j); rewrite E by assumption; apply ksum_ext; intros; ring).
    rewrite (ksum_ext _ (fun m => (if (m =? l)%nat then 1 else 0) * r m i)) by (intros m Hm; apply in_seq in Hm; rewrite HO by lia; rewrite Nat.eqb_sym; ring). exact (delta_sum k l (fun m => r m i) Hl).
  Qed.
  Lemma qr_diag k b q r : rows_of k d b -> indep d b -> qr_decomposition k b q r -> forall i, (i < k)%nat -> r i i <> 0.
  Proof.
    intros Hb HI Hqr i Hi Z. pose proof Hqr as (Hq & HO & Hr & E). pose proof Hb as [Lb _]. pose proof Hq as [Lq _].
    (* the first i + 1 vectors are combinations of i orthonormal ones: solve the triangular system by induction *)
    assert (Sol : forall m, (m <= i)%nat -> (forall l, (l < m)%nat -> r l l <> 0) -> forall t : nat -> Q, exists c : nat -> Q, forall l, (l < m)%nat -> ksum (seq 0 m) (fun a => c a * r l a) = t l).
    { induction m as [|m IH]; intros Hm Hd t; [exists (fun _ => 0); intros; lia|]. pose proof (Hd m ltac:(lia)) as Nm. destruct (IH ltac:(lia) ltac:(intros; apply Hd; lia) (fun l => t l - t m / r m m * r l m)) as (c & Hc).
      exists (fun a => if (a =? m)%nat then t m / r m m else c a). intros l Hl. rewrite ksum_Sn, Nat.eqb_refl. destruct (Nat.eq_dec l m) as [->|N].
      - rewrite ksum_zero by (intros a Ha; apply in_seq in Ha; rewrite (Hr m a) by lia; ring). field. exact Nm.
      - rewrite (ksum_ext _ (fun a => c a * r l a)) by (intros a Ha; apply in_seq in Ha; destruct (Nat.eqb_spec a m); [lia|reflexivity]). rewrite Hc by lia. ring. }
    assert (First : exists i0, (i0 <= i)%nat /\ r i0 i0 = 0 /\ forall l, (l < i0)%nat -> r l l <> 0).
    { clear - Z. induction i as [i IH] using lt_wf_ind. destruct (existsb (fun l => if kdec (r l l) 0 then true else false) (seq 0 i)) eqn:G.
      - apply existsb_exists in G as (l & Hl & G). apply in_seq in Hl. destruct (kdec (r l l) 0) as [D|]; [|discriminate]. destruct (IH l ltac:(lia) D) as (i0 & A & B & C). exists i0. split; [lia|]. split; assumption.
      - exists i. split; [lia|]. split; [exact Z|]. intros l Hl D. assert (T : existsb (fun l => if kdec (r l l) 0 then true else false) (seq 0 i) = true) by (apply existsb_exists; exists l; split; [apply in_seq; lia|destruct (kdec (r l l) 0); [reflexivity|contradiction]]). congruence. }
    destruct First as (i0 & Hi0 & Z0 & Hd). destruct (Sol i0 Hi0 Hd (fun l => - r l i0)) as (c & Hc).
    assert (K : (fun a => if (a <? i0)%nat then c a else if (a =? i0)%nat then 1 else 0) i0 = 0).
    { apply (HI (fun a => if (a <? i0)%nat then c a else if (a =? i0)%nat then 1 else 0)); [|lia]. rewrite Lb. intros j Hj. rewrite (ksum_trunc k i0) by first [lia|intros l Hl; destruct (Nat.ltb_spec l i0); [lia|]; destruct (Nat.eqb_spec l i0); [lia|ring]]. rewrite Nat.ltb_irrefl, Nat.eqb_refl.
      rewrite (ksum_ext _ (fun a => ksum (seq 0 k) (fun l => ent q l j * (c a * r l a)))) by (intros a Ha; apply in_seq in Ha; destruct (Nat.ltb_spec a i0); [|lia]; rewrite E by lia; rewrite <- ksum_scale_l; apply ksum_ext; intros; ring).
      rewrite ksum_swap, E by lia. transitivity (ksum (seq 0 k) (fun l => ent q l j * (ksum (seq 0 i0) (fun a => c a * r l a) + r l i0))).
      - rewrite (ksum_ext (fun l => ent q l j * (_ + _)) (fun l => ksum (seq 0 i0) (fun a => ent q l j * (c a * r l a)) + ent q l j * r l i0)) by (intros l _; rewrite ksum_scale_l; ring). rewrite ksum_plus. ring.
      - apply ksum_zero. intros l Hl. apply in_seq in Hl. destruct (Nat.lt_trichotomy l i0) as [A|[->|A]].
        + rewrite Hc by exact A. ring.
        + rewrite Z0. rewrite ksum_zero by (intros a Ha; apply in_seq in Ha; rewrite Hr by lia; ring). ring.
        + rewrite (Hr l i0 A). rewrite ksum_zero by (intros a Ha; apply in_seq in Ha; rewrite Hr by lia; ring). ring. }
    cbn beta in K. rewrite Nat.ltb_irrefl, Nat.eqb_refl in K. exact (k1_neq_0 (F := Q) K).
  Qed.
  Lemma dot_neg (c b : list Q) : length c = d -> length b = d -> dot b (vscale (- (1)) c) = - dot b c.
  Proof. intros Hc Hb. rewrite (dot_vscale_r d) by assumption. ring. Qed.
  Lemma klt_opp (x : Q) : klt x 0 -> klt 0 (- x).
  Proof. intros H. pose proof (klt_add Q x 0 (- x) H) as K. replace (x + - x) with (0 : Q) in K by ring. replace (0 + - x) with (- x) in K by ring. exact K. Qed.
  Lemma flip_ok k b q r : rows_of k d b -> indep d b -> qr_decomposition k b q r ->
    rows_of k d (flip_columns q b) /\ orthonormal (flip_columns q b) /\ triangular_in b (flip_columns q b).
  Proof.
    intros Hb HI Hqr. pose proof Hqr as (Hq & HO & Hr & E). pose proof Hb as [Lb _]. pose proof Hq as [Lq _].
    set (g := fun i => if kltb (dot (nth i q []) (nth i b [])) 0 then - (1) else (1 : Q)).
    assert (GG : forall i, g i * g i = 1) by (intros i; unfold g; destruct (kltb _ _); ring).
    assert (LQ : forall i, (i < k)%nat -> length (nth i q []) = d) by (intros; apply (rows_len k d); assumption). assert (LB : forall i, (i < k)%nat -> length (nth i b []) = d) by (intros; apply (rows_len k d); assumption).
    assert (EF : forall i, (i < k)%nat -> nth i (flip_columns q b) [] = vscale (g i) (nth i q [])).
    { intros i Hi. unfold flip_columns. rewrite (nth_map_seq0 (fun i => let c := nth i q [] in if kltb (dot c (nth i b [])) 0 then vscale (- (1)) c else c)) by lia. cbv zeta. unfold g. destruct (kltb _ _); [reflexivity|].
      apply (vec_ext _ _ d); [apply LQ; exact Hi|apply vscale_len, LQ; exact Hi|]. intros j Hj. rewrite nth_vscale. ring. }
    assert (LF : length (flip_columns q b) = k) by (unfold flip_columns; rewrite map_length, seq_length; exact Lb).
    assert (DF : forall i l, (i < k)%nat -> (l < k)%nat -> dot (nth i b []) (nth l (flip_columns q b) []) = g l * r l i).
    { intros i l Hi Hl. rewrite EF by exact Hl. rewrite (dot_vscale_r d) by (try apply LB; try apply LQ; assumption). rewrite (qr_coef k b q r) by assumption. reflexivity. }
    split; [split; [exact LF|]|split].
    - intros x Hx. apply (In_nth _ _ []) in Hx as (i & Hi & <-). rewrite LF in Hi. rewrite EF by exact Hi. apply vscale_len, LQ. exact Hi.
    - intros i l. rewrite LF. intros Hi Hl. rewrite !EF by assumption. rewrite (dot_vscale_r d) by (try apply vscale_len; apply LQ; assumption). rewrite dot_comm, (dot_vscale_r d) by (apply LQ; assumption). rewrite dot_comm. rewrite dot_comm. rewrite HO by lia.
      rewrite Nat.eqb_sym. destruct (Nat.eqb_spec i l) as [->|N]; [|ring]. transitivity (g l * g l); [ring|apply GG].
    - intros i. rewrite Lb. intros Hi. split; [|split].
      + intros l Hl. rewrite DF by lia. rewrite Hr by lia. ring.
      + rewrite DF by exact Hi. pose proof (qr_diag k b q r Hb HI Hqr i Hi) as N. unfold g. rewrite dot_comm, (qr_coef k b q r) by assumption. destruct (kltb (r i i) 0) eqn:G.
        * apply kltb_spec in G. replace (- (1) * r i i) with (- r i i) by ring. apply klt_opp, G.
        * replace (1 * r i i) with (r i i) by ring. destruct (klt_total Q 0 (r i i)) as [K|[K|K]]; [exact K|congruence|apply kltb_spec in K; congruence].
      + intros j Hj. rewrite E by assumption. apply ksum_ext. intros l Hl. apply in_seq in Hl. rewrite DF by lia. unfold ent at 2. rewrite EF, nth_vscale by lia. transitivity ((g l * g l) * (ent q l j * r l i)); [rewrite GG; ring|unfold ent; ring].
  Qed.
  Lemma flip_gram_schmidt ksqrt k b q r : sqrt_ok ksqrt -> rows_of k d b -> indep d b -> qr_decomposition k b q r -> flip_columns q b = gram_schmidt_rn ksqrt b.
  Proof.
    intros Hs Hb HI Hqr. destruct (flip_ok k b q r Hb HI Hqr) as (A & B & C). pose proof Hb as [Lb Rb]. destruct (gram_schmidt_inv ksqrt Hs d b Rb HI) as (G1 & G2 & _ & G3). rewrite Lb in G1.
    apply (gs_unique k b); assumption.
  Qed.
End Unique.
