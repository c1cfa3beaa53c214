(** Gram-Schmidt orthonormalization (linalg/basis.py) and orthogonal projection
    (linalg/vector_space_projection.py). *)
From Verif Require Import Base Fld FldInst LinSolve PolyEval Det Linalg VecFacts SimplexFacts.
From Coq Require Import Field_theory Field.

Section GS.
  Context {Q : ofld} (ksqrt : Q -> Q).
  Add Field Kfield44 : (kth Q).
  Local Open Scope fld_scope.
  Definition sqrt_ok : Prop := forall x : Q, kle 0 x -> kle 0 (ksqrt x) /\ ksqrt x * ksqrt x = x.
  Hypothesis Hsqrt : sqrt_ok.

  Lemma ksum_Sn n (f : nat -> Q) : ksum (seq 0 (S n)) f = ksum (seq 0 n) f + f n.
  Proof. rewrite seq_S, ksum_app, ksum_cons, ksum_nil. cbn [Nat.add]. ring. Qed.
  Lemma ksum_list {A} (d : A) (l : list A) (f : A -> Q) : ksum l f = ksum (seq 0 (length l)) (fun i => f (nth i l d)).
  Proof. induction l as [|x l IH]; [reflexivity|]. cbn [length]. rewrite ksum_S0, ksum_cons, IH. reflexivity. Qed.
  Lemma vsub_len (u v : list Q) d : length u = d -> length v = d -> length (vsub u v) = d.
  Proof. intros Hu Hv. unfold vsub. rewrite map_length, combine_length, Hu, Hv. apply Nat.min_id. Qed.
  Lemma vadd_len (u v : list Q) d : length u = d -> length v = d -> length (vadd u v) = d.
  Proof. intros Hu Hv. unfold vadd. rewrite map_length, combine_length, Hu, Hv. apply Nat.min_id. Qed.
  Lemma vscale_len (c : Q) (v : list Q) d : length v = d -> length (vscale c v) = d.
  Proof. intros Hv. unfold vscale. rewrite map_length. exact Hv. Qed.
  Lemma dot_vsub_r d (u v w : list Q) : length u = d -> length v = d -> length w = d -> dot u (vsub v w) = dot u v - dot u w.
  Proof.
    intros Hu Hv Hw. rewrite (dot_seq u _ d), (dot_seq u v d), (dot_seq u w d) by (try apply vsub_len; assumption). rewrite <- ksum_minus. apply ksum_ext. intros j Hj. rewrite nth_vsub by congruence. ring.
  Qed.
  Lemma dot_vscale_r d (c : Q) (u v : list Q) : length u = d -> length v = d -> dot u (vscale c v) = c * dot u v.
  Proof.
    intros Hu Hv. rewrite (dot_seq u _ d), (dot_seq u v d) by (try apply vscale_len; assumption). rewrite <- ksum_scale_l. apply ksum_ext. intros j Hj. rewrite nth_vscale. ring.
  Qed.
  Lemma klt_neq0 (x : Q) : klt 0 x -> x <> 0. Proof. intros H E. rewrite E in H. exact (klt_irrefl Q 0 H). Qed.
  Lemma norm_pos (v : list Q) d : length v = d -> (exists j, (j < d)%nat /\ nth j v 0 <> 0) -> klt 0 (norm2 ksqrt v) /\ norm2 ksqrt v * norm2 ksqrt v = dot v v.
  Proof.
    intros Hv (j & Hj & N). destruct (Hsqrt (dot v v) (dot_self_nonneg v)) as [H1 H2]. split; [|exact H2]. unfold norm2.
    destruct (kle_cases 0 (ksqrt (dot v v)) H1) as [H|H]; [exact H|]. exfalso. apply N. apply (dot_self_zero d); [exact Hv| |exact Hj]. rewrite <- H2, <- H. ring.
  Qed.

  Lemma ent_snoc (b : list (list Q)) v i j : (i <= length b)%nat -> ent (b ++ [v]) i j = if (i <? length b)%nat then ent b i j else nth j v 0.
  Proof.
    intros Hi. unfold ent. destruct (Nat.ltb_spec i (length b)); [rewrite app_nth1 by assumption; reflexivity|]. rewrite app_nth2 by assumption. replace (i - length b)%nat with 0%nat by lia. reflexivity.
  Qed.
  Lemma nth_snoc (b : list (list Q)) v i : (i <= length b)%nat -> nth i (b ++ [v]) [] = if (i <? length b)%nat then nth i b [] else v.
  Proof.
    intros Hi. destruct (Nat.ltb_spec i (length b)); [rewrite app_nth1 by assumption; reflexivity|]. rewrite app_nth2 by assumption. replace (i - length b)%nat with 0%nat by lia. reflexivity.
  Qed.
  Lemma indep_snoc d b v : indep d (b ++ [v]) -> @indep Q d b.
  Proof.
    intros H c Hc i Hi. assert (Z : (fun i => if (i <? length b)%nat then c i else 0) i = 0).
    { apply (H (fun i => if (i <? length b)%nat then c i else 0)); rewrite app_length; cbn [length]; [|lia]. intros j Hj. replace (length b + 1)%nat with (S (length b)) by lia. rewrite ksum_Sn, Nat.ltb_irrefl.
      rewrite (ksum_ext _ (fun i => c i * ent b i j)); [rewrite Hc by exact Hj; ring|]. intros l Hl. apply in_seq in Hl. rewrite ent_snoc by lia. destruct (Nat.ltb_spec l (length b)); [reflexivity|lia]. }
    cbv beta in Z. destruct (Nat.ltb_spec i (length b)); [exact Z|lia].
  Qed.

  Lemma reduce_spec d (qs : list (list Q)) v : forall u, length u = d -> (forall q, In q qs -> length q = d) ->
    let u' := fold_left (fun u q => vsub u (vscale (dot v q) q)) qs u in length u' = d /\ forall j, nth j u' 0 = nth j u 0 - ksum qs (fun q => dot v q * nth j q 0).
  Proof.
    induction qs as [|q qs IH]; intros u Hu Hq; cbv zeta.
    - split; [exact Hu|]. intros. cbn [fold_left]. rewrite ksum_nil. ring.
    - cbn [fold_left]. assert (Lq : length q = d) by (apply Hq; left; reflexivity). destruct (IH (vsub u (vscale (dot v q) q))) as [I1 I2]; [apply vsub_len; [exact Hu|apply vscale_len; exact Lq]|intros; apply Hq; right; assumption|].
      split; [exact I1|]. intros j. rewrite I2, nth_vsub, nth_vscale, ksum_cons by (rewrite (vscale_len _ _ d Lq); exact Hu). ring.
  Qed.

  Definition gs_inv (d : nat) (b q : list (list Q)) : Prop :=
    rows_of (length b) d q /\ orthonormal q /\
    (exists T : nat -> nat -> Q, forall i j, (i < length b)%nat -> (j < d)%nat -> ent q i j = ksum (seq 0 (length b)) (fun l => T i l * ent b l j)) /\
    (forall i, (i < length b)%nat -> (forall l, (i < l < length b)%nat -> dot (nth i b []) (nth l q []) = 0) /\ klt 0 (dot (nth i b []) (nth i q [])) /\
      forall j, (j < d)%nat -> ent b i j = ksum (seq 0 (length b)) (fun l => dot (nth i b []) (nth l q []) * ent q l j)).

  Lemma gram_schmidt_inv d (b : list (list Q)) : (forall v, In v b -> length v = d) -> indep d b -> gs_inv d b (gram_schmidt_rn ksqrt b).
  Proof.
    induction b as [|v b IH] using rev_ind; intros Hlen HI.
    - unfold gram_schmidt_rn, gs_inv. cbn [fold_left length]. split; [split; [reflexivity|intros r []]|]. split; [intros i j Hi; cbn in Hi; lia|]. split; [exists (fun _ _ => 0); intros; lia|intros; lia].
    - assert (Lb : forall v, In v b -> length v = d) by (intros; apply Hlen, in_or_app; left; assumption).
      assert (Lv : length v = d) by (apply Hlen, in_or_app; right; left; reflexivity).
      specialize (IH Lb (indep_snoc d b v HI)). unfold gram_schmidt_rn in *. rewrite fold_left_app. cbn [fold_left]. remember (fold_left (gs_step ksqrt) b []) as q eqn:Eq. clear Eq.
      destruct IH as (Hq & HO & (T & HT) & HR). remember (length b) as k eqn:Ek. pose proof Hq as [Lq Rq]. unfold gs_step.
      destruct (reduce_spec d q v v Lv Rq) as [Lu Hu]. remember (fold_left (fun u q => vsub u (vscale (dot v q) q)) q v) as u eqn:Eu. clear Eu.
      assert (Hu' : forall j, nth j u 0 = nth j v 0 - ksum (seq 0 k) (fun l => dot v (nth l q []) * ent q l j)) by (intros j; rewrite Hu, (ksum_list []), Lq; reflexivity). clear Hu.
      assert (LQ : forall i, (i < k)%nat -> length (nth i q []) = d) by (intros; apply (rows_len k d); assumption).
      assert (LB : forall i, (i < k)%nat -> length (nth i b []) = d) by (intros; apply Lb, nth_In; lia).
      (* u orthogonal to q *)
      assert (UD : forall x, length x = d -> dot x u = dot x v - ksum (seq 0 k) (fun l => dot v (nth l q []) * dot x (nth l q []))).
      { intros x Lx. rewrite <- (dot_lin d x (lincomb d k (fun l => dot v (nth l q [])) q) k (fun l => dot v (nth l q [])) q Lx (lincomb_length _ _ _ _) Hq) by (intros; apply nth_lincomb; assumption).
        rewrite <- (dot_vsub_r d) by (try apply lincomb_length; assumption). f_equal. apply (vec_ext _ _ d Lu); [apply vsub_len; [exact Lv|apply lincomb_length]|]. intros j Hj. rewrite Hu', nth_vsub, nth_lincomb by (try rewrite lincomb_length; assumption). reflexivity. }
      assert (UO : forall i, (i < k)%nat -> dot (nth i q []) u = 0).
      { intros i Hi. rewrite UD by (apply LQ; exact Hi). rewrite (ksum_ext _ (fun l => (if (l =? i)%nat then 1 else 0) * dot v (nth l q []))) by (intros l Hl; apply in_seq in Hl; rewrite HO by lia; rewrite Nat.eqb_sym; ring). rewrite delta_sum by exact Hi. rewrite (dot_comm v). ring. }
      (* u is not zero *)
      assert (UN : exists j, (j < d)%nat /\ nth j u 0 <> 0).
      { destruct (Forall_Exists_dec (fun x => x = (0 : Q)) (fun x => kdec x 0) u) as [HF|HE].
        - exfalso. rewrite Forall_forall in HF.
          assert (Z : forall j, (j < d)%nat -> nth j u 0 = 0) by (intros j Hj; apply HF, nth_In; lia).
          set (c := fun m => if (m <? k)%nat then - ksum (seq 0 k) (fun l => dot v (nth l q []) * T l m) else 1).
          assert (C : c k = 0).
          { apply (HI c); rewrite app_length, <- Ek; cbn [length]; [|lia]. intros j Hj. replace (k + 1)%nat with (S k) by lia. rewrite ksum_Sn. rewrite ent_snoc, <- Ek, Nat.ltb_irrefl by lia. unfold c at 2. rewrite Nat.ltb_irrefl.
            rewrite (ksum_ext _ (fun m => - ksum (seq 0 k) (fun l => dot v (nth l q []) * (T l m * ent b m j)))).
            2:{ intros m Hm. apply in_seq in Hm. rewrite ent_snoc, <- Ek by lia. unfold c. destruct (Nat.ltb_spec m k); [|lia]. transitivity (- (ksum (seq 0 k) (fun l => dot v (nth l q []) * T l m) * ent b m j)); [ring|]. rewrite <- ksum_scale_r. f_equal. apply ksum_ext. intros; ring. }
            rewrite ksum_opp, ksum_swap. rewrite (ksum_ext _ (fun l => dot v (nth l q []) * ent q l j)) by (intros l Hl; apply in_seq in Hl; rewrite ksum_scale_l, <- HT by lia; reflexivity).
            refine (eq_trans _ (Z j Hj)). rewrite Hu'. ring. }
          unfold c in C. rewrite Nat.ltb_irrefl in C. exact (k1_neq_0 (F := Q) C).
        - apply Exists_exists in HE as (x & Hx & N). destruct (In_nth u x 0 Hx) as (j & Hj & Ej). exists j. split; [lia|]. rewrite Ej. exact N. }
      destruct (norm_pos u d Lu UN) as [Np Ns]. remember (norm2 ksqrt u) as s eqn:Es. clear Es. pose proof (klt_neq0 s Np) as Nn. clear UN.
      remember (vscale (1 / s) u) as w eqn:Ew. assert (Lw : length w = d) by (rewrite Ew; apply vscale_len; exact Lu). assert (Hw : forall j, nth j w 0 = 1 / s * nth j u 0) by (intros; rewrite Ew; apply nth_vscale).
      assert (WU : forall x, length x = d -> dot x w = 1 / s * dot x u) by (intros x Lx; rewrite Ew; apply (dot_vscale_r d); assumption). clear Ew.
      assert (WQ : forall i, (i < k)%nat -> dot (nth i q []) w = 0) by (intros i Hi; rewrite WU, UO by (try apply LQ; exact Hi); ring).
      assert (UV : dot v u = s * s).
      { transitivity (dot u u); [|symmetry; exact Ns]. rewrite (UD u Lu). rewrite ksum_zero by (intros l Hl; apply in_seq in Hl; rewrite (dot_comm u), UO by lia; ring). rewrite (dot_comm v). ring. }
      assert (WW : dot w w = 1). { rewrite (WU w Lw), (dot_comm w), (WU u Lu), <- Ns. field. exact Nn. }
      assert (WV : dot v w = s). { rewrite (WU v Lv), UV. field. exact Nn. }
      unfold gs_inv. rewrite app_length, <- Ek. cbn [length]. replace (k + 1)%nat with (S k) by lia. split; [|split; [|split]].
      + split; [rewrite app_length, Lq; cbn [length]; lia|]. intros r Hr. apply in_app_or in Hr as [Hr|[<-|[]]]; [apply Rq; exact Hr|exact Lw].
      + intros i j. rewrite app_length, Lq. cbn [length]. intros Hi Hj. rewrite !nth_snoc, Lq by lia.
        destruct (Nat.ltb_spec i k), (Nat.ltb_spec j k).
        * apply HO; lia.
        * rewrite WQ by lia. destruct (Nat.eqb_spec i j); [lia|reflexivity].
        * rewrite dot_comm, WQ by lia. destruct (Nat.eqb_spec i j); [lia|reflexivity].
        * rewrite WW. destruct (Nat.eqb_spec i j); [reflexivity|lia].
      + exists (fun i l => if (i <? k)%nat then (if (l <? k)%nat then T i l else 0) else if (l <? k)%nat then - (1 / s * ksum (seq 0 k) (fun m => dot v (nth m q []) * T m l)) else 1 / s).
        intros i j Hi Hj. rewrite ent_snoc, Lq, ksum_Sn by lia. rewrite ent_snoc, <- Ek, Nat.ltb_irrefl by lia. destruct (Nat.ltb_spec i k).
        * rewrite HT by lia. rewrite (ksum_ext (fun l => T i l * ent b l j) (fun l => (if (l <? k)%nat then T i l else 0) * ent (b ++ [v]) l j)); [ring|].
          intros l Hl. apply in_seq in Hl. rewrite ent_snoc, <- Ek by lia. destruct (Nat.ltb_spec l k); [reflexivity|lia].
        * rewrite Hw, Hu'. rewrite (ksum_ext (fun l => (if (l <? k)%nat then _ else _) * _) (fun l => - (1 / s) * ksum (seq 0 k) (fun m => dot v (nth m q []) * (T m l * ent b l j)))).
          2:{ intros l Hl. apply in_seq in Hl. rewrite ent_snoc, <- Ek by lia. destruct (Nat.ltb_spec l k); [|lia]. transitivity (- (1 / s) * (ksum (seq 0 k) (fun m => dot v (nth m q []) * T m l) * ent b l j)); [ring|]. rewrite <- ksum_scale_r. f_equal. apply ksum_ext. intros; ring. }
          rewrite ksum_scale_l, ksum_swap. rewrite (ksum_ext (fun a => ksum _ _) (fun l => dot v (nth l q []) * ent q l j)) by (intros l Hl; apply in_seq in Hl; rewrite ksum_scale_l, <- HT by lia; reflexivity). ring.
      + intros i Hi. destruct (Nat.eq_dec i k) as [->|Hik].
        * split; [intros; lia|]. rewrite !nth_snoc, <- Ek, Lq, Nat.ltb_irrefl by lia. rewrite WV. split; [exact Np|].
          intros j Hj. rewrite ent_snoc, <- Ek, Nat.ltb_irrefl, ksum_Sn by lia. rewrite nth_snoc, ent_snoc, Lq, Nat.ltb_irrefl by lia. rewrite WV, Hw, Hu'.
          rewrite (ksum_ext (fun l => dot v (nth l (q ++ [w]) []) * ent (q ++ [w]) l j) (fun l => dot v (nth l q []) * ent q l j)); [field; exact Nn|].
          intros l Hl. apply in_seq in Hl. rewrite nth_snoc, ent_snoc, Lq by lia. destruct (Nat.ltb_spec l k); [reflexivity|lia].
        * destruct (HR i) as (R1 & R2 & R3); [lia|]. rewrite !nth_snoc, <- Ek, Lq by lia. destruct (Nat.ltb_spec i k); [|lia].
          assert (BW : dot (nth i b []) w = 0).
          { rewrite dot_comm. rewrite (dot_lin d w (nth i b []) k (fun l => dot (nth i b []) (nth l q [])) q Lw (LB i ltac:(lia)) Hq) by (intros; apply R3; assumption).
            apply ksum_zero. intros l Hl. apply in_seq in Hl. rewrite dot_comm, (dot_comm w), WQ by lia. ring. }
          split; [|split; [exact R2|]].
          -- intros l Hl. rewrite nth_snoc, Lq by lia. destruct (Nat.ltb_spec l k); [apply R1; lia|exact BW].
          -- intros j Hj. rewrite ent_snoc, <- Ek, ksum_Sn by lia. destruct (Nat.ltb_spec i k); [|lia]. rewrite nth_snoc, Lq, Nat.ltb_irrefl, BW, R3 by lia.
             rewrite (ksum_ext (fun l => dot (nth i b []) (nth l (q ++ [w]) []) * ent (q ++ [w]) l j) (fun l => dot (nth i b []) (nth l q []) * ent q l j)); [ring|].
             intros l Hl. apply in_seq in Hl. rewrite nth_snoc, ent_snoc, Lq by lia. destruct (Nat.ltb_spec l k); [reflexivity|lia].
  Qed.

  (** ** Orthogonal projection *)
  Lemma projection_eq d k (b : list (list Q)) o x : rows_of k d (gram_schmidt_rn ksqrt b) -> length o = d -> length x = d ->
    length (subspace_projection ksqrt b o x) = d /\
    forall j, (j < d)%nat -> nth j (subspace_projection ksqrt b o x) 0 = nth j o 0 + ksum (seq 0 k) (fun l => dot (nth l (gram_schmidt_rn ksqrt b) []) (vsub x o) * ent (gram_schmidt_rn ksqrt b) l j).
  Proof.
    intros Hq Ho Hx. unfold subspace_projection. rewrite Ho. remember (gram_schmidt_rn ksqrt b) as q eqn:Eq. clear Eq. pose proof Hq as [Lq Rq].
    set (A := map (fun i => map (fun j => ksum q (fun q0 => nth i q0 0 * nth j q0 0)) (seq 0 d)) (seq 0 d)).
    set (IA := map (fun i => map (fun j => (if (i =? j)%nat then 1 else 0) - nth j (nth i A []) 0) (seq 0 d)) (seq 0 d)).
    assert (RA : rows_of d d A) by (split; [unfold A; rewrite map_length, seq_length; reflexivity|intros r Hr; apply in_map_iff in Hr as (i & <- & _); rewrite map_length, seq_length; reflexivity]).
    assert (RI : rows_of d d IA) by (split; [unfold IA; rewrite map_length, seq_length; reflexivity|intros r Hr; apply in_map_iff in Hr as (i & <- & _); rewrite map_length, seq_length; reflexivity]).
    assert (EA : forall i j, (i < d)%nat -> (j < d)%nat -> ent A i j = ksum (seq 0 k) (fun l => ent q l i * ent q l j)).
    { intros i j Hi Hj. unfold ent at 1, A. rewrite (nth_map_seq0 (fun i => map (fun j => ksum q (fun q0 => nth i q0 0 * nth j q0 0)) (seq 0 d))), nth_map_seq0 by assumption. rewrite (ksum_list []), Lq. reflexivity. }
    assert (EI : forall i j, (i < d)%nat -> (j < d)%nat -> ent IA i j = (if (j =? i)%nat then 1 else 0) - ent A i j).
    { intros i j Hi Hj. unfold ent at 1, IA. rewrite (nth_map_seq0 (fun i => map (fun j => (if (i =? j)%nat then 1 else 0) - nth j (nth i A []) 0) (seq 0 d))), nth_map_seq0 by assumption. rewrite Nat.eqb_sym. reflexivity. }
    assert (MA : forall y j, length y = d -> (j < d)%nat -> nth j (mat_vec A y) 0 = ksum (seq 0 k) (fun l => dot (nth l q []) y * ent q l j)).
    { intros y j Ly Hj. rewrite (mat_vec_sum d d) by assumption. rewrite (ksum_ext _ (fun m => ksum (seq 0 k) (fun l => ent q l j * (ent q l m * nth m y 0)))) by (intros m Hm; apply in_seq in Hm; rewrite EA by lia; rewrite <- ksum_scale_r; apply ksum_ext; intros; ring).
      rewrite ksum_swap. apply ksum_ext. intros l Hl. apply in_seq in Hl. rewrite ksum_scale_l. rewrite (dot_seq _ y d) by (try apply (rows_len k d); try assumption; lia). unfold ent. ring. }
    assert (LA : forall y, length (mat_vec A y) = d) by (intros; rewrite mat_vec_length; apply RA). assert (LI : forall y, length (mat_vec IA y) = d) by (intros; rewrite mat_vec_length; apply RI).
    split; [apply vadd_len; [apply LA|apply LI]|]. intros j Hj. rewrite nth_vadd by (rewrite LA, LI; reflexivity). rewrite MA by assumption.
    rewrite (mat_vec_sum d d IA o j RI Ho Hj). rewrite (ksum_ext (fun m => ent IA j m * nth m o 0) (fun m => (if (m =? j)%nat then 1 else 0) * nth m o 0 - ent A j m * nth m o 0)) by (intros m Hm; apply in_seq in Hm; rewrite EI by lia; ring).
    rewrite ksum_minus, delta_sum by exact Hj. rewrite <- (mat_vec_sum d d A o j RA Ho Hj), MA by assumption.
    rewrite (ksum_ext (fun l => dot (nth l q []) (vsub x o) * ent q l j) (fun l => dot (nth l q []) x * ent q l j - dot (nth l q []) o * ent q l j)).
    - rewrite ksum_minus. ring.
    - intros l Hl. apply in_seq in Hl. rewrite (dot_vsub_r d) by (try apply (rows_len k d); try assumption; lia). ring.
  Qed.
End GS.
