(** The Gram matrix of the Bernstein basis is regular. *)
From Coq Require Import Reals Lra Field_theory Field.
From Coquelicot Require Import Coquelicot.
From Verif Require Import Base MultiIndex MultiIndexFacts MultiCapFacts MultiIndexCache Fld FldInst CodeGen CodeGenFacts LinSolve MultiCoef MultiCoefFacts LagrangeCache Unisolv Poly PolyFacts LagFacts PolyEval PolyOps PolyOpsB PolyDeriv PolyObj IntegralCache Integrate IntFacts SimplexInt SimplexPos IntReal IntPos HasInt QHom.

Section Gram.
  Context {F : fld}.
  Add Field Kfield23 : (kth F).
  Local Open Scope fld_scope.

  Lemma mpow_scale (y : list F) t : forall mu, length y = length mu -> mpow (map (fun v => v * t) y) mu = mpow y mu * kpow t (nsum mu).
  Proof.
    induction y as [|v y IH]; intros [|a mu] E; try discriminate; [cbn; ring|]. injection E as E. cbn [map mpow]. rewrite nsum_cons, (IH mu E), kpow_mul_base, kpow_add. ring.
  Qed.
  Lemma ksum_pt_nat m nu : length nu = m -> ksum (pt (repeat (fun k => kofnat (F := F) k) m) nu) (fun v => v) = kofnat (nsum nu).
  Proof.
    revert nu. induction m as [|m IH]; intros [|a nu] E; try discriminate; [reflexivity|]. injection E as E. cbn [repeat]. unfold pt in *. cbn [combine map fst snd]. rewrite ksum_cons, (IH nu E), nsum_cons, kofnat_add. reflexivity.
  Qed.
  Lemma pt_length m (f : nat -> F) nu : length nu = m -> length (pt (repeat f m) nu) = m.
  Proof. intros E. unfold pt. rewrite map_length, combine_length, repeat_length. lia. Qed.
  (** Bernstein polynomials are linearly independent. *)
  Theorem bern_independent m r (c : list nat -> F) : (forall x, length x = m -> ksum (all_mi m r) (fun nu => c nu * bern r nu x) = 0) -> forall nu, In nu (all_mi m r) -> c nu = 0.
  Proof.
    intros H. assert (U : forall nu, In nu (all_mi m r) -> c nu * M r nu = 0).
    { apply (unisolvence m r (repeat (fun k => kofnat k) m) (repeat_length _ _)) with (c := fun nu => c nu * M r nu).
      - intros f Hf. apply repeat_spec in Hf. rewrite Hf. apply kofnat_inj_fun.
      - intros nu N1 _. set (y := pt (repeat (fun k => kofnat (F := F) k) m) nu). set (s := kofnat (F := F) (S (nsum nu))). assert (Hs : s <> 0) by (apply kofnat_neq; discriminate).
        assert (Ly : length y = m) by (apply pt_length, N1). pose proof (H (map (fun v => v * (1 / s)) y) ltac:(rewrite map_length; exact Ly)) as E.
        assert (EB : bary0 (map (fun v => v * (1 / s)) y) = 1 / s).
        { unfold bary0. rewrite ksum_map, ksum_scale_r. unfold y. rewrite ksum_pt_nat by exact N1. unfold s in *. change (kofnat (F := F) (S (nsum nu))) with (1 + kofnat (F := F) (nsum nu)) in *. field. exact Hs. }
        rewrite (ksum_ext _ (fun mu => c mu * M r mu * mpow y mu * kpow (1 / s) r)) in E.
        + rewrite ksum_scale_r in E. apply (kmul_cancel (kpow (1 / s) r)); [apply kpow_neq; intros E0; apply (@k1_neq_0 F); transitivity (1 / s * s); [field; exact Hs|rewrite E0; ring]|]. transitivity (0 : F); [|ring]. rewrite <- E. ring.
        + intros mu Hmu. apply in_all_mi in Hmu as [M1 M2]. unfold bern. rewrite EB, mpow_scale by congruence. replace (kpow (1 / s) r) with (kpow (1 / s) (nsum mu) * kpow (1 / s) (r - nsum mu)); [ring|]. rewrite <- kpow_add. f_equal. lia. }
    intros nu Hnu. apply (kmul_cancel (M r nu)); [apply M_neq|]. transitivity (0 : F); [rewrite <- (U nu Hnu)|]; ring.
  Qed.

  (** The entries of the Gram matrix *)
  Definition gram (m r : nat) (mu nu : list nat) : F :=
    M r mu * M r nu / M (r + r) (mi_add mu nu) * (kofnat (fact (r + r)) / kofnat (fact (r + r + m))).
  Lemma gram_int m r mu nu : In mu (all_mi m r) -> In nu (all_mi m r) -> has_int m (fun x => bern r mu x * bern r nu x) (gram m r mu nu).
  Proof.
    intros Hmu Hnu. apply in_all_mi in Hmu as [A1 A2], Hnu as [B1 B2]. assert (L : length (mi_add mu nu) = m) by (rewrite mi_add_length; congruence). assert (S : nsum (mi_add mu nu) = (nsum mu + nsum nu)%nat) by (apply mi_add_sum; congruence).
    pose proof (has_int_bern (F := F) (r + r) (mi_add mu nu) ltac:(lia)) as H. rewrite L in H. apply (has_int_scal m _ _ (M r mu * M r nu / M (r + r) (mi_add mu nu))) in H. unfold gram. revert H. apply has_int_ext. intros x Hx.
    unfold bern. rewrite mpow_add by congruence. replace (r + r - nsum (mi_add mu nu))%nat with ((r - nsum mu) + (r - nsum nu))%nat by lia. rewrite kpow_add. field. apply M_neq.
  Qed.
  Lemma gram_sym m r mu nu : gram m r mu nu = gram m r nu mu.
  Proof. unfold gram. replace (mi_add nu mu) with (mi_add mu nu); [field; split; [apply kfact_neq|apply M_neq]|]. unfold mi_add. clear. revert nu. induction mu as [|a mu IH]; intros [|b nu]; try reflexivity. cbn [combine map fst snd]. rewrite IH. f_equal. lia. Qed.
  (** The integral of a product of two polynomials in Bernstein form *)
  Lemma gram_form m r (c d : list nat -> F) : has_int m (fun x => ksum (all_mi m r) (fun nu => c nu * bern r nu x) * ksum (all_mi m r) (fun nu => d nu * bern r nu x))
    (ksum (all_mi m r) (fun mu => c mu * ksum (all_mi m r) (fun nu => gram m r mu nu * d nu))).
  Proof.
    apply (has_int_ext m (fun x => ksum (all_mi m r) (fun mu => ksum (all_mi m r) (fun nu => (c mu * d nu) * (bern r mu x * bern r nu x))))).
    - intros x _. rewrite ksum_mul. apply ksum_ext. intros mu _. apply ksum_ext. intros nu _. ring.
    - apply (has_int_sum m (all_mi m r) (fun mu x => ksum (all_mi m r) (fun nu => (c mu * d nu) * (bern r mu x * bern r nu x)))). intros mu Hmu.
      rewrite <- ksum_scale_l. apply (has_int_sum m (all_mi m r) (fun nu x => (c mu * d nu) * (bern r mu x * bern r nu x))). intros nu Hnu.
      replace (c mu * (gram m r mu nu * d nu)) with ((c mu * d nu) * gram m r mu nu) by ring. apply has_int_scal. apply gram_int; assumption.
  Qed.
  Definition gram_row (m r : nat) (mu : list nat) : list F := map (gram m r mu) (all_mi m r).
  Lemma dot_map_l (g : list nat -> F) m r (v : list F) : length v = get_dimension r m -> dot (map g (all_mi m r)) v = ksum (all_mi m r) (fun nu => g nu * cf m r v nu).
  Proof.
    intros Hv. rewrite <- (map_cf m r v Hv) at 1. generalize (cf m r v). intros h. unfold dot. generalize (all_mi m r). induction l as [|a l IH]; [reflexivity|]. cbn [map combine]. rewrite !ksum_cons, IH. reflexivity.
  Qed.
End Gram.

(** [has_int] over the real numbers *)
Lemma has_int_real m (f : list RF -> RF) (v : RF) : has_int m f v -> simplex_int m 1 f v.
Proof.
  intros (r & a & Ha & ->). refine (simplex_int_ext _ _ _ _ _ Rle_0_1 _ (int_ksum m (all_mi m r) (fun nu x => (a nu : R) * mpow (F := RF) x nu)%R (fun nu => (a nu : R) * mint (F := RF) nu)%R _)).
  - intros x Hx _ _. symmetry. apply Ha. exact Hx.
  - intros nu Hnu. apply in_all_mi in Hnu as [N1 _]. apply simplex_int_scal; [lra|]. rewrite <- N1. apply mint_int.
Qed.
Definition regular (F : fld) (m r : nat) : Prop := forall v : list F, length v = get_dimension r m -> (forall mu, In mu (all_mi m r) -> dot (gram_row m r mu) v = k0) -> forall nu, In nu (all_mi m r) -> cf m r v nu = k0.
Lemma gram_regular_R m r : regular RF m r.
Proof.
  intros v Hv H. destruct (bval_monomial (F := RF) m r v) as (d & Hd & Hval).
  assert (HI : has_int (F := RF) m (fun x => kmul (bval m r v x) (bval m r v x)) k0).
  { pose proof (gram_form (F := RF) m r (cf m r v) (cf m r v)) as G. match type of G with has_int _ _ ?w => replace w with (@k0 RF) in G; [exact G|] end.
    symmetry. apply ksum_zero. intros mu Hmu. specialize (H mu Hmu). unfold gram_row in H. rewrite dot_map_l in H by exact Hv. rewrite H. apply Rmult_0_r. }
  apply has_int_real in HI. assert (Z : forall mu, In mu (all_mi m r) -> cf (F := RF) m r d mu = k0).
  { apply sq_int_zero. refine (simplex_int_ext _ _ _ _ _ Rle_0_1 _ HI). intros x Hx _ _. rewrite <- (Hval x Hx). reflexivity. }
  apply bern_independent. intros x Hx. transitivity (bval (F := RF) m r v x); [reflexivity|]. rewrite (Hval x Hx). apply ksum_zero. intros mu Hmu. rewrite (Z mu Hmu). apply Rmult_0_l.
Qed.

Section Transfer.
  Context {F : fld}.
  Add Field Kfield24 : (kth F).
  Local Open Scope fld_scope.
  Lemma phi_M r a : phi (F := F) (M r a) = M r a. Proof. apply phi_nat. Qed.
  Lemma phi_gram m r mu nu : phi (F := F) (gram m r mu nu) = gram m r mu nu.
  Proof. unfold gram. rewrite phi_mul, !phi_div, phi_mul, !phi_M, !phi_nat; [reflexivity|apply kfact_neq|apply M_neq]. Qed.
  Lemma phi_gram_row m r mu : map (phi (F := F)) (gram_row m r mu) = gram_row m r mu.
  Proof. unfold gram_row. rewrite map_map. apply map_ext. intros nu. apply phi_gram. Qed.
  Lemma phi_cf m r (v : list QcF) nu : cf m r (map (phi (F := F)) v) nu = phi (cf m r v nu).
  Proof. unfold cf, cfl. destruct (pos (all_mi m r) nu); [apply phi_nth|symmetry; apply phi_0]. Qed.
End Transfer.

Lemma regular_Q m r : regular QcF m r.
Proof.
  intros v Hv H nu Hnu. apply (phi_inj0 (F := RF)). rewrite <- phi_cf. apply gram_regular_R; [rewrite map_length; exact Hv| |exact Hnu].
  intros mu Hmu. rewrite <- phi_gram_row, <- phi_dot, (H mu Hmu). apply phi_0.
Qed.

Section Solve.
  Context {F : fld}.
  Add Field Kfield25 : (kth F).
  Local Open Scope fld_scope.
  Lemma get_dimension_pos r m : (0 < get_dimension r m)%nat.
  Proof. rewrite dim_all_mi. assert (H : In (repeat 0%nat m) (all_mi m r)). { apply in_all_mi. split; [apply repeat_length|]. assert (nsum (repeat 0%nat m) = 0%nat) as ->; [|lia]. induction m; [reflexivity|]. cbn [repeat]. rewrite nsum_cons, IHm. reflexivity. } destruct (all_mi m r); [destruct H|cbn; lia]. Qed.
  Lemma regular_kernel m r (v : list F) : regular F m r -> length v = get_dimension r m -> (forall row, In row (map (gram_row m r) (all_mi m r)) -> dot row v = 0) -> v = repeat 0 (get_dimension r m).
  Proof.
    intros HR Hv H. rewrite <- (map_cf m r v Hv). rewrite (map_ext_in _ (fun _ => 0)).
    - rewrite dim_all_mi. generalize (all_mi m r). induction l as [|a l IH]; [reflexivity|]. cbn [map length repeat]. rewrite IH. reflexivity.
    - apply HR; [exact Hv|]. intros mu Hmu. apply H. apply in_map. exact Hmu.
  Qed.
  Lemma gram_row_length m r mu : length (gram_row (F := F) m r mu) = get_dimension r m.
  Proof. unfold gram_row. rewrite map_length. symmetry. apply dim_all_mi. Qed.
  (** Solutions of the linear systems with the Gram matrix *)
  Lemma gram_solve m r k (b : list (list F)) : regular F m r -> length b = get_dimension r m -> (forall row, In row b -> length row = k) ->
    exists x, solve (map (gram_row m r) (all_mi m r)) b = Ok x /\ length x = get_dimension r m /\ (forall row, In row x -> length row = k) /\
      forall i j, (i < get_dimension r m)%nat -> dot (nth i (map (gram_row m r) (all_mi m r)) []) (mat_col x j) = nth j (nth i b []) 0.
  Proof.
    intros HR Hb Hk. apply solve_ok; try assumption.
    - rewrite map_length. symmetry. apply dim_all_mi.
    - intros row Hrow. apply in_map_iff in Hrow as (mu & <- & _). apply gram_row_length.
    - pose proof (get_dimension_pos r m). lia.
    - intros v Hv H. apply regular_kernel; assumption.
  Qed.
End Solve.

(** A right inverse over the rational numbers, and in every field *)
Lemma gram_inverse_Q m r tau : In tau (all_mi m r) -> exists X : list QcF, length X = get_dimension r m /\ forall mu, In mu (all_mi m r) -> dot (gram_row m r mu) X = if mi_dec mu tau then k1 else k0.
Proof.
  intros Ht. destruct (gram_solve (F := QcF) m r 1 (map (fun mu => [if mi_dec mu tau then k1 else k0]) (all_mi m r)) (regular_Q m r)) as (x & _ & Hx & _ & HX).
  - rewrite map_length. symmetry. apply dim_all_mi.
  - intros row Hrow. apply in_map_iff in Hrow as (mu & <- & _). reflexivity.
  - exists (mat_col x 0). split; [unfold mat_col; rewrite map_length; exact Hx|]. intros mu Hmu. apply In_nth with (d := []) in Hmu as (i & Hi & <-). rewrite <- dim_all_mi in Hi. specialize (HX i 0%nat Hi).
    rewrite dim_all_mi in Hi. rewrite (map_nth_map _ _ ([] : list nat)) in HX by exact Hi. rewrite (map_nth_map _ _ ([] : list nat)) in HX by exact Hi. exact HX.
Qed.
Section Reg.
  Context {F : fld}.
  Add Field Kfield26 : (kth F).
  Local Open Scope fld_scope.
  Lemma gram_inverse m r tau : In tau (all_mi m r) -> exists X : list F, length X = get_dimension r m /\ forall mu, In mu (all_mi m r) -> dot (gram_row m r mu) X = if mi_dec mu tau then 1 else 0.
  Proof.
    intros Ht. destruct (gram_inverse_Q m r tau Ht) as (X & HX & H). exists (map phi X). split; [rewrite map_length; exact HX|]. intros mu Hmu. rewrite <- phi_gram_row, <- phi_dot, (H mu Hmu). destruct (mi_dec mu tau); [apply phi_1|apply phi_0].
  Qed.
  (** A left inverse *)
  Lemma gram_left m r tau (X : list F) : length X = get_dimension r m -> In tau (all_mi m r) -> (forall mu, In mu (all_mi m r) -> dot (gram_row m r mu) X = if mi_dec mu tau then 1 else 0) ->
    forall p : list nat -> F, ksum (all_mi m r) (fun mu => cf m r X mu * ksum (all_mi m r) (fun nu => gram m r mu nu * p nu)) = p tau.
  Proof.
    intros HX Ht H p. rewrite (ksum_ext _ (fun mu => ksum (all_mi m r) (fun nu => p nu * (gram m r nu mu * cf m r X mu)))).
    - rewrite ksum_swap. rewrite (ksum_ext _ (fun nu => if mi_dec nu tau then p tau else 0)).
      + apply (ksum_delta mi_dec (fun _ => p tau)); [apply NoDup_all_mi|exact Ht].
      + intros nu Hnu. rewrite ksum_scale_l. specialize (H nu Hnu). unfold gram_row in H. rewrite dot_map_l in H by exact HX. rewrite H. destruct (mi_dec nu tau) as [->|]; ring.
    - intros mu _. rewrite <- ksum_scale_l. apply ksum_ext. intros nu _. rewrite (gram_sym m r nu mu). ring.
  Qed.
  Theorem gram_regular m r : regular F m r.
  Proof.
    intros v Hv H nu Hnu. destruct (gram_inverse m r nu Hnu) as (X & HX & HXe). rewrite <- (gram_left m r nu X HX Hnu HXe (cf m r v)). apply ksum_zero. intros mu Hmu.
    specialize (H mu Hmu). unfold gram_row in H. rewrite dot_map_l in H by exact Hv. rewrite H. ring.
  Qed.
End Reg.
