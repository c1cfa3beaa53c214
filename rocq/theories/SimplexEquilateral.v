(** The equilateral simplex: all edges have the requested length. *)
From Coq Require Import Permutation.
From Verif Require Import Base Fld FldInst LinSolve PolyEval Det Linalg VecFacts SimplexGeo SimplexFacts GramSchmidt SimplexMetric SimplexInside SimplexVolume SimplexCenters.
From Coq Require Import Field_theory Field.

Section Equi.
  Context {Q : ofld} (ksqrt : Q -> Q).
  Add Field Kfield49 : (kth Q).
  Local Open Scope fld_scope.
  Hypothesis Hsqrt : sqrt_ok ksqrt.

  Definition ip (n : nat) (vs : list (list Q)) (i j : nat) : Q := ksum (seq 0 n) (fun l => ent vs i l * ent vs j l).
  Definition eq_inv (n : nat) (s : Q) (ne : nat) (vs : list (list Q)) : Prop :=
    rows_of (S n) ne vs /\ (forall i l, (n <= l)%nat -> ent vs i l = 0) /\ (forall l, ent vs 0 l = 0) /\
    forall i j, (1 <= i <= n)%nat -> (1 <= j <= n)%nat -> ip n vs i j = if Nat.eq_dec i j then s * s else s * s / (1 + 1).
  Lemma two_neq : (1 + 1 : Q) <> 0. Proof. apply klt_neq0, two_pos. Qed.
  Lemma nth_zeros j n : nth j (repeat (0 : Q) n) 0 = 0.
  Proof. revert j. induction n as [|n IH]; intros [|j]; try reflexivity. cbn [repeat nth]. apply IH. Qed.
  Lemma ent_over m n (vs : list (list Q)) i l : rows_of m n vs -> (m <= i)%nat -> ent vs i l = 0.
  Proof. intros HV Hi. unfold ent. rewrite (nth_overflow vs) by (rewrite (proj1 HV); lia). destruct l; reflexivity. Qed.
  Lemma eq_inv_1 s ne : (1 <= ne)%nat -> eq_inv 1 s ne (map (vscale s) (unit_simplex 1 ne)).
  Proof.
    intros Hne. destruct ne as [|ne]; [lia|]. unfold unit_simplex. cbn [seq map repeat upd].
    assert (E0 : forall l, nth l (vscale s (0 :: repeat 0 ne)) 0 = 0) by (intros l; rewrite nth_vscale; change (0 :: repeat 0 ne) with (repeat (0 : Q) (S ne)); rewrite nth_zeros; ring).
    assert (E1 : forall l, nth l (vscale s (1 :: repeat 0 ne)) 0 = if (l =? 0)%nat then s else 0) by (intros [|l]; rewrite nth_vscale; cbn [nth Nat.eqb]; [ring|rewrite nth_zeros; ring]).
    split; [split; [reflexivity|intros r [<-|[<-|[]]]; apply vscale_len; cbn [length]; rewrite repeat_length; reflexivity]|]. split; [|split].
    - intros [|[|i]] l Hl; unfold ent; cbn [nth].
      + apply E0.
      + rewrite E1. destruct l; [lia|reflexivity].
      + destruct i; destruct l; reflexivity.
    - intros l. apply E0.
    - intros i j Hi Hj. assert (i = 1%nat) by lia. assert (j = 1%nat) by lia. subst i j. unfold ip. cbn [seq]. rewrite ksum_cons, ksum_nil. unfold ent. cbn [nth]. rewrite E1. cbn [Nat.eqb]. destruct (Nat.eq_dec 1 1); [ring|contradiction].
  Qed.
  Lemma ent_firstn m (vs : list (list Q)) i l : (l < m)%nat -> ent (map (firstn m) vs) i l = ent vs i l.
  Proof. intros H. unfold ent. replace (@nil Q) with (firstn m (@nil Q)) at 1 by (destruct m; reflexivity). rewrite map_nth. apply nth_firstn_lt. exact H. Qed.
  Lemma eq_inv_step m s ne vs : (1 <= m)%nat -> (S m <= ne)%nat -> eq_inv m s ne vs ->
    let c := centroid (map (firstn m) vs) in
    let h := ksqrt (s * s - kpow (norm2 ksqrt (vsub c (repeat 0 m))) 2) in
    eq_inv (S m) s ne (vs ++ [c ++ h :: repeat 0 (ne - S m)]).
  Proof.
    intros Hm Hne (HV & HZ & H0 & HP). cbv zeta. assert (HV' : rows_of (S m) m (map (firstn m) vs)).
    { split; [rewrite map_length; apply HV|]. intros r Hr. apply in_map_iff in Hr as (v & <- & Hv). rewrite firstn_length, (proj2 HV v Hv). lia. }
    destruct (centroid_spec m m _ HV') as [Lc Hc]. set (c := centroid _) in *.
    assert (Hc' : forall l, (l < m)%nat -> nth l c 0 = 1 / kofnat (S m) * ksum (seq 0 (S m)) (fun i => ent vs i l)) by (intros l Hl; rewrite Hc; f_equal; apply ksum_ext; intros i _; apply ent_firstn; exact Hl). clearbody c. clear Hc.
    assert (NM : @kofnat Q (S m) <> 0) by (apply kofnat_neq; discriminate). pose proof two_neq as N2.
    (* products with the center *)
    assert (CV : forall j, (1 <= j <= m)%nat -> ksum (seq 0 m) (fun l => nth l c 0 * ent vs j l) = s * s / (1 + 1)).
    { intros j Hj. rewrite (ksum_ext _ (fun l => 1 / kofnat (S m) * ksum (seq 0 (S m)) (fun i => ent vs i l * ent vs j l))) by (intros l Hl; apply in_seq in Hl; rewrite Hc' by lia; rewrite ksum_scale_r; ring).
      rewrite ksum_scale_l, ksum_swap. change (1 / kofnat (S m) * ksum (seq 0 (S m)) (fun i => ip m vs i j) = s * s / (1 + 1)). rewrite ksum_S0. assert (I0 : ip m vs 0 j = 0) by (unfold ip; rewrite (ksum_ext _ (fun _ => 0)) by (intros l _; rewrite H0; ring); apply ksum_zero; reflexivity). rewrite I0.
      rewrite (ksum_ext _ (fun i => s * s / (1 + 1) + (if Nat.eq_dec i (j - 1) then s * s / (1 + 1) else 0))).
      - rewrite ksum_plus, (ksum_delta Nat.eq_dec (fun _ => s * s / (1 + 1))) by (try apply seq_NoDup; apply in_seq; lia). rewrite ksum_const, seq_length, kofnat_S. rewrite kofnat_S in NM. field. split; [exact N2|exact NM].
      - intros i Hi. apply in_seq in Hi. rewrite HP by lia. destruct (Nat.eq_dec (S i) j), (Nat.eq_dec i (j - 1)); try lia; field; exact N2. }
    set (cc := ksum (seq 0 m) (fun l => nth l c 0 * nth l c 0)).
    assert (CC : cc = kofnat m / kofnat (S m) * (s * s / (1 + 1))).
    { unfold cc. rewrite (ksum_ext _ (fun l => 1 / kofnat (S m) * ksum (seq 0 (S m)) (fun i => nth l c 0 * ent vs i l))) by (intros l Hl; apply in_seq in Hl; rewrite ksum_scale_l; rewrite (Hc' l) at 2 by lia; ring).
      rewrite ksum_scale_l, ksum_swap, ksum_S0. rewrite (ksum_ext (fun l => nth l c 0 * ent vs 0 l) (fun _ => 0)) by (intros l _; rewrite H0; ring). rewrite ksum_zero by reflexivity. rewrite (ksum_ext _ (fun _ => s * s / (1 + 1))) by (intros i Hi; apply in_seq in Hi; apply CV; lia). rewrite ksum_const, seq_length. field. split; [exact N2|exact NM]. }
    assert (NC : kpow (norm2 ksqrt (vsub c (repeat 0 m))) 2 = cc).
    { cbn [kpow]. transitivity (norm2 ksqrt (vsub c (repeat 0 m)) * norm2 ksqrt (vsub c (repeat 0 m))); [ring|]. rewrite (norm_sq ksqrt Hsqrt), (dot_seq _ _ m) by (apply vsub_len; [exact Lc|apply repeat_length]). apply ksum_ext. intros l Hl. rewrite nth_vsub, nth_zeros by (rewrite repeat_length; exact Lc). ring. }
    rewrite NC. set (h := ksqrt (s * s - cc)).
    assert (HH : h * h = s * s - cc).
    { apply Hsqrt. rewrite CC. assert (E : s * s - kofnat m / kofnat (S m) * (s * s / (1 + 1)) = (kofnat m + (1 + 1)) / (kofnat (S m) * (1 + 1)) * (s * s)) by (rewrite kofnat_S in *; field; split; [exact N2|exact NM]). rewrite E.
      apply kle_mul; [|apply ksq_nonneg]. apply klt_le, klt_div; [|apply klt_mul; [apply kofnat_pos; discriminate|apply two_pos]]. replace (kofnat m + (1 + 1)) with (@kofnat Q (S (S m))) by (rewrite !kofnat_S; ring). apply kofnat_pos. discriminate. }
    set (w := c ++ h :: repeat 0 (ne - S m)). assert (Lw : length w = ne) by (unfold w; rewrite app_length, Lc; cbn [length]; rewrite repeat_length; lia).
    assert (W1 : forall l, (l < m)%nat -> nth l w 0 = nth l c 0) by (intros l Hl; unfold w; apply app_nth1; lia).
    assert (W2 : nth m w 0 = h) by (unfold w; rewrite app_nth2 by lia; rewrite Lc, Nat.sub_diag; reflexivity).
    assert (W3 : forall l, (S m <= l)%nat -> nth l w 0 = 0) by (intros l Hl; unfold w; rewrite app_nth2 by lia; rewrite Lc; destruct (l - m)%nat eqn:E; [lia|cbn [nth]; apply nth_zeros]).
    assert (EV : forall i l, (i <= m)%nat -> ent (vs ++ [w]) i l = ent vs i l) by (intros i l Hi; rewrite ent_snoc by (rewrite (proj1 HV); lia); rewrite (proj1 HV); destruct (Nat.ltb_spec i (S m)); [reflexivity|lia]).
    assert (EW : forall l, ent (vs ++ [w]) (S m) l = nth l w 0) by (intros l; rewrite ent_snoc by (rewrite (proj1 HV); lia); rewrite (proj1 HV), Nat.ltb_irrefl; reflexivity).
    assert (HVw : rows_of (S (S m)) ne (vs ++ [w])). { split; [rewrite app_length, (proj1 HV); cbn [length]; lia|]. intros r Hr. apply in_app_or in Hr as [Hr|[<-|[]]]; [apply HV; exact Hr|exact Lw]. }
    split; [exact HVw|]. split; [|split].
    - intros i l Hl. destruct (Nat.lt_trichotomy i (S m)) as [Hi|[->|Hi]]; [rewrite EV by lia; apply HZ; lia|rewrite EW; apply W3; exact Hl|apply (ent_over (S (S m)) ne); [exact HVw|lia]].
    - intros l. rewrite EV by lia. apply H0.
    - intros i j Hi Hj. unfold ip. rewrite ksum_Sn. destruct (Nat.eq_dec i (S m)) as [->|Ni]; destruct (Nat.eq_dec j (S m)) as [->|Nj].
      + destruct (Nat.eq_dec (S m) (S m)); [|contradiction]. rewrite !EW, W2, HH. rewrite (ksum_ext _ (fun l => nth l c 0 * nth l c 0)) by (intros l Hl; apply in_seq in Hl; rewrite EW, W1 by lia; reflexivity). fold cc. ring.
      + destruct (Nat.eq_dec (S m) j); [lia|]. rewrite (EV j m) by lia. rewrite HZ by lia. rewrite (ksum_ext _ (fun l => nth l c 0 * ent vs j l)) by (intros l Hl; apply in_seq in Hl; rewrite EW, EV, W1 by lia; reflexivity). rewrite CV by lia. ring.
      + destruct (Nat.eq_dec i (S m)); [lia|]. rewrite (EV i m) by lia. rewrite HZ by lia. rewrite (ksum_ext _ (fun l => nth l c 0 * ent vs i l)) by (intros l Hl; apply in_seq in Hl; rewrite EW, EV, W1 by lia; ring). rewrite CV by lia. ring.
      + rewrite (EV i m), (HZ i m) by lia. rewrite (ksum_ext _ (fun l => ent vs i l * ent vs j l)) by (intros l Hl; rewrite !EV by lia; reflexivity). fold (ip m vs i j). rewrite HP by lia. ring.
  Qed.
  Lemma equilateral_inv s ne : forall n, (1 <= n <= ne)%nat -> exists vs, equilateral ksqrt n s ne = Ok vs /\ eq_inv n s ne vs.
  Proof.
    induction n as [|m IH]; intros Hn; [lia|]. destruct m as [|m].
    - exists (map (vscale s) (unit_simplex 1 ne)). split; [reflexivity|]. apply eq_inv_1. lia.
    - destruct (IH ltac:(lia)) as (vs & E & HI). exists (vs ++ [centroid (map (firstn (S m)) vs) ++ ksqrt (s * s - kpow (norm2 ksqrt (vsub (centroid (map (firstn (S m)) vs)) (repeat 0 (S m)))) 2) :: repeat 0 (ne - S (S m))]).
      split; [|apply eq_inv_step; [lia|lia|exact HI]]. change (equilateral ksqrt (S (S m)) s ne) with (let* vs := equilateral ksqrt (S m) s ne in let c := centroid (map (firstn (S m)) vs) in let h := ksqrt (s * s - kpow (norm2 ksqrt (vsub c (repeat 0 (S m)))) 2) in Ok (vs ++ [c ++ h :: repeat 0 (ne - S (S m))])). rewrite E. reflexivity.
  Qed.
  Lemma ip_dot n s ne vs i j : (n <= ne)%nat -> eq_inv n s ne vs -> (i <= n)%nat -> (j <= n)%nat -> dot (nth i vs []) (nth j vs []) = ip n vs i j.
  Proof.
    intros Hne (HV & HZ & _) Hi Hj. rewrite (dot_seq _ _ ne) by (apply (rows_len (S n) ne); [exact HV|lia]). unfold ip. replace ne with (n + (ne - n))%nat at 1 by lia. rewrite seq_app, ksum_app. cbn [Nat.add].
    assert (T : ksum (seq n (ne - n)) (fun j0 => nth j0 (nth i vs []) 0 * nth j0 (nth j vs []) 0) = 0) by (apply ksum_zero; intros l Hl; apply in_seq in Hl; change (ent vs i l * ent vs j l = 0); rewrite HZ by lia; ring).
    rewrite T. unfold ent. ring.
  Qed.
  Lemma ip_sym n vs i j : ip n vs i j = ip n vs j i. Proof. apply ksum_ext. intros. ring. Qed.
  Lemma norm_of_sq (v : list Q) s : kle 0 s -> dot v v = s * s -> norm2 ksqrt v = s.
  Proof. intros Hs E. apply square_inj; [apply norm_nn; exact Hsqrt|exact Hs|]. rewrite (norm_sq ksqrt Hsqrt). exact E. Qed.
  Theorem equilateral_spec n s ne : (1 <= n <= ne)%nat -> kle 0 s ->
    exists vs, equilateral ksqrt n s ne = Ok vs /\ rows_of (S n) ne vs /\ (forall i j, (i <= n)%nat -> (j <= n)%nat -> i <> j -> norm2 ksqrt (vsub (nth i vs []) (nth j vs [])) = s) /\ (s <> 0 -> affine_independent ne vs).
  Proof.
    intros Hn Hs. destruct (equilateral_inv s ne n Hn) as (vs & E & HI). pose proof HI as (HV & HZ & H0 & HP). exists vs. split; [exact E|]. split; [exact HV|]. pose proof two_neq as N2.
    assert (I0 : forall j, ip n vs 0 j = 0) by (intros j; unfold ip; rewrite (ksum_ext _ (fun _ => 0)) by (intros l _; rewrite H0; ring); apply ksum_zero; reflexivity). split.
    - intros i j Hi Hj Hij. apply norm_of_sq; [exact Hs|]. change (sqd (nth i vs []) (nth j vs []) = s * s). rewrite (sqd_expand ne) by (apply (rows_len (S n) ne); [exact HV|lia]). rewrite !(ip_dot n s ne) by (try exact HI; lia).
      destruct i as [|i]; destruct j as [|j]; try lia.
      + rewrite !I0. rewrite HP by lia. destruct (Nat.eq_dec (S j) (S j)); [ring|contradiction].
      + rewrite (ip_sym n vs (S i) 0), !I0. rewrite HP by lia. destruct (Nat.eq_dec (S i) (S i)); [ring|contradiction].
      + rewrite !HP by lia. destruct (Nat.eq_dec (S i) (S i)), (Nat.eq_dec (S j) (S j)), (Nat.eq_dec (S i) (S j)); try contradiction; try lia. field. exact N2.
    - intros Ns. apply (edges_affine_independent n ne); [apply HV|]. intros a Ha.
      assert (D : s * s <> 0) by (apply kmul_neq; exact Ns).
      assert (G : forall j, (j < n)%nat -> ksum (seq 0 n) a + a j = 0).
      { intros j Hj. assert (Z : ksum (seq 0 n) (fun l => a l * ip n vs (S l) (S j)) = 0).
        { transitivity (ksum (seq 0 n) (fun q => ksum (seq 0 n) (fun l => a l * edge vs l q) * ent vs (S j) q)).
          - rewrite (ksum_ext (fun q => ksum (seq 0 n) (fun l => a l * edge vs l q) * ent vs (S j) q) (fun q => ksum (seq 0 n) (fun l => a l * (ent vs (S l) q * ent vs (S j) q)))).
            + rewrite ksum_swap. apply ksum_ext. intros l _. unfold ip. rewrite <- ksum_scale_l. reflexivity.
            + intros q _. rewrite <- ksum_scale_r. apply ksum_ext. intros l _. unfold edge. rewrite (H0 q). ring.
          - rewrite (ksum_ext _ (fun _ => 0)) by (intros q Hq; apply in_seq in Hq; rewrite Ha by lia; ring). apply ksum_zero. reflexivity. }
        rewrite (ksum_ext _ (fun l => s * s / (1 + 1) * a l + (if Nat.eq_dec l j then s * s / (1 + 1) * a l else 0))) in Z.
        2:{ intros l Hl. apply in_seq in Hl. rewrite HP by lia. destruct (Nat.eq_dec (S l) (S j)), (Nat.eq_dec l j); try lia; field; exact N2. }
        rewrite ksum_plus, ksum_scale_l, (ksum_delta Nat.eq_dec (fun l => s * s / (1 + 1) * a l)) in Z by (try apply seq_NoDup; apply in_seq; lia).
        transitivity ((1 + 1) / (s * s) * (s * s / (1 + 1) * ksum (seq 0 n) a + s * s / (1 + 1) * a j)); [|rewrite Z; ring]. field. split; [exact N2|exact Ns]. }
      assert (S0 : ksum (seq 0 n) a = 0).
      { assert (T : kofnat (S n) * ksum (seq 0 n) a = 0).
        { rewrite kofnat_S. transitivity (ksum (seq 0 n) (fun j => ksum (seq 0 n) a + a j)); [rewrite ksum_plus, ksum_const, seq_length; ring|]. rewrite (ksum_ext _ (fun _ => 0)) by (intros j Hj; apply in_seq in Hj; apply G; lia). apply ksum_zero. reflexivity. }
        destruct (kdec (ksum (seq 0 n) a) 0) as [|N]; [assumption|]. exfalso. apply (kmul_neq (kofnat (S n)) _) in T; [exact T|apply kofnat_neq; discriminate|exact N]. }
      intros i Hi. specialize (G i Hi). rewrite S0 in G. transitivity (0 + a i); [ring|exact G].
  Qed.
End Equi.
