(** The sums of the coordinates of the vertices of all triangles or tetrahedra
    of the meshes of the corner simplex of size [n]. *)
From Coq Require Import Permutation.
From Verif Require Import Base MultiIndex MultiIndexFacts Fld Mesh MeshFacts MeshNum.

Definition phi (w : nat -> nat) (m : nat) : nat := cum (fun j => w j * (m - j)) m.
Lemma phi_0 w : phi w 0 = 0. Proof. unfold phi. rewrite cum_0. lia. Qed.
Lemma cum_ext f g m : (forall j, j <= m -> f j = g j) -> cum f m = cum g m.
Proof. intros H. unfold cum. apply nsum_ext. intros j Hj. apply in_seq in Hj. apply H. lia. Qed.
Lemma cum_plus f g m : cum (fun j => f j + g j) m = cum f m + cum g m.
Proof. induction m as [|m IH]; [rewrite !cum_0; reflexivity|]. rewrite !cum_S, IH. lia. Qed.
Lemma phi_S w m : phi w (S m) = phi w m + cum w m.
Proof. unfold phi. rewrite cum_S, Nat.sub_diag, Nat.mul_0_r, Nat.add_0_r, <- cum_plus. apply cum_ext. intros j Hj. rewrite Nat.sub_succ_l by exact Hj. lia. Qed.
Lemma sum_first k n w : nsum (map (fun mi => w (n - nsum mi) * nth 0 mi 0) (all_mi (S k) n)) = nsum (map (fun mi => phi w (n - nsum mi)) (all_mi k n)).
Proof.
  cbn [all_mi]. rewrite map_flat_map, nsum_flat_map. apply nsum_ext. intros t Ht. apply in_all_mi in Ht as [_ Ht]. rewrite map_map. unfold phi. rewrite <- cum_rev. apply nsum_ext. intros a Ha. apply in_seq in Ha. rewrite nsum_cons. cbn [nth]. f_equal; [f_equal|]; lia.
Qed.
Lemma nsum_perm l l' : Permutation l l' -> nsum l = nsum l'.
Proof. induction 1; rewrite ?nsum_cons in *; lia. Qed.
(** a permutation of the entries *)
Lemma sum_swap k n (s : list nat -> list nat) (f : list nat -> nat) : (forall c, length c = k -> length (s c) = k /\ nsum (s c) = nsum c /\ s (s c) = c) ->
  nsum (map (fun c => f (s c)) (all_mi k n)) = nsum (map f (all_mi k n)).
Proof.
  intros H. rewrite <- (map_map s f). apply nsum_perm, Permutation_map. apply NoDup_Permutation; [|apply NoDup_all_mi|].
  - assert (G : forall l, (forall c, In c l -> length c = k) -> NoDup l -> NoDup (map s l)).
    { induction l as [|c l IH]; intros L N; cbn [map]; [constructor|]. apply NoDup_cons_iff in N as [N1 N2]. constructor; [|apply IH; [intros d Hd; apply L; right; exact Hd|exact N2]].
      intros Hc. apply in_map_iff in Hc as (d & E & Hd). apply N1. destruct (H c (L c (or_introl eq_refl))) as (_ & _ & E1). destruct (H d (L d (or_intror Hd))) as (_ & _ & E2). rewrite <- E1, <- E, E2. exact Hd. }
    apply G; [|apply NoDup_all_mi]. intros c Hc. apply in_all_mi in Hc. apply Hc.
  - intros c. rewrite in_map_iff. split.
    + intros (d & <- & Hd). apply in_all_mi in Hd as [L S]. destruct (H d L) as (A & B & _). apply in_all_mi. lia.
    + intros Hc. apply in_all_mi in Hc as [L S]. destruct (H c L) as (A & B & E). exists (s c). split; [exact E|]. apply in_all_mi. lia.
Qed.
Lemma nsum_add {A} (f g : A -> nat) l : nsum (map (fun x => f x + g x) l) = nsum (map f l) + nsum (map g l).
Proof. induction l as [|a l IH]; cbn [map]; rewrite ?nsum_cons; [reflexivity|]. lia. Qed.
Lemma nsum_mul {A} c (f : A -> nat) l : nsum (map (fun x => c * f x) l) = c * nsum (map f l).
Proof. induction l as [|a l IH]; cbn [map]; rewrite ?nsum_cons; [cbn; lia|]. lia. Qed.

(** ** Triangles: [3 a wt2 + e2] is the sum of a coordinate over the triangles of a cell *)
Definition e2 (d : nat) : nat := match d with 0 => 0 | 1 => 1 | _ => 3 end.
Lemma cum_e2 m : cum e2 m = match m with 0 => 0 | _ => 3 * m - 2 end.
Proof. induction m as [|m IH]; [reflexivity|]. rewrite cum_S, IH. destruct m; cbn [e2]; lia. Qed.
Lemma phi_wt2 m : phi wt2 (S m) = m * m.
Proof. induction m as [|m IH]; [reflexivity|]. rewrite phi_S, IH, cum_wt2. lia. Qed.
Lemma sum2_closed n : 3 * nsum (map (fun mi => wt2 (n - nsum mi) * nth 0 mi 0) (all_mi 2 n)) + nsum (map (fun mi => e2 (n - nsum mi)) (all_mi 2 n)) = n ^ 3.
Proof.
  rewrite sum_first, !sum_all_mi, !sum_all_mi_0.
  induction n as [|n IH]; [reflexivity|]. rewrite (cum_S (cum e2) n), (cum_S (phi wt2) n), cum_e2, phi_wt2. cbn [Nat.pow] in *. lia.
Qed.
Lemma sum2_coord n i : i < 2 -> 3 * nsum (map (fun mi => wt2 (n - nsum mi) * nth i mi 0) (all_mi 2 n)) + nsum (map (fun mi => e2 (n - nsum mi)) (all_mi 2 n)) = n ^ 3.
Proof.
  intros Hi. destruct i as [|[|i]]; [apply sum2_closed| |lia]. rewrite <- (sum2_closed n). do 2 f_equal. set (s := fun c : list nat => [nth 1 c 0; nth 0 c 0]).
  rewrite <- (sum_swap 2 n s (fun mi => wt2 (n - nsum mi) * nth 0 mi 0)).
  - apply nsum_ext. intros c Hc. apply in_all_mi in Hc as [L _]. destruct c as [|a [|b [|? ?]]]; try discriminate L. unfold s. cbn [nth]. do 3 f_equal. rewrite !nsum_cons. change (nsum []) with 0. lia.
  - intros c L. destruct c as [|a [|b [|? ?]]]; try discriminate L. unfold s. cbn [nth]. split; [reflexivity|]. split; [rewrite !nsum_cons; change (nsum []) with 0; lia|reflexivity].
Qed.
Definition coord2 (i : nat) (p : pt2) : nat := nth i [fst p; snd p] 0.
Theorem tri_coord_sum n i : i < 2 -> nsum (map (fun t => nsum (map (coord2 i) t)) (tri_ct n)) = n ^ 3.
Proof.
  intros Hi. rewrite <- (sum2_coord n i Hi). unfold tri_ct, ct2. rewrite flat_map_filter, map_flat_map, nsum_flat_map, tcells_all_mi, !map_map, <- nsum_mul, <- nsum_add. apply nsum_ext. intros [a b] H. apply in_tcells in H. cbn [fst snd].
  rewrite !nsum_cons. change (nsum []) with 0. rewrite Nat.add_0_r. destruct (Nat.ltb_spec (a + b) n) as [L|L].
  - destruct (Nat.ltb_spec (S (a + b)) n) as [L2|L2].
    + destruct (n - (a + b)) as [|[|d]] eqn:D; try lia. cbn [map wt2 e2]. rewrite !nsum_cons. change (nsum []) with 0. unfold T1, T2. cbn [map fst snd]. rewrite !nsum_cons. change (nsum []) with 0. destruct i as [|[|i]]; [..|lia]; unfold coord2; cbn [nth fst snd]; lia.
    + replace (n - (a + b)) with 1 by lia. cbn [map wt2 e2]. rewrite !nsum_cons. change (nsum []) with 0. unfold T1. cbn [map fst snd]. rewrite !nsum_cons. change (nsum []) with 0. destruct i as [|[|i]]; [..|lia]; unfold coord2; cbn [nth fst snd]; lia.
  - replace (n - (a + b)) with 0 by lia. reflexivity.
Qed.

(** ** Tetrahedra *)
Definition e3 (d : nat) : nat := match d with 0 => 0 | 1 => 1 | 2 => 9 | _ => 12 end.
Lemma cum_e3 m : cum e3 m = match m with 0 => 0 | 1 => 1 | _ => 12 * m - 14 end.
Proof. induction m as [|m IH]; [reflexivity|]. rewrite cum_S, IH. destruct m as [|[|m]]; cbn [e3]; lia. Qed.
Lemma cum2_e3 m : cum (cum e3) m = match m with 0 => 0 | S k => 6 * (k * k) + 4 * k + 1 end.
Proof. induction m as [|m IH]; [reflexivity|]. rewrite cum_S, IH, cum_e3. destruct m as [|[|m]]; [reflexivity|reflexivity|]. lia. Qed.
Lemma phi_wt3 m : phi wt3 (S m) = match m with 0 => 0 | S k => 3 * k * m + 1 end.
Proof. induction m as [|m IH]; [reflexivity|]. rewrite phi_S, IH, cum_wt3. destruct m as [|[|m]]; lia. Qed.
Lemma cum_phi_wt3 m : cum (phi wt3) (S m) = m ^ 3.
Proof. induction m as [|m IH]; [reflexivity|]. rewrite cum_S, IH, phi_wt3. cbn [Nat.pow]. lia. Qed.
Lemma sum3_closed n : 4 * nsum (map (fun mi => wt3 (n - nsum mi) * nth 0 mi 0) (all_mi 3 n)) + nsum (map (fun mi => e3 (n - nsum mi)) (all_mi 3 n)) = n ^ 4.
Proof.
  rewrite sum_first, !sum_all_mi, !sum_all_mi_0.
  induction n as [|n IH]; [reflexivity|]. rewrite (cum_S (cum (cum e3)) n), (cum_S (cum (phi wt3)) n), cum2_e3, cum_phi_wt3. cbn [Nat.pow] in *. lia.
Qed.
Lemma sum3_coord n i : i < 3 -> 4 * nsum (map (fun mi => wt3 (n - nsum mi) * nth i mi 0) (all_mi 3 n)) + nsum (map (fun mi => e3 (n - nsum mi)) (all_mi 3 n)) = n ^ 4.
Proof.
  intros Hi. destruct i as [|i]; [apply sum3_closed|]. rewrite <- (sum3_closed n). do 2 f_equal.
  set (s := fun c : list nat => if (i =? 0) then [nth 1 c 0; nth 0 c 0; nth 2 c 0] else [nth 2 c 0; nth 1 c 0; nth 0 c 0]).
  rewrite <- (sum_swap 3 n s (fun mi => wt3 (n - nsum mi) * nth 0 mi 0)).
  - apply nsum_ext. intros c Hc. apply in_all_mi in Hc as [L _]. destruct c as [|a [|b [|c [|? ?]]]]; try discriminate L. unfold s. destruct i as [|[|i]]; [..|lia]; cbn [nth Nat.eqb]; do 3 f_equal; rewrite !nsum_cons; change (nsum []) with 0; lia.
  - intros c L. destruct c as [|a [|b [|c [|? ?]]]]; try discriminate L. unfold s. destruct (i =? 0); cbn [nth]; (split; [reflexivity|]; split; [rewrite !nsum_cons; change (nsum []) with 0; lia|reflexivity]).
Qed.
Definition coord3 (i : nat) (p : pt3) : nat := nth i [cx p; cy p; cz p] 0.
Theorem tet_coord_sum n i : i < 3 -> nsum (map (fun t => nsum (map (coord3 i) t)) (tet_ct (S n))) = n ^ 4.
Proof.
  intros Hi. rewrite <- (sum3_coord n i Hi). unfold tet_ct, ct3. pose proof (tcells3_all_mi (S n) ltac:(lia)) as E. replace (S n - 1) with n in * by lia.
  rewrite map_flat_map, nsum_flat_map, E, !map_map, <- nsum_mul, <- nsum_add. apply nsum_ext. intros [[a b] c] H. apply in_tcells3 in H. cbv [cx cy cz fst snd].
  rewrite !nsum_cons. change (nsum []) with 0. replace (a + (b + (c + 0))) with (a + b + c) by lia. unfold tcnt. cbv [cx cy cz fst snd]. cbv zeta.
  destruct (Nat.leb_spec (a + b + c + 3) n) as [L|L]; [|destruct (Nat.eqb_spec (a + b + c + 2) n) as [L2|L2]; [|destruct (Nat.eqb_spec (a + b + c + 1) n) as [L1|L1]]].
  - destruct (n - (a + b + c)) as [|[|[|d]]] eqn:D; try lia. cbn [firstn six map wt3 e3]. rewrite !nsum_cons. change (nsum []) with 0. destruct i as [|[|[|i]]]; [..|lia]; unfold coord3; cbn [nth]; cbv [cx cy cz fst snd]; lia.
  - replace (n - (a + b + c)) with 2 by lia. cbn [firstn six map wt3 e3]. rewrite !nsum_cons. change (nsum []) with 0. destruct i as [|[|[|i]]]; [..|lia]; unfold coord3; cbn [nth]; cbv [cx cy cz fst snd]; lia.
  - replace (n - (a + b + c)) with 1 by lia. cbn [firstn six map wt3 e3]. rewrite !nsum_cons. change (nsum []) with 0. destruct i as [|[|[|i]]]; [..|lia]; unfold coord3; cbn [nth]; cbv [cx cy cz fst snd]; lia.
  - replace (n - (a + b + c)) with 0 by lia. reflexivity.
Qed.
