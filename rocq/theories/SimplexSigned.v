(** Signed volumes. *)
From Verif Require Import Base Fld FldInst LinSolve PolyEval Det Linalg VecFacts SimplexGeo SimplexFacts.
From Coq Require Import Field_theory Field.

Section Signed.
  Context {F : fld}.
  Add Field Kfield50 : (kth F).
  Local Open Scope fld_scope.
  Lemma signed_volume_swap n (vs : list (list F)) a b v : n <> 0%nat -> rows_of (S n) n vs -> (a <= n)%nat -> (b <= n)%nat -> a <> b -> signed_volume vs = Ok v -> signed_volume (swap_vertices vs a b) = Ok (- v).
  Proof.
    intros Hn HV Ha Hb Hab E. rewrite (signed_volume_eq n) in E by assumption. assert (Ev : v = det n (edge vs) / kofnat (fact n)) by congruence.
    assert (HS : rows_of (S n) n (swap_vertices vs a b)) by (apply upd_rows; [apply upd_rows; [exact HV|apply (rows_len (S n) n); [exact HV|lia]]|apply (rows_len (S n) n); [exact HV|lia]]).
    rewrite (signed_volume_eq n) by assumption. rewrite edge_det_swap by (try assumption; apply HV). rewrite Ev. f_equal. field. apply fact_neq.
  Qed.
  Lemma signed_volume_image n (vs vs' : list (list F)) (A : nat -> nat -> F) (t : nat -> F) v : n <> 0%nat -> rows_of (S n) n vs -> rows_of (S n) n vs' ->
    (forall i j, (i <= n)%nat -> (j < n)%nat -> ent vs' i j = ksum (seq 0 n) (fun l => A j l * ent vs i l) + t j) -> signed_volume vs = Ok v -> signed_volume vs' = Ok (det n A * v).
  Proof.
    intros Hn HV HV' H E. rewrite (signed_volume_eq n) in E by assumption. assert (Ev : v = det n (edge vs) / kofnat (fact n)) by congruence.
    rewrite (signed_volume_eq n) by assumption. rewrite (edge_det_image n vs A t vs') by (try assumption; try apply HV; apply HV'). rewrite Ev. f_equal. field. apply fact_neq.
  Qed.
  Lemma signed_volume_nonzero n (vs : list (list F)) : n <> 0%nat -> rows_of (S n) n vs -> exists v, signed_volume vs = Ok v /\ (v = 0 <-> ~ affine_independent n vs).
  Proof.
    intros Hn HV. rewrite (signed_volume_eq n) by assumption. eexists. split; [reflexivity|]. pose proof (affine_independent_det n vs Hn (proj1 HV)) as [D1 D2]. pose proof (fact_neq (F := F) n) as NF. split.
    - intros E HI. apply (D1 HI). transitivity (det n (edge vs) / kofnat (fact n) * kofnat (fact n)); [field; exact NF|rewrite E; ring].
    - intros N. destruct (kdec (det n (edge vs)) 0) as [Z|Z]; [rewrite Z; field; exact NF|]. exfalso. exact (N (D2 Z)).
  Qed.
  Lemma kdiv_cancel (a b : F) : a <> 0 -> a * b / a = b. Proof. intros H. field. exact H. Qed.
  Lemma nth_zero j n : nth j (repeat (0 : F) n) 0 = 0.
  Proof. revert j. induction n as [|n IH]; intros [|j]; try reflexivity. cbn [repeat nth]. apply IH. Qed.
  Lemma nth_unit_vec n i j : (i < n)%nat -> nth j (upd (repeat (0 : F) n) i 1) 0 = if (i =? j)%nat then 1 else 0.
  Proof.
    revert i j. induction n as [|n IH]; intros i j Hi; [lia|]. destruct i as [|i], j as [|j]; cbn [repeat upd nth Nat.eqb]; try reflexivity; [apply nth_zero|apply IH; lia].
  Qed.
  Lemma upd_length {A} (l : list A) i x : length (upd l i x) = length l.
  Proof. revert i. induction l as [|a l IH]; intros [|i]; cbn [upd length]; [reflexivity|reflexivity|reflexivity|rewrite IH; reflexivity]. Qed.
  Lemma unit_rows n ne : rows_of (S n) ne (unit_simplex (F := F) n ne).
  Proof.
    unfold unit_simplex. split; [cbn [length]; rewrite map_length, seq_length; reflexivity|]. intros r [<-|Hr]; [apply repeat_length|]. apply in_map_iff in Hr as (i & <- & _). rewrite upd_length. apply repeat_length.
  Qed.
  Lemma edge_unit n ne i j : (i < n)%nat -> (n <= ne)%nat -> edge (unit_simplex (F := F) n ne) i j = if (i =? j)%nat then 1 else 0.
  Proof.
    intros Hi Hn. unfold edge, ent, unit_simplex. cbn [nth]. rewrite nth_zero. rewrite nth_map_seq0 by exact Hi. rewrite nth_unit_vec by lia. ring.
  Qed.
  Lemma signed_volume_unit n : n <> 0%nat -> signed_volume (unit_simplex (F := F) n n) = Ok (volume_unit n).
  Proof.
    intros Hn. rewrite (signed_volume_eq n) by (try assumption; apply unit_rows). unfold volume_unit. rewrite (det_ext n _ (fun i j => if (i =? j)%nat then 1 else 0)) by (intros i j Hi Hj; apply edge_unit; lia). rewrite det_identity. reflexivity.
  Qed.
  Lemma unit_independent n ne : (n <= ne)%nat -> affine_independent ne (unit_simplex (F := F) n ne).
  Proof.
    intros Hn. apply (edges_affine_independent n ne); [apply unit_rows|]. intros c H i Hi. specialize (H i ltac:(lia)). rewrite (ksum_ext _ (fun l => if Nat.eq_dec l i then c l else 0)) in H.
    - rewrite (ksum_delta Nat.eq_dec) in H by (try apply seq_NoDup; apply in_seq; lia). exact H.
    - intros l Hl. apply in_seq in Hl. rewrite edge_unit by lia. destruct (Nat.eqb_spec l i), (Nat.eq_dec l i); try lia; ring.
  Qed.
End Signed.
