(** Facts about simplices in a space of their own dimension: signed volume,
    barycentric coordinates, affine maps. *)
From Verif Require Import Base Fld FldInst LinSolve PolyEval Det Linalg VecFacts Simplicial SimplexGeo.
From Coq Require Import Field_theory Field.

Section Affine.
  Context {F : fld}.
  Add Field Kfield43 : (kth F).
  Local Open Scope fld_scope.

  Lemma ksum_S0 n (f : nat -> F) : ksum (seq 0 (S n)) f = f 0%nat + ksum (seq 0 n) (fun i => f (S i)).
  Proof. change (seq 0 (S n)) with (0%nat :: seq 1 n). rewrite ksum_cons, <- seq_shift, ksum_map. reflexivity. Qed.
  (** no affine relation between the vertices, in a space of dimension [m] *)
  Definition affine_independent (m : nat) (vs : list (list F)) : Prop :=
    forall c : nat -> F, ksum (seq 0 (length vs)) c = 0 -> (forall j, (j < m)%nat -> ksum (seq 0 (length vs)) (fun i => c i * ent vs i j) = 0) -> forall i, (i < length vs)%nat -> c i = 0.
  (** [p] is the affine combination of the vertices with coefficients [c] *)
  Definition affine_comb (m : nat) (c : list F) (vs : list (list F)) (p : list F) : Prop :=
    length c = length vs /\ length p = m /\ ksum c (fun x => x) = 1 /\ forall j, (j < m)%nat -> nth j p 0 = ksum (seq 0 (length vs)) (fun i => nth i c 0 * ent vs i j).

  Definition edge (vs : list (list F)) (i j : nat) : F := ent vs (S i) j - ent vs 0 j.

  Lemma ksum_nth (c : list F) : ksum c (fun x => x) = ksum (seq 0 (length c)) (fun i => nth i c 0).
  Proof. induction c as [|x c IH]; [reflexivity|]. cbn [length]. rewrite ksum_S0, ksum_cons, IH. reflexivity. Qed.
  Lemma ent_vsub_col m n (vs : list (list F)) i j : rows_of (S n) m vs -> (i < m)%nat -> (j < n)%nat ->
    ent (of_cols m (map (fun i => vsub (vtx vs (S i)) (vtx vs 0)) (seq 0 n))) i j = edge vs j i.
  Proof.
    intros H Hi Hj. unfold of_cols. rewrite ent_transpose by exact Hi. unfold ent at 1. rewrite (nth_map_seq0 (fun i => vsub (vtx vs (S i)) (vtx vs 0))) by exact Hj.
    unfold vtx. rewrite nth_vsub; [reflexivity|]. rewrite !(rows_len (S n) m) by (assumption || lia). reflexivity.
  Qed.
  Lemma of_cols_rows m n (vs : list (list F)) : rows_of m n (of_cols m (map (fun i => vsub (vtx vs (S i)) (vtx vs 0)) (seq 0 n))).
  Proof. apply transpose_rows. rewrite map_length, seq_length. reflexivity. Qed.
  Lemma dims n m (vs : list (list F)) : rows_of (S n) m vs -> dimension vs = n /\ embedding_dimension vs = m.
  Proof.
    intros H. split; [unfold dimension; destruct H; lia|]. unfold embedding_dimension. apply (ncols_rows (S n) m vs H). discriminate.
  Qed.

  Lemma signed_volume_eq n (vs : list (list F)) : n <> 0%nat -> rows_of (S n) n vs -> signed_volume vs = Ok (det n (edge vs) / kofnat (fact n)).
  Proof.
    intros Hn H. destruct (dims n n vs H) as [E1 E2]. unfold signed_volume. rewrite E1, E2. destruct (Nat.eqb_spec n 0); [lia|]. rewrite Nat.ltb_irrefl. f_equal. f_equal.
    unfold np_det. rewrite (proj1 (of_cols_rows n n vs)). rewrite <- (det_transpose n (edge vs)). apply det_ext. intros i j Hi Hj. exact (ent_vsub_col n n vs i j H Hi Hj).
  Qed.
  Lemma fact_neq n : @kofnat F (fact n) <> 0. Proof. apply kofnat_neq. pose proof (lt_O_fact n). lia. Qed.

  Lemma det_indep n (A : nat -> nat -> F) : n <> 0%nat -> (forall c : nat -> F, (forall i, (i < n)%nat -> ksum (seq 0 n) (fun j => A i j * c j) = 0) -> forall j, (j < n)%nat -> c j = 0) -> det n A <> 0.
  Proof.
    intros Hn HI HD. set (M := map (fun i => map (A i) (seq 0 n)) (seq 0 n)).
    assert (HM : rows_of n n M). { split; [unfold M; rewrite map_length, seq_length; reflexivity|]. intros r Hr. apply in_map_iff in Hr as (i & <- & _). rewrite map_length, seq_length. reflexivity. }
    assert (EM : forall i j, (i < n)%nat -> (j < n)%nat -> ent M i j = A i j) by (intros i j Hi Hj; unfold ent, M; rewrite (nth_map_seq0 (fun i => map (A i) (seq 0 n))), nth_map_seq0 by assumption; reflexivity).
    rewrite <- (det_ext n (ent M) A EM) in HD. pose proof (np_inv_singular n M Hn HM HD) as E.
    destruct (solve_ok n n M (identity n)) as (B & EB & _); [apply HM|apply identity_rows|apply HM|apply identity_rows|exact Hn| |].
    - intros v Hv H0. apply (vec_ext _ _ n); [exact Hv|apply repeat_length|]. intros j Hj. rewrite nth_repeat. apply (HI (fun j => nth j v 0)); [|exact Hj]. intros i Hi.
      refine (eq_trans _ (H0 (nth i M []) _)); [|apply nth_In; destruct HM; lia]. rewrite (dot_seq _ v n) by (try apply (rows_len n n); assumption). apply ksum_ext. intros l Hl. apply in_seq in Hl. rewrite <- EM by lia. reflexivity.
    - unfold np_inv in E. rewrite (ncols_rows n n M HM Hn), (proj1 HM), Nat.eqb_refl in E. congruence.
  Qed.
  Lemma edge_comb n (vs : list (list F)) (c : nat -> F) j : ksum (seq 0 n) (fun l => c (S l) * edge vs l j) = ksum (seq 0 (S n)) (fun i => c i * ent vs i j) - ksum (seq 0 (S n)) c * ent vs 0 j.
  Proof.
    rewrite !ksum_S0. unfold edge. rewrite (ksum_ext _ (fun l => c (S l) * ent vs (S l) j - c (S l) * ent vs 0 j)) by (intros; ring). rewrite ksum_minus, ksum_scale_r. ring.
  Qed.
  Lemma affine_independent_edges n m (vs : list (list F)) : length vs = S n -> affine_independent m vs ->
    forall c : nat -> F, (forall j, (j < m)%nat -> ksum (seq 0 n) (fun l => c l * edge vs l j) = 0) -> forall i, (i < n)%nat -> c i = 0.
  Proof.
    intros L HI c H i Hi. set (c' := fun i => match i with O => - ksum (seq 0 n) c | S l => c l end). assert (S0 : ksum (seq 0 (S n)) c' = 0) by (rewrite ksum_S0; transitivity (- ksum (seq 0 n) c + ksum (seq 0 n) c); [reflexivity|ring]).
    apply (HI c') with (i := S i); rewrite ?L; [exact S0| |lia].
    intros j Hj. transitivity (ksum (seq 0 (S n)) (fun i => c' i * ent vs i j) - ksum (seq 0 (S n)) c' * ent vs 0 j); [rewrite S0; ring|]. rewrite <- (edge_comb n vs c' j). exact (H j Hj).
  Qed.
  Lemma edges_affine_independent n m (vs : list (list F)) : length vs = S n ->
    (forall c : nat -> F, (forall j, (j < m)%nat -> ksum (seq 0 n) (fun l => c l * edge vs l j) = 0) -> forall i, (i < n)%nat -> c i = 0) -> affine_independent m vs.
  Proof.
    intros L H c H0 H1. rewrite L in *. assert (Z : forall l, (l < n)%nat -> c (S l) = 0).
    { apply (H (fun l => c (S l))). intros j Hj. rewrite (edge_comb n), H1, H0 by exact Hj. ring. }
    intros [|i] Hi; [|apply Z; lia]. rewrite ksum_S0, ksum_zero in H0 by (intros l Hl; apply in_seq in Hl; apply Z; lia). rewrite <- H0. ring.
  Qed.
  Lemma affine_independent_det n (vs : list (list F)) : n <> 0%nat -> length vs = S n -> (affine_independent n vs <-> det n (edge vs) <> 0).
  Proof.
    intros Hn L. split.
    - intros HI. rewrite <- det_transpose. apply det_indep; [exact Hn|]. intros c Hc. apply (affine_independent_edges n n vs L HI c). intros j Hj. rewrite <- (Hc j Hj). apply ksum_ext. intros; ring.
    - intros HD. apply (edges_affine_independent n n vs L). intros c Hc. exact (det_independent n (edge vs) c HD Hc).
  Qed.

  (** ** Replacing a vertex *)
  Lemma nth_upd_vs (vs : list (list F)) i p k : (i < length vs)%nat -> nth k (upd vs i p) [] = if (k =? i)%nat then p else nth k vs [].
  Proof.
    revert i k. induction vs as [|v vs IH]; intros [|i] [|k] Hi; cbn [length] in Hi; try lia; try reflexivity. cbn [upd nth]. rewrite IH by lia. reflexivity.
  Qed.
  Lemma upd_rows m n (vs : list (list F)) i p : rows_of m n vs -> length p = n -> rows_of m n (upd vs i p).
  Proof.
    intros [H1 H2] Hp. split; [rewrite upd_length; exact H1|]. clear H1. revert i. induction vs as [|v vs IH]; intros i r Hr; [destruct Hr|].
    destruct i as [|i]; cbn [upd] in Hr; destruct Hr as [<-|Hr]; [exact Hp|apply H2; right; exact Hr|apply H2; left; reflexivity|]. apply (IH (fun r H => H2 r (or_intror H)) i r Hr).
  Qed.
  Lemma det_replace n (vs : list (list F)) (c : nat -> F) p i : rows_of (S n) n vs -> ksum (seq 0 (S n)) c = 1 -> (forall j, (j < n)%nat -> nth j p 0 = ksum (seq 0 (S n)) (fun i => c i * ent vs i j)) ->
    (i <= n)%nat -> det n (edge (upd vs i p)) = c i * det n (edge vs).
  Proof.
    intros HV Hc Hp Hi. pose proof HV as [L _].
    assert (Q : forall j, (j < n)%nat -> nth j p 0 - ent vs 0 j = ksum (seq 0 n) (fun l => c (S l) * edge vs l j)) by (intros j Hj; rewrite (edge_comb n), Hc, Hp by exact Hj; ring).
    destruct i as [|k].
    - rewrite (det_ext n _ (fun i j => if (i <? n)%nat then edge vs i j - (nth j p 0 - ent vs 0 j) else edge vs i j)).
      2:{ intros i j Hij Hj. destruct (Nat.ltb_spec i n); [|lia]. unfold edge, ent. rewrite !nth_upd_vs by lia. cbn [Nat.eqb]. ring. }
      rewrite (det_sub_all n n (edge vs) (fun j => nth j p 0 - ent vs 0 j)) by lia.
      rewrite (ksum_ext _ (fun k => c (S k) * det n (edge vs))).
      + rewrite ksum_scale_r. rewrite ksum_S0 in Hc. transitivity ((1 - ksum (seq 0 n) (fun i => c (S i))) * det n (edge vs)); [ring|]. rewrite <- Hc. ring.
      + intros k Hk. apply in_seq in Hk. rewrite <- (det_comb n (edge vs) k (fun l => c (S l))) by lia. apply det_ext. intros i j Hij Hj. unfold setrow. destruct (i =? k)%nat; [apply Q; exact Hj|reflexivity].
    - rewrite <- (det_comb n (edge vs) k (fun l => c (S l))) by lia. apply det_ext. intros i j Hij Hj. unfold setrow, edge at 1, ent. rewrite !nth_upd_vs by lia. cbn [Nat.eqb].
      destruct (Nat.eqb_spec i k) as [->|]; [|reflexivity]. rewrite <- Q by exact Hj. reflexivity.
  Qed.
  (** coordinates exist *)
  Lemma coords_exist n (vs : list (list F)) p : n <> 0%nat -> rows_of (S n) n vs -> det n (edge vs) <> 0 -> length p = n -> exists c, affine_comb n c vs p.
  Proof.
    intros Hn HV HD Hp. pose proof HV as [L _]. set (M := map (fun i => map (edge vs i) (seq 0 n)) (seq 0 n)).
    assert (HM : rows_of n n M). { split; [unfold M; rewrite map_length, seq_length; reflexivity|]. intros r Hr. apply in_map_iff in Hr as (i & <- & _). rewrite map_length, seq_length. reflexivity. }
    assert (EM : forall i j, (i < n)%nat -> (j < n)%nat -> ent M i j = edge vs i j) by (intros i j Hi Hj; unfold ent, M; rewrite (nth_map_seq0 (fun i => map (edge vs i) (seq 0 n))), nth_map_seq0 by assumption; reflexivity).
    destruct (np_inv_ok n M Hn HM) as (B & _ & HB & _ & BM); [rewrite (det_ext n (ent M) (edge vs) EM); exact HD|].
    set (c := fun l => ksum (seq 0 n) (fun j => (nth j p 0 - ent vs 0 j) * ent B j l)).
    exists ((1 - ksum (seq 0 n) c) :: map c (seq 0 n)). unfold affine_comb. rewrite L. cbn [length]. rewrite map_length, seq_length. split; [reflexivity|]. split; [exact Hp|]. split; [rewrite ksum_cons, ksum_map; transitivity (1 - ksum (seq 0 n) c + ksum (seq 0 n) c); [reflexivity|ring]|].
    intros j Hj.
    set (c' := fun i => nth i (1 - ksum (seq 0 n) c :: map c (seq 0 n)) 0).
    assert (S1 : ksum (seq 0 (S n)) c' = 1). { rewrite ksum_S0. unfold c' at 1. cbn [nth]. rewrite (ksum_ext (fun i => c' (S i)) c); [ring|]. intros l Hl. apply in_seq in Hl. unfold c'. cbn [nth]. apply nth_map_seq0. lia. }
    pose proof (edge_comb n vs c' j) as EE. rewrite S1 in EE. change (nth j p 0 = ksum (seq 0 (S n)) (fun i => c' i * ent vs i j)). transitivity (ksum (seq 0 n) (fun l => c' (S l) * edge vs l j) + 1 * ent vs 0 j); [|rewrite EE; ring].
    rewrite (ksum_ext _ (fun l => ksum (seq 0 n) (fun k => (nth k p 0 - ent vs 0 k) * (ent B k l * ent M l j)))).
    2:{ intros l Hl. apply in_seq in Hl. unfold c'. cbn [nth]. rewrite nth_map_seq0 by lia. unfold c. rewrite <- ksum_scale_r. apply ksum_ext. intros; rewrite EM by lia; ring. }
    rewrite ksum_swap. rewrite (ksum_ext _ (fun k => (if (k =? j)%nat then 1 else 0) * (nth k p 0 - ent vs 0 k))).
    - rewrite delta_sum by exact Hj. ring.
    - intros k Hk. apply in_seq in Hk. rewrite ksum_scale_l, BM by lia. ring.
  Qed.
  Lemma affine_comb_unique m (vs : list (list F)) c c' p : affine_independent m vs -> affine_comb m c vs p -> affine_comb m c' vs p -> c = c'.
  Proof.
    intros HI (L & Hp & S1 & H) (L' & _ & S2 & H'). apply (vec_ext _ _ (length vs) L L'). intros i Hi.
    assert (Z : forall i, (i < length vs)%nat -> nth i c 0 - nth i c' 0 = 0).
    { apply (HI (fun i => nth i c 0 - nth i c' 0)).
      - rewrite ksum_minus. rewrite ksum_nth, L in S1. rewrite ksum_nth, L' in S2. rewrite S1, S2. ring.
      - intros j Hj. rewrite (ksum_ext _ (fun i => nth i c 0 * ent vs i j - nth i c' 0 * ent vs i j)) by (intros; ring). rewrite ksum_minus, <- H, <- H' by exact Hj. ring. }
    specialize (Z i Hi). transitivity (nth i c 0 - nth i c' 0 + nth i c' 0); [ring|rewrite Z; ring].
  Qed.

  (** ** barycentric_to_cartesian *)
  Lemma bary_fold m (vs : list (list F)) (c : list F) : forall k p, (k <= length vs)%nat -> rows_of (length vs) m vs -> length p = m ->
    let q := fold_left (fun p i => vadd p (vscale (nth i c 0) (vtx vs i))) (seq 0 k) p in length q = m /\ forall j, (j < m)%nat -> nth j q 0 = nth j p 0 + ksum (seq 0 k) (fun i => nth i c 0 * ent vs i j).
  Proof.
    induction k as [|k IH]; intros p Hk HV Hp; cbv zeta.
    - cbn [seq fold_left]. split; [exact Hp|]. intros. rewrite ksum_nil. ring.
    - rewrite seq_S, fold_left_app. destruct (IH p ltac:(lia) HV Hp) as [I1 I2]. cbn [fold_left Nat.add]. set (q := fold_left _ (seq 0 k) p) in *.
      assert (Lv : length (vtx vs k) = m) by (unfold vtx; apply (rows_len (length vs) m); [exact HV|lia]). split.
      + unfold vadd. rewrite map_length, combine_length. unfold vscale. rewrite map_length, I1, Lv. apply Nat.min_id.
      + intros j Hj. rewrite nth_vadd, nth_vscale, I2, ksum_app, ksum_cons, ksum_nil by (try assumption; unfold vscale; rewrite ?map_length; lia). unfold vtx, ent. ring.
  Qed.
  Lemma barycentric_to_cartesian_comb m n (vs : list (list F)) (c p : list F) : rows_of (S n) m vs -> affine_comb m c vs p -> barycentric_to_cartesian c vs = p.
  Proof.
    intros HV (Lc & Lp & _ & H). pose proof HV as [L _]. destruct (dims n m vs HV) as [_ E2]. unfold barycentric_to_cartesian. rewrite E2.
    destruct (bary_fold m vs c (length vs) (repeat 0 m)) as [I1 I2]; [lia|rewrite L; exact HV|apply repeat_length|].
    apply (vec_ext _ _ m I1 Lp). intros j Hj. rewrite I2, nth_repeat, H by exact Hj. ring.
  Qed.
  Lemma barycentric_to_cartesian_spec m n (vs : list (list F)) (c : list F) : rows_of (S n) m vs -> length c = S n -> ksum c (fun x => x) = 1 -> affine_comb m c vs (barycentric_to_cartesian c vs).
  Proof.
    intros HV Lc S1. pose proof HV as [L _]. destruct (dims n m vs HV) as [_ E2]. unfold barycentric_to_cartesian. rewrite E2.
    destruct (bary_fold m vs c (length vs) (repeat 0 m)) as [I1 I2]; [lia|rewrite L; exact HV|apply repeat_length|].
    split; [congruence|]. split; [exact I1|]. split; [exact S1|]. intros j Hj. rewrite I2, nth_repeat by exact Hj. ring.
  Qed.

  (** ** Swapping vertices *)
  Definition swap_vertices (vs : list (list F)) (a b : nat) : list (list F) := upd (upd vs a (vtx vs b)) b (vtx vs a).
  Lemma nth_swap (vs : list (list F)) a b k : (a < length vs)%nat -> (b < length vs)%nat ->
    nth k (swap_vertices vs a b) [] = if (k =? b)%nat then nth a vs [] else if (k =? a)%nat then nth b vs [] else nth k vs [].
  Proof. intros Ha Hb. unfold swap_vertices, vtx. rewrite nth_upd_vs by (rewrite upd_length; exact Hb). rewrite nth_upd_vs by exact Ha. reflexivity. Qed.
  Lemma det_swap0 n (E : nat -> nat -> F) b : (b < n)%nat -> det n (fun i j => (if (i =? b)%nat then 0 else E i j) - E b j) = - det n E.
  Proof.
    intros Hb. set (N := setrow E b (fun _ => 0)).
    rewrite (det_ext n _ (fun i j => if (i <? n)%nat then N i j - E b j else N i j)) by (intros i j Hi _; apply Nat.ltb_lt in Hi; rewrite Hi; reflexivity).
    rewrite det_sub_all by lia. unfold N at 1. rewrite det_zero_row by exact Hb.
    rewrite (ksum_ext _ (fun k => if Nat.eq_dec k b then det n E else 0)).
    - rewrite (ksum_delta Nat.eq_dec (fun _ => det n E)); [ring|apply seq_NoDup|apply in_seq; lia].
    - intros k Hk. apply in_seq in Hk. destruct (Nat.eq_dec k b) as [->|Hkb].
      + transitivity (det n (setrow E b (E b))); [|apply setrow_self]. apply det_ext. intros i j _ _. unfold N, setrow. destruct (i =? b)%nat; reflexivity.
      + transitivity (det n (setrow (setrow E k (E b)) b (fun _ => 0))); [|apply det_zero_row; exact Hb]. apply det_ext. intros i j _ _. unfold N, setrow. destruct (Nat.eqb_spec i k), (Nat.eqb_spec i b); try reflexivity. lia.
  Qed.
  Lemma edge_det_swap n (vs : list (list F)) a b : length vs = S n -> (a <= n)%nat -> (b <= n)%nat -> a <> b -> det n (edge (swap_vertices vs a b)) = - det n (edge vs).
  Proof.
    intros L. assert (W : forall a b, (a < b)%nat -> (b <= n)%nat -> det n (edge (swap_vertices vs a b)) = - det n (edge vs)).
    { intros x y Hxy Hy. destruct y as [|y]; [lia|]. destruct x as [|x].
      - rewrite <- (det_swap0 n (edge vs) y) by lia. apply det_ext. intros i j Hi Hj. unfold edge, ent. rewrite !nth_swap by lia. cbn [Nat.eqb]. destruct (i =? y)%nat; ring.
      - rewrite <- (det_swap n (edge vs) x y) by lia. apply det_ext. intros i j Hi Hj. unfold edge at 1, ent. rewrite !nth_swap by lia. cbn [Nat.eqb]. unfold swaprow, edge, ent.
        destruct (Nat.eqb_spec i x), (Nat.eqb_spec i y); try reflexivity; lia. }
    intros Ha Hb Hab. destruct (Nat.lt_ge_cases a b) as [H|H]; [apply W; assumption|]. rewrite <- (W b a) by lia. apply det_ext. intros i j Hi Hj. unfold edge, ent. rewrite !nth_swap by lia.
    assert (HH : forall k, (if (k =? b)%nat then nth a vs [] else if (k =? a)%nat then nth b vs [] else nth k vs []) = (if (k =? a)%nat then nth b vs [] else if (k =? b)%nat then nth a vs [] else nth k vs [])) by (intros k; destruct (Nat.eqb_spec k b), (Nat.eqb_spec k a); try reflexivity; lia).
    rewrite !HH. reflexivity.
  Qed.
  (** ** Affine images *)
  Lemma edge_det_image n (vs : list (list F)) (A : nat -> nat -> F) (t : nat -> F) vs' : length vs = S n -> length vs' = S n ->
    (forall i j, (i <= n)%nat -> (j < n)%nat -> ent vs' i j = ksum (seq 0 n) (fun l => A j l * ent vs i l) + t j) -> det n (edge vs') = det n A * det n (edge vs).
  Proof.
    intros L L' H. rewrite <- (det_transpose n A). transitivity (det n (mmul n (edge vs) (fun i j => A j i))); [|rewrite det_mul; ring].
    apply det_ext. intros i j Hi Hj. unfold edge, mmul. rewrite !H by lia.
    rewrite (ksum_ext (fun k => (ent vs (S i) k - ent vs 0 k) * A j k) (fun k => A j k * ent vs (S i) k - A j k * ent vs 0 k)) by (intros; ring). rewrite ksum_minus. ring.
  Qed.
End Affine.
