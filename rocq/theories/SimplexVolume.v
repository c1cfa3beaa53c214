(** Volumes, faces and altitudes of simplices. *)
From Coq Require Import Permutation.
From Verif Require Import Base Fld FldInst LinSolve PolyEval Det Linalg VecFacts Simplicial SimplicialFacts SimplexGeo SimplexFacts GramSchmidt SimplexMetric SimplexInside.
From Coq Require Import Field_theory Field.

(** ** A function of a list that is invariant under swaps of neighbours *)
Lemma adjacent_swaps {A B} (f : list A -> B) : (forall pre a b post, f (pre ++ a :: b :: post) = f (pre ++ b :: a :: post)) -> forall l l', Permutation l l' -> f l = f l'.
Proof.
  intros H. assert (G : forall l l', Permutation l l' -> forall pre, f (pre ++ l) = f (pre ++ l')).
  { intros l l' P. induction P as [|x l l' P IH|x y l|l1 l2 l3 P1 IH1 P2 IH2]; intros pre.
    - reflexivity.
    - specialize (IH (pre ++ [x])). rewrite <- !app_assoc in IH. exact IH.
    - apply H.
    - rewrite IH1. apply IH2. }
  intros l l' P. exact (G l l' P []).
Qed.

Section Volume.
  Context {Q : ofld} (ksqrt : Q -> Q).
  Add Field Kfield47 : (kth Q).
  Local Open Scope fld_scope.

  Lemma square_inj (a b : Q) : kle 0 a -> kle 0 b -> a * a = b * b -> a = b.
  Proof.
    intros Ha Hb E. destruct (kdec (a + b) 0) as [Z|N].
    - assert (A : a = 0). { apply kle_antisym; [|exact Ha]. apply kle_sub. replace (0 - a) with b by (transitivity (a + b - a); [ring|rewrite Z; ring]). exact Hb. }
      rewrite A in *. transitivity (0 + b); [symmetry; exact Z|ring].
    - assert (P : (a - b) * (a + b) = 0) by (transitivity (a * a - b * b); [ring|rewrite E; ring]).
      destruct (kdec (a - b) 0) as [D|D]; [transitivity (a - b + b); [ring|rewrite D; ring]|]. exfalso. exact (kmul_neq _ _ D N P).
  Qed.

  (** ** The Gram determinant of the edges at the first vertex *)
  Definition gram (d : nat) (vs : list (list Q)) (i j : nat) : Q := ksum (seq 0 d) (fun l => edge vs i l * edge vs j l).
  Lemma gram_dot k d (vs : list (list Q)) i j : rows_of (S k) d vs -> (i < k)%nat -> (j < k)%nat -> dot (nth i (edges_of k vs) []) (nth j (edges_of k vs) []) = gram d vs i j.
  Proof.
    intros HV Hi Hj. pose proof (edges_rows k d vs HV) as HE. rewrite (dot_seq _ _ d) by (apply (rows_len k d); assumption). apply ksum_ext. intros l _. rewrite <- !(ent_edges k d vs HV) by assumption. reflexivity.
  Qed.
  Lemma gram_transform k d (vs vs' : list (list Q)) (P : nat -> nat -> Q) :
    (forall i l, (i < k)%nat -> (l < d)%nat -> edge vs' i l = ksum (seq 0 k) (fun m => P i m * edge vs m l)) -> det k (gram d vs') = det k P * det k (gram d vs) * det k P.
  Proof.
    intros H. transitivity (det k (mmul k (mmul k P (gram d vs)) (fun i j => P j i))); [|rewrite !det_mul, det_transpose; reflexivity].
    apply det_ext. intros i j Hi Hj. unfold gram at 1, mmul.
    rewrite (ksum_ext (fun l => edge vs' i l * edge vs' j l) (fun l => ksum (seq 0 k) (fun m => P j m * (edge vs' i l * edge vs m l)))).
    2:{ intros l Hl. apply in_seq in Hl. rewrite (H j) by lia. rewrite <- ksum_scale_l. apply ksum_ext. intros; ring. }
    rewrite ksum_swap. apply ksum_ext. intros m Hm. apply in_seq in Hm. rewrite ksum_scale_l. transitivity (P j m * ksum (seq 0 k) (fun k0 => P i k0 * gram d vs k0 m)); [|ring]. f_equal.
    unfold gram. rewrite (ksum_ext (fun l => edge vs' i l * edge vs m l) (fun l => ksum (seq 0 k) (fun q => P i q * (edge vs q l * edge vs m l)))).
    2:{ intros l Hl. apply in_seq in Hl. rewrite (H i) by lia. rewrite <- ksum_scale_r. apply ksum_ext. intros; ring. }
    rewrite ksum_swap. apply ksum_ext. intros q _. rewrite ksum_scale_l. reflexivity.
  Qed.
  Definition delta (i j : nat) : Q := if (i =? j)%nat then 1 else 0.
  Lemma delta_sum' k i (f : nat -> Q) : (i < k)%nat -> ksum (seq 0 k) (fun m => delta i m * f m) = f i.
  Proof. intros Hi. rewrite <- (delta_sum k i f Hi). apply ksum_ext. intros m _. unfold delta. rewrite Nat.eqb_sym. reflexivity. Qed.
  Lemma gram_swap k d (vs : list (list Q)) a b : length vs = S k -> (a < b)%nat -> (b <= k)%nat -> det k (gram d (swap_vertices vs a b)) = det k (gram d vs).
  Proof.
    intros L Hab Hb. destruct b as [|y]; [lia|]. destruct a as [|x].
    - rewrite (gram_transform k d vs _ (fun i m => (if (i =? y)%nat then 0 else delta i m) - delta y m)).
      + assert (E : det k (fun i m => (if (i =? y)%nat then 0 else delta i m) - delta y m) = - (1)) by (rewrite (det_swap0 k delta y) by lia; unfold delta; rewrite det_identity; reflexivity). rewrite E. ring.
      + intros i l Hi Hl. rewrite (ksum_ext _ (fun m => (if (i =? y)%nat then 0 else 1) * (delta i m * edge vs m l) - delta y m * edge vs m l)) by (intros; destruct (i =? y)%nat; ring).
        rewrite ksum_minus, ksum_scale_l, !delta_sum' by lia. unfold edge, ent. rewrite !nth_swap by lia. cbn [Nat.eqb]. destruct (Nat.eqb_spec i y) as [->|]; ring.
    - rewrite (gram_transform k d vs _ (swaprow delta x y)).
      + assert (E : det k (swaprow delta x y) = - (1)) by (rewrite det_swap by lia; unfold delta; rewrite det_identity; reflexivity). rewrite E. ring.
      + intros i l Hi Hl. unfold swaprow. unfold edge at 1, ent. rewrite !nth_swap by lia. cbn [Nat.eqb]. destruct (Nat.eqb_spec i x), (Nat.eqb_spec i y); try lia; rewrite delta_sum' by lia; reflexivity.
  Qed.
  Lemma swap_vertices_adj (pre : list (list Q)) a b post : swap_vertices (pre ++ a :: b :: post) (length pre) (S (length pre)) = pre ++ b :: a :: post.
  Proof.
    unfold swap_vertices, vtx. rewrite (app_nth2 pre) by lia. rewrite (app_nth2 pre (a :: b :: post)) by lia. rewrite Nat.sub_diag. replace (S (length pre) - length pre)%nat with 1%nat by lia. cbn [nth].
    rewrite upd_app_exact. replace (S (length pre)) with (length pre + 1)%nat by lia. rewrite upd_app_r. reflexivity.
  Qed.
  Lemma gram_perm k d (vs vs' : list (list Q)) : Permutation vs vs' -> length vs = S k -> det k (gram d vs) = det k (gram d vs').
  Proof.
    intros P L. assert (H : forall l l', Permutation l l' -> (if (length l =? S k)%nat then det k (gram d l) else 0) = (if (length l' =? S k)%nat then det k (gram d l') else 0)).
    { apply (adjacent_swaps (fun l => if (length l =? S k)%nat then det k (gram d l) else 0)). intros pre a b post.
      replace (length (pre ++ b :: a :: post)) with (length (pre ++ a :: b :: post)) by (rewrite !app_length; reflexivity). destruct (Nat.eqb_spec (length (pre ++ a :: b :: post)) (S k)) as [E|]; [|reflexivity].
      rewrite <- (swap_vertices_adj pre a b post). symmetry. apply gram_swap; [exact E|lia|]. rewrite app_length in E. cbn [length] in E. lia. }
    specialize (H vs vs' P). rewrite <- (Permutation_length P), L, Nat.eqb_refl in H. exact H.
  Qed.
  Lemma rows_perm m d (vs vs' : list (list Q)) : Permutation vs vs' -> rows_of m d vs -> rows_of m d vs'.
  Proof. intros P [H1 H2]. split; [rewrite <- (Permutation_length P); exact H1|]. intros r Hr. apply H2. exact (Permutation_in r (Permutation_sym P) Hr). Qed.
  Lemma gram_independent k d (vs : list (list Q)) : rows_of (S k) d vs -> (affine_independent d vs <-> det k (gram d vs) <> 0).
  Proof.
    intros HV. destruct (Nat.eq_dec k 0) as [->|Hk].
    - split; [intros _; exact (k1_neq_0 (F := Q))|]. intros _. apply (edges_affine_independent 0 d vs (proj1 HV)). intros; lia.
    - split.
      + intros HI. apply det_indep; [exact Hk|]. intros c Hc. apply (gram_injective d k (edges_of k vs) c (edges_rows k d vs HV) (edges_indep k d vs HV HI)). intros i Hi. rewrite <- (Hc i Hi). apply ksum_ext. intros j Hj. apply in_seq in Hj. rewrite (gram_dot k d vs) by (assumption || lia). reflexivity.
      + intros HD. apply (edges_affine_independent k d vs (proj1 HV)). intros c Hc. apply (det_cols_independent k (gram d vs) c HD). intros i Hi. unfold gram.
        rewrite (ksum_ext _ (fun j => ksum (seq 0 d) (fun l => edge vs i l * (c j * edge vs j l)))) by (intros; rewrite <- ksum_scale_r; apply ksum_ext; intros; ring). rewrite ksum_swap. apply ksum_zero. intros l Hl. apply in_seq in Hl. rewrite ksum_scale_l, Hc by lia. ring.
  Qed.
  Lemma affine_independent_perm m d (vs vs' : list (list Q)) : Permutation vs vs' -> rows_of m d vs -> affine_independent d vs -> affine_independent d vs'.
  Proof.
    intros P HV HI. destruct m as [|k].
    - intros c _ _ i Hi. rewrite <- (Permutation_length P), (proj1 HV) in Hi. lia.
    - apply (gram_independent k d vs' (rows_perm _ _ _ _ P HV)). rewrite <- (gram_perm k d vs vs' P (proj1 HV)). apply (gram_independent k d vs HV). exact HI.
  Qed.

  Hypothesis Hsqrt : sqrt_ok ksqrt.
  (** volume of a non-degenerate simplex, also in a space of its dimension *)
  Lemma vol_eq k d (vs : list (list Q)) : (k <= d)%nat -> rows_of (S k) d vs -> affine_independent d vs -> exists V, volume ksqrt vs = Ok V /\ klt 0 V /\ (kofnat (fact k) * V) * (kofnat (fact k) * V) = det k (gram d vs) /\
    kofnat (fact k) * V = det k (edge (local ksqrt k vs)).
  Proof.
    intros Hkd HV HI. destruct (Nat.eq_dec k 0) as [->|Hk].
    - exists 1. split; [unfold volume; rewrite (proj1 (dims 0 d vs HV)); reflexivity|]. split; [apply k01|]. cbn [fact det]. rewrite kofnat_1. split; ring.
    - assert (G : det k (gram d vs) = det k (edge (local ksqrt k vs)) * det k (edge (local ksqrt k vs))).
      { rewrite <- (gram_det ksqrt Hsqrt k d vs HV Hk HI). apply det_ext. intros i j Hi Hj. symmetry. apply (gram_dot k d vs i j HV); assumption. }
      pose proof (det_local_pos ksqrt Hsqrt k d vs HV Hk HI) as DP. pose proof (fact_neq (F := Q) k) as NF.
      destruct (Nat.eq_dec k d) as [->|Hne].
      + exists (kabs (det d (edge vs) / kofnat (fact d))). split; [exact (volume_full ksqrt d vs Hk HV)|].
        assert (ND : det d (edge vs) <> 0) by (apply (affine_independent_det d vs Hk (proj1 HV)); exact HI).
        assert (A : klt 0 (kabs (det d (edge vs) / kofnat (fact d))) /\ (kofnat (fact d) * kabs (det d (edge vs) / kofnat (fact d))) * (kofnat (fact d) * kabs (det d (edge vs) / kofnat (fact d))) = det d (edge vs) * det d (edge vs)).
        { destruct (klt_total Q 0 (det d (edge vs))) as [H|[H|H]]; [|congruence|].
          - assert (P : klt 0 (det d (edge vs) / kofnat (fact d))) by (apply klt_div; [exact H|apply fact_pos]). rewrite kabs_nonneg by (apply klt_le; exact P). split; [exact P|]. field. exact NF.
          - assert (P : klt (det d (edge vs) / kofnat (fact d)) 0). { apply klt_sub. apply klt_sub in H. replace (0 - det d (edge vs) / kofnat (fact d)) with ((0 - det d (edge vs)) / kofnat (fact d)) by (field; exact NF). apply klt_div; [exact H|apply fact_pos]. }
            rewrite kabs_neg by exact P. split; [|field; exact NF]. apply klt_sub in P. replace (- (det d (edge vs) / kofnat (fact d))) with (0 - det d (edge vs) / kofnat (fact d)) by ring. exact P. }
        destruct A as [A1 A2]. assert (GE : det d (gram d vs) = det d (edge vs) * det d (edge vs)).
        { transitivity (det d (mmul d (edge vs) (fun i j => edge vs j i))); [reflexivity|]. rewrite det_mul, det_transpose. reflexivity. }
        split; [exact A1|]. split; [rewrite A2, GE; reflexivity|]. apply square_inj; [apply klt_le, klt_mul; [apply fact_pos|exact A1]|apply klt_le; exact DP|]. rewrite A2, <- GE. exact G.
      + exists (det k (edge (local ksqrt k vs)) / kofnat (fact k)). split; [apply (volume_embedded ksqrt Hsqrt k d vs HV Hk HI); lia|]. split; [apply klt_div; [exact DP|apply fact_pos]|]. split; [rewrite G; field; exact NF|field; exact NF].
  Qed.
  Lemma volume_perm k d (vs vs' : list (list Q)) : (k <= d)%nat -> rows_of (S k) d vs -> affine_independent d vs -> Permutation vs vs' -> volume ksqrt vs' = volume ksqrt vs.
  Proof.
    intros Hkd HV HI P. destruct (vol_eq k d vs Hkd HV HI) as (V & E & PV & GV & _). destruct (vol_eq k d vs' Hkd (rows_perm _ _ _ _ P HV) (affine_independent_perm _ _ _ _ P HV HI)) as (V' & E' & PV' & GV' & _).
    rewrite E, E'. f_equal. pose proof (fact_pos (Q := Q) k) as FP. assert (X : kofnat (fact k) * V' = kofnat (fact k) * V).
    { apply square_inj; try (apply klt_le, klt_mul; assumption). rewrite GV, GV'. symmetry. exact (gram_perm k d vs vs' P (proj1 HV)). }
    transitivity (kofnat (fact k) * V' / kofnat (fact k)); [field; apply fact_neq|]. rewrite X. field. apply fact_neq.
  Qed.
  (** simplices with the same edge lengths *)
  Definition dist2 (d : nat) (vs : list (list Q)) (i j : nat) : Q := ksum (seq 0 d) (fun l => (ent vs i l - ent vs j l) * (ent vs i l - ent vs j l)).
  Lemma gram_dist d (vs : list (list Q)) i j : (1 + 1) * gram d vs i j = dist2 d vs (S i) 0 + dist2 d vs (S j) 0 - dist2 d vs (S i) (S j).
  Proof. unfold gram, dist2. rewrite <- ksum_scale_l, <- ksum_plus, <- ksum_minus. apply ksum_ext. intros l _. unfold edge. ring. Qed.
  Lemma volume_congruent k d d' (vs vs' : list (list Q)) : (k <= d)%nat -> (k <= d')%nat -> rows_of (S k) d vs -> rows_of (S k) d' vs' -> affine_independent d vs ->
    (forall i j, (i <= k)%nat -> (j <= k)%nat -> dist2 d vs i j = dist2 d' vs' i j) -> affine_independent d' vs' /\ volume ksqrt vs' = volume ksqrt vs.
  Proof.
    intros H1 H2 HV HV' HI HD.
    assert (G : det k (gram d vs) = det k (gram d' vs')).
    { apply det_ext. intros i j Hi Hj. assert (E : (1 + 1) * gram d vs i j = (1 + 1) * gram d' vs' i j) by (rewrite !gram_dist, !HD by lia; reflexivity).
      assert (T : (1 + 1 : Q) <> 0). { apply klt_neq0. replace (0 : Q) with (0 + 0 : Q) by ring. apply (klt_le_trans _ (0 + 1)); [apply klt_sub; replace (0 + 1 - (0 + 0)) with (1 : Q) by ring; apply k01|apply kle_add2; [apply klt_le, k01|apply kle_refl]]. }
      transitivity ((1 + 1) * gram d vs i j / (1 + 1)); [field; exact T|]. rewrite E. field. exact T. }
    assert (HI' : affine_independent d' vs') by (apply (gram_independent k d' vs' HV'); rewrite <- G; apply (gram_independent k d vs HV); exact HI). split; [exact HI'|].
    destruct (vol_eq k d vs H1 HV HI) as (V & E & PV & GV & _). destruct (vol_eq k d' vs' H2 HV' HI') as (V' & E' & PV' & GV' & _).
    rewrite E, E'. f_equal. pose proof (fact_pos (Q := Q) k) as FP. assert (X : kofnat (fact k) * V' = kofnat (fact k) * V) by (apply square_inj; try (apply klt_le, klt_mul; assumption); rewrite GV, GV'; symmetry; exact G).
    transitivity (kofnat (fact k) * V' / kofnat (fact k)); [field; apply fact_neq|]. rewrite X. field. apply fact_neq.
  Qed.

  (** ** Removing the last vertex *)
  Lemma independent_front m d (f : list (list Q)) v : rows_of m d (f ++ [v]) -> affine_independent d (f ++ [v]) -> affine_independent d f.
  Proof.
    intros HV HI c S0 H i Hi. assert (Z : (fun i => if (i <? length f)%nat then c i else 0) i = 0).
    { apply (HI (fun i => if (i <? length f)%nat then c i else 0)); rewrite app_length; cbn [length]; replace (length f + 1)%nat with (S (length f)) by lia; [|intros j Hj|lia].
      - rewrite ksum_Sn, Nat.ltb_irrefl. rewrite (ksum_ext _ c); [rewrite S0; ring|]. intros l Hl. apply in_seq in Hl. destruct (Nat.ltb_spec l (length f)); [reflexivity|lia].
      - rewrite ksum_Sn, Nat.ltb_irrefl. rewrite (ksum_ext _ (fun l => c l * ent f l j)); [rewrite H by exact Hj; ring|]. intros l Hl. apply in_seq in Hl. rewrite ent_snoc by lia. destruct (Nat.ltb_spec l (length f)); [reflexivity|lia]. }
    cbv beta in Z. destruct (Nat.ltb_spec i (length f)); [exact Z|lia].
  Qed.
  Lemma edges_snoc k d (f : list (list Q)) v : rows_of (S k) d f -> edges_of (S k) (f ++ [v]) = edges_of k f ++ [vsub v (nth 0 f [])].
  Proof.
    intros [L _]. unfold edges_of. rewrite seq_S, map_app. cbn [map Nat.add]. f_equal.
    - apply map_ext_in. intros i Hi. apply in_seq in Hi. unfold vtx. rewrite !app_nth1 by lia. reflexivity.
    - unfold vtx. rewrite app_nth2 by lia. replace (S k - length f)%nat with 0%nat by lia. rewrite app_nth1 by lia. reflexivity.
  Qed.
  (** the foot of the perpendicular *)
  Lemma foot_exists k d (f : list (list Q)) v : rows_of (S k) d f -> length v = d -> affine_independent d f ->
    exists c x, affine_comb d c f x /\ (forall j, (j < d)%nat -> nth j x 0 = nth j (nth 0 f []) 0 + ksum (seq 0 k) (fun l => dot (nth l (gram_schmidt_rn ksqrt (edges_of k f)) []) (vsub v (nth 0 f [])) * ent (gram_schmidt_rn ksqrt (edges_of k f)) l j)) /\
      forall i, (i <= k)%nat -> dot (vsub v x) (vsub (nth i f []) (nth 0 f [])) = 0.
  Proof.
    intros HF Lv HI. destruct (Nat.eq_dec k 0) as [->|Hk].
    - destruct f as [|w [|]]; try (destruct HF as [HF _]; cbn in HF; lia). assert (Lw : length w = d) by (apply HF; left; reflexivity). exists [1], w. split; [|split].
      + split; [reflexivity|]. split; [exact Lw|]. split; [rewrite ksum_cons, ksum_nil; ring|]. intros j Hj. cbn [length seq]. rewrite ksum_cons, ksum_nil. unfold ent. cbn [nth]. ring.
      + intros j Hj. cbn [nth seq]. rewrite ksum_nil. ring.
      + intros i Hi. assert (E : i = 0%nat) by lia. rewrite E. cbn [nth]. rewrite (dot_vsub_r d) by (try apply vsub_len; assumption). ring.
    - destruct (local_coords ksqrt Hsqrt k d f HF Hk HI v) as (c & HC). exists c, (barycentric_to_cartesian c f). split; [|split].
      + pose proof HC as (Lc & _ & S1 & _). rewrite (proj1 (local_rows ksqrt k d f HF)) in Lc. apply (barycentric_to_cartesian_spec d k); assumption.
      + rewrite <- (projection_hull ksqrt Hsqrt k d f HF Hk HI v c Lv HC). apply (projection_eq ksqrt d k (edges_of k f) (nth 0 f []) v).
        * exact (onb_rows ksqrt Hsqrt k d f HF HI).
        * apply (lenv k d f HF). lia.
        * exact Lv.
      + intros i Hi. exact (projection_orthogonal ksqrt Hsqrt k d f HF Hk HI v c i Lv HC Hi).
  Qed.
  Lemma height k d (f : list (list Q)) v : (S k <= d)%nat -> rows_of (S k) d f -> length v = d -> affine_independent d (f ++ [v]) ->
    exists c x, affine_comb d c f x /\ (forall i, (i <= k)%nat -> dot (vsub v x) (vsub (nth i f []) (nth 0 f [])) = 0) /\ klt 0 (norm2 ksqrt (vsub v x)) /\
      exists V Vf, volume ksqrt (f ++ [v]) = Ok V /\ volume ksqrt f = Ok Vf /\ klt 0 V /\ klt 0 Vf /\ kofnat (S k) * V = Vf * norm2 ksqrt (vsub v x).
  Proof.
    intros Hkd HF Lv HI.
    assert (HV : rows_of (S (S k)) d (f ++ [v])). { split; [rewrite app_length, (proj1 HF); cbn [length]; lia|]. intros r Hr. apply in_app_or in Hr as [Hr|[<-|[]]]; [apply HF; exact Hr|exact Lv]. }
    pose proof (independent_front _ _ _ _ HV HI) as HIf. destruct (foot_exists k d f v HF Lv HIf) as (c & x & HC & Hx & HO). exists c, x. split; [exact HC|]. split; [exact HO|].
    destruct (vol_eq (S k) d (f ++ [v]) Hkd HV HI) as (V & EV & PV & _ & DV). destruct (vol_eq k d f ltac:(lia) HF HIf) as (Vf & EVf & PVf & _ & DVf).
    assert (L0 : length (nth 0 f []) = d) by (apply (lenv k d f HF); lia). pose proof HC as (_ & Lx & _).
    (* the last vector of the basis *)
    pose proof (onb_inv ksqrt Hsqrt (S k) d (f ++ [v]) HV HI) as GI. rewrite (det_local ksqrt Hsqrt (S k) d (f ++ [v]) HV ltac:(discriminate) HI) in DV.
    unfold onb in GI, DV. rewrite (edges_snoc k d f v HF) in GI, DV. unfold gram_schmidt_rn in GI, DV. rewrite fold_left_app in GI, DV. cbn [fold_left] in GI, DV. fold (gram_schmidt_rn ksqrt (edges_of k f)) in GI, DV.
    assert (Rq : rows_of k d (gram_schmidt_rn ksqrt (edges_of k f))) by (exact (onb_rows ksqrt Hsqrt k d f HF HIf)). assert (Oq : orthonormal (gram_schmidt_rn ksqrt (edges_of k f))) by (exact (onb_on ksqrt Hsqrt k d f HF HIf)).
    assert (DL : kprod (seq 0 k) (fun i => dot (nth i (gram_schmidt_rn ksqrt (edges_of k f)) []) (nth i (edges_of k f) [])) = det k (edge (local ksqrt k f))).
    { destruct (Nat.eq_dec k 0) as [->|Hk]; [reflexivity|]. symmetry. exact (det_local ksqrt Hsqrt k d f HF Hk HIf). }
    remember (gram_schmidt_rn ksqrt (edges_of k f)) as q eqn:Eq. clear Eq. pose proof (edges_rows k d f HF) as ER. remember (edges_of k f) as e eqn:Ee. clear Ee.
    set (w := vsub v (nth 0 f [])) in *. assert (Lw : length w = d) by (apply vsub_len; assumption). unfold gs_step in GI, DV.
    destruct (reduce_spec d q w w Lw (proj2 Rq)) as [Lu Hu]. remember (fold_left (fun u q => vsub u (vscale (dot w q) q)) q w) as u eqn:Eu. clear Eu.
    assert (EU : u = vsub v x).
    { apply (vec_ext _ _ d Lu (vsub_len _ _ d Lv Lx)). intros j Hj. rewrite Hu, nth_vsub, Hx by congruence || exact Hj. rewrite (ksum_list []), (proj1 Rq). unfold w at 1. rewrite nth_vsub by congruence.
      rewrite (ksum_ext (fun i => dot w (nth i q []) * nth j (nth i q []) 0) (fun l => dot (nth l q []) w * ent q l j)) by (intros l _; rewrite dot_comm; reflexivity). ring. }
    assert (UO : forall i, (i < k)%nat -> dot (nth i q []) u = 0).
    { intros i Hi. assert (Lq : length (nth i q []) = d) by (apply (rows_len k d); assumption).
      assert (X : dot (nth i q []) u = dot (nth i q []) w - ksum (seq 0 k) (fun l => dot w (nth l q []) * dot (nth i q []) (nth l q []))).
      { rewrite <- (dot_lin d (nth i q []) (lincomb d k (fun l => dot w (nth l q [])) q) k (fun l => dot w (nth l q [])) q Lq (lincomb_length _ _ _ _) Rq) by (intros; apply nth_lincomb; assumption).
        rewrite <- (dot_vsub_r d) by (try apply lincomb_length; assumption). f_equal. apply (vec_ext _ _ d Lu); [apply vsub_len; [exact Lw|apply lincomb_length]|]. intros j Hj. rewrite Hu, nth_vsub, nth_lincomb by (try rewrite lincomb_length; assumption). rewrite (ksum_list []), (proj1 Rq). reflexivity. }
      rewrite X. rewrite (ksum_ext _ (fun l => (if (l =? i)%nat then 1 else 0) * dot w (nth l q []))) by (intros l Hl; apply in_seq in Hl; rewrite Oq by (rewrite (proj1 Rq); lia); rewrite Nat.eqb_sym; ring). rewrite delta_sum by exact Hi. rewrite (dot_comm w). ring. }
    assert (WU : dot w u = dot u u).
    { assert (X : dot u w = dot u u + ksum (seq 0 k) (fun l => dot w (nth l q []) * dot u (nth l q []))).
      { rewrite <- (dot_lin d u (lincomb d k (fun l => dot w (nth l q [])) q) k (fun l => dot w (nth l q [])) q Lu (lincomb_length _ _ _ _) Rq) by (intros; apply nth_lincomb; assumption).
        assert (Y : u = vsub w (lincomb d k (fun l => dot w (nth l q [])) q)). { apply (vec_ext _ _ d Lu); [apply vsub_len; [exact Lw|apply lincomb_length]|]. intros j Hj. rewrite Hu, nth_vsub, nth_lincomb by (try rewrite lincomb_length; assumption). rewrite (ksum_list []), (proj1 Rq). reflexivity. }
        rewrite Y at 3. rewrite (dot_vsub_r d) by (try apply lincomb_length; assumption). ring. }
      rewrite (dot_comm w), X, ksum_zero; [ring|]. intros l Hl. apply in_seq in Hl. rewrite (dot_comm u), UO by lia. ring. }
    pose proof (Hsqrt (dot u u) (dot_self_nonneg u)) as [N1 N2]. fold (norm2 ksqrt u) in N1, N2. set (s := norm2 ksqrt u) in *.
    assert (LD : dot (vscale (1 / s) u) w = 1 / s * (s * s)) by (rewrite dot_vscale_l, (dot_comm u), WU, N2; reflexivity).
    destruct GI as (_ & _ & _ & GR). rewrite app_length, (proj1 ER) in GR. cbn [length] in GR. destruct (GR k ltac:(lia)) as (_ & GP & _).
    rewrite !nth_snoc, (proj1 ER), (proj1 Rq), Nat.ltb_irrefl in GP by (rewrite ?(proj1 ER), ?(proj1 Rq); lia). rewrite dot_comm, LD in GP.
    assert (SN : s <> 0) by (intros E; rewrite E in GP; replace (1 / 0 * (0 * 0)) with (0 : Q) in GP by ring; exact (klt_irrefl Q 0 GP)).
    assert (SP : klt 0 s) by (destruct (kle_cases 0 s N1) as [H|H]; [exact H|congruence]).
    rewrite <- EU. fold s. split; [exact SP|]. exists V, Vf. split; [exact EV|]. split; [exact EVf|]. split; [exact PV|]. split; [exact PVf|].
    rewrite seq_S in DV. assert (KA : forall l1 l2 (g : nat -> Q), kprod (l1 ++ l2) g = kprod l1 g * kprod l2 g) by (intros l1 l2 g; induction l1 as [|a l1 IH]; [change (kprod ([] : list nat) g) with (1 : Q); cbn [app]; ring|cbn [app]; rewrite !kprod_cons, IH; ring]).
    rewrite KA, kprod_cons in DV. change (kprod ([] : list nat) _) with (1 : Q) in DV at 1. rewrite (kprod_ext _ (fun i => dot (nth i q []) (nth i e []))) in DV by (intros i Hi; apply in_seq in Hi; rewrite !nth_snoc, (proj1 ER), (proj1 Rq) by (rewrite ?(proj1 ER), ?(proj1 Rq); lia); destruct (Nat.ltb_spec i k); [reflexivity|lia]).
    rewrite DL, <- DVf in DV. cbn [Nat.add] in DV. rewrite !nth_snoc, (proj1 ER), (proj1 Rq), Nat.ltb_irrefl, LD in DV by (rewrite ?(proj1 ER), ?(proj1 Rq); lia).
    pose proof (fact_neq (F := Q) k) as NF. change (fact (S k)) with (S k * fact k)%nat in DV. rewrite kofnat_mul in DV.
    transitivity (kofnat (S k) * kofnat (fact k) * V / kofnat (fact k)); [field; exact NF|]. rewrite DV. field. split; [exact SN|exact NF].
  Qed.

  (** ** Faces and altitudes *)
  Lemma face_perm n (vs : list (list Q)) i : length vs = S (S n) -> (i <= S n)%nat -> exists f, face vs i = Ok f /\ Permutation vs (f ++ [nth i vs []]).
  Proof.
    intros L Hi. unfold face. rewrite L, simplex_boundary_ok by discriminate. cbn [bind]. unfold get.
    assert (L1 : (1 < length (seq 0 (S (S n))))%nat) by (rewrite seq_length; lia).
    rewrite (nth_error_nth' (faces (seq 0 (S (S n)))) []) by (rewrite faces_length by exact L1; rewrite seq_length; lia). cbn [bind]. rewrite faces_nth by (try exact L1; rewrite seq_length; lia).
    exists (map (vtx vs) (face_of (seq 0 (S (S n))) i)). split; [reflexivity|].
    assert (Hi' : (i < length (seq 0 (S (S n))))%nat) by (rewrite seq_length; lia).
    assert (EM : map (vtx vs) (seq 0 (S (S n))) = vs).
    { apply (nth_ext _ _ [] []); [rewrite map_length, seq_length; symmetry; exact L|]. intros j Hj. rewrite map_length, seq_length in Hj. rewrite nth_map_seq0 by exact Hj. reflexivity. }
    pose proof (delete_at_perm _ i 0%nat Hi') as DP. rewrite seq_nth in DP by lia. cbn [Nat.add] in DP.
    rewrite <- EM at 1. change [nth i vs []] with (map (vtx vs) [i]). rewrite <- map_app. apply Permutation_map.
    apply (Permutation_trans DP). apply (Permutation_trans (Permutation_cons_append _ _)). apply Permutation_app_tail. apply face_of_perm. exact Hi'.
  Qed.
  (** [x] is the point of the plane through [f] closest to [v] *)
  Definition foot (d : nat) (f : list (list Q)) (v x : list Q) : Prop :=
    (exists c, affine_comb d c f x) /\ forall i, (i < length f)%nat -> dot (vsub v x) (vsub (nth i f []) (nth 0 f [])) = 0.
  Lemma face_height n d (vs : list (list Q)) i : (S n <= d)%nat -> rows_of (S (S n)) d vs -> affine_independent d vs -> (i <= S n)%nat ->
    exists f x V Vf, face vs i = Ok f /\ Permutation vs (f ++ [nth i vs []]) /\ rows_of (S n) d f /\ foot d f (nth i vs []) x /\ volume ksqrt vs = Ok V /\ volume ksqrt f = Ok Vf /\ klt 0 V /\ klt 0 Vf /\ klt 0 (norm2 ksqrt (vsub (nth i vs []) x)) /\
      kofnat (S n) * V = Vf * norm2 ksqrt (vsub (nth i vs []) x).
  Proof.
    intros Hnd HV HI Hi. destruct (face_perm n vs i (proj1 HV) Hi) as (f & Ef & P). pose proof (rows_perm _ _ _ _ P HV) as HV'. pose proof (affine_independent_perm _ _ _ _ P HV HI) as HI'.
    assert (HF : rows_of (S n) d f). { destruct HV' as [A B]. rewrite app_length in A. cbn [length] in A. split; [lia|]. intros r Hr. apply B, in_or_app. left. exact Hr. }
    assert (Lv : length (nth i vs []) = d) by (apply (rows_len (S (S n)) d); [exact HV|lia]).
    destruct (height n d f (nth i vs []) Hnd HF Lv HI') as (c & x & HC & HO & PH & V & Vf & EV & EVf & PV & PVf & HH).
    exists f, x, V, Vf. split; [exact Ef|]. split; [exact P|]. split; [exact HF|]. split; [split; [exists c; exact HC|intros j Hj; apply HO; rewrite (proj1 HF) in Hj; lia]|]. split; [|split; [exact EVf|split; [exact PV|split; [exact PVf|split; [exact PH|exact HH]]]]].
    rewrite <- EV. symmetry. exact (volume_perm (S n) d vs _ Hnd HV HI P).
  Qed.
  Theorem altitude_spec n d (vs : list (list Q)) i : (S n <= d)%nat -> rows_of (S (S n)) d vs -> affine_independent d vs -> (i <= S n)%nat ->
    exists f x, face vs i = Ok f /\ Permutation vs (f ++ [nth i vs []]) /\ foot d f (nth i vs []) x /\ altitude ksqrt vs i = Ok (norm2 ksqrt (vsub (nth i vs []) x)) /\ klt 0 (norm2 ksqrt (vsub (nth i vs []) x)).
  Proof.
    intros Hnd HV HI Hi. destruct (face_height n d vs i Hnd HV HI Hi) as (f & x & V & Vf & Ef & P & _ & HF & EV & EVf & _ & PVf & PH & HH). exists f, x. split; [exact Ef|]. split; [exact P|]. split; [exact HF|]. split; [|exact PH].
    unfold altitude. rewrite Ef. cbn [bind]. rewrite EV, EVf. cbn [bind]. rewrite (proj1 (dims (S n) d vs HV)). f_equal. rewrite HH. field. apply klt_neq0. exact PVf.
  Qed.
End Volume.
