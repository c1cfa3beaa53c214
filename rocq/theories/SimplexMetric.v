(** Barycentric coordinates, volumes and projections of simplices embedded in a
    space of any dimension. *)
From Verif Require Import Base Fld FldInst LinSolve PolyEval Det Linalg VecFacts Simplicial SimplexGeo SimplexFacts GramSchmidt.
From Coq Require Import Field_theory Field.

Section Metric.
  Context {Q : ofld} (ksqrt : Q -> Q).
  Add Field Kfield45 : (kth Q).
  Local Open Scope fld_scope.
  Hypothesis Hsqrt : sqrt_ok ksqrt.

  (** ** Edge vectors *)
  Definition edges_of (k : nat) (vs : list (list Q)) : list (list Q) := map (fun i => vsub (vtx vs (S i)) (vtx vs 0)) (seq 0 k).
  Section Fixed.
    Variables (k d : nat) (vs : list (list Q)).
    Hypothesis HV : rows_of (S k) d vs.
    Lemma lenv i : (i <= k)%nat -> length (nth i vs []) = d. Proof. intros H. apply (rows_len (S k) d); [exact HV|lia]. Qed.
    Lemma edges_rows : rows_of k d (edges_of k vs).
    Proof.
      split; [unfold edges_of; rewrite map_length, seq_length; reflexivity|]. intros r Hr. apply in_map_iff in Hr as (i & <- & Hi). apply in_seq in Hi. unfold vtx. apply vsub_len; apply lenv; lia.
    Qed.
    Lemma nth_edges i : (i < k)%nat -> nth i (edges_of k vs) [] = vsub (nth (S i) vs []) (nth 0 vs []).
    Proof. intros Hi. unfold edges_of. rewrite (nth_map_seq0 (fun i => vsub (vtx vs (S i)) (vtx vs 0))) by exact Hi. reflexivity. Qed.
    Lemma ent_edges i j : (i < k)%nat -> ent (edges_of k vs) i j = edge vs i j.
    Proof. intros Hi. unfold ent at 1. rewrite nth_edges, nth_vsub by (try exact Hi; rewrite !lenv by lia; reflexivity). reflexivity. Qed.
    Hypothesis Hk : k <> 0%nat.
    Lemma basis_eq : basis vs 0 = Ok (edges_of k vs).
    Proof.
      unfold basis. rewrite (proj1 (dims k d vs HV)). destruct (Nat.eqb_spec k 0); [contradiction|]. f_equal. apply map_ext_in. intros i Hi. apply in_seq in Hi. rewrite Nat.mod_small by lia. f_equal. f_equal. lia.
    Qed.
    Lemma translate_rows : rows_of (S k) d (map (fun v => vsub v (vtx vs 0)) vs).
    Proof. clear Hk.
      split; [rewrite map_length; apply HV|]. intros r Hr. apply in_map_iff in Hr as (v & <- & Hv). apply vsub_len; [apply HV; exact Hv|apply lenv; lia].
    Qed.
    Lemma nth_translate i : (i <= k)%nat -> nth i (map (fun v => vsub v (vtx vs 0)) vs) [] = vsub (nth i vs []) (nth 0 vs []).
    Proof. clear Hk.
      intros Hi. rewrite (nth_indep _ [] ((fun v => vsub v (vtx vs 0)) [])) by (rewrite map_length; destruct HV; lia). rewrite (map_nth (fun v => vsub v (vtx vs 0))). reflexivity.
    Qed.

    Hypothesis HI : affine_independent d vs.
    Lemma edges_indep : indep d (edges_of k vs).
    Proof. clear Hk.
      intros c Hc i Hi. rewrite (proj1 edges_rows) in *. apply (affine_independent_edges k d vs (proj1 HV) HI c); [|exact Hi]. intros j Hj. rewrite <- (Hc j Hj). apply ksum_ext. intros l Hl. apply in_seq in Hl. rewrite ent_edges by lia. reflexivity.
    Qed.
    Definition onb : list (list Q) := gram_schmidt_rn ksqrt (edges_of k vs).
    Lemma onb_inv : gs_inv d (edges_of k vs) onb.
    Proof. apply (gram_schmidt_inv ksqrt Hsqrt); [apply edges_rows|apply edges_indep]. Qed.
    Lemma onb_rows : rows_of k d onb. Proof. destruct onb_inv as (H & _). rewrite (proj1 edges_rows) in H. exact H. Qed.
    Lemma onb_on : orthonormal onb. Proof. apply onb_inv. Qed.
    Lemma d_pos : d <> 0%nat.
    Proof.
      intros E. pose proof edges_indep as H. assert (Z : (fun _ : nat => 1 : Q) 0%nat = 0) by (apply (H (fun _ => 1)) with (i := 0%nat); [intros j Hj; lia|rewrite (proj1 edges_rows); lia]). exact (k1_neq_0 (F := Q) Z).
    Qed.
    Lemma onb_len i : (i < k)%nat -> length (nth i onb []) = d. Proof. intros H. apply (rows_len k d); [apply onb_rows|exact H]. Qed.
    (** every combination of edges is given by its products with the basis *)
    Lemma onb_expand (c : nat -> Q) w : length w = d -> (forall j, (j < d)%nat -> nth j w 0 = ksum (seq 0 k) (fun i => c i * edge vs i j)) ->
      forall j, (j < d)%nat -> nth j w 0 = ksum (seq 0 k) (fun l => dot (nth l onb []) w * ent onb l j).
    Proof.
      intros Lw Hw j Hj. destruct onb_inv as (_ & _ & _ & HR). rewrite (proj1 edges_rows) in HR.
      rewrite Hw by exact Hj. rewrite (ksum_ext _ (fun i => ksum (seq 0 k) (fun l => c i * (dot (nth i (edges_of k vs) []) (nth l onb []) * ent onb l j)))).
      - rewrite ksum_swap. apply ksum_ext. intros l Hl. apply in_seq in Hl.
        rewrite (dot_lin d (nth l onb []) w k c (edges_of k vs) (onb_len l ltac:(lia)) Lw edges_rows).
        + rewrite <- ksum_scale_r. apply ksum_ext. intros i _. rewrite (dot_comm (nth l onb [])). ring.
        + intros m Hm. rewrite Hw by exact Hm. apply ksum_ext. intros i Hi. apply in_seq in Hi. rewrite ent_edges by lia. reflexivity.
      - intros i Hi. apply in_seq in Hi. rewrite ksum_scale_l. f_equal. destruct (HR i) as (_ & _ & R3); [lia|]. rewrite <- R3 by exact Hj. rewrite ent_edges by lia. reflexivity.
    Qed.

    (** ** Local coordinates *)
    Definition loc (v : list Q) : list Q := map (fun l => dot (nth l onb []) (vsub v (nth 0 vs []))) (seq 0 k).
    Definition local : list (list Q) := map loc vs.
    Lemma loc_len v : length (loc v) = k. Proof. unfold loc. rewrite map_length, seq_length. reflexivity. Qed.
    Lemma nth_loc v l : (l < k)%nat -> nth l (loc v) 0 = dot (nth l onb []) (vsub v (nth 0 vs [])).
    Proof. intros H. exact (nth_map_seq0 (fun l => dot (nth l onb []) (vsub v (nth 0 vs []))) k 0 l H). Qed.
    Lemma local_rows : rows_of (S k) k local.
    Proof. split; [unfold local; rewrite map_length; apply HV|]. intros r Hr. apply in_map_iff in Hr as (v & <- & _). apply loc_len. Qed.
    Lemma nth_local i : (i <= k)%nat -> nth i local [] = loc (nth i vs []).
    Proof. clear Hk. intros Hi. unfold local. rewrite (nth_indep _ [] (loc [])) by (rewrite map_length; destruct HV; lia). apply (map_nth loc). Qed.
    Lemma orthonormal_basis_eq : orthonormal_basis ksqrt vs 0 = Ok onb.
    Proof. unfold orthonormal_basis. rewrite basis_eq. reflexivity. Qed.
    Lemma basis_translate : basis (map (fun v => vsub v (vtx vs 0)) vs) 0 = Ok (edges_of k vs).
    Proof.
      unfold basis. rewrite (proj1 (dims k d _ translate_rows)). destruct (Nat.eqb_spec k 0); [contradiction|]. f_equal. unfold edges_of. apply map_ext_in. intros i Hi. apply in_seq in Hi. rewrite Nat.mod_small by lia.
      replace (0 + i + 1)%nat with (S i) by lia. unfold vtx at 1 3. rewrite !nth_translate by lia. unfold vtx.
      apply (vec_ext _ _ d); [repeat apply vsub_len; apply lenv; lia|apply vsub_len; apply lenv; lia|]. intros j Hj.
      rewrite !nth_vsub by (rewrite ?(vsub_len _ _ d); rewrite ?lenv; lia || (apply lenv; lia)). ring.
    Qed.
    Lemma transform_loc v : length v = d -> transform_to_basis (vsub v (nth 0 vs [])) onb = Ok (loc v).
    Proof.
      intros Lv. apply (transform_orthonormal d k); [exact Hk|exact d_pos|exact onb_rows|exact onb_on|]. apply vsub_len; [exact Lv|apply lenv; lia].
    Qed.
    Lemma local_coordinates_eq : local_coordinates ksqrt vs = Ok local.
    Proof.
      unfold local_coordinates. rewrite (proj1 (dims k d vs HV)). destruct (Nat.eqb_spec k 0); [contradiction|]. unfold orthonormal_basis. rewrite basis_translate. cbn [bind]. fold onb.
      unfold local, vtx. assert (G : forall l, (forall v, In v l -> length v = d) -> transform_all (map (fun v => vsub v (nth 0 vs [])) l) onb = Ok (map loc l)).
      { induction l as [|v l IH]; intros Hl; [reflexivity|]. cbn [map transform_all]. rewrite transform_loc by (apply Hl; left; reflexivity). cbn [bind]. rewrite IH by (intros; apply Hl; right; assumption). reflexivity. }
      apply G. apply HV.
    Qed.
    Lemma edge_local i l : (i < k)%nat -> (l < k)%nat -> edge local i l = dot (nth l onb []) (nth i (edges_of k vs) []).
    Proof.
      intros Hi Hl. unfold edge, ent. rewrite !nth_local, !nth_loc, nth_edges by lia. pose proof (onb_len l Hl) as L1. assert (L0 : length (nth 0 vs []) = d) by (apply lenv; lia). assert (L2 : length (nth (S i) vs []) = d) by (apply lenv; lia).
      rewrite !(dot_vsub_r d) by assumption. ring.
    Qed.
    Lemma kprod_pos {A} (l : list A) (f : A -> Q) : (forall a, In a l -> klt 0 (f a)) -> klt 0 (kprod l f).
    Proof. induction l as [|a l IH]; intros H; [apply k01|]. rewrite kprod_cons. apply klt_mul; [apply H; left; reflexivity|apply IH; intros; apply H; right; assumption]. Qed.
    Lemma det_local : det k (edge local) = kprod (seq 0 k) (fun i => dot (nth i onb []) (nth i (edges_of k vs) [])).
    Proof.
      rewrite <- det_transpose. rewrite det_upper.
      - apply kprod_ext. intros i Hi. apply in_seq in Hi. apply edge_local; lia.
      - intros i j Hij. rewrite edge_local by lia. destruct onb_inv as (_ & _ & _ & HR). rewrite (proj1 edges_rows) in HR. destruct (HR j) as (R1 & _); [lia|]. rewrite dot_comm. apply R1. lia.
    Qed.
    Lemma det_local_pos : klt 0 (det k (edge local)).
    Proof.
      rewrite det_local. apply kprod_pos. intros i Hi. apply in_seq in Hi. destruct onb_inv as (_ & _ & _ & HR). rewrite (proj1 edges_rows) in HR. destruct (HR i) as (_ & R2 & _); [lia|]. rewrite dot_comm. exact R2.
    Qed.
    Lemma gram_det : det k (fun i j => dot (nth i (edges_of k vs) []) (nth j (edges_of k vs) [])) = det k (edge local) * det k (edge local).
    Proof.
      transitivity (det k (mmul k (edge local) (fun i j => edge local j i))); [|rewrite det_mul, det_transpose; reflexivity].
      apply det_ext. intros i j Hi Hj. unfold mmul. destruct onb_inv as (_ & _ & _ & HR). rewrite (proj1 edges_rows) in HR. destruct (HR j) as (_ & _ & R3); [lia|].
      assert (LE : forall i, (i < k)%nat -> length (nth i (edges_of k vs) []) = d) by (intros; apply (rows_len k d); [apply edges_rows|assumption]).
      rewrite (dot_lin d (nth i (edges_of k vs) []) (nth j (edges_of k vs) []) k (fun l => dot (nth j (edges_of k vs) []) (nth l onb [])) onb (LE i Hi) (LE j Hj) onb_rows) by (intros; apply R3; assumption).
      apply ksum_ext. intros l Hl. apply in_seq in Hl. rewrite !edge_local by lia. rewrite (dot_comm (nth j _ _)), (dot_comm (nth i _ _)). ring.
    Qed.
    (** ** Volume of an embedded simplex *)
    Lemma klt_div (a b : Q) : klt 0 a -> klt 0 b -> klt 0 (a / b).
    Proof. intros Ha Hb. replace (a / b) with (a * (1 / b)) by (field; apply klt_neq0; exact Hb). apply klt_mul; [exact Ha|apply klt_inv; exact Hb]. Qed.
    Lemma fact_pos n : klt 0 (@kofnat Q (fact n)). Proof. apply kofnat_pos. apply fact_neq_0. Qed.
    Lemma signed_volume_local : signed_volume local = Ok (det k (edge local) / kofnat (fact k)).
    Proof. apply signed_volume_eq; [exact Hk|exact local_rows]. Qed.
    Lemma volume_local : volume ksqrt local = Ok (det k (edge local) / kofnat (fact k)).
    Proof.
      unfold volume. destruct (dims k k local local_rows) as [E1 E2]. rewrite E1, E2. destruct (Nat.eqb_spec k 0); [contradiction|]. rewrite Nat.ltb_irrefl, signed_volume_local. cbn [bind]. f_equal. unfold kabs.
      destruct (kltb _ 0) eqn:E; [|reflexivity]. apply kltb_spec in E. exfalso. apply (klt_irrefl Q 0). apply (klt_trans _ _ (det k (edge local) / kofnat (fact k))); [|exact E]. apply klt_div; [apply det_local_pos|apply fact_pos].
    Qed.
    Lemma volume_embedded : (k < d)%nat -> volume ksqrt vs = Ok (det k (edge local) / kofnat (fact k)).
    Proof.
      intros Hkd. unfold volume. destruct (dims k d vs HV) as [E1 E2]. rewrite E1, E2. destruct (Nat.eqb_spec k 0); [contradiction|]. apply Nat.ltb_lt in Hkd. rewrite Hkd, local_coordinates_eq. cbn [bind]. exact signed_volume_local.
    Qed.

    (** ** Projection *)
    Lemma projection_hull x c : length x = d -> affine_comb k c local (loc x) ->
      subspace_projection ksqrt (edges_of k vs) (nth 0 vs []) x = barycentric_to_cartesian c vs.
    Proof.
      intros Lx (Lc & _ & S1 & Hc). rewrite (proj1 local_rows) in *. destruct (barycentric_to_cartesian_spec d k vs c HV Lc S1) as (_ & Ly & _ & Hy). set (y := barycentric_to_cartesian c vs) in *. rewrite (proj1 HV) in Hy.
      assert (L0 : length (nth 0 vs []) = d) by (apply lenv; lia).
      destruct (projection_eq ksqrt d k (edges_of k vs) (nth 0 vs []) x) as [LP HP]; [exact onb_rows|exact L0|exact Lx|]. fold onb in HP.
      apply (vec_ext _ _ d LP Ly). intros j Hj. rewrite HP by exact Hj.
      assert (Y : forall j, (j < d)%nat -> nth j (vsub y (nth 0 vs [])) 0 = ksum (seq 0 k) (fun i => nth (S i) c 0 * edge vs i j)).
      { intros m Hm. rewrite nth_vsub by congruence. rewrite (edge_comb k vs (fun i => nth i c 0) m), Hy by exact Hm. rewrite ksum_nth, Lc in S1. rewrite S1. unfold ent. ring. }
      assert (LY : length (vsub y (nth 0 vs [])) = d) by (apply vsub_len; assumption).
      transitivity (nth j (nth 0 vs []) 0 + nth j (vsub y (nth 0 vs [])) 0); [|rewrite nth_vsub by congruence; ring]. f_equal.
      rewrite (onb_expand (fun i => nth (S i) c 0) _ LY Y j Hj). apply ksum_ext. intros l Hl. apply in_seq in Hl. f_equal.
      rewrite <- nth_loc, Hc by lia. rewrite (dot_lin d (nth l onb []) (vsub y (nth 0 vs [])) k (fun i => nth (S i) c 0) (edges_of k vs) (onb_len l ltac:(lia)) LY edges_rows) by (intros m Hm; rewrite Y by exact Hm; apply ksum_ext; intros i Hi; apply in_seq in Hi; rewrite ent_edges by lia; reflexivity).
      rewrite (ksum_ext (fun i => nth (S i) c 0 * dot _ _) (fun i => nth (S i) c 0 * edge local i l)) by (intros i Hi; apply in_seq in Hi; rewrite edge_local by lia; reflexivity).
      rewrite (edge_comb k local (fun i => nth i c 0) l). rewrite ksum_nth, Lc in S1. rewrite S1. unfold ent at 3. rewrite nth_local, nth_loc by lia. rewrite (dot_vsub_r d) by (try assumption; apply onb_len; lia). ring.
    Qed.
    Lemma loc_comb x c : affine_comb d c vs x -> affine_comb k c local (loc x).
    Proof.
      intros (Lc & Lx & S1 & Hx). rewrite (proj1 HV) in Lc, Hx. unfold affine_comb. rewrite (proj1 local_rows). split; [exact Lc|]. split; [apply loc_len|]. split; [exact S1|]. intros l Hl. rewrite nth_loc by exact Hl.
      assert (L0 : length (nth 0 vs []) = d) by (apply lenv; lia). rewrite (dot_vsub_r d) by (try assumption; apply onb_len; exact Hl).
      rewrite (dot_lin d (nth l onb []) x (S k) (fun i => nth i c 0) vs (onb_len l Hl) Lx HV Hx). rewrite ksum_nth, Lc in S1.
      transitivity (ksum (seq 0 (S k)) (fun i => nth i c 0 * dot (nth l onb []) (nth i vs [])) - ksum (seq 0 (S k)) (fun i => nth i c 0) * dot (nth l onb []) (nth 0 vs [])); [rewrite S1; ring|].
      rewrite <- ksum_scale_r, <- ksum_minus. apply ksum_ext. intros i Hi. apply in_seq in Hi. unfold ent. rewrite nth_local, nth_loc, (dot_vsub_r d) by (try assumption; try apply onb_len; try apply lenv; lia). ring.
    Qed.
    Lemma local_coords x : exists c, affine_comb k c local (loc x).
    Proof. apply coords_exist; [exact Hk|exact local_rows|apply klt_neq0; exact det_local_pos|apply loc_len]. Qed.
    (** orthogonality of the difference to the projection *)
    Lemma projection_orthogonal x c i : length x = d -> affine_comb k c local (loc x) -> (i <= k)%nat ->
      dot (vsub x (barycentric_to_cartesian c vs)) (vsub (nth i vs []) (nth 0 vs [])) = 0.
    Proof.
      intros Lx HC Hi. assert (L0 : length (nth 0 vs []) = d) by (apply lenv; lia).
      pose proof HC as (Lc & _ & S1 & _). rewrite (proj1 local_rows) in Lc. pose proof (barycentric_to_cartesian_spec d k vs c HV Lc S1) as HB. pose proof HB as (_ & Ly & _ & _).
      pose proof (loc_comb _ _ HB) as HC'. set (y := barycentric_to_cartesian c vs) in *.
      assert (O : forall l, (l < k)%nat -> dot (nth l onb []) (vsub x y) = 0).
      { intros l Hl. assert (E : nth l (loc x) 0 = nth l (loc y) 0) by (destruct HC as (_ & _ & _ & H1), HC' as (_ & _ & _ & H2); rewrite H1, H2 by exact Hl; reflexivity).
        rewrite !nth_loc in E by exact Hl. pose proof (onb_len l Hl). rewrite !(dot_vsub_r d) in E by assumption. rewrite (dot_vsub_r d) by assumption.
        transitivity ((dot (nth l onb []) x - dot (nth l onb []) (nth 0 vs [])) - (dot (nth l onb []) y - dot (nth l onb []) (nth 0 vs []))); [ring|]. rewrite E. ring. }
      destruct i as [|i].
      - rewrite (dot_vsub_r d) by (try apply vsub_len; assumption). ring.
      - rewrite <- nth_edges by lia. destruct onb_inv as (_ & _ & _ & HR). rewrite (proj1 edges_rows) in HR. destruct (HR i) as (_ & _ & R3); [lia|].
        rewrite (dot_lin d (vsub x y) (nth i (edges_of k vs) []) k (fun l => dot (nth i (edges_of k vs) []) (nth l onb [])) onb (vsub_len _ _ d Lx Ly) (rows_len k d _ i edges_rows Hi) onb_rows R3).
        apply ksum_zero. intros l Hl. apply in_seq in Hl. rewrite (dot_comm (vsub x y)), O by lia. ring.
    Qed.

    Lemma in_subspace_eq x c tol : (k < d)%nat -> length x = d -> affine_comb k c local (loc x) -> in_subspace ksqrt x vs tol = Ok (kleb (norm2 ksqrt (vsub x (barycentric_to_cartesian c vs))) tol).
    Proof.
      intros Hkd Lx HC. unfold in_subspace. destruct (dims k d vs HV) as [E1 E2]. rewrite E1, E2, Lx, Nat.eqb_refl. cbn [assert_ bind]. destruct (Nat.eqb_spec d k); [lia|]. destruct (Nat.eqb_spec k 0); [contradiction|]. rewrite basis_eq. cbn [bind]. unfold vtx. rewrite (projection_hull x c Lx HC). reflexivity.
    Qed.
  End Fixed.

  (** ** Barycentric coordinates in a space of the dimension of the simplex *)
  Lemma bary_loop_eq n (vs : list (list Q)) c p vol : n <> 0%nat -> rows_of (S n) n vs -> affine_comb n c vs p ->
    forall is_, (forall i, In i is_ -> (i <= n)%nat) -> bary_loop vol p vs is_ = Ok (map (fun i => nth i c 0 * det n (edge vs) / kofnat (fact n) / vol) is_).
  Proof.
    intros Hn HV (Lc & Lp & S1 & Hp) is_. pose proof HV as [L _]. rewrite L in *. rewrite ksum_nth, Lc in S1. induction is_ as [|i is_ IH]; intros Hi; [reflexivity|]. cbn [bary_loop map].
    rewrite (signed_volume_eq n) by (try exact Hn; apply upd_rows; assumption). rewrite (det_replace n vs (fun i => nth i c 0) p i HV S1 Hp) by (apply Hi; left; reflexivity). cbn [bind]. rewrite IH by (intros; apply Hi; right; assumption). reflexivity.
  Qed.
  Lemma kabs_nonneg (x : Q) : kle 0 x -> kabs x = x.
  Proof. intros H. unfold kabs. destruct (kltb x 0) eqn:E; [|reflexivity]. apply kltb_spec in E. contradiction. Qed.
  Lemma kabs_neg (x : Q) : klt x 0 -> kabs x = - x.
  Proof. intros H. unfold kabs. apply kltb_spec in H. rewrite H. reflexivity. Qed.
  Lemma volume_full n (vs : list (list Q)) : n <> 0%nat -> rows_of (S n) n vs -> volume ksqrt vs = Ok (kabs (det n (edge vs) / kofnat (fact n))).
  Proof.
    intros Hn HV. unfold volume. destruct (dims n n vs HV) as [E1 E2]. rewrite E1, E2. destruct (Nat.eqb_spec n 0); [contradiction|]. rewrite Nat.ltb_irrefl, (signed_volume_eq n) by assumption. reflexivity.
  Qed.
  Lemma to_bary_pos tol n (vs : list (list Q)) c p : n <> 0%nat -> rows_of (S n) n vs -> klt 0 (det n (edge vs)) -> affine_comb n c vs p -> cartesian_to_barycentric ksqrt tol p vs = Ok c.
  Proof.
    intros Hn HV HD HC. unfold cartesian_to_barycentric. destruct (dims n n vs HV) as [E1 E2]. rewrite E1, E2, Nat.ltb_irrefl. cbn [bind fst snd]. rewrite (volume_full n) by assumption. cbn [bind].
    rewrite kabs_nonneg by (apply klt_le, klt_div; [exact HD|apply fact_pos]). rewrite (bary_loop_eq n vs c p) by (try assumption; intros i Hi; apply in_seq in Hi; rewrite (proj1 HV) in Hi; lia).
    f_equal. destruct HC as (Lc & _). apply (vec_ext _ _ (S n)); [rewrite map_length, seq_length; apply HV|rewrite Lc; apply HV|]. intros i Hi. rewrite (proj1 HV), nth_map_seq0 by exact Hi. field. split; [apply fact_neq|apply klt_neq0; exact HD].
  Qed.
  Lemma to_bary_neg tol n (vs : list (list Q)) c p : n <> 0%nat -> rows_of (S n) n vs -> klt (det n (edge vs)) 0 -> affine_comb n c vs p -> cartesian_to_barycentric ksqrt tol p vs = Ok (map (fun x => - x) c).
  Proof.
    intros Hn HV HD HC. unfold cartesian_to_barycentric. destruct (dims n n vs HV) as [E1 E2]. rewrite E1, E2, Nat.ltb_irrefl. cbn [bind fst snd]. rewrite (volume_full n) by assumption. cbn [bind].
    assert (ND : det n (edge vs) <> 0) by (intros E; rewrite E in HD; exact (klt_irrefl Q 0 HD)).
    rewrite kabs_neg. 2:{ apply klt_sub. apply klt_sub in HD. replace (0 - det n (edge vs) / kofnat (fact n)) with ((0 - det n (edge vs)) / kofnat (fact n)) by (field; apply fact_neq). apply klt_div; [exact HD|apply fact_pos]. }
    rewrite (bary_loop_eq n vs c p) by (try assumption; intros i Hi; apply in_seq in Hi; rewrite (proj1 HV) in Hi; lia).
    f_equal. destruct HC as (Lc & _). apply (vec_ext _ _ (S n)); [rewrite map_length, seq_length; apply HV|rewrite map_length, Lc; apply HV|]. intros i Hi. rewrite (proj1 HV), nth_map_seq0 by exact Hi.
    rewrite (nth_indep (map _ c) 0 (- (0))) by (rewrite map_length, Lc, (proj1 HV); exact Hi). rewrite (map_nth (fun x => - x)). field. split; [apply fact_neq|]. intros E. apply ND. transitivity (- (- det n (edge vs))); [ring|rewrite E; ring].
  Qed.
  (** an embedded simplex *)
  Lemma to_bary_embedded tol k d (vs : list (list Q)) p c : k <> 0%nat -> (k < d)%nat -> rows_of (S k) d vs -> affine_independent d vs -> length p = d -> affine_comb k c (local k vs) (loc k vs p) ->
    cartesian_to_barycentric ksqrt tol p vs = if kleb (norm2 ksqrt (vsub p (barycentric_to_cartesian c vs))) tol then Ok c else Err AssertionError.
  Proof.
    intros Hk Hkd HV HI Lp HC. unfold cartesian_to_barycentric. destruct (dims k d vs HV) as [E1 E2]. rewrite E1, E2. pose proof Hkd as Hkd'. apply Nat.ltb_lt in Hkd'. rewrite Hkd'.
    rewrite (in_subspace_eq k d vs HV Hk HI p c tol Hkd Lp HC). cbn [bind]. destruct (kleb _ tol); [|reflexivity]. cbn [assert_ bind].
    rewrite (orthonormal_basis_eq k d vs HV Hk). cbn [bind]. unfold vtx. rewrite (transform_loc k d vs HV Hk HI p Lp). cbn [bind]. rewrite (local_coordinates_eq k d vs HV Hk HI). cbn [bind fst snd].
    rewrite (volume_local k d vs HV Hk HI). cbn [bind]. pose proof (local_rows k d vs HV) as HL. pose proof (det_local_pos k d vs HV Hk HI) as HD.
    rewrite (bary_loop_eq k (local k vs) c _ _ Hk HL HC) by (intros i Hi; apply in_seq in Hi; rewrite (proj1 HL) in Hi; lia).
    f_equal. destruct HC as (Lc & _). apply (vec_ext _ _ (S k)); [rewrite map_length, seq_length; apply HL|rewrite Lc; apply HL|]. intros i Hi. rewrite (proj1 HL), nth_map_seq0 by exact Hi. field. split; [apply fact_neq|apply klt_neq0; exact HD].
  Qed.
End Metric.
