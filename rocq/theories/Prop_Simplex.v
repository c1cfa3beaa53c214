(** Properties C49, C64 and C65: geometry/primitives/simplex.py. *)
From Coq Require Import Reals Lra Qcanon QArith Permutation.
From Verif Require Import Base Fld FldInst ExNum LinSolve PolyEval Det Linalg VecFacts SimplexGeo SimplexFacts GramSchmidt SimplexMetric SimplexInside SimplexVolume SimplexCenters SimplexEquilateral SimplexSigned SimplexUnit.
From Coq Require Import Field_theory Field.
Close Scope Q_scope. Close Scope Qc_scope. Close Scope R_scope.
Local Open Scope nat_scope.

(** The square root of the real numbers meets what is asked of [np.sqrt]. *)
Lemma sqrt_ok_R : sqrt_ok (Q := RO) sqrt.
Proof. intros x H. assert (H' : (0 <= x)%R) by (apply Rnot_lt_le; exact H). split; [change (~ (sqrt x < 0)%R); apply Rle_not_lt, sqrt_pos|exact (sqrt_sqrt x H')]. Qed.

(** ** C49 *)
Theorem C49_positive : forall (Q : ofld) (ksqrt : Q -> Q) (eps : Q) n (vs : list (list Q)),
  n <> 0 -> rows_of (S n) n vs -> affine_independent n vs -> orientation vs = Ok 1%Z ->
  (forall p, length p = n -> exists c, cartesian_to_barycentric ksqrt eps p vs = Ok c /\ affine_comb n c vs p /\ barycentric_to_cartesian c vs = p) /\
  (forall c, length c = S n -> ksum c (fun x => x) = k1 -> cartesian_to_barycentric ksqrt eps (barycentric_to_cartesian c vs) vs = Ok c).
Proof. intros Q ksqrt eps. exact (bary_positive ksqrt eps). Qed.
Print Assumptions C49_positive.

(** Every coordinate of a negatively oriented simplex has the wrong sign. *)
Theorem C49_negative : forall (Q : ofld) (ksqrt : Q -> Q) (eps : Q) n (vs : list (list Q)),
  n <> 0 -> rows_of (S n) n vs -> orientation vs = Ok (-1)%Z ->
  (forall p, length p = n -> exists c, affine_comb n c vs p /\ cartesian_to_barycentric ksqrt eps p vs = Ok (map kopp c)) /\
  (forall p ib, length p = n -> inside_simplex ksqrt eps p vs ib k0 = Ok false).
Proof.
  intros Q ksqrt eps n vs Hn HV HO. split; [intros p Hp; exact (bary_negative ksqrt eps n vs Hn HV HO p Hp)|]. intros p ib Hp. exact (inside_negative ksqrt eps n vs p ib Hn HV HO Hp).
Qed.
Print Assumptions C49_negative.

(** A triangle with an interior point that [inside_simplex] rejects. *)
Theorem C49_inside_refuted : exists (vs : list (list QcF)) (p c : list QcF),
  affine_comb (F := QcF) 2 c vs p /\ (forall x, In x c -> klt (o := QcO) k0 x) /\ inside_simplex (Q := QcO) (fun x => x) k0 p vs true k0 = Ok false.
Proof.
  exists [[rat 0 1; rat 0 1]; [rat 0 1; rat 1 1]; [rat 1 1; rat 0 1]], [rat 1 4; rat 1 4], [rat 1 2; rat 1 4; rat 1 4]. split; [|split].
  - split; [reflexivity|]. split; [reflexivity|]. split; [apply Qc_is_canon; vm_compute; reflexivity|]. intros [|[|j]] Hj; [| |lia]; apply Qc_is_canon; vm_compute; reflexivity.
  - intros x [<-|[<-|[<-|[]]]]; vm_compute; reflexivity.
  - vm_compute. reflexivity.
Qed.
Print Assumptions C49_inside_refuted.

Theorem C49_inside : forall (Q : ofld) (ksqrt : Q -> Q) (eps : Q) n (vs : list (list Q)) p,
  n <> 0 -> rows_of (S n) n vs -> affine_independent n vs -> orientation vs = Ok 1%Z -> length p = n ->
  (inside_simplex ksqrt eps p vs true k0 = Ok true <-> exists c, affine_comb n c vs p /\ forall x, In x c -> kle k0 x) /\
  (inside_simplex ksqrt eps p vs false k0 = Ok true <-> exists c, affine_comb n c vs p /\ forall x, In x c -> klt k0 x) /\
  (forall ib, exists b, inside_simplex ksqrt eps p vs ib k0 = Ok b).
Proof. intros Q ksqrt eps. exact (inside_positive ksqrt eps). Qed.
Print Assumptions C49_inside.

(** A simplex of lower dimension than its space: the point is compared with its
    orthogonal projection on the affine hull. *)
Theorem C49_embedded : forall (Q : ofld) (ksqrt : Q -> Q), sqrt_ok ksqrt -> forall (eps : Q) k d (vs : list (list Q)) p,
  k <> 0 -> k < d -> rows_of (S k) d vs -> affine_independent d vs -> length p = d ->
  exists c x, affine_comb d c vs x /\ (forall i, i <= k -> dot (vsub p x) (vsub (nth i vs []) (nth 0 vs [])) = k0) /\
    cartesian_to_barycentric ksqrt eps p vs = if kleb (norm2 ksqrt (vsub p x)) eps then Ok c else Err AssertionError.
Proof. intros Q ksqrt Hs eps. exact (bary_embedded ksqrt Hs eps). Qed.
Print Assumptions C49_embedded.

Theorem C49_embedded_hull : forall (Q : ofld) (ksqrt : Q -> Q), sqrt_ok ksqrt -> forall (eps : Q) k d (vs : list (list Q)) p c,
  k <> 0 -> k < d -> rows_of (S k) d vs -> affine_independent d vs -> kle k0 eps -> affine_comb d c vs p ->
  (cartesian_to_barycentric ksqrt eps p vs = Ok c /\ barycentric_to_cartesian c vs = p) /\
  (inside_simplex ksqrt eps p vs true k0 = Ok true <-> forall x, In x c -> kle k0 x) /\
  (inside_simplex ksqrt eps p vs false k0 = Ok true <-> forall x, In x c -> klt k0 x).
Proof.
  intros Q ksqrt Hs eps k d vs p c Hk Hd HV HI He HC. split; [exact (bary_embedded_hull ksqrt Hs eps k d vs p c Hk Hd HV HI He HC)|].
  destruct (inside_embedded ksqrt Hs eps k d vs p c Hk Hd HV HI He HC) as (I1 & I2 & _).
  assert (U : forall c', affine_comb d c' vs p -> c' = c) by (intros c' H'; destruct (bary_embedded_hull ksqrt Hs eps k d vs p c Hk Hd HV HI He HC) as [E1 _]; destruct (bary_embedded_hull ksqrt Hs eps k d vs p c' Hk Hd HV HI He H') as [E2 _]; congruence).
  split; [rewrite I1|rewrite I2]; (split; [intros (c' & H1 & H2); rewrite <- (U c' H1); exact H2|intros H; exists c; split; [exact HC|exact H]]).
Qed.
Print Assumptions C49_embedded_hull.

Theorem C49_in_subspace : forall (Q : ofld) (ksqrt : Q -> Q), sqrt_ok ksqrt -> forall (tol : Q) k d (vs : list (list Q)) p,
  k <> 0 -> k < d -> rows_of (S k) d vs -> affine_independent d vs -> length p = d ->
  exists b, in_subspace ksqrt p vs tol = Ok b /\ (b = true <-> exists c x, affine_comb d c vs x /\ kle (norm2 ksqrt (vsub p x)) tol).
Proof. intros Q ksqrt Hs tol. exact (in_subspace_spec ksqrt Hs tol). Qed.
Print Assumptions C49_in_subspace.

(** The second function does not depend on the orientation. *)
Theorem C49_second_function : forall (Q : ofld) k d (vs : list (list Q)) p c,
  k <> 0 -> rows_of (S k) d vs -> affine_independent d vs -> affine_comb d c vs p -> cartesian_to_barycentric_basis p vs = Ok c.
Proof. intros Q. exact (@bary_basis Q). Qed.
Print Assumptions C49_second_function.

(** A single vertex in a space of positive dimension: no point is answered. *)
Theorem C49_vertex : forall (Q : ofld) (ksqrt : Q -> Q) (eps : Q) d (v p : list Q), 0 < d -> length v = d -> length p = d ->
  cartesian_to_barycentric ksqrt eps p [v] = if kleb (norm2 ksqrt (vsub p v)) eps then Err TypeError else Err AssertionError.
Proof. intros Q ksqrt eps. exact (bary_point ksqrt eps). Qed.
Print Assumptions C49_vertex.
(** The unit simplex: the origin and the unit vectors; its barycentric
    coordinates. *)
Theorem C49_unit_simplex : forall (F : fld) n (p c : list F), unit_simplex (F := F) n n = repeat k0 n :: map (fun i => repeat k0 i ++ k1 :: repeat k0 (n - S i)) (seq 0 n) /\
  (length p = n -> affine_comb n (cartesian_to_barycentric_unit p) (unit_simplex n n) p) /\
  (affine_comb n c (unit_simplex n n) p -> p = barycentric_to_cartesian_unit c /\ c = cartesian_to_barycentric_unit p).
Proof. intros F n p c. split; [exact (unit_shape n)|]. split; [exact (unit_bary n p)|exact (unit_cart n c p)]. Qed.
Print Assumptions C49_unit_simplex.
Example C49_unit_ex : qlist (cartesian_to_barycentric_unit [rat 1 2; rat 1 3]) = [(1#6)%Q; (1#2)%Q; (1#3)%Q].
Proof. vm_compute. reflexivity. Qed.

(** *** Examples *)
Definition tri_pos : list (list QcF) := [[rat 0 1; rat 1 1]; [rat 2 1; rat 0 1]; [rat 1 1; rat 3 1]].
Definition tri_neg : list (list QcF) := [[rat 0 1; rat 1 1]; [rat 1 1; rat 3 1]; [rat 2 1; rat 0 1]].
Lemma tri_pos_rows : rows_of 3 2 tri_pos. Proof. split; [reflexivity|]. intros r [<-|[<-|[<-|[]]]]; reflexivity. Qed.
Lemma tri_pos_indep : affine_independent 2 tri_pos.
Proof. apply (affine_independent_det 2); [discriminate|reflexivity|]. intros E. apply (f_equal (fun v : Qc => this v)) in E. vm_compute in E. discriminate E. Qed.
Example C49_positive_ex : orientation (Q := QcO) tri_pos = Ok 1%Z /\
  qres (cartesian_to_barycentric (Q := QcO) (fun x => x) (rat 0 1) [rat 1 1; rat 1 1] tri_pos) = [(2#5)%Q; (2#5)%Q; (1#5)%Q] /\
  inside_simplex (Q := QcO) (fun x => x) (rat 0 1) [rat 1 1; rat 1 1] tri_pos false (rat 0 1) = Ok true /\
  exists c, cartesian_to_barycentric (Q := QcO) (fun x => x) (rat 0 1) [rat 1 1; rat 1 1] tri_pos = Ok c /\ affine_comb (F := QcF) 2 c tri_pos [rat 1 1; rat 1 1].
Proof.
  split; [vm_compute; reflexivity|]. split; [vm_compute; reflexivity|]. split; [vm_compute; reflexivity|].
  destruct (C49_positive QcO (fun x => x) (rat 0 1) 2 tri_pos) as [P _]; [discriminate|exact tri_pos_rows|exact tri_pos_indep|vm_compute; reflexivity|]. destruct (P [rat 1 1; rat 1 1] eq_refl) as (c & E1 & E2 & _). exists c. split; assumption.
Qed.
Example C49_negative_ex : orientation (Q := QcO) tri_neg = Ok (-1)%Z /\
  qres (cartesian_to_barycentric (Q := QcO) (fun x => x) (rat 0 1) [rat 1 1; rat 1 1] tri_neg) = [(-2#5)%Q; (-1#5)%Q; (-2#5)%Q].
Proof. split; vm_compute; reflexivity. Qed.
(** a segment in space, and a triangle in space *)
Definition seg3 : list (list RF) := [[1; 0; 2]; [3; 2; 3]]%R.
Definition tri3 : list (list RF) := [[0; 0; 1]; [1; 0; 1]; [0; 2; 3]]%R.
Lemma seg3_rows : rows_of (F := RF) 2 3 seg3. Proof. split; [reflexivity|]. intros r [<-|[<-|[]]]; reflexivity. Qed.
Lemma tri3_rows : rows_of (F := RF) 3 3 tri3. Proof. split; [reflexivity|]. intros r [<-|[<-|[<-|[]]]]; reflexivity. Qed.
Lemma seg3_indep : affine_independent (F := RF) 3 seg3.
Proof.
  apply (edges_affine_independent (F := RF) 1 3); [reflexivity|]. intros c H i Hi. assert (i = 0) by lia. subst i. specialize (H 0 ltac:(lia)). cbn in H. unfold edge, ent in H. cbn in H. change (@eq R (c 0%nat) 0%R). change (c 0%nat * (3 - 1) + 0 = 0)%R in H. lra.
Qed.
Lemma tri3_indep : affine_independent (F := RF) 3 tri3.
Proof.
  apply (edges_affine_independent (F := RF) 2 3); [reflexivity|]. intros c H i Hi. pose proof (H 0 ltac:(lia)) as H0. pose proof (H 1 ltac:(lia)) as H1. unfold edge, ent in H0, H1. cbn in H0, H1. change (c 0%nat * (1 - 0) + (c 1%nat * (0 - 0) + 0) = 0)%R in H0. change (c 0%nat * (0 - 0) + (c 1%nat * (2 - 0) + 0) = 0)%R in H1.
  destruct i as [|[|i]]; [| |lia]; [change (c 0%nat = 0)%R|change (c 1%nat = 0)%R]; lra.
Qed.
(** the midpoint of the segment *)
Example C49_embedded_ex : cartesian_to_barycentric (Q := RO) sqrt 0%R [2; 1; 5 / 2]%R seg3 = Ok [1 / 2; 1 / 2]%R /\
  inside_simplex (Q := RO) sqrt 0%R [2; 1; 5 / 2]%R seg3 false 0%R = Ok true.
Proof.
  assert (HC : affine_comb (F := RF) 3 [1 / 2; 1 / 2]%R seg3 [2; 1; 5 / 2]%R).
  { split; [reflexivity|]. split; [reflexivity|]. split; [change (1 / 2 + (1 / 2 + 0) = 1)%R; lra|]. intros [|[|[|j]]] Hj; [| | |lia]; unfold ent; cbn; [change (2 = 1 / 2 * 1 + (1 / 2 * 3 + 0))%R|change (1 = 1 / 2 * 0 + (1 / 2 * 2 + 0))%R|change (5 / 2 = 1 / 2 * 2 + (1 / 2 * 3 + 0))%R]; lra. }
  destruct (C49_embedded_hull RO sqrt sqrt_ok_R 0%R 1 3 seg3 [2; 1; 5 / 2]%R [1 / 2; 1 / 2]%R ltac:(discriminate) ltac:(lia) seg3_rows seg3_indep (kle_refl (O := RO) _) HC) as ((E & _) & _ & I2).
  split; [exact E|]. apply I2. intros x [<-|[<-|[]]]; change (0 < 1 / 2)%R; lra.
Qed.

(** ** C64: volumes *)
Theorem C64_swap : forall (F : fld) n (vs : list (list F)) a b v, n <> 0 -> rows_of (S n) n vs -> a <= n -> b <= n -> a <> b ->
  signed_volume vs = Ok v -> signed_volume (upd (upd vs a (nth b vs [])) b (nth a vs [])) = Ok (kopp v).
Proof. intros F. exact (@signed_volume_swap F). Qed.
Print Assumptions C64_swap.

Theorem C64_affine_image : forall (F : fld) n (vs vs' : list (list F)) (A : nat -> nat -> F) (t : nat -> F) v, n <> 0 -> rows_of (S n) n vs -> rows_of (S n) n vs' ->
  (forall i j, i <= n -> j < n -> ent vs' i j = kadd (ksum (seq 0 n) (fun l => kmul (A j l) (ent vs i l))) (t j)) ->
  signed_volume vs = Ok v -> signed_volume vs' = Ok (kmul (det n A) v).
Proof. intros F. exact (@signed_volume_image F). Qed.
Print Assumptions C64_affine_image.

Theorem C64_unit : forall (F : fld) n, n <> 0 -> signed_volume (unit_simplex (F := F) n n) = Ok (kdiv k1 (kofnat (fact n))) /\ volume_unit (F := F) n = kdiv k1 (kofnat (fact n)).
Proof. intros F n Hn. split; [exact (signed_volume_unit n Hn)|reflexivity]. Qed.
Print Assumptions C64_unit.

Theorem C64_zero_iff_degenerate : forall (F : fld) n (vs : list (list F)), n <> 0 -> rows_of (S n) n vs ->
  exists v, signed_volume vs = Ok v /\ (v = k0 <-> ~ affine_independent n vs).
Proof. intros F. exact (@signed_volume_nonzero F). Qed.
Print Assumptions C64_zero_iff_degenerate.

(** The volume squared is the Gram determinant of the edges over (k!)^2. *)
Theorem C64_gram : forall (Q : ofld) (ksqrt : Q -> Q), sqrt_ok ksqrt -> forall k d (vs : list (list Q)), k <= d -> rows_of (S k) d vs -> affine_independent d vs ->
  exists V, volume ksqrt vs = Ok V /\ klt k0 V /\
    kmul (kmul (kofnat (fact k)) V) (kmul (kofnat (fact k)) V) = det k (fun i j => dot (vsub (nth (S i) vs []) (nth 0 vs [])) (vsub (nth (S j) vs []) (nth 0 vs []))).
Proof.
  intros Q ksqrt Hs k d vs Hk HV HI. destruct (vol_eq ksqrt Hs k d vs Hk HV HI) as (V & E & P & G & _). exists V. split; [exact E|]. split; [exact P|]. rewrite G. apply det_ext. intros i j Hi Hj. unfold gram.
  rewrite (dot_seq _ _ d) by (apply vsub_len; apply (rows_len (S k) d); try exact HV; lia). apply ksum_ext. intros l Hl. rewrite !nth_vsub by (rewrite !(rows_len (S k) d) by (try exact HV; lia); reflexivity). reflexivity.
Qed.
Print Assumptions C64_gram.

Theorem C64_permutation : forall (Q : ofld) (ksqrt : Q -> Q), sqrt_ok ksqrt -> forall k d (vs vs' : list (list Q)), k <= d -> rows_of (S k) d vs -> affine_independent d vs -> Permutation vs vs' -> volume ksqrt vs' = volume ksqrt vs.
Proof. intros Q ksqrt Hs. exact (volume_perm ksqrt Hs). Qed.
Print Assumptions C64_permutation.

(** Only the distances between the vertices matter, not the space. *)
Theorem C64_congruent : forall (Q : ofld) (ksqrt : Q -> Q), sqrt_ok ksqrt -> forall k d d' (vs vs' : list (list Q)), k <= d -> k <= d' -> rows_of (S k) d vs -> rows_of (S k) d' vs' -> affine_independent d vs ->
  (forall i j, i <= k -> j <= k -> norm2 ksqrt (vsub (nth i vs []) (nth j vs [])) = norm2 ksqrt (vsub (nth i vs' []) (nth j vs' []))) ->
  affine_independent d' vs' /\ volume ksqrt vs' = volume ksqrt vs.
Proof.
  intros Q ksqrt Hs k d d' vs vs' Hk Hk' HV HV' HI H. apply (volume_congruent ksqrt Hs k d d' vs vs' Hk Hk' HV HV' HI). intros i j Hi Hj. specialize (H i j Hi Hj).
  assert (D : forall e (w : list (list Q)), rows_of (S k) e w -> dist2 e w i j = kmul (norm2 ksqrt (vsub (nth i w []) (nth j w []))) (norm2 ksqrt (vsub (nth i w []) (nth j w [])))).
  { intros e w HW. rewrite (norm_sq ksqrt Hs). rewrite (dot_seq _ _ e) by (apply vsub_len; apply (rows_len (S k) e); try exact HW; lia). apply ksum_ext. intros l _. rewrite !nth_vsub by (rewrite !(rows_len (S k) e) by (try exact HW; lia); reflexivity). reflexivity. }
  rewrite (D d vs HV), (D d' vs' HV'), H. reflexivity.
Qed.
Print Assumptions C64_congruent.

(** Dimension times volume is base times height, for every face. *)
Theorem C64_base_height : forall (Q : ofld) (ksqrt : Q -> Q), sqrt_ok ksqrt -> forall n d (vs : list (list Q)) i, S n <= d -> rows_of (S (S n)) d vs -> affine_independent d vs -> i <= S n ->
  exists f V Vf h x, face vs i = Ok f /\ Permutation vs (f ++ [nth i vs []]) /\ volume ksqrt vs = Ok V /\ volume ksqrt f = Ok Vf /\ altitude ksqrt vs i = Ok h /\ klt k0 h /\
    kmul (kofnat (S n)) V = kmul Vf h /\ foot d f (nth i vs []) x /\ h = norm2 ksqrt (vsub (nth i vs []) x).
Proof.
  intros Q ksqrt Hs n d vs i Hd HV HI Hi. destruct (face_height ksqrt Hs n d vs i Hd HV HI Hi) as (f & x & V & Vf & Ef & P & HF & HFo & EV & EVf & PV & PVf & PH & HH). exists f, V, Vf, (norm2 ksqrt (vsub (nth i vs []) x)), x.
  destruct (altitude_spec ksqrt Hs n d vs i Hd HV HI Hi) as (f' & x' & Ef' & _ & HFo' & EA & PA).
  split; [exact Ef|]. split; [exact P|]. split; [exact EV|]. split; [exact EVf|]. split; [|split; [exact PH|split; [exact HH|split; [exact HFo|reflexivity]]]].
  unfold altitude. rewrite Ef. cbn [bind]. rewrite EV, EVf. cbn [bind]. rewrite (proj1 (dims (S n) d vs HV)). f_equal. rewrite HH. exact (kdiv_cancel Vf _ (klt_neq0 _ PVf)).
Qed.
Print Assumptions C64_base_height.

Example C64_signed_ex : qval (signed_volume tri_pos) = Some (5#2)%Q /\ qval (signed_volume tri_neg) = Some (-5#2)%Q /\ upd (upd tri_pos 1 (nth 2 tri_pos [])) 2 (nth 1 tri_pos []) = tri_neg.
Proof. split; [vm_compute; reflexivity|]. split; [vm_compute; reflexivity|reflexivity]. Qed.
(** the image of the unit triangle under x -> (2 x1 + x2, x1 + 3 x2) + (1, 0) *)
Example C64_image_ex : qval (signed_volume (F := QcF) [[rat 1 1; rat 0 1]; [rat 3 1; rat 1 1]; [rat 2 1; rat 3 1]]) = Some (5#2)%Q /\
  exists v, signed_volume (unit_simplex (F := QcF) 2 2) = Ok v /\ signed_volume [[rat 1 1; rat 0 1]; [rat 3 1; rat 1 1]; [rat 2 1; rat 3 1]] = Ok (kmul (det 2 (fun i j => nth j (nth i [[rat 2 1; rat 1 1]; [rat 1 1; rat 3 1]] []) (rat 0 1))) v).
Proof.
  split; [vm_compute; reflexivity|]. exists (kdiv k1 (kofnat (fact 2))). split; [exact (proj1 (C64_unit QcF 2 ltac:(discriminate)))|].
  apply (C64_affine_image QcF 2 (unit_simplex 2 2) _ _ (fun j => nth j [rat 1 1; rat 0 1] (rat 0 1))); [discriminate|apply unit_rows|split; [reflexivity|intros r [<-|[<-|[<-|[]]]]; reflexivity]| |exact (proj1 (C64_unit QcF 2 ltac:(discriminate)))].
  intros [|[|[|i]]] [|[|j]] Hi Hj; try lia; apply Qc_is_canon; vm_compute; reflexivity.
Qed.
(** a triangle in space has the area of the flat triangle with the same edges *)
Example C64_embedded_ex : (exists V, volume (Q := RO) sqrt tri3 = Ok V /\ (V * V = 2)%R) /\ rows_of (F := RF) 3 3 tri3 /\ affine_independent (F := RF) 3 tri3.
Proof.
  split; [|split; [exact tri3_rows|exact tri3_indep]]. destruct (C64_gram RO sqrt sqrt_ok_R 2 3 tri3 ltac:(lia) tri3_rows tri3_indep) as (V & E & _ & G). exists V. split; [exact E|]. cbn in G.
  match type of G with @eq _ ?a ?b => change (a = b :> R) in G end. cbv [det sg skip ksum dot kopp kadd kmul ksub k0 k1 kofnat RO OF RF fact] in G. cbn in G. lra.
Qed.

(** ** C65: special points and lengths *)
Theorem C65_centroid : forall (Q : ofld) k d (vs : list (list Q)), rows_of (S k) d vs -> affine_comb d (repeat (kdiv k1 (kofnat (S k))) (S k)) vs (centroid vs).
Proof. intros Q. exact (@centroid_comb Q). Qed.
Print Assumptions C65_centroid.

(** Trilinear coordinates are the signed distances to the faces. *)
Theorem C65_trilinear : forall (Q : ofld) (ksqrt : Q -> Q), sqrt_ok ksqrt -> forall n d (vs : list (list Q)) b p, S n <= d -> rows_of (S (S n)) d vs -> affine_independent d vs -> affine_comb d b vs p ->
  exists t, barycentric_to_trilinear ksqrt b vs = Ok t /\ length t = length vs /\ forall i, i < length vs -> exists f h y, face vs i = Ok f /\ altitude ksqrt vs i = Ok h /\ klt k0 h /\ nth i t k0 = kmul (nth i b k0) h /\ foot d f p y /\ norm2 ksqrt (vsub p y) = kabs (nth i t k0).
Proof. intros Q ksqrt Hs. exact (trilinear_spec ksqrt Hs). Qed.
Print Assumptions C65_trilinear.

(** and any multiple of them gives the barycentric coordinates back *)
Theorem C65_trilinear_round_trip : forall (Q : ofld) (ksqrt : Q -> Q), sqrt_ok ksqrt -> forall n d (vs : list (list Q)) b t s, S n <= d -> rows_of (S (S n)) d vs -> affine_independent d vs -> length b = length vs -> ksum b (fun x => x) = k1 ->
  barycentric_to_trilinear ksqrt b vs = Ok t -> s <> k0 -> trilinear_to_barycentric ksqrt (map (fun x => kmul s x) t) vs = Ok b.
Proof. intros Q ksqrt Hs. exact (trilinear_roundtrip ksqrt Hs). Qed.
Print Assumptions C65_trilinear_round_trip.

(** The incenter is inside and at the same distance from every face. *)
Theorem C65_incenter : forall (Q : ofld) (ksqrt : Q -> Q), sqrt_ok ksqrt -> forall (tol : Q) n d (vs : list (list Q)), klt k0 tol -> S n <= d -> rows_of (S (S n)) d vs -> affine_independent d vs ->
  exists p r b, incenter ksqrt vs = Ok p /\ inradius ksqrt tol vs = Ok r /\ klt k0 r /\ affine_comb d b vs p /\ (forall x, In x b -> klt k0 x) /\
    forall i, i < length vs -> exists f y, face vs i = Ok f /\ foot d f p y /\ norm2 ksqrt (vsub p y) = r.
Proof. intros Q ksqrt Hs. exact (incenter_spec ksqrt Hs). Qed.
Print Assumptions C65_incenter.

(** The circumcenter is in the affine hull and at the same distance from every
    vertex. *)
Theorem C65_circumcenter : forall (Q : ofld) (ksqrt : Q -> Q), sqrt_ok ksqrt -> forall k d (vs : list (list Q)), rows_of (S k) d vs -> affine_independent d vs ->
  exists c r, circumcenter ksqrt vs = Ok c /\ circumradius ksqrt vs = Ok r /\ (exists a, affine_comb d a vs c) /\ forall i, i <= k -> norm2 ksqrt (vsub c (nth i vs [])) = r.
Proof. intros Q ksqrt Hs. exact (circumcenter_spec ksqrt Hs). Qed.
Print Assumptions C65_circumcenter.

(** The normal of face [i]: unit length, orthogonal to the face, pointing away
    from vertex [i]. *)
Theorem C65_face_normal : forall (Q : ofld) (ksqrt : Q -> Q), sqrt_ok ksqrt -> forall n d (vs : list (list Q)) i, rows_of (S (S n)) d vs -> affine_independent d vs -> i <= S n ->
  exists f w, face_normal ksqrt vs i = Ok w /\ Permutation vs (f ++ [nth i vs []]) /\ length w = d /\ dot w w = k1 /\
    (forall j, j < length f -> dot w (vsub (nth j f []) (nth 0 f [])) = k0) /\ klt (dot w (vsub (nth i vs []) (nth 0 f []))) k0.
Proof. intros Q ksqrt Hs. exact (face_normal_spec ksqrt Hs). Qed.
Print Assumptions C65_face_normal.

Theorem C65_diameter : forall (Q : ofld) (ksqrt : Q -> Q), sqrt_ok ksqrt -> forall (vs : list (list Q)) d, 2 <= length vs -> (forall v, In v vs -> length v = d) ->
  (forall u v, In u vs -> In v vs -> kle (norm2 ksqrt (vsub u v)) (diameter ksqrt vs)) /\ exists u v, In u vs /\ In v vs /\ diameter ksqrt vs = norm2 ksqrt (vsub u v).
Proof. intros Q ksqrt Hs. exact (diameter_spec ksqrt Hs). Qed.
Print Assumptions C65_diameter.

(** All edges of the equilateral simplex have the requested length. *)
Theorem C65_equilateral : forall (Q : ofld) (ksqrt : Q -> Q), sqrt_ok ksqrt -> forall n s ne, 1 <= n <= ne -> kle k0 s ->
  exists vs, equilateral ksqrt n s ne = Ok vs /\ rows_of (S n) ne vs /\ (forall i j, i <= n -> j <= n -> i <> j -> norm2 ksqrt (vsub (nth i vs []) (nth j vs [])) = s) /\ (s <> k0 -> affine_independent ne vs).
Proof. intros Q ksqrt Hs. exact (equilateral_spec ksqrt Hs). Qed.
Print Assumptions C65_equilateral.

(** The hypotheses are met by the triangle in space above; the results are not
    trivial there. *)
Example C65_ex : (exists c r, circumcenter (Q := RO) sqrt tri3 = Ok c /\ circumradius (Q := RO) sqrt tri3 = Ok r /\ norm2 (Q := RO) sqrt (vsub c (nth 0 tri3 [])) = norm2 (Q := RO) sqrt (vsub c (nth 2 tri3 []))) /\
  (exists p r, incenter (Q := RO) sqrt tri3 = Ok p /\ inradius (Q := RO) sqrt 1%R tri3 = Ok r /\ (0 < r)%R) /\
  (exists vs, equilateral (Q := RO) sqrt 3 2%R 4 = Ok vs /\ norm2 (Q := RO) sqrt (vsub (nth 1 vs []) (nth 3 vs [])) = 2%R).
Proof.
  split; [|split].
  - destruct (C65_circumcenter RO sqrt sqrt_ok_R 2 3 tri3 tri3_rows tri3_indep) as (c & r & E1 & E2 & _ & H). exists c, r. split; [exact E1|]. split; [exact E2|]. transitivity r; [exact (H 0 ltac:(lia))|symmetry; exact (H 2 ltac:(lia))].
  - destruct (C65_incenter RO sqrt sqrt_ok_R 1%R 1 3 tri3 Rlt_0_1 ltac:(lia) tri3_rows tri3_indep) as (p & r & b & E1 & E2 & P & _). exists p, r. split; [exact E1|]. split; [exact E2|exact P].
  - assert (H2 : kle (O := RO) k0 2%R) by (change (~ (2 < 0)%R); lra). destruct (C65_equilateral RO sqrt sqrt_ok_R 3 2%R 4 ltac:(lia) H2) as (vs & E & _ & H & _). exists vs. split; [exact E|]. apply H; lia.
Qed.
