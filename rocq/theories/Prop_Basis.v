(** Properties C92-C95: linalg/vector_space_projection.py and linalg/basis.py. *)
From Coq Require Import Reals Lra Qcanon QArith.
From Verif Require Import Base Fld FldInst MultiIndex LinSolve PolyEval Det Linalg VecFacts GramSchmidt Basis BasisFacts ExNum MeshGeo.
From Coq Require Import Field_theory Field.
Close Scope Q_scope. Close Scope Qc_scope. Close Scope R_scope. Local Open Scope nat_scope.

(** ** C92: projections *)
Section Projections.
  Context {Q : ofld}.
  Add Field Kfield77 : (kth Q).
  Local Open Scope fld_scope.
  Lemma abs_pos (x : Q) : kle 0 x -> absolute x = x.
  Proof. intros H. unfold absolute. destruct (kltb x 0) eqn:E; [|reflexivity]. apply kltb_spec in E. contradiction. Qed.
  Lemma abs_sym (x y : Q) : absolute (x - y) = absolute (y - x).
  Proof.
    unfold absolute. destruct (kltb (x - y) 0) eqn:A, (kltb (y - x) 0) eqn:B; try ring.
    - exfalso. apply kltb_spec in A. apply kltb_spec in B. apply klt_opp in A. replace (- (x - y)) with (y - x) in A by ring. exact (klt_irrefl Q _ (klt_trans Q _ _ _ A B)).
    - apply kltb_false in A. apply kltb_false in B. assert (E : x = y) by (apply kle_antisym; apply kle_sub; assumption). rewrite E. ring.
  Qed.
  Lemma abs_nn (x : Q) : kle 0 (absolute x).
  Proof. unfold absolute. destruct (kltb x 0) eqn:A; [apply kltb_spec in A; apply klt_le, klt_opp, A|apply kltb_false; exact A]. Qed.
  Lemma sub_nn (a b : Q) : kle a b -> kle 0 (b - a). Proof. apply kle_sub. Qed.
  Lemma nn_sub (a b : Q) : kle 0 (b - a) -> kle a b. Proof. apply kle_sub. Qed.
  Theorem C92_interval : forall p a b : Q, kle a b -> let x := interval_projection p a b in kle a x /\ kle x b /\ (kle a p -> kle p b -> x = p) /\
    forall y, kle a y -> kle y b -> kle (absolute (p - x)) (absolute (p - y)).
  Proof.
    intros p a b Hab. cbv zeta. unfold interval_projection. destruct (kleb a p) eqn:A; [apply kleb_spec in A|apply kleb_false in A]; cbn [andb].
    - destruct (kleb p b) eqn:B; [apply kleb_spec in B|apply kleb_false in B].
      + repeat split; try assumption. intros y _ _. replace (p - p) with (0 : Q) by ring. rewrite abs_pos by apply kle_refl. apply abs_nn.
      + assert (B' : kltb b p = true) by (apply kltb_spec; exact B). rewrite B'. split; [exact Hab|]. split; [apply kle_refl|]. split; [intros _ K; contradiction|]. intros y _ Hy.
        rewrite (abs_pos (p - b)) by (apply sub_nn, klt_le, B). rewrite (abs_pos (p - y)) by (apply sub_nn, (kle_trans _ b); [exact Hy|apply klt_le, B]). apply nn_sub. replace (p - y - (p - b)) with (b - y) by ring. apply sub_nn, Hy.
    - assert (B : kltb b p = false) by (apply kltb_false, (kle_trans _ a); [apply klt_le, A|exact Hab]). rewrite B. split; [apply kle_refl|]. split; [exact Hab|]. split; [intros K _; contradiction|]. intros y Hy _.
      rewrite (abs_sym p a), (abs_sym p y). rewrite (abs_pos (a - p)) by (apply sub_nn, klt_le, A). rewrite (abs_pos (y - p)) by (apply sub_nn, (kle_trans _ a); [apply klt_le, A|exact Hy]). apply nn_sub. replace (y - p - (a - p)) with (y - a) by ring. apply sub_nn, Hy.
  Qed.
  Lemma pythagoras d (u v : list Q) : length u = d -> length v = d -> dot u v = 0 -> kle (dot u u) (dot (vadd u v) (vadd u v)).
  Proof.
    intros Hu Hv H. rewrite (dot_seq (vadd u v) _ d), (dot_seq u u d) by (try apply vadd_len; assumption). rewrite (dot_seq u v d) in H by assumption. apply nn_sub.
    replace (ksum (seq 0 d) (fun i => nth i (vadd u v) 0 * nth i (vadd u v) 0) - ksum (seq 0 d) (fun i => nth i u 0 * nth i u 0)) with (ksum (seq 0 d) (fun i => nth i v 0 * nth i v 0)); [apply ksum_nonneg; intros; apply ksq_nonneg|].
    rewrite (ksum_ext (fun i => nth i (vadd u v) 0 * nth i (vadd u v) 0) (fun i => nth i u 0 * nth i u 0 + (1 + 1) * (nth i u 0 * nth i v 0) + nth i v 0 * nth i v 0)) by (intros; rewrite nth_vadd by congruence; ring).
    rewrite !ksum_plus, ksum_scale_l, H. ring.
  Qed.
  Definition nonzero (v : list Q) : Prop := exists j, (j < length v)%nat /\ nth j v 0 <> 0.
  Lemma dot_nz (v : list Q) : nonzero v -> dot v v <> 0.
  Proof. intros (j & Hj & N) E. apply N, (dot_self_zero (length v) v eq_refl E j Hj). Qed.
  Lemma rej_orth (a b : list Q) : length a = length b -> nonzero b -> dot (vector_rejection a b) b = 0.
  Proof.
    intros H N. unfold vector_rejection, vector_projection. rewrite dot_vsub_l, dot_vscale_l by (rewrite vscale_length; exact H). field. apply dot_nz, N.
  Qed.
  Lemma rej_len (a b : list Q) : length a = length b -> length (vector_rejection a b) = length b.
  Proof. intros H. unfold vector_rejection, vector_projection. apply vsub_len; [exact H|apply vscale_len; reflexivity]. Qed.
  Theorem C92_vector : forall a b : list Q, length a = length b -> nonzero b -> (exists t, vector_projection a b = vscale t b) /\ dot (vector_rejection a b) b = 0 /\ vadd (vector_projection a b) (vector_rejection a b) = a /\
    forall t, kle (dot (vector_rejection a b) (vector_rejection a b)) (dot (vsub a (vscale t b)) (vsub a (vscale t b))).
  Proof.
    intros a b H N. pose proof (rej_orth a b H N) as O. pose proof (rej_len a b H) as L. split; [eexists; reflexivity|]. split; [exact O|].
    assert (Lp : length (vector_projection a b) = length b) by (unfold vector_projection; apply vscale_length). split.
    - apply (vec_ext _ _ (length b)); [apply vadd_len; assumption|exact H|]. intros j Hj. rewrite nth_vadd by congruence. unfold vector_rejection. rewrite nth_vsub by congruence. ring.
    - intros t. set (s := dot a b / dot b b - t). assert (E : vsub a (vscale t b) = vadd (vector_rejection a b) (vscale s b)).
      { apply (vec_ext _ _ (length b)); [apply vsub_len; [exact H|apply vscale_length]|apply vadd_len; [exact L|apply vscale_length]|]. intros j Hj. rewrite nth_vadd by (rewrite vscale_length; exact L). unfold vector_rejection. rewrite !nth_vsub by (rewrite ?Lp, ?vscale_length; exact H). unfold vector_projection. rewrite !nth_vscale. unfold s. ring. }
      rewrite E. apply (pythagoras (length b)); [exact L|apply vscale_length|]. rewrite (dot_vscale_r (length b)) by (exact L || reflexivity). rewrite O. ring.
  Qed.
  Theorem C92_plane : forall v n : list Q, length v = length n -> nonzero n -> dot (vector_plane_projection v n) n = 0 /\ (exists t, vsub v (vector_plane_projection v n) = vscale t n) /\
    forall w, length w = length n -> dot w n = 0 -> kle (dot (vsub v (vector_plane_projection v n)) (vsub v (vector_plane_projection v n))) (dot (vsub v w) (vsub v w)).
  Proof.
    intros v n H N. unfold vector_plane_projection. pose proof (rej_orth v n H N) as O. pose proof (rej_len v n H) as L. split; [exact O|]. set (s := dot v n / dot n n).
    assert (E : vsub v (vector_rejection v n) = vscale s n).
    { apply (vec_ext _ _ (length n)); [apply vsub_len; assumption|apply vscale_length|]. intros j Hj. rewrite nth_vsub by congruence. unfold vector_rejection, vector_projection. rewrite nth_vsub, !nth_vscale by (rewrite vscale_length; exact H). unfold s. ring. }
    split; [exists s; exact E|]. intros w Lw Hw. assert (E2 : vsub v w = vadd (vsub v (vector_rejection v n)) (vsub (vector_rejection v n) w)).
    { apply (vec_ext _ _ (length n)); [apply vsub_len; assumption|apply vadd_len; apply vsub_len; assumption|]. intros j Hj. rewrite nth_vadd by (rewrite !(vsub_len _ _ (length n)) by assumption; reflexivity). rewrite !nth_vsub by congruence. ring. }
    rewrite E2. apply (pythagoras (length n)); [apply vsub_len; assumption..|]. rewrite E, dot_vscale_l. rewrite (dot_vsub_r (length n)) by (assumption || reflexivity). rewrite (dot_comm n w), Hw, dot_comm, O. ring.
  Qed.

  (** a combination of the vectors [b] added to [o] *)
  Definition in_affine_span (o : list Q) (b : list (list Q)) (z : list Q) : Prop :=
    length z = length o /\ exists c : nat -> Q, forall j, (j < length o)%nat -> nth j z 0 = nth j o 0 + ksum (seq 0 (length b)) (fun i => c i * nth j (nth i b []) 0).
  Theorem C92_subspace : forall ksqrt (o : list Q) b, sqrt_ok ksqrt -> (2 <= length o)%nat -> (length b <= length o)%nat -> (forall v, In v b -> length v = length o) -> indep (length o) b ->
    exists f, subspace_projection_map ksqrt (length o) b (Some o) = Ok f /\ forall x, length x = length o -> exists y, f (Vec x) = Ok (Vec y) /\ in_affine_span o b y /\
      (forall v, In v b -> dot (vsub x y) v = 0) /\ (forall z, in_affine_span o b z -> kle (dot (vsub x y) (vsub x y)) (dot (vsub x z) (vsub x z))) /\ (in_affine_span o b x -> y = x).
  Proof.
    intros ksqrt o b Hs Hd Hk Rb HI. set (d := length o) in *. set (k := length b) in *. assert (Hb : rows_of k d b) by (split; [reflexivity|exact Rb]).
    destruct (gram_schmidt_inv ksqrt Hs d b Rb HI) as (Hq & HO & (T & HT) & HR). fold k in Hq, HT, HR.
    unfold subspace_projection_map, subspace_projection_transformation. fold k. destruct (Nat.leb_spec k d) as [_|]; [|lia]. cbn [assert_ bind].
    set (A := map (fun i => map (fun j => ksum (gram_schmidt_rn ksqrt b) (fun q => nth i q 0 * nth j q 0)) (seq 0 d)) (seq 0 d)).
    set (IA := map (fun i => map (fun j => (if (i =? j)%nat then 1 else 0) - nth j (nth i A []) 0) (seq 0 d)) (seq 0 d)).
    assert (RA : rows_of d d A) by (split; [unfold A; rewrite map_length, seq_length; reflexivity|intros r Hr; apply in_map_iff in Hr as (i & <- & _); rewrite map_length, seq_length; reflexivity]).
    assert (RI : rows_of d d IA) by (split; [unfold IA; rewrite map_length, seq_length; reflexivity|intros r Hr; apply in_map_iff in Hr as (i & <- & _); rewrite map_length, seq_length; reflexivity]).
    unfold np_dot at 1. rewrite (ncols_rows d d IA RI ltac:(lia)). fold d. rewrite Nat.eqb_refl. cbn [bind fst snd]. unfold create_affine_map. rewrite (ncols_rows d d A RA ltac:(lia)). pose proof RA as [LA _]. rewrite LA.
    destruct (Nat.eqb_spec d 1) as [|_]; [lia|]. cbn [np_len bind]. rewrite mat_vec_length. pose proof RI as [LI _]. rewrite LI, Nat.eqb_refl. cbn [assert_ bind].
    eexists. split; [reflexivity|]. intros x Hx. unfold np_dot. rewrite (ncols_rows d d A RA ltac:(lia)), Hx, Nat.eqb_refl. cbn [bind]. unfold np_add, bcast. rewrite !mat_vec_length, LA, LI, Nat.eqb_refl. cbn [bind].
    set (y := subspace_projection ksqrt b o x). exists y. split; [reflexivity|]. destruct (projection_eq ksqrt d k b o x Hq eq_refl Hx) as [Ly Ey]. fold y in Ly, Ey. set (q := gram_schmidt_rn ksqrt b) in *. clearbody y. clear A IA RA RI LA LI.
    assert (LQ : forall i, (i < k)%nat -> length (nth i q []) = d) by (intros; apply (rows_len k d); assumption). assert (LB : forall i, (i < k)%nat -> length (nth i b []) = d) by (intros; apply (rows_len k d); assumption). pose proof Hq as [Lq _].
    assert (Lo : length o = d) by reflexivity. assert (Lxo : length (vsub x o) = d) by (apply vsub_len; assumption).
    assert (SY : in_affine_span o b y).
    { split; [exact Ly|]. exists (fun i => ksum (seq 0 k) (fun l => dot (nth l q []) (vsub x o) * T l i)). intros j Hj. fold d in Hj. fold k. rewrite Ey by exact Hj. f_equal.
      rewrite (ksum_ext (fun l => dot (nth l q []) (vsub x o) * ent q l j) (fun l => ksum (seq 0 k) (fun i => dot (nth l q []) (vsub x o) * T l i * ent b i j))) by (intros l Hl; apply in_seq in Hl; rewrite HT by lia; rewrite <- ksum_scale_l; apply ksum_ext; intros; ring).
      rewrite ksum_swap. apply ksum_ext. intros i _. rewrite ksum_scale_r. reflexivity. }
    assert (Lxy : length (vsub x y) = d) by (apply vsub_len; assumption).
    assert (OQ : forall l, (l < k)%nat -> dot (vsub x y) (nth l q []) = 0).
    { intros l Hl. rewrite dot_comm. assert (E : vsub x y = vsub (vsub x o) (lincomb d k (fun l => dot (nth l q []) (vsub x o)) q)).
      { apply (vec_ext _ _ d Lxy); [apply vsub_len; [exact Lxo|apply lincomb_length]|]. intros j Hj. rewrite (nth_vsub (vsub x o)) by (rewrite lincomb_length; exact Lxo). rewrite !nth_vsub, nth_lincomb by congruence. rewrite Ey by exact Hj. ring. }
      rewrite E. rewrite (dot_vsub_r d) by (try apply LQ; try apply lincomb_length; assumption).
      rewrite (dot_lin d (nth l q []) (lincomb d k (fun l => dot (nth l q []) (vsub x o)) q) k (fun l => dot (nth l q []) (vsub x o)) q) by (try apply LQ; try apply lincomb_length; try assumption; intros; apply nth_lincomb; assumption).
      rewrite (ksum_ext _ (fun m => (if (m =? l)%nat then 1 else 0) * dot (nth m q []) (vsub x o))) by (intros m Hm; apply in_seq in Hm; rewrite HO by lia; rewrite Nat.eqb_sym; ring).
      rewrite (delta_sum k l (fun m => dot (nth m q []) (vsub x o)) Hl). ring. }
    assert (OB : forall i, (i < k)%nat -> dot (vsub x y) (nth i b []) = 0).
    { intros i Hi. rewrite (dot_lin d (vsub x y) (nth i b []) k (fun l => dot (nth i b []) (nth l q [])) q Lxy (LB i Hi) Hq) by (intros j Hj; apply (HR i Hi); exact Hj). apply ksum_zero. intros l Hl. apply in_seq in Hl. rewrite OQ by lia. ring. }
    assert (OV : forall z, in_affine_span o b z -> length z = d /\ dot (vsub x y) (vsub y z) = 0).
    { intros z [Lz (c & Hc)]. split; [exact Lz|]. destruct SY as [_ (cy & Hcy)]. fold d in Hc, Hcy. fold k in Hc, Hcy.
      rewrite (dot_lin d (vsub x y) (vsub y z) k (fun i => cy i - c i) b Lxy) by (try apply vsub_len; try assumption; intros j Hj; rewrite nth_vsub, Hc, Hcy by (congruence || exact Hj); rewrite (ksum_ext (fun i => (cy i - c i) * ent b i j) (fun i => cy i * nth j (nth i b []) 0 - c i * nth j (nth i b []) 0)) by (intros; unfold ent; ring); rewrite ksum_minus; ring).
      apply ksum_zero. intros i Hi. apply in_seq in Hi. rewrite OB by lia. ring. }
    split; [exact SY|]. split; [intros v Hv; apply (In_nth _ _ []) in Hv as (i & Hi & <-); apply OB; exact Hi|]. split.
    - intros z Hz. destruct (OV z Hz) as [Lz K]. assert (E : vsub x z = vadd (vsub x y) (vsub y z)).
      { apply (vec_ext _ _ d); [apply vsub_len; assumption|apply vadd_len; apply vsub_len; assumption|]. intros j Hj. rewrite nth_vadd by (rewrite !(vsub_len _ _ d) by assumption; reflexivity). rewrite !nth_vsub by congruence. ring. }
      rewrite E. apply (pythagoras d); [exact Lxy|apply vsub_len; assumption|exact K].
    - intros Hz. destruct (OV x Hz) as [_ K]. assert (Z : dot (vsub x y) (vsub x y) = 0).
      { assert (E : vsub y x = vscale (- (1)) (vsub x y)) by (apply (vec_ext _ _ d); [apply vsub_len; assumption|apply vscale_len; exact Lxy|intros j Hj; rewrite nth_vscale, !nth_vsub by congruence; ring]). rewrite E, (dot_vscale_r d) in K by assumption. transitivity (- (- (1) * dot (vsub x y) (vsub x y))); [ring|rewrite K; ring]. }
      apply (vec_ext _ _ d Ly Hx). intros j Hj. pose proof (dot_self_zero d _ Lxy Z j Hj) as D. rewrite nth_vsub in D by congruence. transitivity (nth j x 0 - (nth j x 0 - nth j y 0)); [ring|rewrite D; ring].
  Qed.
  (** without an origin the zero vector is taken *)
  Theorem C92_subspace_default : forall ksqrt n (b : list (list Q)), subspace_projection_map ksqrt n b None = subspace_projection_map ksqrt n b (Some (repeat 0 n)) /\
    ((n < length b)%nat -> forall o, subspace_projection_map ksqrt n b o = Err AssertionError).
  Proof.
    intros ksqrt n b. split; [reflexivity|]. intros H o. unfold subspace_projection_map, subspace_projection_transformation. destruct (Nat.leb_spec (length b) n); [lia|]. reflexivity.
  Qed.
End Projections.
Print Assumptions C92_interval.
Print Assumptions C92_vector.
Print Assumptions C92_plane.
Print Assumptions C92_subspace.
Print Assumptions C92_subspace_default.
(** The projection in a space of dimension one cannot be created. *)
Theorem C92_one_dimension_refuted : forall (Q : ofld) ksqrt (a o : Q), subspace_projection_map ksqrt 1 [[a]] (Some [o]) = Err AssertionError.
Proof. reflexivity. Qed.
Print Assumptions C92_one_dimension_refuted.

(** ** C93: basis matrices, metric tensors and dual bases *)
Section Bases.
  Context {F : fld}.
  Add Field Kfield78 : (kth F).
  Local Open Scope fld_scope.
  Lemma mapM_id {A} (f : A -> result A) (l : list A) : (forall x, In x l -> f x = Ok x) -> mapM f l = Ok l.
  Proof. induction l as [|x l IH]; intros H; cbn [mapM]; [reflexivity|]. rewrite (H x (or_introl eq_refl)). cbn [bind]. rewrite IH by (intros; apply H; right; assumption). reflexivity. Qed.
  Theorem C93_basis_matrix : forall n (vs : list (list F)), rows_of n n vs -> exists M, basis_matrix vs = Ok M /\ rows_of n n M /\ (forall i j, (i < n)%nat -> (j < n)%nat -> nth i (nth j M []) 0 = nth j (nth i vs []) 0) /\
    (n <> 0%nat -> basis_vectors M = vs).
  Proof.
    intros n vs Hv. pose proof Hv as [L R]. exists (transpose n vs). pose proof (transpose_rows n n vs L) as RT. split; [|split; [exact RT|split]].
    - unfold basis_matrix. rewrite L. rewrite mapM_id; [reflexivity|]. intros v Hin. rewrite (R v Hin), Nat.eqb_refl. reflexivity.
    - intros i j Hi Hj. exact (ent_transpose n vs j i Hj).
    - intros Hn. unfold basis_vectors. rewrite (ncols_rows n n _ RT Hn). apply transpose_transpose. exact Hv.
  Qed.
  Theorem C93_basis_matrix_shape : forall (vs : list (list F)) v, In v vs -> length v <> length vs -> length v <> 1%nat -> basis_matrix vs = Err ValueError.
  Proof.
    intros vs v Hin N1 N2. unfold basis_matrix. set (n := length vs) in *. clearbody n. induction vs as [|u vs IH]; [destruct Hin|]. cbn [mapM]. destruct Hin as [->|Hin].
    - destruct (Nat.eqb_spec (length v) n); [contradiction|]. destruct (Nat.eqb_spec (length v) 1); [contradiction|]. reflexivity.
    - specialize (IH Hin). destruct (length u =? n)%nat; [|destruct (length u =? 1)%nat; [|reflexivity]]; cbn [bind]; destruct (mapM _ vs); cbn [bind] in *; congruence.
  Qed.
  Theorem C93_cartesian : forall i n, ((i < n)%nat -> exists e : list F, cartesian_basis_vector i n = Ok e /\ length e = n /\ forall j, (j < n)%nat -> nth j e 0 = if (j =? i)%nat then 1 else 0) /\
    ((n <= i)%nat -> cartesian_basis_vector (F := F) i n = Err IndexError).
  Proof.
    intros i n. unfold cartesian_basis_vector, cartesian_basis. destruct (identity_rows (F := F) n) as [L R]. split.
    - intros Hi. exists (nth i (@identity F n) []). rewrite (nth_error_nth' _ []) by lia. split; [reflexivity|]. split; [apply R, nth_In; lia|]. intros j Hj. change (ent (@identity F n) i j = if (j =? i)%nat then 1 else 0). rewrite ent_identity by assumption. rewrite Nat.eqb_sym. reflexivity.
    - intros Hi. assert (E : nth_error (@identity F n) i = None) by (apply nth_error_None; lia). rewrite E. reflexivity.
  Qed.
  Lemma mat_col_dot n (A B : list (list F)) i j : length A = n -> length B = n -> dot (mat_col A i) (mat_col B j) = ksum (seq 0 n) (fun l => ent A l i * ent B l j).
  Proof. intros LA LB. rewrite (dot_seq _ _ n) by (rewrite mat_col_length; assumption). apply ksum_ext. intros l _. rewrite !nth_mat_col. reflexivity. Qed.
  Lemma metric_eq n (M : list (list F)) : n <> 0%nat -> rows_of n n M -> exists G, metric_tensor (Mat M) = Ok (Mat G) /\ rows_of n n G /\ forall i j, (i < n)%nat -> (j < n)%nat -> ent G i j = dot (mat_col M i) (mat_col M j).
  Proof.
    intros Hn HM. pose proof HM as [L _]. pose proof (transpose_rows n n M L) as RT. pose proof RT as [LT _]. exists (mat_mul (transpose n M) M). unfold metric_tensor, np_T, np_dot. rewrite !(ncols_rows n n M HM Hn), (ncols_rows n n _ RT Hn), L, Nat.eqb_refl.
    split; [reflexivity|]. split; [apply (mat_mul_rows n n n); assumption|]. intros i j Hi Hj. rewrite (ent_mat_mul n n n) by assumption. rewrite (mat_col_dot n) by assumption. apply ksum_ext. intros l Hl. apply in_seq in Hl. rewrite ent_transpose by exact Hi. reflexivity.
  Qed.
  Lemma mmul_assoc n (A B C : nat -> nat -> F) i j : mmul n (mmul n A B) C i j = mmul n A (mmul n B C) i j.
  Proof.
    unfold mmul. rewrite (ksum_ext _ (fun k => ksum (seq 0 n) (fun l => A i l * (B l k * C k j)))) by (intros; rewrite <- ksum_scale_r; apply ksum_ext; intros; ring). rewrite ksum_swap. apply ksum_ext. intros l _. rewrite ksum_scale_l. reflexivity.
  Qed.
  Lemma mmul_ext n (A A' B B' : nat -> nat -> F) i j : (forall l, (l < n)%nat -> A i l = A' i l) -> (forall l, (l < n)%nat -> B l j = B' l j) -> mmul n A B i j = mmul n A' B' i j.
  Proof. intros HA HB. unfold mmul. apply ksum_ext. intros l Hl. apply in_seq in Hl. rewrite HA, HB by lia. reflexivity. Qed.
  Definition idm (i j : nat) : F := if (i =? j)%nat then 1 else 0.
  Lemma mmul_id_l n A i j : (i < n)%nat -> mmul n idm A i j = A i j.
  Proof. intros Hi. unfold mmul, idm. rewrite (ksum_ext _ (fun l => (if (l =? i)%nat then 1 else 0) * A l j)) by (intros; rewrite Nat.eqb_sym; reflexivity). exact (delta_sum n i (fun l => A l j) Hi). Qed.
  Lemma mmul_id_r n A i j : (j < n)%nat -> mmul n A idm i j = A i j.
  Proof. intros Hj. unfold mmul, idm. rewrite (ksum_ext _ (fun l => (if (l =? j)%nat then 1 else 0) * A i l)) by (intros; ring). exact (delta_sum n j (fun l => A i l) Hj). Qed.
  (** square matrices with non-zero determinant *)
  Definition invertible (n : nat) (M : list (list F)) : Prop := rows_of n n M /\ np_det M <> 0.
  Theorem C93_metric : forall n (M : list (list F)), n <> 0%nat -> rows_of n n M -> exists G, metric_tensor (Mat M) = Ok (Mat G) /\ rows_of n n G /\ (forall i j, (i < n)%nat -> (j < n)%nat -> nth j (nth i G []) 0 = dot (mat_col M i) (mat_col M j)) /\
    (np_det M = 0 -> dual_basis (Mat M) = Err LinAlgError /\ inverse_metric_tensor (Mat M) = Err LinAlgError) /\
    (np_det M <> 0 -> exists D H, dual_basis (Mat M) = Ok (Mat D) /\ rows_of n n D /\ (forall i j, (i < n)%nat -> (j < n)%nat -> dot (mat_col M i) (mat_col D j) = if (i =? j)%nat then 1 else 0) /\
      dual_basis (Mat D) = Ok (Mat M) /\ inverse_metric_tensor (Mat M) = Ok (Mat H) /\ metric_tensor (Mat D) = Ok (Mat H) /\ inverse_metric_tensor (Mat D) = Ok (Mat G)).
  Proof.
    intros n M Hn HM. pose proof HM as [LM RM]. destruct (metric_eq n M Hn HM) as (G & EG & RG & HG). exists G. split; [exact EG|]. split; [exact RG|]. split; [exact HG|].
    assert (DE : forall A, length A = n -> np_det A = det n (@ent F A)) by (intros A <-; reflexivity).
    assert (DG : forall A B, length A = n -> (forall i j, (i < n)%nat -> (j < n)%nat -> ent B i j = dot (mat_col A i) (mat_col A j)) -> det n (ent B) = det n (ent A) * det n (@ent F A)).
    { intros A B LA HB. rewrite (det_ext n (ent B) (mmul n (fun i j => ent A j i) (ent A))) by (intros i j Hi Hj; rewrite HB, (mat_col_dot n) by assumption; reflexivity). rewrite det_mul, (det_transpose n (ent A)). reflexivity. }
    split.
    - intros D. rewrite (DE M LM) in D. split; [unfold dual_basis; rewrite (np_inv_singular n M Hn HM D); reflexivity|]. unfold inverse_metric_tensor. rewrite EG. cbn [bind]. rewrite (np_inv_singular n G Hn RG); [reflexivity|]. rewrite (DG M G LM HG), D. ring.
    - intros D. rewrite (DE M LM) in D.
      (* the dual of an invertible matrix *)
      assert (Dual : forall A, rows_of n n A -> det n (ent A) <> 0 -> exists B, dual_basis (Mat A) = Ok (Mat B) /\ rows_of n n B /\ (forall i j, (i < n)%nat -> (j < n)%nat -> mmul n (ent A) (fun i j => ent B j i) i j = idm i j) /\ (forall i j, (i < n)%nat -> (j < n)%nat -> mmul n (fun i j => ent B j i) (ent A) i j = idm i j)).
      { intros A HA DA. destruct (np_inv_ok n A Hn HA DA) as (B & EB & RB & I1 & I2). pose proof RB as [LB _]. exists (transpose n B). split; [unfold dual_basis; rewrite EB; cbn [bind np_T]; rewrite (ncols_rows n n B RB Hn); reflexivity|].
        split; [apply transpose_rows; exact LB|]. split; intros i j Hi Hj; [rewrite <- (I1 i j Hi Hj : _ = idm i j)|rewrite <- (I2 i j Hi Hj : _ = idm i j)]; apply mmul_ext; intros l Hl; try reflexivity; apply ent_transpose; lia. }
      assert (Inv : forall A (X : nat -> nat -> F) B, rows_of n n A -> rows_of n n B -> np_inv A = Ok B -> det n (ent A) <> 0 -> (forall i j, (i < n)%nat -> (j < n)%nat -> mmul n (ent A) X i j = idm i j) -> forall i j, (i < n)%nat -> (j < n)%nat -> ent B i j = X i j).
      { intros A X B HA HB EB DA HX i j Hi Hj. destruct (np_inv_ok n A Hn HA DA) as (B' & EB' & _ & _ & I2). rewrite EB in EB'. injection EB' as <-.
        rewrite <- (mmul_id_r n (ent B) i j Hj). rewrite <- (mmul_ext n (ent B) (ent B) (mmul n (ent A) X) idm i j) by (intros; try reflexivity; apply HX; assumption). rewrite <- mmul_assoc.
        rewrite (mmul_ext n _ idm X X) by (intros; try reflexivity; apply I2; assumption). apply mmul_id_l, Hi. }
      destruct (Dual M HM D) as (Dm & ED & RD & I1 & I2). pose proof RD as [LD _].
      assert (DD : det n (ent Dm) <> 0).
      { intros Z. pose proof (det_mul n (ent M) (fun i j => ent Dm j i)) as K. rewrite (det_transpose n (ent Dm)), Z in K. rewrite (det_ext n _ idm) in K by exact I1. unfold idm in K. rewrite det_identity in K. apply (k1_neq_0 (F := F)). rewrite K. ring. }
      assert (Bi : forall i j, (i < n)%nat -> (j < n)%nat -> dot (mat_col M i) (mat_col Dm j) = idm i j).
      { intros i j Hi Hj. rewrite (mat_col_dot n) by assumption. unfold idm. rewrite Nat.eqb_sym. fold (idm j i). rewrite <- (I2 j i Hj Hi). unfold mmul. apply ksum_ext. intros; ring. }
      destruct (metric_eq n Dm Hn RD) as (H & EH & RH & HH).
      assert (GH : forall i j, (i < n)%nat -> (j < n)%nat -> mmul n (ent G) (ent H) i j = idm i j).
      { intros i j Hi Hj. rewrite (mmul_ext n _ (mmul n (fun i j => ent M j i) (ent M)) _ (mmul n (fun i j => ent Dm j i) (ent Dm))) by (intros l Hl; first [rewrite HG by assumption; apply (mat_col_dot n); assumption|rewrite HH by assumption; apply (mat_col_dot n); assumption]).
        rewrite mmul_assoc. rewrite (mmul_ext n _ (fun i j => ent M j i) _ (ent Dm)).
        - rewrite <- (Bi i j Hi Hj), (mat_col_dot n) by assumption. reflexivity.
        - reflexivity.
        - intros l Hl. rewrite <- mmul_assoc. rewrite (mmul_ext n _ idm _ (ent Dm)) by (intros; try reflexivity; apply I1; assumption). apply mmul_id_l, Hl. }
      assert (HG' : forall i j, (i < n)%nat -> (j < n)%nat -> mmul n (ent H) (ent G) i j = idm i j).
      { intros i j Hi Hj. rewrite (mmul_ext n _ (mmul n (fun i j => ent Dm j i) (ent Dm)) _ (mmul n (fun i j => ent M j i) (ent M))) by (intros l Hl; first [rewrite HG by assumption; apply (mat_col_dot n); assumption|rewrite HH by assumption; apply (mat_col_dot n); assumption]).
        rewrite mmul_assoc. rewrite (mmul_ext n _ (fun i j => ent Dm j i) _ (ent M)).
        - apply I2; assumption.
        - reflexivity.
        - intros l Hl. rewrite <- mmul_assoc. rewrite (mmul_ext n _ idm _ (ent M)); [apply mmul_id_l, Hl| |reflexivity].
          intros a Ha. unfold mmul. transitivity (mmul n (ent M) (fun i j => ent Dm j i) a l); [unfold mmul; apply ksum_ext; intros; ring|]. rewrite I1 by assumption. unfold idm. rewrite Nat.eqb_sym. reflexivity. }
      assert (DGG : det n (ent G) <> 0) by (rewrite (DG M G LM HG); intros K; destruct (kmul_integral _ _ K); contradiction).
      assert (DHH : det n (ent H) <> 0) by (rewrite (DG Dm H LD HH); intros K; destruct (kmul_integral _ _ K); contradiction).
      exists Dm, H. split; [exact ED|]. split; [exact RD|]. split; [exact Bi|]. split; [|split; [|split; [exact EH|]]].
      + unfold dual_basis. destruct (np_inv_ok n Dm Hn RD DD) as (B & EB & RB & _). rewrite EB. cbn [bind np_T]. rewrite (ncols_rows n n B RB Hn). do 2 f_equal. pose proof RB as [LB _].
        apply (rows_eq n n); [apply transpose_rows; exact LB|exact HM|]. intros i j Hi Hj. rewrite ent_transpose by exact Hi. rewrite (Inv Dm (fun i j => ent M j i) B RD RB EB DD); [reflexivity| |exact Hj|exact Hi].
        intros a b Ha Hb. transitivity (mmul n (ent M) (fun i j => ent Dm j i) b a); [unfold mmul; apply ksum_ext; intros; ring|]. rewrite I1 by assumption. unfold idm. rewrite Nat.eqb_sym. reflexivity.
      + unfold inverse_metric_tensor. rewrite EG. cbn [bind]. destruct (np_inv_ok n G Hn RG DGG) as (B & EB & RB & _). rewrite EB. cbn [bind]. do 2 f_equal. apply (rows_eq n n); [exact RB|exact RH|]. apply (Inv G (ent H) B RG RB EB DGG GH).
      + unfold inverse_metric_tensor. rewrite EH. cbn [bind]. destruct (np_inv_ok n H Hn RH DHH) as (B & EB & RB & _). rewrite EB. cbn [bind]. do 2 f_equal. apply (rows_eq n n); [exact RB|exact RG|]. apply (Inv H (ent G) B RH RB EB DHH HG').
  Qed.
  (** numbers *)
  Theorem C93_metric_number : forall x : F, x <> 0 -> exists d, dual_basis (Sc x) = Ok (Sc d) /\ x * d = 1 /\ metric_tensor (Sc x) = Ok (Sc (x * x)) /\ inverse_metric_tensor (Sc x) = metric_tensor (Sc d).
  Proof.
    intros x N. exists (1 / x). unfold inverse_metric_tensor, dual_basis, metric_tensor. cbn [np_T np_dot np_scale bind]. destruct (kdec x 0) as [|_]; [contradiction|]. destruct (kdec (x * x) 0) as [Z|_]; [destruct (kmul_integral _ _ Z); contradiction|].
    repeat split; [field; exact N|]. do 2 f_equal. field. exact N.
  Qed.
End Bases.
Print Assumptions C93_basis_matrix.
Print Assumptions C93_basis_matrix_shape.
Print Assumptions C93_cartesian.
Print Assumptions C93_metric.
Print Assumptions C93_metric_number.
(** Vectors of length one are broadcast instead of being rejected. *)
Theorem C93_broadcast_refuted : exists vs : list (list QcF), length vs = 2%nat /\ (forall v, In v vs -> length v = 1%nat) /\ exists M, basis_matrix vs = Ok M.
Proof. exists [[rat 1 1]; [rat 2 1]]. split; [reflexivity|]. split; [intros v [<-|[<-|[]]]; reflexivity|]. eexists. reflexivity. Qed.
Print Assumptions C93_broadcast_refuted.

(** ** C94: changes of basis *)
Section Transforms.
  Context {Q : ofld}.
  Add Field Kfield79 : (kth Q).
  Local Open Scope fld_scope.
  (** the [k] columns of the [d] by [k] matrix [M] are linearly independent *)
  Definition independent_columns (d k : nat) (M : list (list Q)) : Prop :=
    forall c : nat -> Q, (forall j, (j < d)%nat -> ksum (seq 0 k) (fun i => c i * nth i (nth j M []) 0) = 0) -> forall i, (i < k)%nat -> c i = 0.
  Lemma columns_indep d k (M : list (list Q)) : rows_of d k M -> independent_columns d k M -> rows_of k d (transpose k M) /\ indep d (transpose k M) /\ M = of_cols d (transpose k M).
  Proof.
    intros HM HI. pose proof HM as [L _]. pose proof (transpose_rows k d M L) as RT. split; [exact RT|]. split; [|symmetry; apply transpose_transpose; exact HM].
    intros c H i Hi. destruct RT as [LT _]. rewrite LT in H, Hi. refine (HI c _ i Hi). intros j Hj. refine (eq_trans _ (H j Hj)). apply ksum_ext. intros l Hl. apply in_seq in Hl. rewrite ent_transpose by lia. reflexivity.
  Qed.
  Lemma from_basis_eq d k (M : list (list Q)) (c : list Q) : k <> 0%nat -> d <> 0%nat -> rows_of d k M -> length c = k -> from_basis (Vec c) M = Ok (Vec (mat_vec M c)).
  Proof. intros Hk Hd HM Hc. unfold from_basis, np_dot. rewrite (ncols_rows d k M HM Hd), Hc, Nat.eqb_refl. reflexivity. Qed.
  Lemma from_basis_inv d k (M : list (list Q)) (c w : list Q) : k <> 0%nat -> d <> 0%nat -> rows_of d k M -> from_basis (Vec c) M = Ok (Vec w) -> length c = k /\ w = mat_vec M c /\ length w = d.
  Proof.
    intros Hk Hd HM E. unfold from_basis, np_dot in E. rewrite (ncols_rows d k M HM Hd) in E. destruct (Nat.eqb_spec k (length c)) as [L|]; [|discriminate]. injection E as <-. repeat split; [symmetry; exact L|]. rewrite mat_vec_length. apply HM.
  Qed.
  Lemma nth_transpose d k (M : list (list Q)) i : length M = d -> (i < k)%nat -> nth i (transpose k M) [] = mat_col M i.
  Proof. intros L Hi. apply (vec_ext _ _ d); [apply (rows_len k d); [apply transpose_rows; exact L|exact Hi]|rewrite mat_col_length; exact L|]. intros j Hj. rewrite nth_mat_col. apply (ent_transpose k M i j Hi). Qed.
  (** [mat_vec P w] solves the normal equations *)
  Lemma pinv_cols d k (M : list (list Q)) : k <> 0%nat -> d <> 0%nat -> rows_of d k M -> independent_columns d k M -> exists P, np_pinv M = Ok P /\ rows_of k d P /\
    (forall c, length c = k -> mat_vec P (mat_vec M c) = c) /\
    (forall v, length v = d -> forall i, (i < k)%nat -> dot (mat_col M i) (vsub v (mat_vec M (mat_vec P v))) = 0).
  Proof.
    intros Hk Hd HM HI. pose proof HM as [LM _]. destruct (columns_indep d k M HM HI) as (RT & IT & EM). destruct (pinv_ok d k _ Hk Hd RT IT) as (P & EP & RP & HP). rewrite <- EM in EP. pose proof RP as [LP _]. exists P. split; [exact EP|]. split; [exact RP|].
    assert (DL : forall i (c : list Q), (i < k)%nat -> length c = k -> dot (mat_col M i) (mat_vec M c) = ksum (seq 0 k) (fun j => dot (mat_col M i) (mat_col M j) * nth j c 0)).
    { intros i c Hi Hc. rewrite (dot_seq _ _ d) by (rewrite ?mat_col_length, ?mat_vec_length; exact LM). rewrite (ksum_ext _ (fun l => ksum (seq 0 k) (fun j => ent M l i * (ent M l j * nth j c 0)))) by (intros l Hl; apply in_seq in Hl; rewrite nth_mat_col, (mat_vec_sum d k M c) by (assumption || lia); rewrite ksum_scale_l; reflexivity).
      rewrite ksum_swap. apply ksum_ext. intros j _. rewrite (mat_col_dot d) by exact LM. rewrite <- ksum_scale_r. apply ksum_ext. intros; ring. }
    assert (N : forall v, length v = d -> forall i, (i < k)%nat -> dot (mat_col M i) (mat_vec M (mat_vec P v)) = dot (mat_col M i) v).
    { intros v Hv i Hi. rewrite DL by (rewrite ?mat_vec_length; assumption). rewrite <- (nth_transpose d k M i LM Hi). rewrite <- (HP v Hv i Hi). apply ksum_ext. intros j Hj. apply in_seq in Hj. rewrite (nth_transpose d k M j) by (assumption || lia). reflexivity. }
    split.
    - intros c Hc. apply (vec_ext _ _ k); [rewrite mat_vec_length; exact LP|exact Hc|]. intros j Hj.
      assert (Z : forall i, (i < k)%nat -> nth i (mat_vec P (mat_vec M c)) 0 - nth i c 0 = 0).
      { apply (gram_injective d k (transpose k M) (fun i => nth i (mat_vec P (mat_vec M c)) 0 - nth i c 0) RT IT). intros i Hi.
        rewrite (ksum_ext _ (fun l => dot (nth i (transpose k M) []) (nth l (transpose k M) []) * nth l (mat_vec P (mat_vec M c)) 0 - dot (mat_col M i) (mat_col M l) * nth l c 0)) by (intros l Hl; apply in_seq in Hl; rewrite !(nth_transpose d k M) by (assumption || lia); ring).
        rewrite ksum_minus, HP by (rewrite ?mat_vec_length; assumption). rewrite <- DL by assumption. rewrite (nth_transpose d k M i) by assumption. ring. }
      specialize (Z j Hj). transitivity (nth j (mat_vec P (mat_vec M c)) 0 - nth j c 0 + nth j c 0); [ring|rewrite Z; ring].
    - intros v Hv i Hi. rewrite (dot_vsub_r d) by (rewrite ?mat_col_length, ?mat_vec_length; assumption). rewrite N by assumption. ring.
  Qed.
  (** the product with [M] is linear *)
  Lemma mat_vec_dot d k (M : list (list Q)) (x r : list Q) : rows_of d k M -> length x = k -> length r = d -> (forall i, (i < k)%nat -> dot (mat_col M i) r = 0) -> dot r (mat_vec M x) = 0.
  Proof.
    intros HM Hx Hr H. pose proof HM as [LM _]. rewrite (dot_seq _ _ d) by (rewrite ?mat_vec_length; assumption). rewrite (ksum_ext _ (fun l => ksum (seq 0 k) (fun j => nth j x 0 * (ent M l j * nth l r 0)))) by (intros l Hl; apply in_seq in Hl; rewrite (mat_vec_sum d k M x) by (assumption || lia); rewrite <- ksum_scale_l; apply ksum_ext; intros; ring).
    rewrite ksum_swap. rewrite (ksum_ext _ (fun _ => 0)); [apply ksum_zero; reflexivity|]. intros j Hj. apply in_seq in Hj. rewrite ksum_scale_l. specialize (H j ltac:(lia)). rewrite (dot_seq _ _ d) in H by (rewrite ?mat_col_length; assumption).
    rewrite (ksum_ext _ (fun i => nth i (mat_col M j) 0 * nth i r 0)) by (intros; rewrite nth_mat_col; reflexivity). rewrite H. ring.
  Qed.

  Theorem C94_round_trip : forall d k (M : list (list Q)) (c : list Q), k <> 0%nat -> d <> 0%nat -> rows_of d k M -> independent_columns d k M -> length c = k ->
    exists w : list Q, from_basis (Vec c) M = Ok (Vec w) /\ length w = d /\ (forall j, (j < d)%nat -> nth j w 0 = ksum (seq 0 k) (fun i => nth i c 0 * nth j (mat_col M i) 0)) /\ to_basis (Vec w) M = Ok (Vec c).
  Proof.
    intros d k M c Hk Hd HM HI Hc. destruct (pinv_cols d k M Hk Hd HM HI) as (P & EP & RP & I & _). exists (mat_vec M c). split; [apply (from_basis_eq d k); assumption|]. split; [rewrite mat_vec_length; apply HM|]. split.
    - intros j Hj. rewrite (mat_vec_sum d k M c) by assumption. apply ksum_ext. intros i _. rewrite nth_mat_col. unfold ent. ring.
    - unfold to_basis. rewrite EP. cbn [bind np_dot]. rewrite (ncols_rows k d P RP Hk), mat_vec_length. destruct HM as [-> _]. rewrite Nat.eqb_refl, I by exact Hc. reflexivity.
  Qed.
  Theorem C94_least_squares : forall d k (M : list (list Q)) (v : list Q), k <> 0%nat -> d <> 0%nat -> rows_of d k M -> independent_columns d k M -> length v = d ->
    exists c w : list Q, to_basis (Vec v) M = Ok (Vec c) /\ length c = k /\ from_basis (Vec c) M = Ok (Vec w) /\ (forall i, (i < k)%nat -> dot (mat_col M i) (vsub v w) = 0) /\
    forall x y : list Q, from_basis (Vec x) M = Ok (Vec y) -> kle (dot (vsub v w) (vsub v w)) (dot (vsub v y) (vsub v y)).
  Proof.
    intros d k M v Hk Hd HM HI Hv. destruct (pinv_cols d k M Hk Hd HM HI) as (P & EP & RP & I & N). pose proof RP as [LP _]. pose proof HM as [LM _]. exists (mat_vec P v), (mat_vec M (mat_vec P v)). split; [|split; [rewrite mat_vec_length; exact LP|split; [apply (from_basis_eq d k); try assumption; rewrite mat_vec_length; exact LP|split; [intros i Hi; apply N; assumption|]]]].
    - unfold to_basis. rewrite EP. cbn [bind np_dot]. rewrite (ncols_rows k d P RP Hk), Hv, Nat.eqb_refl. reflexivity.
    - intros x y E. apply (from_basis_inv d k) in E; try assumption. destruct E as (Lx & -> & Ly). set (c := mat_vec P v). set (r := vsub v (mat_vec M c)).
      assert (Lc : length c = k) by (unfold c; rewrite mat_vec_length; exact LP). assert (Lw : length (mat_vec M c) = d) by (rewrite mat_vec_length; exact LM). assert (Lr : length r = d) by (apply vsub_len; assumption). assert (Lxy : length (vsub c x) = k) by (apply vsub_len; assumption).
      replace (vsub v (mat_vec M x)) with (vadd r (mat_vec M (vsub c x))).
      + apply (pythagoras d); [exact Lr|rewrite mat_vec_length; exact LM|]. apply (mat_vec_dot d k); try assumption. intros i Hi. apply N; assumption.
      + apply (vec_ext _ _ d); [apply vadd_len; [exact Lr|rewrite mat_vec_length; exact LM]|apply vsub_len; assumption|]. intros j Hj. rewrite nth_vadd by (rewrite Lr, mat_vec_length; symmetry; exact LM). unfold r. rewrite !nth_vsub by congruence. rewrite !(mat_vec_sum d k M) by assumption.
        rewrite (ksum_ext (fun l => ent M j l * nth l (vsub c x) 0) (fun l => ent M j l * nth l c 0 - ent M j l * nth l x 0)) by (intros; rewrite nth_vsub by congruence; ring). rewrite ksum_minus. ring.
  Qed.
  (** Vectors with the same Cartesian coordinates correspond to each other. *)
  Theorem C94_transform : forall d k0 k1 (b0 b1 : list (list Q)) (v u w : list Q), k0 <> 0%nat -> k1 <> 0%nat -> d <> 0%nat -> rows_of d k0 b0 -> rows_of d k1 b1 -> independent_columns d k1 b1 ->
    from_basis (Vec v) b0 = Ok (Vec w) -> from_basis (Vec u) b1 = Ok (Vec w) -> transform (Vec v) b0 b1 = Ok (Vec u).
  Proof.
    intros d k0 k1 b0 b1 v u w H0 H1 Hd R0 R1 HI E0 E1. destruct (pinv_cols d k1 b1 H1 Hd R1 HI) as (P & EP & RP & I & _). apply (from_basis_inv d k1) in E1; try assumption. destruct E1 as (Lu & Ew & Lw). unfold transform. rewrite EP. cbn [bind]. fold (from_basis (Vec v) b0). rewrite E0. cbn [bind np_dot].
    rewrite (ncols_rows k1 d P RP H1), Lw, Nat.eqb_refl, Ew, I by exact Lu. reflexivity.
  Qed.
  (** For a square invertible matrix there is always such a vector. *)
  Lemma square_indep n (M : list (list Q)) : rows_of n n M -> np_det M <> 0 -> independent_columns n n M.
  Proof.
    intros [L R] D. unfold np_det in D. rewrite L in D. intros c H. apply (det_cols_independent n _ c D). intros i Hi. refine (eq_trans _ (H i Hi)). apply ksum_ext. intros. ring.
  Qed.
  Theorem C94_transform_square : forall n (b0 b1 : list (list Q)) (v : list Q), n <> 0%nat -> rows_of n n b0 -> rows_of n n b1 -> np_det b1 <> 0 -> length v = n ->
    exists u : list Q, transform (Vec v) b0 b1 = Ok (Vec u) /\ length u = n /\ from_basis (Vec u) b1 = from_basis (Vec v) b0 /\
      (np_det b0 <> 0 -> transform (Vec u) b1 b0 = Ok (Vec v)) /\ (forall b2, rows_of n n b2 -> np_det b2 <> 0 -> transform (Vec u) b1 b2 = transform (Vec v) b0 b2).
  Proof.
    intros n b0 b1 v Hn R0 R1 D1 Hv. pose proof (square_indep n b1 R1 D1) as I1.
    assert (S : forall (b : list (list Q)) (w : list Q), rows_of n n b -> np_det b <> 0 -> length w = n -> exists u : list Q, length u = n /\ from_basis (Vec u) b = Ok (Vec w)).
    { intros b w Rb Db Lw. pose proof Rb as [Lb _]. assert (Db' : det n (ent b) <> 0) by (unfold np_det in Db; rewrite Lb in Db; exact Db). destruct (np_inv_ok n b Hn Rb Db') as (B & EB & RB & J1 & J2). exists (mat_vec B w). split; [rewrite mat_vec_length; apply RB|]. rewrite (from_basis_eq n n) by (try assumption; rewrite mat_vec_length; apply RB).
      do 2 f_equal. apply (vec_ext _ _ n); [rewrite mat_vec_length; exact Lb|exact Lw|]. intros i Hi. rewrite (mat_vec_sum n n b) by (try assumption; rewrite mat_vec_length; apply RB).
      rewrite (ksum_ext _ (fun l => ksum (seq 0 n) (fun m => ent b i l * ent B l m * nth m w 0))) by (intros l Hl; apply in_seq in Hl; rewrite (mat_vec_sum n n B) by (assumption || lia); rewrite <- ksum_scale_l; apply ksum_ext; intros; ring).
      rewrite ksum_swap. rewrite (ksum_ext _ (fun m => (if (m =? i)%nat then 1 else 0) * nth m w 0)); [exact (delta_sum n i (fun m => nth m w 0) Hi)|]. intros m Hm. apply in_seq in Hm. rewrite ksum_scale_r, J1 by lia. rewrite Nat.eqb_sym. reflexivity. }
    pose proof (from_basis_eq n n b0 v Hn Hn R0 Hv) as E0. set (w := mat_vec b0 v) in *. assert (Lw : length w = n) by (unfold w; rewrite mat_vec_length; apply R0). destruct (S b1 w R1 D1 Lw) as (u & Lu & E1). exists u. split; [exact (C94_transform n n n b0 b1 v u w Hn Hn Hn R0 R1 I1 E0 E1)|]. split; [exact Lu|]. split; [congruence|]. split.
    - intros D0. exact (C94_transform n n n b1 b0 u v w Hn Hn Hn R1 R0 (square_indep n b0 R0 D0) E1 E0).
    - intros b2 R2 D2. pose proof (square_indep n b2 R2 D2) as I2. destruct (S b2 w R2 D2 Lw) as (x & Lx & E2). rewrite (C94_transform n n n b1 b2 u x w) by assumption. symmetry. apply (C94_transform n n n b0 b2 v x w); assumption.
  Qed.
  (** A matrix is transformed column by column. *)
  Lemma mat_mul_col m n k (A B : list (list Q)) j : n <> 0%nat -> rows_of m n A -> rows_of n k B -> (j < k)%nat -> mat_col (mat_mul A B) j = mat_vec A (mat_col B j).
  Proof.
    intros Hn HA HB Hj. pose proof HA as [LA _]. pose proof HB as [LB _]. pose proof (mat_mul_rows m n k A B HA HB Hn) as [L _]. apply (vec_ext _ _ m); [rewrite mat_col_length; exact L|rewrite mat_vec_length; exact LA|]. intros i Hi. rewrite nth_mat_col. change (ent (mat_mul A B) i j = nth i (mat_vec A (mat_col B j)) 0). rewrite (ent_mat_mul m n k) by assumption.
    rewrite (mat_vec_sum m n A) by (rewrite ?mat_col_length; assumption). apply ksum_ext. intros l _. rewrite nth_mat_col. reflexivity.
  Qed.
  Theorem C94_columns : forall d k0 k1 m (b0 b1 V : list (list Q)), k0 <> 0%nat -> k1 <> 0%nat -> d <> 0%nat -> rows_of d k0 b0 -> rows_of d k1 b1 -> independent_columns d k1 b1 -> rows_of k0 m V ->
    exists U, transform (Mat V) b0 b1 = Ok (Mat U) /\ rows_of k1 m U /\ (forall j, (j < m)%nat -> transform (Vec (mat_col V j)) b0 b1 = Ok (Vec (mat_col U j))) /\
    exists W, from_basis (Mat V) b0 = Ok (Mat W) /\ rows_of d m W /\ to_basis (Mat W) b1 = Ok (Mat U) /\ (forall j, (j < m)%nat -> from_basis (Vec (mat_col V j)) b0 = Ok (Vec (mat_col W j)) /\ to_basis (Vec (mat_col W j)) b1 = Ok (Vec (mat_col U j))).
  Proof.
    intros d k0 k1 m b0 b1 V H0 H1 Hd R0 R1 HI RV. destruct (pinv_cols d k1 b1 H1 Hd R1 HI) as (P & EP & RP & I & _). pose proof RV as [LV _]. set (W := mat_mul b0 V). assert (RW : rows_of d m W) by (apply (mat_mul_rows d k0 m); assumption). pose proof RW as [LW _]. set (U := mat_mul P W). assert (RU : rows_of k1 m U) by (apply (mat_mul_rows k1 d m); assumption).
    assert (EW : from_basis (Mat V) b0 = Ok (Mat W)) by (unfold from_basis, np_dot; rewrite (ncols_rows d k0 b0 R0 Hd), LV, Nat.eqb_refl; reflexivity).
    assert (EU : to_basis (Mat W) b1 = Ok (Mat U)) by (unfold to_basis; rewrite EP; cbn [bind np_dot]; rewrite (ncols_rows k1 d P RP H1), LW, Nat.eqb_refl; reflexivity).
    assert (CW : forall j, (j < m)%nat -> from_basis (Vec (mat_col V j)) b0 = Ok (Vec (mat_col W j))) by (intros j Hj; rewrite (from_basis_eq d k0) by (rewrite ?mat_col_length; assumption); do 2 f_equal; symmetry; apply (mat_mul_col d k0 m); assumption).
    assert (CU : forall j, (j < m)%nat -> to_basis (Vec (mat_col W j)) b1 = Ok (Vec (mat_col U j))) by (intros j Hj; unfold to_basis; rewrite EP; cbn [bind np_dot]; rewrite (ncols_rows k1 d P RP H1), mat_col_length, LW, Nat.eqb_refl; do 2 f_equal; symmetry; apply (mat_mul_col k1 d m); assumption).
    assert (T : forall x y : arr Q, from_basis x b0 = Ok y -> transform x b0 b1 = to_basis y b1) by (intros x y E; unfold transform, to_basis; rewrite EP; cbn [bind]; fold (from_basis x b0); rewrite E; reflexivity).
    exists U. split; [rewrite (T _ _ EW); exact EU|]. split; [exact RU|]. split; [intros j Hj; rewrite (T _ _ (CW j Hj)); apply CU, Hj|]. exists W. split; [exact EW|]. split; [exact RW|]. split; [exact EU|]. intros j Hj. split; [apply CW|apply CU]; exact Hj.
  Qed.
  Lemma tol10_nn : kle (0 : Q) tol10.
  Proof. apply klt_le, klt_inv. generalize 10%nat at 2. intros m. induction m as [|m IH]; cbn [kpow]; [apply k01|apply klt_mul; [apply kofnat_pos; discriminate|exact IH]]. Qed.
  Lemma bilinear_value n (b b0 b1 : list (list Q)) : n <> 0%nat -> rows_of n n b -> rows_of n n b0 -> rows_of n n b1 -> kle (absolute (np_det b0 - 1)) tol10 -> kle (absolute (np_det b1 - 1)) tol10 ->
    let q := mat_mul (transpose n b0) b1 in transform_bilinear_form b b0 b1 = Ok (Mat (mat_mul (transpose n q) (mat_mul b q))).
  Proof.
    intros Hn Rb R0 R1 D0 D1 q. pose proof R0 as [L0 _]. pose proof R1 as [L1 _]. pose proof Rb as [Lb _]. pose proof (transpose_rows n n b0 L0) as RT. assert (Rq : rows_of n n q) by (apply (mat_mul_rows n n n); assumption). pose proof Rq as [Lq _].
    assert (Rbq : rows_of n n (mat_mul b q)) by (apply (mat_mul_rows n n n); assumption). pose proof Rbq as [Lbq _]. pose proof (transpose_rows n n q Lq) as RqT.
    apply kltb_false in D0. apply kltb_false in D1. unfold transform_bilinear_form, det_of. rewrite (ncols_rows n n b0 R0 Hn), (ncols_rows n n b1 R1 Hn), L0, L1, Nat.eqb_refl. cbn [bind]. rewrite D0, D1.
    cbn [bind np_T np_dot]. rewrite (ncols_rows n n b0 R0 Hn), (ncols_rows n n _ RT Hn), L1, Nat.eqb_refl. fold q. cbn [bind np_dot np_T]. rewrite (ncols_rows n n b Rb Hn), Lq, Nat.eqb_refl. cbn [bind np_dot np_T]. rewrite (ncols_rows n n q Rq Hn), (ncols_rows n n _ RqT Hn), Lbq, Nat.eqb_refl. reflexivity.
  Qed.
  (** A bilinear form keeps its values. *)
  Theorem C94_bilinear : forall n (b b0 b1 : list (list Q)), n <> 0%nat -> rows_of n n b -> rows_of n n b0 -> rows_of n n b1 -> (forall i j, (i < n)%nat -> (j < n)%nat -> dot (mat_col b0 i) (mat_col b0 j) = if (i =? j)%nat then 1 else 0) ->
    np_det b0 = 1 -> kle (absolute (np_det b1 - 1)) tol10 -> exists B, transform_bilinear_form b b0 b1 = Ok (Mat B) /\ rows_of n n B /\
    forall u v u0 v0 : list Q, length u = n -> length v = n -> length u0 = n -> length v0 = n -> from_basis (Vec u0) b0 = from_basis (Vec u) b1 -> from_basis (Vec v0) b0 = from_basis (Vec v) b1 -> dot u (mat_vec B v) = dot u0 (mat_vec b v0).
  Proof.
    intros n b b0 b1 Hn Rb R0 R1 ON D0 D1. pose proof R0 as [L0 _]. pose proof R1 as [L1 _]. pose proof Rb as [Lb _]. pose proof (transpose_rows n n b0 L0) as RT. set (q := mat_mul (transpose n b0) b1). assert (Rq : rows_of n n q) by (apply (mat_mul_rows n n n); assumption). pose proof Rq as [Lq _].
    assert (Rbq : rows_of n n (mat_mul b q)) by (apply (mat_mul_rows n n n); assumption). pose proof Rbq as [Lbq _]. pose proof (transpose_rows n n q Lq) as RqT. pose proof RqT as [LqT _]. exists (mat_mul (transpose n q) (mat_mul b q)). split; [|split; [apply (mat_mul_rows n n n); assumption|]].
    - apply bilinear_value; try assumption. rewrite D0. replace ((1 : Q) - 1) with (0 : Q) by ring. rewrite abs_pos by apply kle_refl. apply tol10_nn.
    - assert (QU : forall u u0 : list Q, length u = n -> length u0 = n -> from_basis (Vec u0) b0 = from_basis (Vec u) b1 -> u0 = mat_vec q u).
      { intros u u0 Lu Lu0 E. rewrite (from_basis_eq n n b0 u0), (from_basis_eq n n b1 u) in E by assumption. injection E as E. apply (vec_ext _ _ n); [exact Lu0|rewrite mat_vec_length; exact Lq|]. intros i Hi. rewrite (mat_vec_sum n n q u) by assumption.
        rewrite (ksum_ext _ (fun k => ksum (seq 0 n) (fun l => ent b0 l i * (ent b1 l k * nth k u 0)))) by (intros k Hk; apply in_seq in Hk; unfold q; rewrite (ent_mat_mul n n n) by (assumption || lia); rewrite <- ksum_scale_r; apply ksum_ext; intros l Hl; rewrite ent_transpose by exact Hi; ring).
        rewrite ksum_swap. rewrite (ksum_ext _ (fun l => ent b0 l i * nth l (mat_vec b0 u0) 0)) by (intros l Hl; apply in_seq in Hl; rewrite ksum_scale_l, E, (mat_vec_sum n n b1 u) by (assumption || lia); reflexivity).
        rewrite (ksum_ext _ (fun l => ksum (seq 0 n) (fun k => ent b0 l i * ent b0 l k * nth k u0 0))) by (intros l Hl; apply in_seq in Hl; rewrite (mat_vec_sum n n b0 u0) by (assumption || lia); rewrite <- ksum_scale_l; apply ksum_ext; intros; ring).
        rewrite ksum_swap. rewrite (ksum_ext _ (fun k => (if (k =? i)%nat then 1 else 0) * nth k u0 0)); [symmetry; exact (delta_sum n i (fun m => nth m u0 0) Hi)|]. intros k Hk. apply in_seq in Hk. rewrite ksum_scale_r. f_equal. rewrite Nat.eqb_sym, <- (ON i k Hi) by lia. rewrite (mat_col_dot n) by assumption. reflexivity. }
      intros u v u0 v0 Lu Lv Lu0 Lv0 Eu Ev. rewrite (QU u u0), (QU v v0) by assumption. set (B := mat_mul (transpose n q) (mat_mul b q)). assert (RB : rows_of n n B) by (apply (mat_mul_rows n n n); assumption).
      rewrite (dot_seq u _ n), (dot_seq (mat_vec q u) _ n) by (rewrite ?mat_vec_length; first [assumption|apply RB]).
      assert (EB : forall v : list Q, length v = n -> forall i, (i < n)%nat -> nth i (mat_vec B v) 0 = ksum (seq 0 n) (fun l => ent q l i * nth l (mat_vec b (mat_vec q v)) 0)).
      { intros y Ly i Hi. rewrite (mat_vec_sum n n B) by assumption. rewrite (ksum_ext _ (fun k => ksum (seq 0 n) (fun l => ent q l i * (ent (mat_mul b q) l k * nth k y 0)))) by (intros k Hk; apply in_seq in Hk; unfold B; rewrite (ent_mat_mul n n n) by (assumption || lia); rewrite <- ksum_scale_r; apply ksum_ext; intros l Hl; rewrite ent_transpose by exact Hi; ring).
        rewrite ksum_swap. apply ksum_ext. intros l Hl. apply in_seq in Hl. rewrite ksum_scale_l. f_equal. rewrite (mat_vec_sum n n b) by (rewrite ?mat_vec_length; assumption || lia).
        rewrite (ksum_ext _ (fun k => ksum (seq 0 n) (fun m => ent b l m * (ent q m k * nth k y 0)))) by (intros k Hk; apply in_seq in Hk; rewrite (ent_mat_mul n n n) by (assumption || lia); rewrite <- ksum_scale_r; apply ksum_ext; intros; ring).
        rewrite ksum_swap. apply ksum_ext. intros m Hm. apply in_seq in Hm. rewrite ksum_scale_l, (mat_vec_sum n n q) by (assumption || lia). reflexivity. }
      rewrite (ksum_ext _ (fun i => ksum (seq 0 n) (fun l => nth i u 0 * (ent q l i * nth l (mat_vec b (mat_vec q v)) 0)))) by (intros i Hi; apply in_seq in Hi; rewrite EB by (assumption || lia); rewrite <- ksum_scale_l; reflexivity).
      rewrite ksum_swap. apply ksum_ext. intros l Hl. apply in_seq in Hl. rewrite (mat_vec_sum n n q) by (assumption || lia). rewrite <- ksum_scale_r. apply ksum_ext. intros; ring.
  Qed.
  Theorem C94_bilinear_rejected : forall n (b b0 b1 : list (list Q)), n <> 0%nat -> rows_of n n b0 -> rows_of n n b1 -> klt tol10 (absolute (np_det b0 - 1)) \/ klt tol10 (absolute (np_det b1 - 1)) -> transform_bilinear_form b b0 b1 = Err ValueError.
  Proof.
    intros n b b0 b1 Hn R0 R1 H. pose proof R0 as [L0 _]. pose proof R1 as [L1 _]. unfold transform_bilinear_form, det_of. rewrite (ncols_rows n n b0 R0 Hn), (ncols_rows n n b1 R1 Hn), L0, L1, Nat.eqb_refl. cbn [bind].
    destruct (kltb tol10 (absolute (np_det b0 - 1))) eqn:E; [reflexivity|]. destruct H as [H|H]; apply kltb_spec in H; rewrite H in *; [discriminate|reflexivity].
  Qed.
End Transforms.
Print Assumptions C94_round_trip.
Print Assumptions C94_least_squares.
Print Assumptions C94_transform.
Print Assumptions C94_transform_square.
Print Assumptions C94_columns.
Print Assumptions C94_bilinear.
Print Assumptions C94_bilinear_rejected.
(** The determinant does not tell whether a basis is orthonormal: a shear is
    accepted and the value of the form changes, a reflection is rejected. *)
Lemma qvec_eq (u v : list QcO) : map (fun x : Qc => this x) u = map (fun x : Qc => this x) v -> u = v.
Proof. revert v. induction u as [|x u IH]; intros [|y v] H; try discriminate; [reflexivity|]. injection H as H1 H2. f_equal; [apply Qc_is_canon; rewrite H1; reflexivity|apply IH, H2]. Qed.
Lemma rows_dec (m n : nat) (M : list (list QcO)) : length M = m -> forallb (fun r => length r =? n)%nat M = true -> rows_of m n M.
Proof. intros L H. split; [exact L|]. intros r Hr. apply Nat.eqb_eq. exact (proj1 (forallb_forall _ _) H r Hr). Qed.
Definition q_id : list (list QcO) := [[rat 1 1; rat 0 1]; [rat 0 1; rat 1 1]].
Definition q_shear : list (list QcO) := [[rat 1 1; rat 1 1]; [rat 0 1; rat 1 1]].
Definition q_swap : list (list QcO) := [[rat 0 1; rat 1 1]; [rat 1 1; rat 0 1]].
Lemma q_det1 (M : list (list QcO)) : np_det M = rat 1 1 -> kle (absolute (np_det M - 1)%K) tol10.
Proof. intros ->. apply kleb_spec. vm_compute. reflexivity. Qed.
Theorem C94_shear_refuted : exists (b b0 b1 B : list (list QcO)) (u u0 : list QcO), transform_bilinear_form b b0 b1 = Ok (Mat B) /\ from_basis (Vec u0) b0 = from_basis (Vec u) b1 /\ dot u (mat_vec B u) <> dot u0 (mat_vec b u0).
Proof.
  exists q_id, q_shear, q_id. eexists. exists [rat 1 1; rat 1 1], [rat 0 1; rat 1 1].
  split; [apply (bilinear_value 2); [discriminate|apply rows_dec; reflexivity|apply rows_dec; reflexivity|apply rows_dec; reflexivity|apply q_det1|apply q_det1]; apply Qc_is_canon; vm_compute; reflexivity|].
  split; [rewrite !(from_basis_eq 2 2) by first [discriminate|reflexivity|apply rows_dec; reflexivity]; do 2 f_equal; apply qvec_eq; vm_compute; reflexivity|].
  intros H. apply (f_equal (fun x : Qc => this x)) in H. revert H. vm_compute. discriminate.
Qed.
Theorem C94_reflection_refuted : exists b b0 : list (list QcO), (forall i j, (i < 2)%nat -> (j < 2)%nat -> dot (mat_col b0 i) (mat_col b0 j) = if (i =? j)%nat then 1%K else 0%K) /\ transform_bilinear_form b b0 b0 = Err ValueError.
Proof.
  exists q_id, q_swap. split; [|apply (C94_bilinear_rejected 2); [discriminate|apply rows_dec; reflexivity|apply rows_dec; reflexivity|left; apply kltb_spec; vm_compute; reflexivity]].
  intros [|[|i]] [|[|j]] Hi Hj; try lia; apply Qc_is_canon; vm_compute; reflexivity.
Qed.
Print Assumptions C94_shear_refuted.
Print Assumptions C94_reflection_refuted.

(** ** C95: Gram-Schmidt *)
Section GramSchmidt.
  Context {Q : ofld}.
  Variable ksqrt : Q -> Q.
  Hypothesis Hsqrt : sqrt_ok ksqrt.
  Add Field Kfield80 : (kth Q).
  Local Open Scope fld_scope.
  (** [q] is the result of the Gram-Schmidt process for [b]: it is orthonormal,
      and the [i]-th vector of [b] is a combination of the first [i] vectors of [q]
      with a positive coefficient for the [i]-th *)
  Definition orthonormalised (d : nat) (ip : list Q -> list Q -> Q) (b q : list (list Q)) : Prop :=
    length q = length b /\ (forall v, In v q -> length v = d) /\
    (forall i j, (i < length b)%nat -> (j < length b)%nat -> ip (nth i q []) (nth j q []) = if (i =? j)%nat then 1 else 0) /\
    exists r : nat -> nat -> Q, (forall l i, (i < l)%nat -> r l i = 0) /\ (forall i, (i < length b)%nat -> klt 0 (r i i)) /\
      forall i j, (i < length b)%nat -> (j < d)%nat -> nth j (nth i b []) 0 = ksum (seq 0 (length b)) (fun l => r l i * nth j (nth l q []) 0).
  Theorem C95_inner_product : forall d (ip : list Q -> list Q -> Q) (b : list (list Q)), inner_product d ip -> b <> [] -> (forall v, In v b -> length v = d) -> indep d b ->
    exists q, gram_schmidt_orthonormalization ksqrt ip b = Ok q /\ orthonormalised d ip b q.
  Proof.
    intros d ip b HIP Hne Hb HI. exists (fold_left (ortho_step ksqrt ip) b []). split; [destruct b; [contradiction|reflexivity]|]. destruct (gram_schmidt_ip ksqrt Hsqrt d ip HIP b Hb HI) as ([Lq Rq] & HO & _ & HT). set (q := fold_left _ b []) in *. clearbody q.
    split; [exact Lq|]. split; [exact Rq|]. split; [intros i j Hi Hj; apply HO; rewrite Lq; assumption|]. exists (fun l i => if (i <? l)%nat then 0 else ip (nth i b []) (nth l q [])). split; [intros l i Hi; destruct (Nat.ltb_spec i l); [reflexivity|lia]|]. split.
    - intros i Hi. destruct (Nat.ltb_spec i i); [lia|]. apply HT, Hi.
    - intros i j Hi Hj. destruct (HT i Hi) as (Z & _ & E). specialize (E j Hj). unfold ent in E. rewrite E. apply ksum_ext. intros l Hl. apply in_seq in Hl. destruct (Nat.ltb_spec i l); [rewrite Z by lia|]; reflexivity.
  Qed.
  Theorem C95_empty : forall ip : list Q -> list Q -> Q, gram_schmidt_orthonormalization ksqrt ip [] = Err AssertionError.
  Proof. reflexivity. Qed.
  Lemma orthonormalised_triangular d k (b q : list (list Q)) : rows_of k d b -> orthonormalised d dot b q -> rows_of k d q /\ orthonormal q /\ triangular_in d b q.
  Proof.
    intros Hb (Lq & Rq & HO & r & Hr & Hd & E). pose proof Hb as [Lb _]. rewrite Lb in *. assert (Hq : rows_of k d q) by (split; assumption). assert (HO' : orthonormal q) by (intros i j Hi Hj; apply HO; rewrite <- Lq; assumption). split; [exact Hq|]. split; [exact HO'|].
    assert (QR : qr_decomposition d k b q r).
    { split; [exact Hq|]. split; [exact HO'|]. split; [exact Hr|]. intros i j Hi Hj. unfold ent. rewrite (E i j Hi Hj). apply ksum_ext. intros; ring. }
    intros i Hi. rewrite Lb in *. split; [|split].
    - intros l Hl. rewrite (qr_coef d k b q r Hb QR) by lia. apply Hr. lia.
    - rewrite (qr_coef d k b q r Hb QR) by lia. apply Hd, Hi.
    - intros j Hj. unfold ent. rewrite (E i j Hi Hj). apply ksum_ext. intros l Hl. apply in_seq in Hl. rewrite (qr_coef d k b q r Hb QR) by lia. reflexivity.
  Qed.
  (** Whatever decomposition [np.linalg.qr] finds, the result is the Gram-Schmidt basis. *)
  Theorem C95_qr : forall d k (b q : list (list Q)) r, rows_of k d b -> indep d b -> qr_decomposition d k b q r -> orthonormalised d dot b (flip_columns q b) /\ forall q', orthonormalised d dot b q' -> q' = flip_columns q b.
  Proof.
    intros d k b q r Hb HI HQ. destruct (flip_ok d k b q r Hb HI HQ) as (Rf & Of & Tf). pose proof Hb as [Lb _]. pose proof Rf as [Lf Rf']. split.
    - split; [congruence|]. split; [exact Rf'|]. split; [intros i j Hi Hj; apply Of; rewrite Lf; rewrite Lb in *; assumption|]. exists (fun l i => if (i <? l)%nat then 0 else dot (nth i b []) (nth l (flip_columns q b) [])). split; [intros l i Hi; destruct (Nat.ltb_spec i l); [reflexivity|lia]|]. split.
      + intros i Hi. destruct (Nat.ltb_spec i i); [lia|]. apply Tf, Hi.
      + intros i j Hi Hj. destruct (Tf i Hi) as (Z & _ & E). specialize (E j Hj). unfold ent in E. rewrite E. apply ksum_ext. intros l Hl. apply in_seq in Hl. destruct (Nat.ltb_spec i l); [rewrite Z by lia|]; reflexivity.
    - intros q' H'. destruct (orthonormalised_triangular d k b q' Hb H') as (R' & O' & T'). apply (gs_unique d k b); assumption.
  Qed.
  Lemma dot_inner_product d : inner_product d (@dot Q).
  Proof.
    split; [intros; apply dot_comm|]. split; [intros u v w Hu Hv Hw; rewrite (dot_seq _ _ d), (dot_seq u v d), (dot_seq u w d), <- ksum_plus by (try apply vadd_len; assumption); apply ksum_ext; intros; rewrite nth_vadd by congruence; ring|]. split; [intros; apply (dot_vscale_r d); assumption|]. intros u Hu (j & Hj & N). destruct (klt_total Q 0 (dot u u)) as [K|[K|K]]; [exact K| |exfalso].
      + exfalso. apply N. apply (dot_self_zero d u); [exact Hu|symmetry; exact K|exact Hj].
      + rewrite (dot_seq u u d) in K by assumption. refine (ksum_nonneg (seq 0 d) _ _ K). intros. apply ksq_nonneg.
  Qed.
  Theorem C95_same : forall d k (b q : list (list Q)) r, k <> 0%nat -> rows_of k d b -> indep d b -> qr_decomposition d k b q r -> gram_schmidt_orthonormalization ksqrt dot b = Ok (flip_columns q b).
  Proof.
    intros d k b q r Hk Hb HI HQ. destruct (C95_inner_product d dot b) as (q' & E & H).
    - apply dot_inner_product.
    - destruct Hb as [L _]. intros ->. apply Hk. symmetry. exact L.
    - apply Hb.
    - exact HI.
    - rewrite E. f_equal. exact (proj2 (C95_qr d k b q r Hb HI HQ) q' H).
  Qed.
End GramSchmidt.
Print Assumptions C95_inner_product.
Print Assumptions C95_empty.
Print Assumptions C95_qr.
Print Assumptions C95_same.

(** ** Examples *)
Ltac qc := apply Qc_is_canon; vm_compute; reflexivity.
Example C92_example_interval : this (interval_projection (rat 7 2 : QcO) (rat 1 1) (rat 3 1)) = (3 # 1)%Q /\ this (interval_projection (rat 2 1 : QcO) (rat 1 1) (rat 3 1)) = (2 # 1)%Q /\ this (interval_projection (rat (-2) 1 : QcO) (rat 1 1) (rat 3 1)) = (1 # 1)%Q.
Proof. vm_compute. repeat split. Qed.
(** (3, 1, 2) on (1, 1, 0) and on the plane normal to it *)
Definition exv : list QcO := [rat 3 1; rat 1 1; rat 2 1].
Definition exn : list QcO := [rat 1 1; rat 1 1; rat 0 1].
Example C92_example_vector : length exv = length exn /\ nonzero exn /\ vector_projection exv exn = [rat 2 1; rat 2 1; rat 0 1] /\ vector_plane_projection exv exn = [rat 1 1; rat (-1) 1; rat 2 1].
Proof.
  split; [reflexivity|]. split; [exists 0%nat; split; [cbn; lia|intros H; apply (f_equal (fun x : Qc => this x)) in H; revert H; vm_compute; discriminate]|]. split; apply qvec_eq; vm_compute; reflexivity.
Qed.
(** the plane through (1, 1, 1) spanned by (3, 4, 0) and (0, 0, 2) *)
Definition pb : list (list RO) := [[3; 4; 0]; [0; 0; 2]]%R.
Definition po : list RO := [1; 1; 1]%R.
Lemma pb_indep : indep 3 pb.
Proof.
  intros c H i Hi. pose proof (H 0%nat ltac:(lia)) as H0. pose proof (H 2%nat ltac:(lia)) as H2. change (c 0%nat * 3 + (c 1%nat * 0 + 0) = 0)%R in H0. change (c 0%nat * 0 + (c 1%nat * 2 + 0) = 0)%R in H2. cbn in Hi. destruct i as [|[|i]]; [change (@eq R (c 0%nat) 0%R); lra|change (@eq R (c 1%nat) 0%R); lra|lia].
Qed.
Lemma sqrt_ok_R' : sqrt_ok (Q := RO) sqrt.
Proof. intros x H. assert (H' : (0 <= x)%R) by (apply Rnot_lt_le; exact H). split; [change (~ (sqrt x < 0)%R); apply Rle_not_lt, sqrt_pos|exact (sqrt_sqrt x H')]. Qed.
Example C92_example_subspace : exists f, subspace_projection_map (Q := RO) sqrt 3 pb (Some po) = Ok f /\ exists y, f (Vec ([4; 5; 9]%R : list RO)) = Ok (Vec y) /\ y = ([4; 5; 9]%R : list RO).
Proof.
  destruct (C92_subspace (Q := RO) sqrt po pb sqrt_ok_R' ltac:(cbn; lia) ltac:(cbn; lia) ltac:(intros v [<-|[<-|[]]]; reflexivity) pb_indep) as (f & E & H). exists f. split; [exact E|]. destruct (H ([4; 5; 9]%R : list RO) eq_refl) as (y & Ey & _ & _ & _ & Hy). exists y. split; [exact Ey|]. apply Hy. split; [reflexivity|].
  exists (fun i => if (i =? 0)%nat then 1%R else 4%R). intros [|[|[|j]]] Hj; cbn in Hj; try lia; unfold ksum; cbn; ring.
Qed.
(** the basis (1, 0), (1, 2) *)
Definition exb : list (list QcO) := [[rat 1 1; rat 1 1]; [rat 0 1; rat 2 1]].
Lemma qc_neq (x y : QcO) : Qeq_bool (this x) (this y) = false -> x <> y.
Proof. intros H E. rewrite E in H. rewrite (proj2 (Qeq_bool_iff _ _) (Qeq_refl _)) in H. discriminate. Qed.
Example C93_example : rows_of 2 2 exb /\ np_det exb <> 0%K /\ exists D H, dual_basis (Mat exb) = Ok (Mat D) /\ dual_basis (Mat D) = Ok (Mat exb) /\ inverse_metric_tensor (Mat exb) = Ok (Mat H) /\ metric_tensor (Mat D) = Ok (Mat H).
Proof.
  assert (R : rows_of 2 2 exb) by (apply rows_dec; reflexivity). assert (N : np_det exb <> 0%K) by (apply qc_neq; vm_compute; reflexivity). split; [exact R|]. split; [exact N|].
  destruct (C93_metric 2 exb ltac:(discriminate) R) as (G & _ & _ & _ & _ & K). destruct (K N) as (D & H & E1 & _ & _ & E2 & E3 & E4 & _). exists D, H. repeat split; assumption.
Qed.
Example C93_example_singular : dual_basis (Mat ([[rat 1 1; rat 2 1]; [rat 2 1; rat 4 1]] : list (list QcO))) = Err LinAlgError.
Proof.
  destruct (C93_metric 2 ([[rat 1 1; rat 2 1]; [rat 2 1; rat 4 1]] : list (list QcO)) ltac:(discriminate) ltac:(apply rows_dec; reflexivity)) as (G & _ & _ & _ & K & _). apply K. qc.
Qed.
Example C93_example_matrix : basis_vectors exb = [[rat 1 1; rat 0 1]; [rat 1 1; rat 2 1]] /\ basis_matrix ([[rat 1 1; rat 0 1]; [rat 1 1; rat 2 1]] : list (list QcO)) = Ok exb /\
  basis_matrix ([[rat 1 1; rat 0 1; rat 0 1]; [rat 1 1; rat 2 1; rat 0 1]] : list (list QcO)) = Err ValueError /\ (exists d, dual_basis (Sc (rat 4 1 : QcO)) = Ok (Sc d) /\ d = rat 1 4).
Proof.
  split; [reflexivity|]. split; [reflexivity|]. split; [reflexivity|]. destruct (C93_metric_number (rat 4 1 : QcO)) as (d & E & H & _); [apply qc_neq; vm_compute; reflexivity|]. exists d. split; [exact E|].
  transitivity ((rat 1 4 : QcO) * ((rat 4 1 : QcO) * d))%K; [|rewrite H; qc]. replace ((rat 1 4 : QcO) * ((rat 4 1 : QcO) * d))%K with (((rat 1 4 : QcO) * (rat 4 1 : QcO)) * d)%K by (symmetry; apply Qcmult_assoc).
  replace ((rat 1 4 : QcO) * (rat 4 1 : QcO))%K with (1 : QcO)%K by qc. symmetry. apply Qcmult_1_l.
Qed.
Example C93_example_cartesian : cartesian_basis_vector (F := QcO) 1 3 = Ok [rat 0 1; rat 1 1; rat 0 1] /\ cartesian_basis_vector (F := QcO) 3 3 = Err IndexError.
Proof. split; reflexivity. Qed.
(** the plane in space spanned by (1, 0, 1) and (0, 1, 1) *)
Definition exm : list (list QcO) := [[rat 1 1; rat 0 1]; [rat 0 1; rat 1 1]; [rat 1 1; rat 1 1]].
Lemma exm_rows : rows_of 3 2 exm. Proof. apply rows_dec; reflexivity. Qed.
Lemma qc_first (a b : Qc) : (a = a * 1 + (b * 0 + 0))%Qc. Proof. ring. Qed.
Lemma qc_second (a b : Qc) : (b = a * 0 + (b * 1 + 0))%Qc. Proof. ring. Qed.
Lemma exm_indep : independent_columns 3 2 exm.
Proof.
  intros c H i Hi. pose proof (H 0%nat ltac:(lia)) as H0. pose proof (H 1%nat ltac:(lia)) as H1. change (c 0%nat * 1 + (c 1%nat * 0 + 0) = 0)%Qc in H0. change (c 0%nat * 0 + (c 1%nat * 1 + 0) = 0)%Qc in H1.
  destruct i as [|[|i]]; [refine (eq_trans _ H0); exact (qc_first (c 0%nat) (c 1%nat))|refine (eq_trans _ H1); exact (qc_second (c 0%nat) (c 1%nat))|lia].
Qed.
Example C94_example_plane : exists w, from_basis (Vec [rat 2 1 : QcO; rat 3 1]) exm = Ok (Vec w) /\ w = [rat 2 1; rat 3 1; rat 5 1] /\ to_basis (Vec w) exm = Ok (Vec [rat 2 1; rat 3 1]).
Proof.
  destruct (C94_round_trip 3 2 exm [rat 2 1 : QcO; rat 3 1] ltac:(discriminate) ltac:(discriminate) exm_rows exm_indep eq_refl) as (w & E1 & _ & _ & E2). exists w. split; [exact E1|]. split; [|exact E2]. rewrite (from_basis_eq 3 2) in E1 by first [discriminate|exact exm_rows|reflexivity]. injection E1 as <-. apply qvec_eq. vm_compute. reflexivity.
Qed.
(** (1, 1, -1) is orthogonal to the plane *)
Example C94_example_least_squares : exists c, to_basis (Vec [rat 3 1 : QcO; rat 4 1; rat 4 1]) exm = Ok (Vec c) /\ c = [rat 2 1; rat 3 1].
Proof.
  destruct (C94_least_squares 3 2 exm [rat 3 1 : QcO; rat 4 1; rat 4 1] ltac:(discriminate) ltac:(discriminate) exm_rows exm_indep eq_refl) as (c & w & E & _). exists c. split; [exact E|]. unfold to_basis in E.
  destruct (pinv_cols 3 2 exm ltac:(discriminate) ltac:(discriminate) exm_rows exm_indep) as (P & EP & RP & _). rewrite EP in E. cbn [bind np_dot] in E. rewrite (ncols_rows 2 3 P RP ltac:(discriminate)) in E. injection E as <-.
  apply qvec_eq. assert (EQ : map (map (fun x : Qc => this x)) P = match np_pinv exm with Ok P => map (map (fun x : Qc => this x)) P | Err _ => [] end) by (rewrite EP; reflexivity). vm_compute in EQ.
  destruct P as [|r0 [|r1 [|r2 P]]]; try discriminate EQ. destruct r0 as [|a [|b [|d [|x r0]]]]; try discriminate EQ. destruct r1 as [|a' [|b' [|d' [|x' r1]]]]; try discriminate EQ. injection EQ as A B D A' B' D'.
  assert (C : forall (x : QcO) q, this x = q -> x = Q2Qc q) by (intros x q <-; apply Qc_is_canon; symmetry; apply Qred_correct).
  rewrite (C a _ A), (C b _ B), (C d _ D), (C a' _ A'), (C b' _ B'), (C d' _ D'). vm_compute. reflexivity.
Qed.
Example C94_example_transform : exists u, transform (Vec [rat 1 1 : QcO; rat 1 1]) q_shear exb = Ok (Vec u) /\ from_basis (Vec u) exb = from_basis (Vec [rat 1 1 : QcO; rat 1 1]) q_shear /\ transform (Vec u) exb q_shear = Ok (Vec [rat 1 1 : QcO; rat 1 1]).
Proof.
  destruct (C94_transform_square 2 q_shear exb [rat 1 1 : QcO; rat 1 1]) as (u & E & _ & E1 & E2 & _); [discriminate|apply rows_dec; reflexivity|apply rows_dec; reflexivity|apply qc_neq; vm_compute; reflexivity|reflexivity|]. exists u. split; [exact E|]. split; [exact E1|]. apply E2. apply qc_neq. vm_compute. reflexivity.
Qed.
Example C94_example_columns : exists U, transform (Mat q_shear) exm exm = Ok (Mat U) /\ transform (Vec (mat_col q_shear 1)) exm exm = Ok (Vec (mat_col U 1)).
Proof.
  destruct (C94_columns 3 2 2 2 exm exm q_shear ltac:(discriminate) ltac:(discriminate) ltac:(discriminate) exm_rows exm_rows exm_indep ltac:(apply rows_dec; reflexivity)) as (U & E & _ & H & _). exists U. split; [exact E|apply H; lia].
Qed.
(** the rotation with cosine 3/5 *)
Definition q_rot : list (list QcO) := [[rat 3 5; rat (-4) 5]; [rat 4 5; rat 3 5]].
Example C94_example_bilinear : exists B, transform_bilinear_form exb q_rot q_id = Ok (Mat B) /\ forall u v u0 v0, length u = 2 -> length v = 2 -> length u0 = 2 -> length v0 = 2 -> from_basis (Vec u0) q_rot = from_basis (Vec u) q_id -> from_basis (Vec v0) q_rot = from_basis (Vec v) q_id -> dot u (mat_vec B v) = dot u0 (mat_vec exb v0).
Proof.
  destruct (C94_bilinear 2 exb q_rot q_id) as (B & E & _ & H); [discriminate|apply rows_dec; reflexivity|apply rows_dec; reflexivity|apply rows_dec; reflexivity| |qc|apply q_det1; qc|].
  - intros [|[|i]] [|[|j]] Hi Hj; try lia; qc.
  - exists B. split; [exact E|exact H].
Qed.
(** (3, 4) and (0, 5) with a decomposition whose first diagonal entry is negative *)
Definition gsb : list (list QcO) := [[rat 3 1; rat 4 1]; [rat 0 1; rat 5 1]].
Definition gsq : list (list QcO) := [[rat (-3) 5; rat (-4) 5]; [rat (-4) 5; rat 3 5]].
Definition gsr (l i : nat) : QcO := match l, i with 0%nat, 0%nat => rat (-5) 1 | 0%nat, 1%nat => rat (-4) 1 | 1%nat, 1%nat => rat 3 1 | _, _ => 0%K end.
Lemma gs_qr : qr_decomposition 2 2 gsb gsq gsr.
Proof.
  split; [apply rows_dec; reflexivity|]. split; [intros [|[|i]] [|[|j]] Hi Hj; cbn in Hi, Hj; try lia; qc|]. split; [intros [|[|l]] [|[|i]] H; try lia; reflexivity|].
  intros [|[|i]] [|[|j]] Hi Hj; try lia; qc.
Qed.
Lemma gsb_indep : indep 2 gsb.
Proof.
  intros c H. apply (det_independent 2 (@ent QcO gsb) c); [apply qc_neq; vm_compute; reflexivity|exact H].
Qed.
Example C95_example_qr : orthonormalised 2 dot gsb (flip_columns gsq gsb) /\ flip_columns gsq gsb <> gsq.
Proof.
  split; [apply (C95_qr 2 2 gsb gsq gsr); [apply rows_dec; reflexivity|exact gsb_indep|exact gs_qr]|]. intros H. apply (f_equal (fun l => map (fun x : Qc => this x) (hd [] l))) in H. revert H. vm_compute. discriminate.
Qed.
Example C95_example_real : exists q, gram_schmidt_orthonormalization (Q := RO) sqrt dot pb = Ok q /\ orthonormalised 3 dot pb q.
Proof.
  apply C95_inner_product; [exact sqrt_ok_R'| |discriminate|intros v [<-|[<-|[]]]; reflexivity|exact pb_indep]. apply dot_inner_product.
Qed.
(** the inner product with the matrix (2 1; 1 2) *)
Definition ip2 (u v : list RO) : R := (2 * (nth 0 u 0 * nth 0 v 0) + (nth 0 u 0 * nth 1 v 0 + nth 1 u 0 * nth 0 v 0) + 2 * (nth 1 u 0 * nth 1 v 0))%R.
Example C95_example_inner_product : exists q, gram_schmidt_orthonormalization (Q := RO) sqrt ip2 [[1; 0]%R; [1; 1]%R] = Ok q /\ orthonormalised 2 (ip2 : list RO -> list RO -> RO) [[1; 0]%R; [1; 1]%R] q.
Proof.
  apply (C95_inner_product (Q := RO)); [exact sqrt_ok_R'| |discriminate|intros v [<-|[<-|[]]]; reflexivity|].
  - split; [intros; unfold ip2; change (@eq R (ip2 u v) (ip2 v u)); unfold ip2; ring|]. split; [intros u v w Hu Hv Hw; change (@eq R (ip2 u (vadd (F := RO) v w)) (ip2 u v + ip2 u w)%R); assert (E : forall j, nth j (vadd (F := RO) v w) 0%R = (nth j v 0 + nth j w 0)%R) by (intros; apply (nth_vadd (F := RO)); congruence); unfold ip2; rewrite !E; ring|].
    split; [intros c u v Hu Hv; change (@eq R (ip2 u (vscale (F := RO) c v)) (c * ip2 u v)%R); assert (E : forall j, nth j (vscale (F := RO) c v) 0%R = (c * nth j v 0)%R) by (intros; apply (nth_vscale (F := RO))); unfold ip2; rewrite !E; ring|].
    intros u Hu (j & Hj & N). change (0 < ip2 u u)%R. unfold ip2. destruct u as [|a [|b [|x u]]]; try discriminate. cbn. assert (H : a <> 0%R \/ b <> 0%R) by (destruct j as [|[|j]]; [left; exact N|right; exact N|lia]).
    assert (S : forall x : R, (0 <= x * x)%R) by (intros; nra). assert (P : forall x : R, x <> 0%R -> (0 < x * x)%R) by (intros; nra). pose proof (S a). pose proof (S b). pose proof (S (a + b)%R). destruct H as [H|H]; apply P in H; nra.
  - intros c H i Hi. pose proof (H 0%nat ltac:(lia)) as H0. pose proof (H 1%nat ltac:(lia)) as H1. change (c 0%nat * 1 + (c 1%nat * 1 + 0) = 0)%R in H0. change (c 0%nat * 0 + (c 1%nat * 1 + 0) = 0)%R in H1. cbn in Hi. destruct i as [|[|i]]; [change (@eq R (c 0%nat) 0%R); lra|change (@eq R (c 1%nat) 0%R); lra|lia].
Qed.
