(** Affine maps between a simplex, the unit simplex and other simplices. *)
From Verif Require Import Base Fld FldInst LinSolve PolyEval Det Linalg VecFacts SimplexGeo SimplexFacts GramSchmidt SimplexMetric SimplexInside SimplexVolume.
From Coq Require Import Field_theory Field.

Section Points.
  Context {F : fld}.
  Add Field Kfield51 : (kth F).
  Local Open Scope fld_scope.
  (** points of the line are given as numbers, other points as arrays *)
  Lemma pt_vec (x : list F) n : length x = n -> (2 <= n)%nat -> pt x = Vec x.
  Proof. intros L H. destruct x as [|a [|b x]]; cbn in *; try lia; reflexivity. Qed.
  Lemma np_add_vec (u v : list F) : length u = length v -> np_add (Vec u) (Vec v) = Ok (Vec (vadd u v)).
  Proof. intros L. unfold np_add, bcast. rewrite L, Nat.eqb_refl. reflexivity. Qed.
  (** barycentric coordinates of the image of a point of the unit simplex *)
  Definition bary_of (x : list F) : list F := (1 - ksum x (fun t => t)) :: x.
  Lemma bary_of_sum x : ksum (bary_of x) (fun t => t) = 1. Proof. unfold bary_of. rewrite ksum_cons. ring. Qed.
  Lemma bary_of_tl c : length c <> 0%nat -> ksum c (fun t => t) = 1 -> bary_of (tl c) = c.
  Proof. intros L S1. destruct c as [|a c]; [contradiction|]. cbn [tl]. unfold bary_of. f_equal. rewrite ksum_cons in S1. rewrite <- S1. ring. Qed.
  (** a combination in terms of the edges *)
  Lemma comb_edges n m (vs : list (list F)) c y : rows_of (S n) m vs -> affine_comb m c vs y -> forall j, (j < m)%nat -> nth j y 0 = ent vs 0 j + ksum (seq 0 n) (fun i => nth (S i) c 0 * edge vs i j).
  Proof.
    intros HV (Lc & Ly & S1 & H) j Hj. rewrite H by exact Hj. rewrite (proj1 HV) in *. rewrite ksum_nth, Lc in S1. rewrite (edge_comb n vs (fun i => nth i c 0) j), S1. ring.
  Qed.
  Lemma edges_comb n m (vs : list (list F)) x y : rows_of (S n) m vs -> length x = n -> length y = m -> (forall j, (j < m)%nat -> nth j y 0 = ent vs 0 j + ksum (seq 0 n) (fun i => nth i x 0 * edge vs i j)) -> affine_comb m (bary_of x) vs y.
  Proof.
    intros HV Lx Ly H. assert (Lb : length (bary_of x) = S n) by (unfold bary_of; cbn [length]; rewrite Lx; reflexivity). pose proof (bary_of_sum x) as S1. split; [rewrite Lb; symmetry; apply HV|]. split; [exact Ly|]. split; [exact S1|].
    intros j Hj. rewrite H by exact Hj. rewrite (proj1 HV). rewrite ksum_nth, Lb in S1. pose proof (edge_comb n vs (fun i => nth i (bary_of x) 0) j) as E. rewrite S1 in E. change (ksum (seq 0 n) (fun i => nth i x 0 * edge vs i j) = ksum (seq 0 (S n)) (fun i => nth i (bary_of x) 0 * ent vs i j) - 1 * ent vs 0 j) in E. rewrite E. ring.
  Qed.
  Definition A_of (m n : nat) (vs : list (list F)) : list (list F) := of_cols m (map (fun i => vsub (vtx vs (S i)) (vtx vs 0)) (seq 0 n)).
  Lemma A_rows m n vs : rows_of m n (A_of m n vs). Proof. apply of_cols_rows. Qed.
  Lemma A_ent m n vs i j : rows_of (S n) m vs -> (i < m)%nat -> (j < n)%nat -> ent (A_of m n vs) i j = edge vs j i. Proof. intros. apply ent_vsub_col; assumption. Qed.
  Lemma from_unit_eq n m (vs : list (list F)) : n <> 0%nat -> (n <= m)%nat -> rows_of (S n) m vs -> affine_transformation_from_unit vs = if (m =? 1)%nat then Ok (Sc (edge vs 0 0), Sc (ent vs 0 0)) else Ok (Mat (A_of m n vs), Vec (nth 0 vs [])).
  Proof.
    intros Hn Hnm HV. unfold affine_transformation_from_unit. destruct (dims n m vs HV) as [-> ->]. destruct (Nat.leb_spec n m); [|lia]. cbn [assert_ bind]. destruct (Nat.eqb_spec n 1) as [->|N1]; destruct (Nat.eqb_spec m 1) as [->|M1]; cbn [andb]; try lia; try reflexivity; destruct (Nat.eqb_spec n 0); try lia; reflexivity.
  Qed.
  Lemma concat_col m (A : list (list F)) : rows_of m 1 A -> concat A = map (fun i => ent A i 0) (seq 0 m).
  Proof.
    intros [L H]. revert m L H. induction A as [|r A IH]; intros m L H; cbn in L; subst m; [reflexivity|]. cbn [concat length seq map]. assert (Lr : length r = 1%nat) by (apply H; left; reflexivity). destruct r as [|a [|]]; try discriminate Lr. cbn [app]. f_equal. rewrite (IH (length A) eq_refl) by (intros; apply H; right; assumption). rewrite <- seq_shift, map_map. reflexivity.
  Qed.
  Theorem from_unit_map n m (vs : list (list F)) : n <> 0%nat -> (n <= m)%nat -> rows_of (S n) m vs ->
    exists phi, affine_map_from_unit vs = Ok phi /\ forall x, length x = n -> exists y, phi (pt x) = Ok (pt y) /\ affine_comb m (bary_of x) vs y.
  Proof.
    intros Hn Hnm HV. unfold affine_map_from_unit. rewrite (from_unit_eq n m) by assumption. pose proof (A_rows m n vs) as AR. assert (L0 : length (nth 0 vs []) = m) by (apply (rows_len (S n) m); [exact HV|lia]).
    destruct (Nat.eqb_spec m 1) as [->|M1].
    - assert (n = 1%nat) by lia. subst n. cbn [bind fst snd create_affine_map is_number assert_]. eexists. split; [reflexivity|]. intros x Lx. destruct x as [|t [|]]; try discriminate Lx. cbn [pt np_scale np_add]. exists [edge vs 0 0 * t + ent vs 0 0]. split; [reflexivity|]. apply (edges_comb 1 1); try assumption; try reflexivity.
      intros j Hj. assert (j = 0%nat) by lia. subst j. cbn [nth seq]. rewrite ksum_cons, ksum_nil. ring.
    - cbn [bind fst snd create_affine_map]. rewrite (ncols_rows m n _ AR) by lia. rewrite (proj1 AR). destruct (Nat.eqb_spec n 1) as [->|N1].
      + destruct (Nat.eqb_spec m 1); [lia|]. cbn [np_len bind]. rewrite L0, Nat.eqb_refl. cbn [assert_ bind]. eexists. split; [reflexivity|]. intros x Lx. destruct x as [|t [|]]; try discriminate Lx. cbn [pt].
        rewrite (concat_col m _ AR), map_map. rewrite np_add_vec by (rewrite map_length, seq_length; symmetry; exact L0).
        set (y := vadd _ _). assert (Ly : length y = m) by (unfold y, vadd; rewrite map_length, combine_length, map_length, seq_length; lia). exists y. rewrite (pt_vec y m Ly) by lia. split; [reflexivity|]. apply (edges_comb 1 m); try assumption; try reflexivity.
        intros j Hj. unfold y. rewrite nth_vadd by (rewrite map_length, seq_length; symmetry; exact L0). rewrite nth_map_seq0 by exact Hj. rewrite A_ent by (try assumption; lia). cbn [seq nth]. rewrite ksum_cons, ksum_nil. unfold ent. ring.
      + destruct (Nat.eqb_spec m 1); [lia|]. cbn [np_len bind]. rewrite L0, Nat.eqb_refl. cbn [assert_ bind]. eexists. split; [reflexivity|]. intros x Lx. rewrite (pt_vec x n Lx) by lia. cbn [np_dot]. rewrite (ncols_rows m n _ AR) by lia. rewrite Lx, Nat.eqb_refl. cbn [bind].
        assert (LM : length (mat_vec (A_of m n vs) x) = m) by (rewrite mat_vec_length; apply AR). rewrite np_add_vec by congruence. set (y := vadd _ _). assert (Ly : length y = m) by (unfold y, vadd; rewrite map_length, combine_length, LM, L0; lia). exists y. rewrite (pt_vec y m Ly) by lia. split; [reflexivity|]. apply (edges_comb n m); try assumption.
        intros j Hj. unfold y. rewrite nth_vadd by congruence. rewrite (mat_vec_sum m n) by assumption. rewrite (ksum_ext _ (fun i => nth i x 0 * edge vs i j)) by (intros i Hi; apply in_seq in Hi; rewrite A_ent by (try assumption; lia); ring). unfold ent. ring.
  Qed.
  (** ** A matrix recovering the coordinates of a combination *)
  Definition left_inv (n m : nat) (vs : list (list F)) (B : list (list F)) : Prop :=
    rows_of n m B /\ forall p c, affine_comb m c vs p -> forall i, (i < n)%nat -> nth i (mat_vec B p) 0 - nth i (mat_vec B (nth 0 vs [])) 0 = nth (S i) c 0.
  Lemma det_A n vs : rows_of (S n) n vs -> det n (ent (A_of n n vs)) = det n (edge vs).
  Proof. intros HV. rewrite <- det_transpose. apply det_ext. intros i j Hi Hj. apply A_ent; assumption. Qed.
  Lemma inv_left n (vs B : list (list F)) : n <> 0%nat -> rows_of (S n) n vs -> rows_of n n B -> (forall i j, (i < n)%nat -> (j < n)%nat -> ksum (seq 0 n) (fun l => ent B i l * ent (A_of n n vs) l j) = if (i =? j)%nat then 1 else 0) -> left_inv n n vs B.
  Proof.
    intros Hn HV HB HI. split; [exact HB|]. intros p c HC i Hi. pose proof HC as (_ & Lp & _). assert (L0 : length (nth 0 vs []) = n) by (apply (rows_len (S n) n); [exact HV|lia]).
    rewrite !(mat_vec_sum n n) by assumption. rewrite <- ksum_minus. transitivity (ksum (seq 0 n) (fun l => ksum (seq 0 n) (fun k => nth (S k) c 0 * (ent B i l * ent (A_of n n vs) l k)))).
    - apply ksum_ext. intros l Hl. apply in_seq in Hl. rewrite (comb_edges n n vs c p HV HC) by lia. rewrite (ksum_ext (fun k => nth (S k) c 0 * (ent B i l * ent (A_of n n vs) l k)) (fun k => ent B i l * (nth (S k) c 0 * edge vs k l))) by (intros k Hk; apply in_seq in Hk; rewrite A_ent by (try assumption; lia); ring). rewrite ksum_scale_l. unfold ent. ring.
    - rewrite ksum_swap. rewrite (ksum_ext _ (fun k => if Nat.eq_dec k i then nth (S k) c 0 else 0)).
      + rewrite (ksum_delta Nat.eq_dec) by (try apply seq_NoDup; apply in_seq; lia). reflexivity.
      + intros k Hk. apply in_seq in Hk. rewrite ksum_scale_l, HI by lia. destruct (Nat.eqb_spec i k), (Nat.eq_dec k i); try lia; ring.
  Qed.
End Points.

Section Ordered.
  Context {Q : ofld}.
  Add Field Kfield52 : (kth Q).
  Local Open Scope fld_scope.
  (** the pseudoinverse gives the coordinates of the orthogonal projection *)
  Lemma pinv_proj n m (vs : list (list Q)) : n <> 0%nat -> m <> 0%nat -> rows_of (S n) m vs -> affine_independent m vs -> exists P, np_pinv (A_of m n vs) = Ok P /\ rows_of n m P /\
    forall p c y, length p = m -> affine_comb m c vs y -> (forall i, (i <= n)%nat -> dot (vsub p y) (vsub (nth i vs []) (nth 0 vs [])) = 0) -> forall i, (i < n)%nat -> nth i (mat_vec P p) 0 - nth i (mat_vec P (nth 0 vs [])) 0 = nth (S i) c 0.
  Proof.
    intros Hn Hm HV HI. pose proof (edges_rows n m vs HV) as ER. pose proof (edges_indep n m vs HV HI) as EI. destruct (pinv_ok m n (edges_of n vs) Hn Hm ER EI) as (P & EP & RP & HP). exists P. split; [exact EP|]. split; [exact RP|].
    intros p c y Lp HC HO. pose proof HC as (_ & Ly & _). assert (L0 : length (nth 0 vs []) = m) by (apply (rows_len (S n) m); [exact HV|lia]).
    assert (Z : forall i, (i < n)%nat -> nth i (mat_vec P p) 0 - nth i (mat_vec P (nth 0 vs [])) 0 - nth (S i) c 0 = 0).
    { apply (gram_injective m n (edges_of n vs) (fun i => nth i (mat_vec P p) 0 - nth i (mat_vec P (nth 0 vs [])) 0 - nth (S i) c 0) ER EI). intros i Hi.
      rewrite (ksum_ext _ (fun j => dot (nth i (edges_of n vs) []) (nth j (edges_of n vs) []) * nth j (mat_vec P p) 0 - dot (nth i (edges_of n vs) []) (nth j (edges_of n vs) []) * nth j (mat_vec P (nth 0 vs [])) 0 - nth (S j) c 0 * dot (nth i (edges_of n vs) []) (nth j (edges_of n vs) []))) by (intros; ring).
      rewrite !ksum_minus, !HP by assumption. assert (Le : length (nth i (edges_of n vs) []) = m) by (apply (rows_len n m); assumption).
      rewrite <- (dot_lin m (nth i (edges_of n vs) []) (vsub y (nth 0 vs [])) n (fun j => nth (S j) c 0) (edges_of n vs) Le (vsub_len _ _ m Ly L0) ER).
      - rewrite (dot_vsub_r m) by assumption. specialize (HO (S i) ltac:(lia)). rewrite <- (nth_edges n vs i Hi) in HO. rewrite dot_vsub_l, (dot_comm p), (dot_comm y) in HO by congruence. transitivity (dot (nth i (edges_of n vs) []) p - dot (nth i (edges_of n vs) []) y); [ring|exact HO].
      - intros j Hj. rewrite nth_vsub by congruence. rewrite (comb_edges n m vs c y HV HC) by exact Hj. rewrite (ksum_ext (fun i0 => nth (S i0) c 0 * ent (edges_of n vs) i0 j) (fun i0 => nth (S i0) c 0 * edge vs i0 j)) by (intros k Hk; apply in_seq in Hk; rewrite (ent_edges n m vs HV) by lia; reflexivity). unfold ent. ring. }
    intros i Hi. specialize (Z i Hi). transitivity (nth i (mat_vec P p) 0 - nth i (mat_vec P (nth 0 vs [])) 0 - nth (S i) c 0 + nth (S i) c 0); [ring|rewrite Z; ring].
  Qed.
  Lemma gram_A n m (vs : list (list Q)) : n <> 0%nat -> m <> 0%nat -> rows_of (S n) m vs -> rows_of n n (mat_mul (transpose (ncols (A_of m n vs)) (A_of m n vs)) (A_of m n vs)) /\
    det n (ent (mat_mul (transpose (ncols (A_of m n vs)) (A_of m n vs)) (A_of m n vs))) = det n (gram m vs).
  Proof.
    intros Hn Hm HV. pose proof (A_rows m n vs) as AR. rewrite (ncols_rows m n _ AR Hm). pose proof (transpose_rows n m (A_of m n vs) (proj1 AR)) as TR. split; [apply (mat_mul_rows n m n); assumption|].
    apply det_ext. intros i j Hi Hj. rewrite (ent_mat_mul n m n) by assumption. unfold gram. apply ksum_ext. intros l Hl. apply in_seq in Hl. rewrite ent_transpose, !A_ent by (try assumption; lia). reflexivity.
  Qed.
  Lemma invertible_A n m (vs : list (list Q)) : n <> 0%nat -> m <> 0%nat -> rows_of (S n) m vs -> (is_invertible (mat_mul (transpose (ncols (A_of m n vs)) (A_of m n vs)) (A_of m n vs)) = true <-> affine_independent m vs).
  Proof.
    intros Hn Hm HV. destruct (gram_A n m vs Hn Hm HV) as [R D]. rewrite (gram_independent n m vs HV), <- D. unfold is_invertible. split.
    - intros H N. rewrite (np_inv_singular n _ Hn R N) in H. discriminate H.
    - intros H. destruct (np_inv_ok n _ Hn R H) as (B & -> & _). reflexivity.
  Qed.

  Definition shift (n : nat) (B : list (list Q)) (v : list Q) : arr Q := pt (vscale (- (1)) (mat_vec B v)).
  Lemma to_unit_pair n m (vs : list (list Q)) : n <> 0%nat -> (n <= m)%nat -> (2 <= m)%nat -> rows_of (S n) m vs -> affine_independent m vs ->
    exists B, affine_transformation_to_unit vs = Ok (Mat B, shift n B (nth 0 vs [])) /\ left_inv n m vs B /\
      (forall p c y, length p = m -> affine_comb m c vs y -> (forall i, (i <= n)%nat -> dot (vsub p y) (vsub (nth i vs []) (nth 0 vs [])) = 0) -> (n < m)%nat -> forall i, (i < n)%nat -> nth i (mat_vec B p) 0 - nth i (mat_vec B (nth 0 vs [])) 0 = nth (S i) c 0).
  Proof.
    intros Hn Hnm Hm HV HI. unfold affine_transformation_to_unit. rewrite (from_unit_eq n m) by assumption. destruct (Nat.eqb_spec m 1); [lia|]. cbn [bind fst snd]. destruct (dims n m vs HV) as [-> ->]. pose proof (A_rows m n vs) as AR. assert (L0 : length (nth 0 vs []) = m) by (apply (rows_len (S n) m); [exact HV|lia]).
    destruct (Nat.eqb_spec m n) as [->|Nmn].
    - assert (D : det n (ent (A_of n n vs)) <> 0) by (rewrite det_A by exact HV; apply affine_independent_det; [exact Hn|apply HV|exact HI]). destruct (np_inv_ok n (A_of n n vs) Hn AR D) as (B & EB & RB & _ & HBA). exists B. cbn [inverse_affine_transformation]. rewrite EB. cbn [bind np_dot]. rewrite (ncols_rows n n B RB Hn), L0, Nat.eqb_refl. cbn [bind]. split; [|split; [apply inv_left; assumption|intros; lia]].
      f_equal. f_equal. unfold shift, np_neg, np_scale. rewrite (pt_vec (vscale _ _) n) by (try apply vscale_len; try rewrite mat_vec_length; try apply RB; exact Hm). reflexivity.
    - destruct (pinv_proj n m vs Hn ltac:(lia) HV HI) as (P & EP & RP & HP). exists P. cbn [pseudoinverse_affine_transformation]. unfold pseudoinverse_mat. rewrite (proj2 (invertible_A n m vs Hn ltac:(lia) HV) HI). cbn [assert_ bind]. rewrite EP. cbn [bind np_dot]. rewrite (ncols_rows n m P RP Hn), L0, Nat.eqb_refl. cbn [bind]. rewrite (ncols_rows m n _ AR) by lia.
      split; [|split; [split; [exact RP|intros p c HC; apply (HP p c p); [apply HC|exact HC|]]|intros p c y Lp HC HO _; exact (HP p c y Lp HC HO)]].
      + assert (LP : length (mat_vec P (nth 0 vs [])) = n) by (rewrite mat_vec_length; apply RP). destruct (Nat.eqb_spec n 1) as [->|N1].
        * unfold shift. destruct (mat_vec P (nth 0 vs [])) as [|a [|]]; try discriminate LP. reflexivity.
        * unfold shift. rewrite (pt_vec (vscale _ _) n) by (try (apply vscale_len; exact LP); lia). reflexivity.
      + intros i Hi. pose proof HC as (_ & Lp & _). rewrite dot_vsub_l by reflexivity. ring.
  Qed.
  (** applying the pair *)
  Lemma to_unit_apply n m (vs B : list (list Q)) p x : n <> 0%nat -> (2 <= m)%nat -> rows_of n m B -> length p = m -> length (nth 0 vs []) = m -> length x = n -> (forall i, (i < n)%nat -> nth i (mat_vec B p) 0 - nth i (mat_vec B (nth 0 vs [])) 0 = nth i x 0) ->
    exists phi, create_affine_map (Mat B) (shift n B (nth 0 vs [])) = Ok phi /\ phi (pt p) = Ok (pt x).
  Proof.
    intros Hn Hm RB Lp L0 Lx H. cbn [create_affine_map]. rewrite (ncols_rows n m B RB Hn), (proj1 RB). destruct (Nat.eqb_spec m 1); [lia|]. assert (LB : forall v, length (mat_vec B v) = n) by (intros; rewrite mat_vec_length; apply RB). rewrite (pt_vec p m Lp Hm).
    destruct (Nat.eqb_spec n 1) as [->|N1].
    - unfold shift. pose proof (LB (nth 0 vs [])) as L. specialize (H 0%nat ltac:(lia)). destruct (mat_vec B (nth 0 vs [])) as [|a [|]]; try discriminate L. cbn [vscale map pt is_number assert_ bind]. eexists. split; [reflexivity|]. cbn [np_dot]. rewrite (ncols_rows 1 m B RB), Lp, Nat.eqb_refl by discriminate. cbn [bind]. specialize (LB p). destruct (mat_vec B p) as [|b [|]]; try discriminate LB. cbn [np_first bind np_add]. destruct x as [|t [|]]; try discriminate Lx. cbn [pt]. cbn [nth] in H. f_equal. f_equal. rewrite <- H. ring.
    - unfold shift. assert (Ls : length (vscale (- (1)) (mat_vec B (nth 0 vs []))) = n) by (apply vscale_len; apply LB). rewrite (pt_vec _ n Ls) by lia. cbn [np_len bind]. rewrite Ls, Nat.eqb_refl. cbn [assert_ bind]. eexists. split; [reflexivity|]. cbn [np_dot]. rewrite (ncols_rows n m B RB Hn), Lp, Nat.eqb_refl. cbn [bind]. rewrite np_add_vec by (rewrite LB; symmetry; exact Ls). rewrite (pt_vec x n Lx) by lia. f_equal. f_equal.
      apply (vec_ext _ _ n); [apply vadd_len; [apply LB|exact Ls]|exact Lx|]. intros i Hi. rewrite nth_vadd, nth_vscale by (rewrite LB; symmetry; exact Ls). rewrite <- H by exact Hi. ring.
  Qed.
  (** 1-d *)
  Lemma edge_1d (vs : list (list Q)) : rows_of 2 1 vs -> affine_independent 1 vs -> edge vs 0 0 <> 0.
  Proof. intros HV HI E. apply (affine_independent_det 1 vs) in HI; [|discriminate|apply HV]. apply HI. cbn [det seq]. rewrite ksum_cons, ksum_nil. rewrite E. ring. Qed.
  Lemma to_unit_1d (vs : list (list Q)) : rows_of 2 1 vs -> affine_independent 1 vs -> affine_transformation_to_unit vs = Ok (Sc (1 / edge vs 0 0), Sc (1 / edge vs 0 0 * (- (1) * ent vs 0 0))).
  Proof.
    intros HV HI. unfold affine_transformation_to_unit. rewrite (from_unit_eq 1 1) by (try assumption; lia). cbn [Nat.eqb bind fst snd]. destruct (dims 1 1 vs HV) as [-> ->]. cbn [Nat.eqb inverse_affine_transformation]. destruct (kdec (edge vs 0 0) 0) as [E|E]; [exfalso; exact (edge_1d vs HV HI E)|]. cbn [np_neg np_scale np_dot bind]. f_equal. f_equal. f_equal. ring.
  Qed.
  Lemma comb_1d (vs : list (list Q)) x p : rows_of 2 1 vs -> affine_comb 1 (bary_of x) vs p -> exists t, x = [t] /\ p = [ent vs 0 0 + t * edge vs 0 0].
  Proof.
    intros HV HC. pose proof (comb_edges 1 1 vs _ p HV HC 0%nat ltac:(lia)) as H. destruct HC as (Lc & Lp & _). rewrite (proj1 HV) in Lc. unfold bary_of in Lc. cbn [length] in Lc. destruct x as [|t [|]]; try discriminate Lc. exists t. split; [reflexivity|]. destruct p as [|a [|]]; try discriminate Lp. cbn [nth seq bary_of] in H. rewrite ksum_cons, ksum_nil in H. f_equal. rewrite H. ring.
  Qed.

  Context (ksqrt : Q -> Q) (Hsqrt : sqrt_ok ksqrt).
  Theorem to_unit_full tol n (vs : list (list Q)) : n <> 0%nat -> rows_of (S n) n vs -> affine_independent n vs ->
    exists psi, affine_map_to_unit ksqrt tol vs = Ok psi /\ forall x p, affine_comb n (bary_of x) vs p -> psi (pt p) = Ok (pt x).
  Proof.
    intros Hn HV HI. assert (L0 : length (nth 0 vs []) = n) by (apply (rows_len (S n) n); [exact HV|lia]). unfold affine_map_to_unit. destruct (Nat.eq_dec n 1) as [->|N1].
    - rewrite (to_unit_1d vs HV HI). cbn [bind fst snd create_affine_map is_number assert_]. destruct (dims 1 1 vs HV) as [-> ->]. cbn [Nat.eqb]. eexists. split; [reflexivity|]. intros x p HC. destruct (comb_1d vs x p HV HC) as (t & -> & ->). cbn [pt np_scale np_add]. f_equal. f_equal. field. exact (edge_1d vs HV HI).
    - destruct (to_unit_pair n n vs Hn (le_n _) ltac:(lia) HV HI) as (B & EB & [RB HB] & _). rewrite EB. cbn [bind fst snd]. destruct (dims n n vs HV) as [-> ->]. rewrite Nat.eqb_refl.
      destruct (to_unit_apply n n vs B (nth 0 vs []) (repeat 0 n) Hn ltac:(lia) RB L0 L0 (repeat_length _ _)) as (phi & Ephi & _); [intros i Hi; rewrite nth_repeat; ring|]. rewrite Ephi. cbn [bind]. exists phi. split; [reflexivity|]. intros x p HC. assert (Lx : length x = n) by (destruct HC as (Lc & _); rewrite (proj1 HV) in Lc; unfold bary_of in Lc; cbn [length] in Lc; lia).
      destruct (to_unit_apply n n vs B p x Hn ltac:(lia) RB (proj1 (proj2 HC)) L0 Lx) as (phi' & E' & H'); [intros i Hi; exact (HB p _ HC i Hi)|]. rewrite Ephi in E'. assert (phi = phi') by congruence. congruence.
  Qed.
  Theorem to_unit_embedded tol n m (vs : list (list Q)) : n <> 0%nat -> (n < m)%nat -> rows_of (S n) m vs -> affine_independent m vs ->
    exists psi, affine_map_to_unit ksqrt tol vs = Ok psi /\ forall p, length p = m -> exists x y, affine_comb m (bary_of x) vs y /\ (forall i, (i <= n)%nat -> dot (vsub p y) (vsub (nth i vs []) (nth 0 vs [])) = 0) /\
      psi (Vec p) = if kleb (norm2 ksqrt (vsub p y)) tol then Ok (pt x) else Err AssertionError.
  Proof.
    intros Hn Hnm HV HI. assert (L0 : length (nth 0 vs []) = m) by (apply (rows_len (S n) m); [exact HV|lia]). unfold affine_map_to_unit. destruct (to_unit_pair n m vs Hn ltac:(lia) ltac:(lia) HV HI) as (B & EB & [RB HB] & HP). rewrite EB. cbn [bind fst snd].
    destruct (to_unit_apply n m vs B (nth 0 vs []) (repeat 0 n) Hn ltac:(lia) RB L0 L0 (repeat_length _ _)) as (phi & Ephi & _); [intros i Hi; rewrite nth_repeat; ring|]. rewrite Ephi. cbn [bind]. destruct (dims n m vs HV) as [-> ->]. destruct (Nat.eqb_spec m n); [lia|]. eexists. split; [reflexivity|]. intros p Lp. cbv beta iota.
    destruct (local_coords ksqrt Hsqrt n m vs HV Hn HI p) as (c & HC). rewrite (in_subspace_eq ksqrt Hsqrt n m vs HV Hn HI p c tol Hnm Lp HC). pose proof HC as (Lc & _ & S1 & _). rewrite (proj1 (local_rows ksqrt n m vs HV)) in Lc. pose proof (barycentric_to_cartesian_spec m n vs c HV Lc S1) as HY.
    assert (Hc : bary_of (tl c) = c) by (apply bary_of_tl; [lia|exact S1]). exists (tl c), (barycentric_to_cartesian c vs). rewrite Hc. split; [exact HY|]. assert (HO : forall i, (i <= n)%nat -> dot (vsub p (barycentric_to_cartesian c vs)) (vsub (nth i vs []) (nth 0 vs [])) = 0) by (intros i Hi; exact (projection_orthogonal ksqrt Hsqrt n m vs HV Hn HI p c i Lp HC Hi)). split; [exact HO|].
    cbn [bind]. destruct (kleb _ tol); cbn [assert_ bind]; [|reflexivity]. assert (Lx : length (tl c) = n) by (destruct c; [discriminate Lc|cbn in *; lia]).
    destruct (to_unit_apply n m vs B p (tl c) Hn ltac:(lia) RB Lp L0 Lx) as (phi' & E' & H'); [intros i Hi; rewrite (HP p c _ Lp HY HO Hnm i Hi); destruct c; [discriminate Lc|reflexivity]|]. rewrite Ephi in E'. assert (Epp : phi = phi') by congruence. rewrite Epp. rewrite (pt_vec p m Lp) in H' by lia. exact H'.
  Qed.
  Theorem to_unit_degenerate tol n m (vs : list (list Q)) : n <> 0%nat -> (n <= m)%nat -> (2 <= m)%nat -> rows_of (S n) m vs -> ~ affine_independent m vs ->
    affine_map_to_unit ksqrt tol vs = Err (if (n =? m)%nat then LinAlgError else AssertionError).
  Proof.
    intros Hn Hnm Hm HV HI. unfold affine_map_to_unit, affine_transformation_to_unit. rewrite (from_unit_eq n m) by assumption. destruct (Nat.eqb_spec m 1); [lia|]. cbn [bind fst snd]. destruct (dims n m vs HV) as [-> ->]. rewrite (Nat.eqb_sym n m). destruct (Nat.eqb_spec m n) as [->|Nmn].
    - assert (D : det n (ent (A_of n n vs)) = 0).
      { rewrite det_A by exact HV. destruct (kdec (det n (edge vs)) 0) as [|N]; [assumption|]. exfalso. apply HI. apply (affine_independent_det n vs Hn (proj1 HV)). exact N. }
      cbn [inverse_affine_transformation]. rewrite (np_inv_singular n _ Hn (A_rows n n vs) D). reflexivity.
    - cbn [pseudoinverse_affine_transformation]. unfold pseudoinverse_mat. destruct (is_invertible _) eqn:E; [exfalso; apply HI; apply (invertible_A n m vs Hn ltac:(lia) HV); exact E|]. reflexivity.
  Qed.

  (** ** From one simplex to another *)
  Theorem transformation_spec n m1 m2 (vs1 vs2 : list (list Q)) : n <> 0%nat -> (n <= m1)%nat -> (n <= m2)%nat -> (m2 = 1%nat \/ (2 <= n)%nat) -> rows_of (S n) m1 vs1 -> affine_independent m1 vs1 -> rows_of (S n) m2 vs2 ->
    exists a b phi, affine_transformation vs1 vs2 = Ok (a, b) /\ create_affine_map a b = Ok phi /\ forall x p1, affine_comb m1 (bary_of x) vs1 p1 -> exists p2, affine_comb m2 (bary_of x) vs2 p2 /\ phi (pt p1) = Ok (pt p2).
  Proof.
    intros Hn H1 H2 Hcase HV1 HI HV2. assert (L01 : length (nth 0 vs1 []) = m1) by (apply (rows_len (S n) m1); [exact HV1|lia]). assert (L02 : length (nth 0 vs2 []) = m2) by (apply (rows_len (S n) m2); [exact HV2|lia]).
    assert (LX : forall x p1, affine_comb m1 (bary_of x) vs1 p1 -> length x = n) by (intros x p1 (Lc & _); rewrite (proj1 HV1) in Lc; unfold bary_of in Lc; cbn [length] in Lc; lia).
    unfold affine_transformation. rewrite (from_unit_eq n m2 vs2) by assumption. destruct (Nat.eq_dec m2 1) as [->|M2].
    - assert (n = 1%nat) by lia. subst n. cbn [Nat.eqb]. destruct (Nat.eq_dec m1 1) as [->|M1].
      + rewrite (to_unit_1d vs1 HV1 HI). cbn [bind affine_composition np_dot np_scale np_add]. do 3 eexists. split; [reflexivity|]. cbn [create_affine_map is_number assert_ bind]. split; [reflexivity|]. intros x p1 HC. destruct (comb_1d vs1 x p1 HV1 HC) as (t & -> & ->). exists [ent vs2 0 0 + t * edge vs2 0 0]. split.
        * apply (edges_comb 1 1); try assumption; try reflexivity. intros j Hj. assert (j = 0%nat) by lia. subst j. cbn [nth seq]. rewrite ksum_cons, ksum_nil. ring.
        * cbn [pt np_scale np_add]. f_equal. f_equal. field. exact (edge_1d vs1 HV1 HI).
      + destruct (to_unit_pair 1 m1 vs1 Hn H1 ltac:(lia) HV1 HI) as (B & EB & [RB HB] & _). rewrite EB. unfold shift. assert (LB : forall v, length (mat_vec B v) = 1%nat) by (intros; rewrite mat_vec_length; apply RB). pose proof (LB (nth 0 vs1 [])) as LB0. destruct (mat_vec B (nth 0 vs1 [])) as [|b0 [|]] eqn:Eb0; try discriminate LB0. pose proof RB as [LBr RBr]. destruct B as [|r [|]]; try discriminate LBr. cbn [vscale map pt bind affine_composition np_dot np_scale np_add]. do 3 eexists. split; [reflexivity|].
        assert (Lr : length r = m1) by (apply RBr; left; reflexivity). cbn [map create_affine_map ncols hd length]. rewrite map_length, Lr. destruct (Nat.eqb_spec m1 1); [lia|]. cbn [Nat.eqb is_number assert_ bind]. split; [reflexivity|].
        intros x p1 HC. pose proof (LX x p1 HC) as Lx. destruct x as [|t [|]]; try discriminate Lx. exists [ent vs2 0 0 + t * edge vs2 0 0]. split; [apply (edges_comb 1 1); try assumption; try reflexivity; intros j Hj; assert (j = 0%nat) by lia; subst j; cbn [nth seq]; rewrite ksum_cons, ksum_nil; ring|].
        pose proof HC as (_ & Lp1 & _). rewrite (pt_vec p1 m1 Lp1) by lia. cbn [np_dot]. unfold ncols. cbn [hd]. rewrite map_length, Lr, Lp1, Nat.eqb_refl. cbn [bind mat_vec map np_first np_add pt]. specialize (HB p1 _ HC 0%nat ltac:(lia)). cbn [mat_vec map nth bary_of] in HB. f_equal. f_equal. change (map (fun x => edge vs2 0 0 * x) r) with (vscale (edge vs2 0 0) r). rewrite dot_vscale_l. rewrite <- HB. ring.
    - destruct (Nat.eqb_spec m2 1); [lia|]. assert (N2 : (2 <= n)%nat) by lia. destruct (to_unit_pair n m1 vs1 Hn H1 ltac:(lia) HV1 HI) as (B & EB & [RB HB] & _). rewrite EB. unfold shift. assert (LB : forall v, length (mat_vec B v) = n) by (intros; rewrite mat_vec_length; apply RB). set (b1 := vscale (- (1)) (mat_vec B (nth 0 vs1 []))). assert (Lb1 : length b1 = n) by (apply vscale_len, LB). rewrite (pt_vec b1 n Lb1 N2).
      pose proof (A_rows m2 n vs2) as AR. set (A := A_of m2 n vs2) in *. cbn [bind affine_composition np_dot]. rewrite (ncols_rows m2 n A AR) by lia. rewrite (proj1 RB), Lb1, Nat.eqb_refl. cbn [bind]. assert (LA : forall v, length (mat_vec A v) = m2) by (intros; rewrite mat_vec_length; apply AR). rewrite np_add_vec by (rewrite LA; symmetry; exact L02). cbn [bind].
      do 3 eexists. split; [reflexivity|]. pose proof (mat_mul_rows m2 n m1 A B AR RB Hn) as MR. assert (Lc : length (vadd (mat_vec A b1) (nth 0 vs2 [])) = m2) by (apply vadd_len; [apply LA|exact L02]). cbn [create_affine_map]. rewrite (ncols_rows m2 m1 _ MR) by lia. rewrite (proj1 MR). destruct (Nat.eqb_spec m1 1); [lia|]. destruct (Nat.eqb_spec m2 1); [lia|]. cbn [np_len bind]. rewrite Lc, Nat.eqb_refl. cbn [assert_ bind]. split; [reflexivity|].
      intros x p1 HC. pose proof HC as (_ & Lp1 & _). pose proof (LX x p1 HC) as Lx. rewrite (pt_vec p1 m1 Lp1) by lia. cbn [np_dot]. rewrite (ncols_rows m2 m1 _ MR) by lia. rewrite Lp1, Nat.eqb_refl. cbn [bind]. assert (Lm : length (mat_vec (mat_mul A B) p1) = m2) by (rewrite mat_vec_length; apply MR). rewrite np_add_vec by congruence. set (y := vadd (mat_vec (mat_mul A B) p1) _). assert (Ly : length y = m2) by (apply vadd_len; assumption). exists y. rewrite (pt_vec y m2 Ly) by lia. split; [|reflexivity].
      apply (edges_comb n m2); try assumption. intros j Hj. unfold y. rewrite !nth_vadd by (rewrite ?LA; congruence). rewrite (mat_vec_sum m2 m1), (mat_vec_sum m2 n) by assumption.
      rewrite (ksum_ext (fun k => ent (mat_mul A B) j k * nth k p1 0) (fun k => ksum (seq 0 n) (fun i => ent A j i * (ent B i k * nth k p1 0)))) by (intros k Hk; apply in_seq in Hk; rewrite (ent_mat_mul m2 n m1) by (try assumption; lia); rewrite <- ksum_scale_r; apply ksum_ext; intros; ring).
      rewrite ksum_swap. rewrite (ksum_ext (fun b => ksum (seq 0 m1) (fun a => ent A j b * (ent B b a * nth a p1 0))) (fun i => ent A j i * nth i (mat_vec B p1) 0)) by (intros i Hi; apply in_seq in Hi; rewrite ksum_scale_l; rewrite (mat_vec_sum n m1) by (try assumption; lia); reflexivity).
      rewrite (ksum_ext (fun i => nth i x 0 * edge vs2 i j) (fun i => ent A j i * nth i (mat_vec B p1) 0 + ent A j i * nth i b1 0)).
      + rewrite ksum_plus. unfold ent at 3. ring.
      + intros i Hi. apply in_seq in Hi. unfold b1. rewrite nth_vscale. unfold A. rewrite A_ent by (try assumption; lia). specialize (HB p1 _ HC i ltac:(lia)). cbn [bary_of nth] in HB. rewrite <- HB. ring.
  Qed.
  (** segments in a space of higher dimension: broadcasting turns the translation
      into a square matrix *)
  Lemma bcast_rows_ok f k w (A : list (list Q)) v : rows_of k w A -> (w = 1%nat \/ w = length v) -> exists r, bcast_rows f A v = Ok r /\ rows_of k (length v) r.
  Proof.
    intros [L H] Hw. revert k L H. induction A as [|u A IH]; intros k L H; cbn in L; subst k; [exists []; split; [reflexivity|split; [reflexivity|intros r []]]|].
    destruct (IH (length A) eq_refl (fun r Hr => H r (or_intror Hr))) as (r & E & Lr & Hr). cbn [bcast_rows]. rewrite E. assert (Lu : length u = w) by (apply H; left; reflexivity).
    assert (B : exists z, bcast f u v = Ok z /\ length z = length v).
    { unfold bcast. destruct (Nat.eqb_spec (length u) (length v)) as [Euv|N]; [eexists; split; [reflexivity|rewrite map_length, combine_length; lia]|]. destruct (Nat.eqb_spec (length u) 1); [|lia]. eexists. split; [reflexivity|apply map_length]. }
    destruct B as (z & -> & Lz). cbn [bind]. exists (z :: r). split; [reflexivity|]. split; [cbn [length]; lia|]. intros q [<-|Hq]; [exact Lz|apply Hr; exact Hq].
  Qed.
  Lemma scale_rows (c : Q) k w A : rows_of k w A -> rows_of k w (map (map (fun x => c * x)) A).
  Proof. intros [L H]. split; [rewrite map_length; exact L|]. intros r Hr. apply in_map_iff in Hr as (u & <- & Hu). rewrite map_length. apply H. exact Hu. Qed.
  Theorem transformation_segments m1 m2 (vs1 vs2 : list (list Q)) : (1 <= m1)%nat -> (2 <= m2)%nat -> rows_of 2 m1 vs1 -> affine_independent m1 vs1 -> rows_of 2 m2 vs2 ->
    exists a b phi, affine_transformation vs1 vs2 = Ok (a, Mat b) /\ rows_of m2 m2 b /\ create_affine_map a (Mat b) = Ok phi /\ forall p, length p = m1 -> exists r, phi (pt p) = Ok (Mat r) /\ rows_of m2 m2 r.
  Proof.
    intros H1 H2 HV1 HI HV2. assert (L02 : length (nth 0 vs2 []) = m2) by (apply (rows_len 2 m2); [exact HV2|lia]). unfold affine_transformation. rewrite (from_unit_eq 1 m2 vs2) by (try assumption; try discriminate; lia). destruct (Nat.eqb_spec m2 1); [lia|]. pose proof (A_rows m2 1 vs2) as AR. set (A := A_of m2 1 vs2) in *.
    assert (AD : forall s : Q, exists b, np_add (Mat (map (map (fun x => s * x)) A)) (Vec (nth 0 vs2 [])) = Ok (Mat b) /\ rows_of m2 m2 b).
    { intros s. cbn [np_add]. destruct (bcast_rows_ok kadd m2 1 (map (map (fun x => s * x)) A) (nth 0 vs2 []) (scale_rows s _ _ _ AR) (or_introl eq_refl)) as (b & -> & Hb). cbn [bind]. exists b. split; [reflexivity|]. rewrite L02 in Hb. exact Hb. }
    destruct (Nat.eq_dec m1 1) as [->|M1].
    - rewrite (to_unit_1d vs1 HV1 HI). set (s1 := 1 / edge vs1 0 0). set (s2 := s1 * (- (1) * ent vs1 0 0)). destruct (AD s2) as (b & Eb & Rb). cbn [bind affine_composition np_dot np_scale]. rewrite Eb. cbn [bind]. exists (Mat (map (map (fun x => s1 * x)) A)), b. pose proof (scale_rows s1 _ _ _ AR) as SR.
      cbn [create_affine_map]. rewrite (ncols_rows m2 1 _ SR) by lia. rewrite (proj1 SR). cbn [Nat.eqb]. destruct (Nat.eqb_spec m2 1); [lia|]. cbn [np_len bind]. rewrite (proj1 Rb), Nat.eqb_refl. cbn [assert_ bind]. eexists. split; [reflexivity|]. split; [exact Rb|]. split; [reflexivity|].
      intros p Lp. destruct p as [|t [|]]; try discriminate Lp. cbn [pt np_add]. set (u := map (fun x => x * t) _). assert (Lu : length u = m2) by (unfold u; rewrite (concat_col m2 _ SR), !map_length, seq_length; reflexivity).
      destruct (bcast_rows_ok (fun x y => y + x) m2 m2 b u Rb (or_intror (eq_sym Lu))) as (r & -> & Hr). cbn [bind]. exists r. split; [reflexivity|]. rewrite Lu in Hr. exact Hr.
    - destruct (to_unit_pair 1 m1 vs1 ltac:(discriminate) ltac:(lia) ltac:(lia) HV1 HI) as (B & EB & [RB HB] & _). rewrite EB. unfold shift. assert (LB : forall v, length (mat_vec B v) = 1%nat) by (intros; rewrite mat_vec_length; apply RB). pose proof (LB (nth 0 vs1 [])) as LB0. destruct (mat_vec B (nth 0 vs1 [])) as [|b0 [|]]; try discriminate LB0. cbn [vscale map pt]. destruct (AD (- (1) * b0)) as (b & Eb & Rb).
      cbn [bind affine_composition np_dot np_scale]. rewrite (ncols_rows m2 1 A AR) by lia. rewrite (proj1 RB). cbn [Nat.eqb bind]. rewrite Eb. cbn [bind]. pose proof (mat_mul_rows m2 1 m1 A B AR RB ltac:(discriminate)) as MR. exists (Mat (mat_mul A B)), b.
      cbn [create_affine_map]. rewrite (ncols_rows m2 m1 _ MR) by lia. rewrite (proj1 MR). destruct (Nat.eqb_spec m1 1); [lia|]. destruct (Nat.eqb_spec m2 1); [lia|]. cbn [np_len bind]. rewrite (proj1 Rb), Nat.eqb_refl. cbn [assert_ bind]. eexists. split; [reflexivity|]. split; [exact Rb|]. split; [reflexivity|].
      intros p Lp. rewrite (pt_vec p m1 Lp) by lia. cbn [np_dot]. rewrite (ncols_rows m2 m1 _ MR) by lia. rewrite Lp, Nat.eqb_refl. cbn [bind np_add]. assert (Lm : length (mat_vec (mat_mul A B) p) = m2) by (rewrite mat_vec_length; apply MR).
      destruct (bcast_rows_ok (fun x y => y + x) m2 m2 b (mat_vec (mat_mul A B) p) Rb (or_intror (eq_sym Lm))) as (r & -> & Hr). cbn [bind]. exists r. split; [reflexivity|]. rewrite Lm in Hr. exact Hr.
  Qed.
End Ordered.
