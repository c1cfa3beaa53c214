(** Facts about the comparison of polynomials. *)
From Coq Require Import Reals Lra Lia.
From Verif Require PermFacts HomogInt PolySimplexMul.
From Verif Require Import Base MultiIndex MultiIndexFacts Fld FldInst Linalg VecFacts LinSolve SimplexGeo SimplexFacts AffineFacts Poly PolyFacts PolyEval PolyObj PolyCalls SubstFacts KdTree RVec Angle Sampling SamplingFacts PolyEqual ZeroCount.
Local Open Scope R_scope.

(** The values that count as equal *)
Definition close (rel_tol abs_tol a b : R) : Prop := Rabs (a - b) <= Rmax (rel_tol * Rmax (Rabs a) (Rabs b)) abs_tol.
Lemma rleb_spec a b : rleb a b = true <-> a <= b. Proof. unfold rleb. destruct (Rle_dec a b); split; congruence. Qed.
Lemma isclose_ok rel abs a b : 0 <= rel -> 0 <= abs -> exists c, isclose rel abs a b = Ok c /\ (c = true <-> close rel abs a b).
Proof.
  intros Hr Ha. unfold isclose, rltb, reqb. destruct (Rlt_dec rel 0) as [|_]; [lra|]. destruct (Rlt_dec abs 0) as [|_]; [lra|]. cbn [orb]. unfold close.
  destruct (Req_EM_T a b) as [->|Hne].
  - exists true. split; [reflexivity|]. split; [|reflexivity]. intros _. rewrite Rminus_eq_0, Rabs_R0. apply Rle_trans with abs; [exact Ha|apply Rmax_r].
  - eexists. split; [reflexivity|]. rewrite !Bool.orb_true_iff, !rleb_spec. rewrite (Rabs_minus_sym b a), !Rabs_mult, (Rabs_pos_eq rel) by exact Hr. split.
    + intros [[H|H]|H].
      * eapply Rle_trans; [exact H|]. eapply Rle_trans; [|apply Rmax_l]. apply Rmult_le_compat_l; [exact Hr|apply Rmax_r].
      * eapply Rle_trans; [exact H|]. eapply Rle_trans; [|apply Rmax_l]. apply Rmult_le_compat_l; [exact Hr|apply Rmax_l].
      * eapply Rle_trans; [exact H|apply Rmax_r].
    + intros H. apply Rmax_Rle in H. destruct H as [H|H]; [|right; exact H]. left. unfold Rmax in H. destruct (Rle_dec (Rabs a) (Rabs b)); [left|right]; exact H.
Qed.
Lemma isclose_negative rel abs a b : rel < 0 \/ abs < 0 -> isclose rel abs a b = Err ValueError.
Proof. intros H. unfold isclose, rltb. destruct (Rlt_dec rel 0); [reflexivity|]. destruct (Rlt_dec abs 0); [reflexivity|]. lra. Qed.
Lemma close_zero a b : close 0 0 a b <-> a = b.
Proof.
  unfold close. rewrite Rmult_0_l, Rmax_left by lra. split; [|intros ->; rewrite Rminus_eq_0, Rabs_R0; lra]. intros H. pose proof (Rabs_pos (a - b)) as P. destruct (Req_EM_T (a - b) 0) as [E|E]; [lra|]. pose proof (Rabs_pos_lt _ E). lra.
Qed.
Lemma close_sym rel abs a b : close rel abs a b <-> close rel abs b a.
Proof. unfold close. rewrite (Rabs_minus_sym a b), (Rmax_comm (Rabs a)). reflexivity. Qed.
Lemma close_refl rel abs a : 0 <= abs -> close rel abs a a.
Proof. intros H. unfold close. rewrite Rminus_eq_0, Rabs_R0. apply Rle_trans with abs; [exact H|apply Rmax_r]. Qed.
Lemma close_large rel abs a b : 2 <= rel -> close rel abs a b.
Proof.
  intros H. unfold close. eapply Rle_trans; [|apply Rmax_l]. pose proof (Rmax_l (Rabs a) (Rabs b)) as A. pose proof (Rmax_r (Rabs a) (Rabs b)) as B. pose proof (Rabs_pos a) as PA. apply Rle_trans with (Rabs a + Rabs b).
  - replace (a - b) with (a + - b) by ring. eapply Rle_trans; [apply Rabs_triang|]. rewrite Rabs_Ropp. lra.
  - apply Rle_trans with (2 * Rmax (Rabs a) (Rabs b)); [lra|]. apply Rmult_le_compat_r; lra.
Qed.

(** ** Values *)
Definition value_of (v : vec) : value := match v with [x] => Num x | _ => Arr v end.
Lemma components_ok rel abs p : 0 <= rel -> 0 <= abs -> forall q k, (k + length p <= length q)%nat -> exists c, components_close rel abs p (Arr q) k = Ok c /\ (c = true <-> forall j, (j < length p)%nat -> close rel abs (nth j p 0) (nth (k + j) q 0)).
Proof.
  intros Hr Ha. induction p as [|a p IH]; intros q k L; cbn [components_close].
  - exists true. split; [reflexivity|]. split; [intros _ j Hj; cbn in Hj; lia|reflexivity].
  - cbn [length] in L. unfold item. rewrite (PermFacts.get_ok q k 0) by lia. cbn [bind]. destruct (isclose_ok rel abs a (nth k q 0) Hr Ha) as (c & -> & Hc). cbn [bind]. destruct c.
    + destruct (IH q (S k)) as (c & -> & Hc'); [lia|]. exists c. split; [reflexivity|]. rewrite Hc'. split.
      * intros H [|j] Hj; cbn [nth length] in *; [rewrite Nat.add_0_r; apply Hc; reflexivity|]. replace (k + S j)%nat with (S k + j)%nat by lia. apply H. lia.
      * intros H j Hj. specialize (H (S j)). cbn [nth length] in H. replace (S k + j)%nat with (k + S j)%nat by lia. apply H. lia.
    + exists false. split; [reflexivity|]. split; [discriminate|]. intros H. specialize (H 0%nat). cbn [nth length] in H. rewrite Nat.add_0_r in H. apply Hc. apply H. lia.
Qed.
Lemma values_ok rel abs (u v : vec) : 0 <= rel -> 0 <= abs -> length u = length v -> exists c, values_close rel abs (value_of u) (value_of v) = Ok c /\ (c = true <-> forall j, (j < length u)%nat -> close rel abs (nth j u 0) (nth j v 0)).
Proof.
  intros Hr Ha L. destruct (Nat.eq_dec (length u) 1) as [E|E].
  - destruct u as [|a [|]]; try discriminate E. destruct v as [|b [|]]; try discriminate L. cbn [value_of values_close as_float bind]. destruct (isclose_ok rel abs a b Hr Ha) as (c & -> & Hc). exists c. split; [reflexivity|]. rewrite Hc. split.
    + intros H j Hj. cbn in Hj. replace j with 0%nat by lia. exact H.
    + intros H. apply (H 0%nat). cbn. lia.
  - assert (Eu : value_of u = Arr u) by (destruct u as [|? [|]]; [reflexivity|cbn in E; lia|reflexivity]). assert (Ev : value_of v = Arr v) by (destruct v as [|? [|]]; [reflexivity|cbn in *; lia|reflexivity]). rewrite Eu, Ev. cbn [values_close].
    destruct (components_ok rel abs u Hr Ha v 0) as (c & -> & Hc); [lia|]. exists c. split; [reflexivity|]. exact Hc.
Qed.

(** ** Points *)
(** [p] has the value [f x] with [n] components in the point [x] *)
Definition gives (p : callable) (n : nat) (f : vec -> vec) (x : vec) : Prop := p (pt (F := RF) x) = Ok (value_of (f x)) /\ length (f x) = n.
Lemma equal_at_ok rel abs p1 p2 n f g xs : 0 <= rel -> 0 <= abs -> (forall x, In x xs -> gives p1 n f x /\ gives p2 n g x) ->
  exists c, equal_at rel abs p1 p2 (map (pt (F := RF)) xs) = Ok c /\ (c = true <-> forall x, In x xs -> forall j, (j < n)%nat -> close rel abs (nth j (f x) 0) (nth j (g x) 0)).
Proof.
  intros Hr Ha. induction xs as [|x xs IH]; intros H; cbn [map equal_at].
  - exists true. split; [reflexivity|]. split; [intros _ x []|reflexivity].
  - destruct (H x (or_introl eq_refl)) as [[E1 L1] [E2 L2]]. rewrite E1, E2. cbn [bind]. destruct (values_ok rel abs (f x) (g x) Hr Ha (eq_trans L1 (eq_sym L2))) as (c & -> & Hc). cbn [bind]. rewrite L1 in Hc. destruct c.
    + destruct IH as (c & -> & Hc'); [intros; apply H; right; assumption|]. exists c. split; [reflexivity|]. rewrite Hc'. split.
      * intros G y [<-|Hy]; [apply Hc; reflexivity|apply G, Hy].
      * intros G y Hy. apply G. right. exact Hy.
    + exists false. split; [reflexivity|]. split; [discriminate|]. intros G. apply Hc. apply G. left. reflexivity.
Qed.
Lemma pt_vec (x : list RF) : length x <> 1%nat -> pt x = Vec x. Proof. destruct x as [|a [|]]; try reflexivity. intros H. destruct H. reflexivity. Qed.
Lemma reshape_concat m cs : groups m cs -> reshape (length cs) m (concat cs) = cs.
Proof.
  induction cs as [|c cs IH]; intros G; [reflexivity|]. cbn [length concat reshape]. assert (L : length c = m) by (apply G; left; reflexivity). destruct L. rewrite firstn_app, Nat.sub_diag, firstn_all, skipn_app, Nat.sub_diag, skipn_all. cbn [firstn skipn app]. rewrite app_nil_r. f_equal. apply IH. intros x Hx. apply G. right. exact Hx.
Qed.
Lemma concat_groups m cs : groups m cs -> length (concat cs) = (length cs * m)%nat.
Proof. induction cs as [|c cs IH]; intros G; [reflexivity|]. cbn [concat length]. rewrite app_length, (G c (or_introl eq_refl)), IH by (intros x Hx; apply G; right; exact Hx). lia. Qed.
Lemma random_points_ok m cs d : groups m cs -> random_points (length cs) m (concat cs ++ d) = Ok (map (pt (F := RF)) cs, d).
Proof.
  intros G. unfold random_points. rewrite rand_array_ok by apply concat_groups, G. cbn [bind fst snd]. f_equal. f_equal. destruct (Nat.eqb_spec m 1) as [->|Hm].
  - rewrite (groups_one cs G) at 2. rewrite map_map. reflexivity.
  - rewrite reshape_concat by exact G. apply map_ext_in. intros x Hx. symmetry. apply pt_vec. intros E. apply Hm. exact (eq_trans (eq_sym (G x Hx)) E).
Qed.
Lemma random_points_short m dim d : (length d < dim * m)%nat -> random_points dim m d = Err OutOfFuel.
Proof. intros H. unfold random_points. rewrite rand_array_err by exact H. reflexivity. Qed.
(** the random numbers in groups of [m] *)
Lemma split_groups m dim d : (dim * m <= length d)%nat -> exists cs rest, d = concat cs ++ rest /\ groups m cs /\ length cs = dim.
Proof.
  revert d. induction dim as [|dim IH]; intros d H; [exists [], d; split; [reflexivity|]; split; [intros x []|reflexivity]|].
  cbn [Nat.mul] in H. destruct (IH (skipn m d)) as (cs & rest & E & G & L); [rewrite skipn_length; lia|]. exists (firstn m d :: cs), rest. split; [|split].
  - cbn [concat]. rewrite <- app_assoc, <- E, firstn_skipn. reflexivity.
  - intros x [<-|Hx]; [apply firstn_length_le; lia|apply G, Hx].
  - cbn [length]. lia.
Qed.

(** Polynomial objects as callables *)
Definition coords (x : arr RF) : vec := match x with Sc t => [t] | Vec v => v | Mat _ => [] end.
Definition callable_of (p : poly RF) : callable := fun x => let* v := call p (coords x) in Ok (value_of v).
Lemma coords_pt (x : vec) : coords (pt (F := RF) x) = x. Proof. destruct x as [|a [|]]; reflexivity. Qed.

Lemma callable_gives b m n r (p : poly RF) x : poly_of b m n r p -> length x = m -> gives (callable_of p) n (pv p) x.
Proof.
  intros P Lx. destruct (call_pv b m n r p x P Lx) as [E L]. split; [|exact L]. unfold callable_of. rewrite coords_pt. rewrite E. reflexivity.
Qed.

(** ** Points of a simplex *)
Definition spoint (m : nat) (vs : list vec) (x : vec) : vec := HomogInt.simplex_point (Q := RO) m vs x.
Lemma simplex_points n m vs (ys : list vec) : n <> 0%nat -> (n <= m)%nat -> rows_of (F := RF) (S n) m vs -> groups n ys ->
  exists phi, affine_map_from_unit (F := RF) vs = Ok phi /\
    (if (n =? 1)%nat then mapM (fun x : vec => let* x0 := get x 0 in phi (Sc (x0 : RF))) ys else mapM (fun x : vec => phi (Vec (x : list RF))) ys) = Ok (map (fun x => pt (F := RF) (spoint m vs x)) ys).
Proof.
  intros Hn Hnm HV G. destruct (from_unit_map (F := RF) n m vs Hn Hnm HV) as (phi & E & HP). exists phi. split; [exact E|].
  assert (P : forall x : vec, length x = n -> phi (pt (F := RF) x) = Ok (pt (F := RF) (spoint m vs x))).
  { intros x Lx. destruct (HP x Lx) as (y & -> & Hy). do 2 f_equal. apply (PolySimplexMul.affine_comb_unique (Q := RO) m (bary_of (F := RF) x) vs); [exact Hy|]. apply (HomogInt.simplex_point_comb (Q := RO)). destruct HV as [LV _]. refine (eq_trans _ (eq_sym LV)). f_equal. exact Lx. }
  destruct (Nat.eqb_spec n 1) as [->|H1]; apply mapM_ok; intros x Hx; pose proof (G x Hx) as Lx.
  - destruct x as [|a [|]]; try discriminate Lx. cbn [get bind]. exact (P [a] eq_refl).
  - rewrite <- pt_vec by (intros E1; apply H1; exact (eq_trans (eq_sym Lx) E1)). apply P, Lx.
Qed.
