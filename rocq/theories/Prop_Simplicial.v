(** Property theorems for simplicial complexes and triangle meshes (C21-C25,
    C51, C52).  [sperm b l m] (Orient.v) says that [m] is reached from [l] by
    an odd ([b = true]) or even number of transpositions of neighbours. *)
From Verif Require Import Base MultiIndex MultiIndexFacts MultiCapFacts Permutations PermFacts CycleFacts PermEnum PermMisc.
From Verif Require Import Simplicial Orient ChainFacts SimplicialFacts SimplicialFacts2 TriMeshFacts.

(** ** C21 *)
Theorem C21_boundary_map_terms : forall s, 2 <= length s ->
  exists fs cs, simplex_boundary_map s = Ok (fs, Coeffs cs) /\ length fs = length s /\ length cs = length s /\
  forall a x b, s = a ++ x :: b -> nth (length a) fs [] = a ++ b /\ nth (length a) cs 0%Z = ((-1) ^ Z.of_nat (length a))%Z.
Proof.
  intros s HL. destruct s as [|x [|y s]]; cbn [length] in HL; try lia. set (s' := x :: y :: s) in *.
  eexists. eexists. split; [reflexivity|]. split; [rewrite map_length, seq_length; reflexivity|]. split; [rewrite map_length, seq_length; reflexivity|].
  intros a z b E. assert (Ha : length a < length s') by (rewrite E, app_length; cbn; lia).
  rewrite (nth_map_in _ _ _ 0) by (rewrite seq_length; exact Ha). rewrite (nth_map_in _ _ _ 0) by (rewrite seq_length; exact Ha).
  rewrite nth_seq0 by exact Ha. split; [|reflexivity]. unfold delete_at. rewrite E, firstn_app, Nat.sub_diag, firstn_all. cbn [firstn].
  rewrite app_nil_r. f_equal. rewrite skipn_app. rewrite skipn_all2 by lia. replace (S (length a) - length a) with 1 by lia. reflexivity.
Qed.
Print Assumptions C21_boundary_map_terms.
Example C21_ex1 : simplex_boundary_map [4; 2; 7] = Ok ([[2; 7]; [4; 7]; [4; 2]], Coeffs [1; -1; 1]%Z).
Proof. reflexivity. Qed.

(** Linear extension: the value of a cochain [phi] on the chain returned by
    simplex_boundary_map. *)
Definition chain_value (phi : list nat -> Z) (r : result (list (list nat) * chain_coeffs)) : Z :=
  match r with
  | Ok (fs, Coeffs cs) => zsum (map (fun fc => (snd fc * phi (fst fc))%Z) (combine fs cs))
  | _ => 0%Z
  end.
Lemma chain_value_bd phi s : 2 <= length s -> chain_value phi (simplex_boundary_map s) = bd phi s.
Proof.
  intros HL. rewrite bd_sum. destruct s as [|x [|y s]]; cbn [length] in HL; try lia. set (s' := x :: y :: s) in *.
  change (simplex_boundary_map s') with (Ok (map (fun i => delete_at i s') (seq 0 (length s')), Coeffs (map (fun i => (-1) ^ Z.of_nat i)%Z (seq 0 (length s'))))).
  cbn [chain_value]. rewrite combine_map, map_map. reflexivity.
Qed.
Theorem C21_boundary_of_boundary : forall s phi, s <> [] ->
  chain_value (fun f => chain_value phi (simplex_boundary_map f)) (simplex_boundary_map s) = 0%Z.
Proof.
  intros s phi Hs. destruct s as [|x [|y [|z s]]]; [congruence|reflexivity|reflexivity|]. set (s' := x :: y :: z :: s).
  assert (HL : 3 <= length s') by (unfold s'; cbn [length]; lia).
  rewrite chain_value_bd by lia. rewrite (bd_ext_in _ _ (bd phi)); [apply bd_bd|].
  intros i Hi. apply chain_value_bd. rewrite delete_at_length by exact Hi. lia.
Qed.
Print Assumptions C21_boundary_of_boundary.

(** A complex: entry [k] lists simplices with [k + 1] distinct vertices, all of
    whose faces occur, in any vertex order, in entry [k - 1]. *)
Definition closed_complex (simplices : list (list (list nat))) : Prop :=
  forall k, k < length simplices -> forall s, In s (nth k simplices []) ->
    length s = k + 1 /\ NoDup s /\
    (1 <= k -> forall a x b, s = a ++ x :: b -> exists f, In f (nth (k - 1) simplices []) /\ Permutation f (a ++ b)).
Lemma delete_at_split {A} (s : list A) i d : i < length s ->
  exists a b, s = a ++ nth i s d :: b /\ length a = i /\ delete_at i s = a ++ b.
Proof.
  intros H. exists (firstn i s), (skipn (S i) s). split; [|split; [rewrite firstn_length; lia|reflexivity]].
  rewrite <- (firstn_skipn i s) at 1. f_equal. revert i H; induction s as [|x s IH]; intros [|i] H; cbn [length] in H; try lia; [reflexivity|].
  cbn [skipn nth]. apply IH. lia.
Qed.
Lemma closed_has_faces simplices k : closed_complex simplices -> 1 <= k -> k < length simplices ->
  Forall (@NoDup nat) (nth (k - 1) simplices []) /\ Forall (has_faces (nth (k - 1) simplices [])) (nth k simplices []).
Proof.
  intros HC H1 Hk. split; apply Forall_forall; intros s Hs.
  - apply (HC (k - 1) ltac:(lia) s Hs).
  - destruct (HC k Hk s Hs) as (HL & HN & HF). split; [lia|]. intros i Hi.
    destruct (delete_at_split s i 0 Hi) as (a & b & E & _ & ->). exact (HF H1 _ _ _ E).
Qed.
Theorem C21_matrix_product : forall simplices k, closed_complex simplices -> 2 <= k -> k < length simplices ->
  exists m1 m2, boundary_map_matrix simplices (k - 1) = Ok m1 /\ boundary_map_matrix simplices k = Ok m2 /\
  forall i j, zsum (map (fun l => (matrix_entry m1 i l * matrix_entry m2 l j)%Z)
                        (seq 0 (length (nth (k - 1) simplices [])))) = 0%Z.
Proof.
  intros simplices k HC H2 Hk.
  destruct (closed_has_faces simplices k HC ltac:(lia) Hk) as [HN2 HF2].
  destruct (closed_has_faces simplices (k - 1) HC ltac:(lia) ltac:(lia)) as [HN1 HF1].
  destruct (boundary_map_matrix_ok simplices k ltac:(lia) Hk HN2 HF2) as (m2 & E2 & M2).
  destruct (boundary_map_matrix_ok simplices (k - 1) ltac:(lia) ltac:(lia) HN1 HF1) as (m1 & E1 & M1).
  exists m1, m2. split; [exact E1|]. split; [exact E2|]. intros i j.
  destruct (Nat.ltb_spec j (length (nth k simplices []))) as [Hj|Hj].
  - rewrite <- (matrix_product_zero (nth (k - 1 - 1) simplices []) (nth (k - 1) simplices []) (nth j (nth k simplices []) []) i HN1 HN2).
    + apply zsum_ext. intros l Hl. apply in_seq in Hl. rewrite M1, M2.
      destruct (Nat.ltb_spec l (length (nth (k - 1) simplices []))); [|lia].
      destruct (Nat.ltb_spec j (length (nth k simplices []))); [reflexivity|lia].
    + rewrite Forall_forall in HF2. apply HF2, nth_In, Hj.
  - rewrite (zsum_ext _ (fun _ => 0%Z)).
    + induction (seq 0 (length (nth (k - 1) simplices []))) as [|x l IH]; [reflexivity|]. unfold zsum in *. cbn [map fold_right]. rewrite IH. reflexivity.
    + intros l _. rewrite M2. destruct (Nat.ltb_spec j (length (nth k simplices []))); [lia|ring].
Qed.
Print Assumptions C21_matrix_product.

(** The entries of the matrix: incidence numbers. *)
Theorem C21_matrix_entries : forall simplices k i j, closed_complex simplices -> 1 <= k -> k < length simplices ->
  (forall a b, a < length (nth (k - 1) simplices []) -> b < length (nth (k - 1) simplices []) ->
     Permutation (nth a (nth (k - 1) simplices []) []) (nth b (nth (k - 1) simplices []) []) -> a = b) ->
  i < length (nth (k - 1) simplices []) -> j < length (nth k simplices []) ->
  exists m, boundary_map_matrix simplices k = Ok m /\
  (forall a x c odd, nth j (nth k simplices []) [] = a ++ x :: c ->
     sperm odd (nth i (nth (k - 1) simplices []) []) (a ++ c) ->
     matrix_entry m i j = ((-1) ^ Z.of_nat (length a) * (if odd then -1 else 1))%Z) /\
  (~ incl (nth i (nth (k - 1) simplices []) []) (nth j (nth k simplices []) []) -> matrix_entry m i j = 0%Z).
Proof.
  intros simplices k i j HC H1 Hk Hinj Hi Hj.
  destruct (closed_has_faces simplices k HC H1 Hk) as [HN HF].
  destruct (boundary_map_matrix_ok simplices k H1 Hk HN HF) as (m & E & M). exists m. split; [exact E|].
  set (faces' := nth (k - 1) simplices []) in *. set (ss := nth k simplices []) in *.
  assert (Hsj : In (nth j ss []) ss) by (apply nth_In, Hj). destruct (HC k Hk _ Hsj) as (HLs & HNs & _).
  set (s := nth j ss []) in *. rewrite M. destruct (Nat.ltb_spec j (length ss)) as [_|]; [|lia]. fold s. rewrite bd_sum.
  assert (Hidx : forall t, simplex_to_index faces' t = Some i <-> Permutation (nth i faces' []) t).
  { intros t. split.
    - intros Ht. apply simplex_to_index_some in Ht. tauto.
    - intros Ht. destruct (simplex_to_index_ex faces' t (nth i faces' [])) as [i' Ei']; [apply nth_In, Hi|exact Ht|].
      rewrite Ei'. f_equal. destruct (simplex_to_index_some _ _ _ Ei') as [Hi' HP']. apply Hinj; [exact Hi'|exact Hi|].
      rewrite HP'. symmetry. exact Ht. }
  assert (Hzero : forall t, ~ Permutation (nth i faces' []) t -> psi faces' i t = 0%Z).
  { intros t Ht. destruct (simplex_to_index faces' t) as [i'|] eqn:Et; [|apply psi_none; exact Et].
    apply (psi_neq _ _ _ i' Et). intros ->. apply Ht, Hidx, Et. }
  split.
  - intros a x c odd Es Hs. assert (Ha : length a < length s) by (rewrite Es, app_length; cbn; lia).
    assert (Hd : delete_at (length a) s = a ++ c).
    { unfold delete_at. rewrite Es, firstn_app, Nat.sub_diag, firstn_all. cbn [firstn]. rewrite app_nil_r. f_equal.
      rewrite skipn_app, skipn_all2 by lia. replace (S (length a) - length a) with 1 by lia. reflexivity. }
    rewrite (zsum_pick (length a)); [|exact Ha|].
    + rewrite Hd. f_equal. apply (psi_sperm faces' HN); [apply Hidx; eapply sperm_perm; exact Hs|exact Hs].
    + intros l Hl. destruct (Nat.lt_ge_cases l (length s)) as [Hls|Hls].
      * rewrite Hzero; [ring|]. intros HP. apply Hl. apply (delete_at_inj s); [exact HNs|exact Hls|exact Ha|].
        rewrite Hd, <- HP. eapply sperm_perm. exact Hs.
      * unfold delete_at. rewrite firstn_all2, skipn_all2, app_nil_r by lia. rewrite Hzero; [ring|]. intros HP.
        apply sperm_perm, Permutation_length in Hs. apply Permutation_length in HP. rewrite HP, Es, !app_length in Hs. cbn in Hs. lia.
  - intros Hn. rewrite (zsum_ext _ (fun _ => 0%Z)).
    + induction (seq 0 (length s)) as [|x l IH]; [reflexivity|]. unfold zsum in *. cbn [map fold_right]. rewrite IH. reflexivity.
    + intros l _. rewrite Hzero; [ring|]. intros HP. apply Hn. intros x Hx. eapply delete_at_in, Permutation_in; [exact HP|exact Hx].
Qed.
Print Assumptions C21_matrix_entries.
Definition ex_complex : list (list (list nat)) :=
  [[[0]; [1]; [2]; [3]]; [[1; 0]; [1; 2]; [2; 0]; [3; 1]; [2; 3]]; [[2; 0; 1]; [1; 2; 3]]].
Example C21_ex2 : closed_complex ex_complex /\
  (let* m := boundary_map_matrix ex_complex 2 in Ok (map (fun i => map (matrix_entry m i) [0; 1]) [0;1;2;3;4]))
    = Ok [[-1; 0]; [1; 1]; [1; 0]; [0; 1]; [0; 1]]%Z.
Proof.
  split; [|vm_compute; reflexivity].
  assert (NDb : forall l, (fix nd l := match l with [] => true | x :: t => negb (existsb (Nat.eqb x) t) && nd t end) l = true -> NoDup l).
  { induction l as [|x l IH]; intros H; [constructor|]. apply andb_true_iff in H as [H1 H2]. constructor; [|apply IH, H2].
    intros Hx. apply existsb_eqb_in in Hx. rewrite Hx in H1. discriminate. }
  intros k Hk s Hs.
  assert (Hdel : forall a (x : nat) b, s = a ++ x :: b -> a ++ b = delete_at (length a) s /\ length a < length s).
  { intros a x b ->. split; [|rewrite app_length; cbn; lia]. unfold delete_at.
    rewrite firstn_app, Nat.sub_diag, firstn_all. cbn [firstn]. rewrite app_nil_r. f_equal.
    rewrite skipn_app, skipn_all2 by lia. replace (S (length a) - length a) with 1 by lia. reflexivity. }
  assert (HQ : length s = k + 1 /\ NoDup s /\ (1 <= k -> forall i, i < length s -> existsb (fun f => leqb (sorted f) (sorted (delete_at i s))) (nth (k - 1) ex_complex []) = true)).
  { cbn in Hk. destruct k as [|[|[|k]]]; try lia; cbn in Hs;
    repeat (destruct Hs as [<-|Hs]; [split; [reflexivity|]; split; [apply NDb; reflexivity|]; intros Hk1 i Hi; cbn in Hi;
       try lia; destruct i as [|[|[|i]]]; try lia; reflexivity|]); destruct Hs. }
  destruct HQ as (Q1 & Q2 & Q3). split; [exact Q1|]. split; [exact Q2|]. intros Hk1 a x b E.
  destruct (Hdel a x b E) as [-> Ha]. specialize (Q3 Hk1 _ Ha). apply existsb_exists in Q3 as (f & Hf & Ef).
  exists f. split; [exact Hf|]. apply sorted_eq, leqb_eq, Ef.
Qed.

(** ** C22 *)
Theorem C22_boundary_orientation : forall s, 3 <= length s ->
  exists fs, simplex_boundary s = Ok fs /\ length fs = length s /\
  forall a x b, s = a ++ x :: b -> sperm (Nat.odd (length a)) (a ++ b) (nth (length a) fs []).
Proof.
  intros s HL. exists (faces s). split; [apply simplex_boundary_ok; intros ->; cbn in HL; lia|].
  split; [apply faces_length; lia|]. intros a x b E.
  assert (Ha : length a < length s) by (rewrite E, app_length; cbn; lia).
  rewrite faces_nth by lia. destruct (boundary_face_ok s (length a) Ha) as [_ H].
  replace (2 <? length s) with true in H by (symmetry; apply Nat.ltb_lt; lia). rewrite andb_true_r in H.
  replace (a ++ b) with (delete_at (length a) s); [exact H|].
  unfold delete_at. rewrite E, firstn_app, Nat.sub_diag, firstn_all. cbn [firstn]. rewrite app_nil_r. f_equal.
  rewrite skipn_app, skipn_all2 by lia. replace (S (length a) - length a) with 1 by lia. reflexivity.
Qed.
Print Assumptions C22_boundary_orientation.
(** The sign of a rearrangement of distinct vertices is unique, so the theorem
    does fix the orientation of every face. *)
Theorem C22_sign_unique : forall (l m : list nat) b c, NoDup l -> sperm b l m -> sperm c l m -> b = c.
Proof.
  intros l m b c HN Hb Hc. apply sperm_inversions in Hb; [|exact HN]. apply sperm_inversions in Hc; [|exact HN].
  rewrite Hb in Hc. destruct b, c, (Nat.odd (inversions l)); cbn in Hc; congruence.
Qed.
Print Assumptions C22_sign_unique.
(** Vertices and edges. *)
Theorem C22_low_dimension : forall x y, simplex_boundary [x] = Ok [] /\ simplex_boundary [x; y] = Ok [[y]; [x]].
Proof. intros x y. split; reflexivity. Qed.
Print Assumptions C22_low_dimension.
Example C22_ex : simplex_boundary [5; 3; 8; 6] = Ok [[3; 8; 6]; [5; 6; 8]; [5; 3; 6]; [5; 8; 3]].
Proof. reflexivity. Qed.

(** ** C23 *)
(** number of simplices of which [t] is a codimension one face *)
Definition incidence (S : list (list nat)) (t : list nat) : nat :=
  length (filter (fun s => (length t + 1 =? length s) && forallb (fun v => existsb (Nat.eqb v) s) t) S).
Theorem C23_boundary_odd_incidence : forall d S, 2 <= d -> Forall (fun s => length s = d /\ NoDup s) S ->
  exists r, boundary S = Ok r /\ NoDup (map sorted r) /\
    (forall f, In f r -> exists s fs, In s S /\ simplex_boundary s = Ok fs /\ In f fs) /\
    (forall t, NoDup t -> t <> [] -> ((exists f, In f r /\ Permutation f t) <-> Nat.odd (incidence S t) = true)).
Proof.
  intros d S Hd HS.
  assert (HL : Forall (fun s => length s = d) S) by (eapply Forall_impl; [|exact HS]; cbn; tauto).
  assert (HN : Forall (@NoDup nat) S) by (eapply Forall_impl; [|exact HS]; cbn; tauto).
  exists (boundary_list S). split; [apply (boundary_ok d); [lia|exact HL]|]. split; [apply boundary_list_nodup|]. split.
  - intros f Hf. apply in_boundary_list in Hf as [Hf _]. apply in_flat_map in Hf as (s & Hs & Hf).
    exists s, (faces s). split; [exact Hs|]. split; [|exact Hf]. apply simplex_boundary_ok. intros ->.
    rewrite Forall_forall in HL. specialize (HL [] Hs). cbn in HL. lia.
  - intros t Ht Hne. unfold incidence. change (fun s => (length t + 1 =? length s) && forallb (fun v => existsb (Nat.eqb v) s) t) with (is_face t).
    rewrite <- count_all_faces by assumption. rewrite <- boundary_list_mem. split; intros (f & Hf & Hp); exists f; (split; [exact Hf|]); apply sorted_eq; exact Hp.
Qed.
Print Assumptions C23_boundary_odd_incidence.

(** The order of the result and the representative of every face: the faces of
    all simplices in turn, keeping from every class with odd count the last one. *)
Theorem C23_boundary_order : forall d S, 1 <= d -> Forall (fun s => length s = d) S ->
  exists F r, mapM simplex_boundary S = Ok F /\ boundary S = Ok r /\
  r = map (fun i => nth i (concat F) [])
        (filter (fun i => let k := sorted (nth i (concat F) []) in
                   Nat.odd (length (filter (fun f => leqb (sorted f) k) (concat F)))
                   && negb (existsb (fun f => leqb (sorted f) k) (skipn (i + 1) (concat F))))
                (seq 0 (length (concat F)))).
Proof.
  intros d S Hd HS. exists (map faces S), (boundary_list S). split.
  - apply mapM_map. intros s Hs. apply simplex_boundary_ok. intros ->. rewrite Forall_forall in HS. specialize (HS [] Hs). cbn in HS. lia.
  - split; [apply (boundary_ok d); assumption|]. unfold boundary_list, all_faces. rewrite flat_map_concat_map. f_equal.
    apply filter_ext. intros i. unfold kept, count. rewrite Nat.add_1_r. f_equal.
    set (k := sorted (nth i (concat (map faces S)) [])). clearbody k. induction (skipn (Datatypes.S i) (concat (map faces S))) as [|f l IH]; [reflexivity|].
    cbn [filter existsb]. destruct (leqb (sorted f) k); [reflexivity|exact IH].
Qed.
Print Assumptions C23_boundary_order.

Theorem C23_boundary_of_boundary : forall d S, 2 <= d -> Forall (fun s => length s = d /\ NoDup s) S ->
  (let* r := boundary S in boundary r) = Ok [].
Proof.
  intros d S Hd HS.
  assert (HL : Forall (fun s => length s = d) S) by (eapply Forall_impl; [|exact HS]; cbn; tauto).
  assert (HN : Forall (@NoDup nat) S) by (eapply Forall_impl; [|exact HS]; cbn; tauto).
  rewrite (boundary_ok d) by (lia || exact HL). cbn [bind].
  rewrite (boundary_ok (d - 1)); [f_equal; apply boundary_boundary, HN|lia|].
  pose proof (all_faces_length d S HL) as HA. rewrite Forall_forall in *. intros f Hf. apply HA. apply in_boundary_list in Hf. tauto.
Qed.
Print Assumptions C23_boundary_of_boundary.

(** A face shared by exactly two simplices is not in the result, one belonging
    to exactly one simplex is. *)
Theorem C23_manifold : forall d S t, 2 <= d -> Forall (fun s => length s = d /\ NoDup s) S -> NoDup t -> t <> [] ->
  incidence S t <= 2 ->
  exists r, boundary S = Ok r /\ ((exists f, In f r /\ Permutation f t) <-> incidence S t = 1).
Proof.
  intros d S t Hd HS Ht Hne H2. destruct (C23_boundary_odd_incidence d S Hd HS) as (r & E & _ & _ & H). exists r. split; [exact E|].
  rewrite (H t Ht Hne). destruct (incidence S t) as [|[|[|n]]]; try lia; cbn; split; congruence.
Qed.
Print Assumptions C23_manifold.
(** Simplices of different dimension: the result array cannot be formed. *)
Example C23_mixed_dimensions : boundary [[0; 1; 2]; [2; 3]] = Err ValueError.
Proof. reflexivity. Qed.
Example C23_ex : boundary [[0; 1; 2; 3]; [1; 4; 2; 3]] = Ok [[0; 3; 2]; [0; 1; 3]; [0; 2; 1]; [4; 2; 3]; [1; 4; 3]; [1; 2; 4]]
  /\ boundary [[0; 1]; [1; 2]; [0; 2]] = Ok [].
Proof. split; reflexivity. Qed.

(** ** C24 *)
Theorem C24_sub_simplices : forall s include_self, NoDup s -> s <> [] ->
  exists U, simplex_sub_simplices s include_self = Ok U /\ NoDup U /\
    forall t, In t U <-> StronglySorted lt t /\ t <> [] /\ incl t s /\ (include_self = false -> length t < length s).
Proof. intros s inc Hs Hne. apply (sub_simplices_spec (S (length s)) s inc Hs Hne). lia. Qed.
Print Assumptions C24_sub_simplices.
Theorem C24_count : forall s U, NoDup s -> s <> [] -> simplex_sub_simplices s true = Ok U -> length U = 2 ^ length s - 1.
Proof. exact sub_simplices_count. Qed.
Print Assumptions C24_count.
Theorem C24_fixed_dimension : forall s k, NoDup s -> (0 <= k < Z.of_nat (length s))%Z ->
  exists U, simplex_sub_simplices_fixed_dimension s k = Ok U /\ NoDup U /\
    (forall t, In t U <-> StronglySorted lt t /\ incl t s /\ Z.of_nat (length t) = (k + 1)%Z) /\
    length U = binomial (length s) (Z.to_nat k + 1).
Proof. exact fixed_dimension_spec. Qed.
Print Assumptions C24_fixed_dimension.
Theorem C24_fixed_dimension_range : forall s k, (k < 0 \/ Z.of_nat (length s) <= k)%Z ->
  simplex_sub_simplices_fixed_dimension s k = Err AssertionError.
Proof.
  intros s k H. unfold simplex_sub_simplices_fixed_dimension, simplex_dimension.
  destruct (Z.leb_spec 0 k); [|reflexivity]. destruct (Z.leb_spec k (Z.of_nat (length s) - 1)); [lia|reflexivity].
Qed.
Print Assumptions C24_fixed_dimension_range.
(** The opposite sub simplex holds the other vertices in their original order. *)
Theorem C24_opposite : forall s u, NoDup s -> NoDup u -> incl u s ->
  Permutation s (u ++ opposite_sub_simplex s u) /\
  (forall a b c x y, s = a ++ x :: b ++ y :: c -> ~ In x u -> ~ In y u ->
     exists a' b' c', opposite_sub_simplex s u = a' ++ x :: b' ++ y :: c') /\
  Permutation (opposite_sub_simplex s (opposite_sub_simplex s u)) u.
Proof.
  intros s u Hs Hu Hi. split; [apply opposite_perm; assumption|]. split.
  - intros a b c x y -> Hx Hy. unfold opposite_sub_simplex.
    assert (Hk : forall z, ~ In z u -> negb (existsb (Nat.eqb z) u) = true).
    { intros z Hz. apply negb_true_iff. destruct (existsb (Nat.eqb z) u) eqn:E; [apply existsb_eqb_in in E; contradiction|reflexivity]. }
    rewrite filter_app. cbn [filter]. rewrite (Hk x Hx), filter_app. cbn [filter]. rewrite (Hk y Hy). eauto.
  - apply NoDup_Permutation; [apply NoDup_filter, Hs|exact Hu|]. intros x. rewrite !opposite_in. split.
    + intros [H1 H2]. destruct (in_dec Nat.eq_dec x u); [assumption|]. exfalso. apply H2. auto.
    + intros Hx. split; [apply Hi, Hx|]. tauto.
Qed.
Print Assumptions C24_opposite.
Example C24_ex : simplex_sub_simplices [4; 1; 3] true = Ok [[1; 3; 4]; [1; 3]; [3]; [1]; [3; 4]; [4]; [1; 4]] /\
  simplex_sub_simplices_fixed_dimension [4; 1; 3] 1 = Ok [[1; 3]; [3; 4]; [1; 4]] /\ opposite_sub_simplex [4; 1; 3] [3] = [4; 1].
Proof. repeat split; reflexivity. Qed.

(** ** C25 *)
Theorem C25_swap_simplex : forall s, 2 <= length s ->
  exists t, swap_simplex_orientation s = Ok t /\ sperm true s t /\ swap_simplex_orientation t = Ok s.
Proof. intros s H. exact (swap_last_sperm s H). Qed.
Print Assumptions C25_swap_simplex.
Theorem C25_swap_mesh : forall S, Forall (fun s => 2 <= length s) S ->
  exists T, swap_orientation S = Ok T /\ length T = length S /\
    (forall i, i < length S -> sperm true (nth i S []) (nth i T [])) /\ swap_orientation T = Ok S.
Proof.
  unfold swap_orientation. induction S as [|s S IH]; intros H.
  - exists []. split; [reflexivity|]. split; [reflexivity|]. split; [intros i Hi; cbn in Hi; lia|reflexivity].
  - apply Forall_cons_iff in H as [Hs HS]. destruct (IH HS) as (T & E & HL & HT & ET). destruct (swap_last_sperm s Hs) as (t & Et & Ht & Ett).
    exists (t :: T). cbn [mapM]. unfold swap_simplex_orientation at 1 3. rewrite Et, Ett. cbn [bind]. rewrite E, ET. cbn [bind].
    split; [reflexivity|]. split; [cbn; lia|]. split; [|reflexivity]. intros [|i] Hi; cbn [nth]; [exact Ht|]. apply HT. cbn in Hi. lia.
Qed.
Print Assumptions C25_swap_mesh.
Theorem C25_swap_vertex_fails : forall s, length s < 2 -> swap_simplex_orientation s = Err IndexError.
Proof. exact swap_last_short. Qed.
Print Assumptions C25_swap_vertex_fails.

(** The boundary of a swapped simplex is the boundary with every face swapped
    (as oriented faces). *)
Theorem C25_swap_boundary : forall s t i a x b, 3 <= length s -> NoDup s -> swap_simplex_orientation s = Ok t ->
  s = a ++ x :: b -> length a = i ->
  exists fs ft f g j, simplex_boundary s = Ok fs /\ simplex_boundary t = Ok ft /\
    nth_error fs i = Some f /\ nth_error ft j = Some g /\ sperm true f g.
Proof.
  intros s t i a x b HL HN Ht Es Hi.
  destruct (swap_last_sperm s ltac:(lia)) as (t' & Et' & Hst & _). unfold swap_simplex_orientation in Ht. rewrite Ht in Et'. injection Et' as <-.
  assert (HNt : NoDup t) by (eapply Permutation_NoDup; [eapply sperm_perm; exact Hst|exact HN]).
  assert (HLt : length t = length s) by (symmetry; apply Permutation_length; eapply sperm_perm; exact Hst).
  assert (His : i < length s) by (rewrite Es, app_length; cbn; lia).
  (* the position of the same vertex in t *)
  destruct (In_nth t x 0) as (j & Hj & Ej).
  { eapply Permutation_in; [eapply sperm_perm; exact Hst|]. rewrite Es. apply in_elt. }
  assert (Ex : nth i s 0 = x) by (rewrite Es, <- Hi, app_nth2, Nat.sub_diag by lia; reflexivity).
  exists (faces s), (faces t), (face_of s i), (face_of t j), j.
  split; [apply simplex_boundary_ok; intros ->; cbn in HL; lia|]. split; [apply simplex_boundary_ok; intros ->; cbn in HLt; lia|].
  split; [rewrite <- faces_nth by lia; apply nth_error_nth'; rewrite faces_length by lia; exact His|].
  split; [rewrite <- faces_nth by lia; apply nth_error_nth'; rewrite faces_length by lia; exact Hj|].
  destruct (boundary_face_ok s i His) as [_ Hf]. destruct (boundary_face_ok t j Hj) as [_ Hg].
  replace (2 <? length s) with true in Hf by (symmetry; apply Nat.ltb_lt; lia).
  replace (2 <? length t) with true in Hg by (symmetry; apply Nat.ltb_lt; lia). rewrite andb_true_r in Hf, Hg.
  (* moving a vertex to the front has the parity of its position *)
  assert (Hmove : forall l k, k < length l -> sperm (Nat.odd k) l (nth k l 0 :: delete_at k l)).
  { induction l as [|y l IH]; intros [|k] Hk; cbn [length] in Hk; try lia; [apply (sperm_refl (y :: l))|].
    cbn [nth]. rewrite delete_at_S. rewrite Nat.odd_succ, <- Nat.negb_odd, <- xorb_true_r.
    eapply sp_trans; [apply sp_skip, IH; lia|apply sp_swap]. }
  assert (HP : Permutation (delete_at i s) (delete_at j t)).
  { apply (Permutation_cons_inv (a := x)). rewrite <- Ex at 1. rewrite <- (delete_at_perm s i 0 His). rewrite <- Ej. rewrite <- (delete_at_perm t j 0 Hj). eapply sperm_perm; exact Hst. }
  destruct (perm_sperm _ _ HP) as [c Hc].
  assert (Ec : xorb (xorb (Nat.odd i) c) (Nat.odd j) = true).
  { apply (C22_sign_unique s t _ _ HN); [|exact Hst]. eapply sp_trans; [eapply sp_trans; [apply (Hmove s i His)|]|].
    - rewrite Ex. apply sp_skip. exact Hc.
    - rewrite <- Ej. apply sperm_sym, Hmove, Hj. }
  replace true with (xorb (Nat.odd i) (xorb c (Nat.odd j))) by (rewrite <- xorb_assoc; exact Ec).
  eapply sp_trans; [apply sperm_sym; exact Hf|]. eapply sp_trans; [exact Hc|exact Hg].
Qed.
Print Assumptions C25_swap_boundary.
Example C25_ex : swap_orientation [[0; 1; 2]; [4; 2; 1]] = Ok [[0; 2; 1]; [4; 1; 2]].
Proof. reflexivity. Qed.

(** Triangle meshes.  [dedge t u v]: the triangle runs through the edge from u
    to v. *)
Theorem C25_has_same_orientation : forall t1 t2 a b, is_tri t1 -> is_tri t2 -> a <> b ->
  In a t1 -> In b t1 -> In a t2 -> In b t2 ->
  exists r, has_same_orientation [a; b] t1 t2 = Ok r /\ has_same_orientation [b; a] t1 t2 = Ok r /\
    has_same_orientation [a; b] t2 t1 = Ok r /\
    (r = true <-> (dedge t1 a b /\ dedge t2 b a) \/ (dedge t1 b a /\ dedge t2 a b)).
Proof.
  intros t1 t2 a b H1 H2 Hn Ha1 Hb1 Ha2 Hb2.
  destruct (has_same_orientation_spec t1 t2 a b H1 H2 Hn Ha1 Hb1 Ha2 Hb2) as (r & E & Hr).
  destruct (has_same_orientation_spec t1 t2 b a H1 H2 (not_eq_sym Hn) Hb1 Ha1 Hb2 Ha2) as (r' & E' & Hr').
  destruct (has_same_orientation_spec t2 t1 a b H2 H1 Hn Ha2 Hb2 Ha1 Hb1) as (r'' & E'' & Hr'').
  exists r. split; [exact E|]. split; [rewrite E'; f_equal; apply eq_true_iff_eq; tauto|].
  split; [rewrite E''; f_equal; apply eq_true_iff_eq; tauto|exact Hr].
Qed.
Print Assumptions C25_has_same_orientation.

(** A consistently oriented mesh uses every directed edge at most once. *)
Theorem C25_consistent_orientation : forall T, Forall is_tri T -> edge_manifold T ->
  (has_consistent_orientation T = true <->
   forall i k u v, i < length T -> k < length T -> i <> k -> dedge (nth i T []) u v -> ~ dedge (nth k T []) u v).
Proof. exact consistent_iff. Qed.
Print Assumptions C25_consistent_orientation.
Theorem C25_swap_keeps_consistency : forall T, Forall is_tri T ->
  has_consistent_orientation (tri_swap_all T) = has_consistent_orientation T /\
  length (tri_swap_all T) = length T /\
  forall i u v, i < length T -> (dedge (nth i (tri_swap_all T) []) u v <-> dedge (nth i T []) v u).
Proof.
  intros T HT. split; [apply consistent_swap_all, HT|]. rewrite tri_swap_all_map. split; [apply map_length|].
  intros i u v Hi. rewrite (nth_map_in tri_swap T i [] []) by exact Hi. apply tri_swap_dedge, tri_nth; assumption.
Qed.
Print Assumptions C25_swap_keeps_consistency.
(** Swapping a single triangle that has a neighbour destroys the consistency. *)
Theorem C25_swap_one : forall T i e k, Forall is_tri T -> edge_manifold T -> i < length T -> e < 3 ->
  has_consistent_orientation T = true -> neighbour T i e = Some k ->
  has_consistent_orientation (tri_swap_orientation T i) = false.
Proof.
  intros T i e k HT HM Hi He HC Hk.
  destruct (has_consistent_orientation (tri_swap_orientation T i)) eqn:E; [exfalso|reflexivity].
  assert (Hnth : forall j, j < length T -> nth j (tri_swap_orientation T i) [] = if j =? i then tri_swap (nth i T []) else nth j T []).
  { intros j Hj. unfold tri_swap_orientation. generalize (tri_swap (nth i T [])) as w. clear - Hi Hj. revert i j Hi Hj.
    induction T as [|t T IH]; intros [|i] [|j] Hi Hj w; cbn [length] in *; try lia; cbn [upd nth Nat.eqb]; auto. apply IH; lia. }
  assert (HL : length (tri_swap_orientation T i) = length T) by (unfold tri_swap_orientation; apply length_upd').
  assert (HT' : Forall is_tri (tri_swap_orientation T i)).
  { apply Forall_forall. intros t Ht. apply (In_nth _ _ []) in Ht as (j & Hj & <-). rewrite HL in Hj. rewrite Hnth by exact Hj.
    destruct (j =? i); [apply tri_swap_tri|]; apply tri_nth; assumption. }
  assert (Hin : forall j x, j < length T -> (In x (nth j (tri_swap_orientation T i) []) <-> In x (nth j T []))).
  { intros j x Hj. rewrite Hnth by exact Hj. destruct (Nat.eqb_spec j i) as [->|]; [apply tri_swap_in, tri_nth; assumption|tauto]. }
  assert (HM' : edge_manifold (tri_swap_orientation T i)).
  { intros a b c u v. rewrite HL. intros Ha Hb Hc. rewrite !Hin by assumption. apply HM; assumption. }
  rewrite (consistent_iff _ HT' HM') in E. rewrite (consistent_spec T HT) in HC.
  assert (Hd := edge_dedge (nth i T []) e He). rewrite neighbour_first_nb in Hk.
  set (u := tv (nth i T []) ((e + 1) mod 3)) in *. set (v := tv (nth i T []) ((e + 2) mod 3)) in *.
  specialize (HC i u v k Hi Hd Hk). apply first_nb_some in Hk as (Hkl & (Hn & _) & _).
  apply (E i k v u); [lia|lia|auto| |].
  - rewrite Hnth by exact Hi. rewrite Nat.eqb_refl. apply tri_swap_dedge; [apply tri_nth; assumption|exact Hd].
  - rewrite Hnth by exact Hkl. apply Nat.eqb_neq in Hn. rewrite Hn. exact HC.
Qed.
Print Assumptions C25_swap_one.
Example C25_ex2 : let T := [[0; 1; 2]; [2; 1; 3]; [4; 3; 1]] in
  has_consistent_orientation T = true /\ has_consistent_orientation (tri_swap_all T) = true /\
  has_consistent_orientation (tri_swap_orientation T 1) = false /\ has_same_orientation [1; 2] [0; 1; 2] [2; 1; 3] = Ok true.
Proof. repeat split; reflexivity. Qed.
Example C25_ex2_hyp : let T := [[0; 1; 2]; [2; 1; 3]; [4; 3; 1]] in Forall is_tri T /\ edge_manifold T.
Proof.
  cbv zeta. split.
  - repeat constructor; do 3 eexists; repeat split; discriminate.
  - intros i j k u v Hi Hj Hk H1 H2 H3 Huv. cbn [length] in *.
    assert (Hc : forall n, n < 3 -> n = 0 \/ n = 1 \/ n = 2) by lia.
    destruct (Hc i Hi) as [->|[->| ->]], (Hc j Hj) as [->|[->| ->]], (Hc k Hk) as [->|[->| ->]]; try congruence; cbn; lia.
Qed.

(** ** C51: simplex_boundary_orientation *)
Theorem C51_boundary_orientation : forall s t a x b odd, NoDup s -> NoDup t -> 3 <= length s ->
  s = a ++ x :: b -> sperm odd (a ++ b) t ->
  simplex_boundary_orientation s t = Ok ((if odd then -1 else 1) * (-1) ^ Z.of_nat (length a))%Z.
Proof.
  intros s t a x b odd Hs Ht HL Es Hp. assert (Ha : length a < length s) by (rewrite Es, app_length; cbn; lia).
  assert (Hd : delete_at (length a) s = a ++ b).
  { unfold delete_at. rewrite Es, firstn_app, Nat.sub_diag, firstn_all. cbn [firstn]. rewrite app_nil_r. f_equal.
    rewrite skipn_app, skipn_all2 by lia. replace (S (length a) - length a) with 1 by lia. reflexivity. }
  rewrite (boundary_orientation_face s t (length a) odd Hs Ht ltac:(lia) Ha) by (rewrite Hd; exact Hp).
  f_equal. rewrite sgn_xorb. replace (2 <? length s) with true by (symmetry; apply Nat.ltb_lt; lia).
  rewrite andb_true_r, pow_m1. reflexivity.
Qed.
Print Assumptions C51_boundary_orientation.
Theorem C51_not_a_face : forall s t, NoDup s -> NoDup t -> 2 <= length s ->
  (length t + 1 <> length s -> simplex_boundary_orientation s t = Err AssertionError) /\
  (length t + 1 = length s -> ~ incl t s -> simplex_boundary_orientation s t = Err ValueError) /\
  (length t + 1 = length s -> incl t s -> exists z, simplex_boundary_orientation s t = Ok z).
Proof.
  intros s t Hs Ht HL. split; [|split].
  - intros H. unfold simplex_boundary_orientation. apply Nat.eqb_neq in H. rewrite H. reflexivity.
  - intros HLt Hi. unfold simplex_boundary_orientation. rewrite HLt, Nat.eqb_refl. cbn [assert_ bind].
    rewrite (proj2 (find_boundary_face s t Hs Ht HL HLt) Hi). reflexivity.
  - intros HLt Hi. destruct (face_exists s t Hs Ht Hi HLt) as (i & Hil & HP). symmetry in HP.
    destruct (perm_sperm _ _ HP) as [c Hc]. eexists. exact (boundary_orientation_face s t i c Hs Ht HL Hil Hc).
Qed.
Print Assumptions C51_not_a_face.
(** The endpoints of an edge both get the sign +1, although the boundary of an
    edge is its end minus its start. *)
Theorem C51_edge_endpoints_refuted : exists s t a x b, NoDup s /\ NoDup t /\ length s = 2 /\ s = a ++ x :: b /\ t = a ++ b /\
  simplex_boundary_orientation s t <> Ok ((-1) ^ Z.of_nat (length a))%Z.
Proof.
  exists [0; 1], [0], [0], 1, []. split; [repeat constructor; cbn; lia|]. split; [repeat constructor; auto|].
  split; [reflexivity|]. split; [reflexivity|]. split; [reflexivity|]. cbv. discriminate.
Qed.
Print Assumptions C51_edge_endpoints_refuted.
Example C51_ex : simplex_boundary_orientation [5; 3; 8; 6] [8; 5; 6] = Ok 1%Z /\ simplex_boundary_orientation [5; 3; 8; 6] [5; 8; 6] = Ok (-1)%Z.
Proof. split; reflexivity. Qed.

(** ** C52: adjacency in triangle meshes *)
Theorem C52_neighbour : forall T i e, Forall is_tri T -> i < length T -> e < 3 ->
  let u := nth ((e + 1) mod 3) (nth i T []) 0 in let v := nth ((e + 2) mod 3) (nth i T []) 0 in
  (forall k, neighbour T i e = Some k <->
     k < length T /\ k <> i /\ In u (nth k T []) /\ In v (nth k T []) /\
     forall j, j < k -> j <> i -> ~ (In u (nth j T []) /\ In v (nth j T []))) /\
  (neighbour T i e = None <-> forall k, k < length T -> k <> i -> ~ (In u (nth k T []) /\ In v (nth k T []))).
Proof.
  intros T i e HT Hi He u v. split.
  - intros k. rewrite neighbour_first_nb. change (tv (nth i T []) ((e + 1) mod 3)) with u. change (tv (nth i T []) ((e + 2) mod 3)) with v.
    rewrite first_nb_some. split.
    + intros (H1 & (H2 & H3 & H4) & H5). repeat (split; [assumption|]). intros j Hj Hji [Hu Hv]. apply (H5 j Hj). auto.
    + intros (H1 & H2 & H3 & H4 & H5). split; [exact H1|]. split; [auto|]. intros j Hj (Ha & Hb & Hc). apply (H5 j Hj Ha). auto.
  - rewrite neighbour_first_nb. change (tv (nth i T []) ((e + 1) mod 3)) with u. change (tv (nth i T []) ((e + 2) mod 3)) with v.
    unfold first_nb. rewrite find_seq_none. split.
    + intros H k Hk Hn [Hu Hv]. specialize (H k Hk). enough (nb_test T i u v k = true) by congruence. apply nb_test_spec. auto.
    + intros H k Hk. destruct (nb_test T i u v k) eqn:E; [|reflexivity]. apply nb_test_spec in E as (H1 & H2 & H3). exfalso. apply (H k Hk H1). auto.
Qed.
Print Assumptions C52_neighbour.
(** In a mesh where every edge belongs to at most two triangles the relation is
    symmetric. *)
Theorem C52_neighbour_symmetric : forall T i e k, Forall is_tri T -> edge_manifold T -> i < length T -> e < 3 ->
  neighbour T i e = Some k -> exists e', e' < 3 /\ neighbour T k e' = Some i.
Proof.
  intros T i e k HT HM Hi He Hk. rewrite neighbour_first_nb in Hk.
  assert (Hd := edge_dedge (nth i T []) e He).
  set (u := tv (nth i T []) ((e + 1) mod 3)) in *. set (v := tv (nth i T []) ((e + 2) mod 3)) in *.
  apply first_nb_some in Hk as (Hkl & (Hn & Hu & Hv) & _).
  destruct (dedge_in _ _ _ (tri_nth T i HT Hi) Hd) as (Hui & Hvi & Huv).
  assert (Hx : forall a b, {a = u /\ b = v} + {a = v /\ b = u} -> dedge (nth k T []) a b -> exists e', e' < 3 /\ neighbour T k e' = Some i).
  { intros a b Hab (e' & He' & Ea & Eb). exists e'. split; [exact He'|]. rewrite neighbour_first_nb, Ea, Eb.
    apply first_nb_some. split; [exact Hi|]. split.
    - split; [auto|]. destruct Hab as [[-> ->]|[-> ->]]; auto.
    - intros j Hj (H1 & H2 & H3). assert (Hul : In u (nth j T []) /\ In v (nth j T [])) by (destruct Hab as [[-> ->]|[-> ->]]; auto).
      apply (HM i j k u v); try tauto; lia. }
  destruct (dedge_total _ u v (tri_nth T k HT Hkl) Hu Hv Huv) as [H|H];
    [exact (Hx u v (left (conj eq_refl eq_refl)) H)|exact (Hx v u (right (conj eq_refl eq_refl)) H)].
Qed.
Print Assumptions C52_neighbour_symmetric.
Theorem C52_opposite_vertex : forall T i e, Forall is_tri T -> i < length T -> e < 3 ->
  (forall w, opposite_vertex T i e = Some w -> exists k, neighbour T i e = Some k /\ In w (nth k T []) /\ ~ In w (nth i T [])) /\
  (opposite_vertex T i e = None -> forall k, neighbour T i e = Some k -> incl (nth k T []) (nth i T [])).
Proof.
  intros T i e HT Hi He. unfold opposite_vertex. destruct (neighbour T i e) as [k|] eqn:E; [|split; [discriminate|intros _ k [=]]].
  assert (Hk : k < length T) by (rewrite neighbour_first_nb in E; apply first_nb_some in E; tauto).
  destruct (tri_nth T i HT Hi) as (a & b & c & Ei & _). destruct (tri_nth T k HT Hk) as (a' & b' & c' & Ek & _).
  rewrite Ei, Ek. cbn [find]. 
  assert (Hm : forall x, existsb (fun m => tv [a; b; c] m =? x) [0; 1; 2] = true <-> In x [a; b; c]).
  { intros x. cbn. rewrite !orb_true_iff, !Nat.eqb_eq. intuition. }
  assert (Hm' : forall x, existsb (fun m => tv [a; b; c] m =? x) [0; 1; 2] = false <-> ~ In x [a; b; c]).
  { intros x. rewrite <- Hm. destruct (existsb (fun m => tv [a; b; c] m =? x) [0; 1; 2]); split; congruence. }
  change (tv [a'; b'; c'] 0) with a'. change (tv [a'; b'; c'] 1) with b'. change (tv [a'; b'; c'] 2) with c'.
  split.
  - intros w Hw. exists k. split; [reflexivity|]. rewrite Ek.
    destruct (existsb (fun m => tv [a; b; c] m =? a') [0; 1; 2]) eqn:E1; cbn [negb option_map] in Hw.
    2:{ injection Hw as <-. apply Hm' in E1. split; [cbn; auto|exact E1]. }
    destruct (existsb (fun m => tv [a; b; c] m =? b') [0; 1; 2]) eqn:E2; cbn [negb option_map] in Hw.
    2:{ injection Hw as <-. apply Hm' in E2. split; [cbn; auto|exact E2]. }
    destruct (existsb (fun m => tv [a; b; c] m =? c') [0; 1; 2]) eqn:E3; cbn [negb option_map] in Hw; [discriminate|].
    injection Hw as <-. apply Hm' in E3. split; [cbn; auto|exact E3].
  - intros Hw k' [= <-]. rewrite Ek.
    destruct (existsb (fun m => tv [a; b; c] m =? a') [0; 1; 2]) eqn:E1; cbn [negb option_map] in Hw; [|discriminate].
    destruct (existsb (fun m => tv [a; b; c] m =? b') [0; 1; 2]) eqn:E2; cbn [negb option_map] in Hw; [|discriminate].
    destruct (existsb (fun m => tv [a; b; c] m =? c') [0; 1; 2]) eqn:E3; cbn [negb option_map] in Hw; [|discriminate].
    apply Hm in E1, E2, E3. intros x [<-|[<-|[<-|[]]]]; assumption.
Qed.
Print Assumptions C52_opposite_vertex.
Theorem C52_edge_index : forall t u v, is_tri t -> 
  (forall i, edge_index t (u, v) = Ok i -> i < 3 /\ ((nth ((i + 1) mod 3) t 0 = u /\ nth ((i + 2) mod 3) t 0 = v) \/
                                                    (nth ((i + 1) mod 3) t 0 = v /\ nth ((i + 2) mod 3) t 0 = u))) /\
  ((exists i, edge_index t (u, v) = Ok i) <-> In u t /\ In v t /\ u <> v) /\
  (~ (In u t /\ In v t /\ u <> v) -> edge_index t (u, v) = Err AssertionError).
Proof.
  intros t u v Ht. assert (Ht' := Ht). destruct Ht' as (a & b & c & -> & H1 & H2 & H3).
  unfold edge_index. cbn [find fst snd]. change (tv [a;b;c] ((0+1) mod 3)) with b. change (tv [a;b;c] ((0+2) mod 3)) with c.
  change (tv [a;b;c] ((1+1) mod 3)) with c. change (tv [a;b;c] ((1+2) mod 3)) with a.
  change (tv [a;b;c] ((2+1) mod 3)) with a. change (tv [a;b;c] ((2+2) mod 3)) with b.
  assert (HB : forall p q, ((p =? u) && (q =? v) || (q =? u) && (p =? v)) = true <-> (p = u /\ q = v) \/ (p = v /\ q = u)).
  { intros p q. rewrite orb_true_iff, !andb_true_iff, !Nat.eqb_eq. tauto. }
  destruct ((b =? u) && (c =? v) || (c =? u) && (b =? v)) eqn:E0; [|destruct ((c =? u) && (a =? v) || (a =? u) && (c =? v)) eqn:E1;
    [|destruct ((a =? u) && (b =? v) || (b =? u) && (a =? v)) eqn:E2]].
  - apply HB in E0. split; [intros i [= <-]; cbn; split; [lia|exact E0]|]. split; [|intros H; exfalso; apply H; cbn; destruct E0 as [[-> ->]|[-> ->]]; intuition].
    split; [intros _; cbn; destruct E0 as [[-> ->]|[-> ->]]; intuition|intros _; eexists; reflexivity].
  - apply HB in E1. split; [intros i [= <-]; cbn; split; [lia|exact E1]|]. split; [|intros H; exfalso; apply H; cbn; destruct E1 as [[-> ->]|[-> ->]]; intuition].
    split; [intros _; cbn; destruct E1 as [[-> ->]|[-> ->]]; intuition|intros _; eexists; reflexivity].
  - apply HB in E2. split; [intros i [= <-]; cbn; split; [lia|exact E2]|]. split; [|intros H; exfalso; apply H; cbn; destruct E2 as [[-> ->]|[-> ->]]; intuition].
    split; [intros _; cbn; destruct E2 as [[-> ->]|[-> ->]]; intuition|intros _; eexists; reflexivity].
  - split; [discriminate|]. split; [|reflexivity]. split; [intros [i [=]]|]. intros (Hu & Hv & Hn). exfalso. cbn in Hu, Hv.
    assert (N : forall p q, ((p =? u) && (q =? v) || (q =? u) && (p =? v)) = false -> ~ ((p = u /\ q = v) \/ (p = v /\ q = u))).
    { intros p q E. rewrite <- HB, E. discriminate. }
    apply N in E0, E1, E2. destruct Hu as [->|[->|[->|[]]]], Hv as [->|[->|[->|[]]]]; try congruence; tauto.
Qed.
Print Assumptions C52_edge_index.
Example C52_ex : let T := [[0; 1; 2]; [2; 1; 3]; [4; 3; 1]] in
  neighbour T 0 0 = Some 1 /\ neighbour T 1 2 = Some 0 /\ neighbour T 0 1 = None /\ opposite_vertex T 0 0 = Some 3 /\ edge_index [3; 8; 11] (11, 3) = Ok 1.
Proof. repeat split; reflexivity. Qed.
