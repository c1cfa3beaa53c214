(** Proofs about boundary_map_matrix (model in Simplicial.v). *)
From Verif Require Import Base MultiIndex MultiIndexFacts MultiCapFacts Permutations PermFacts CycleFacts PermEnum PermMisc Simplicial Orient.

Lemma sorted_perm l : Permutation l (sorted l).
Proof. apply sort_perm. Qed.
Lemma leb_total x y : (x <=? y) = true \/ (y <=? x) = true.
Proof. rewrite !Nat.leb_le. lia. Qed.
Lemma leb_trans x y z : (x <=? y) = true -> (y <=? z) = true -> (x <=? z) = true.
Proof. intros H1 H2. apply Nat.leb_le in H1, H2. apply Nat.leb_le. lia. Qed.
Lemma sorted_SS l : StronglySorted le (sorted l).
Proof.
  eapply StronglySorted_impl; [|apply (sort_sorted Nat.leb leb_total leb_trans)].
  intros x y H. apply Nat.leb_le. exact H.
Qed.
Lemma sorted_eq l m : sorted l = sorted m <-> Permutation l m.
Proof.
  split; intros H.
  - rewrite (sorted_perm l), H. symmetry. apply sorted_perm.
  - apply sorted_unique; try apply sorted_SS. rewrite <- !sorted_perm. exact H.
Qed.

(** Dictionary lookup. *)
Lemma simplex_to_index_some faces t i : simplex_to_index faces t = Some i ->
  i < length faces /\ Permutation (nth i faces []) t.
Proof.
  unfold simplex_to_index. intros H. apply (element_index_in leqb leqb_eq) in H as [_ H].
  rewrite Nat.sub_0_r, nth_error_map in H. destruct (nth_error faces i) as [f|] eqn:E; [|discriminate].
  cbn in H. injection H as H. split; [apply nth_error_Some; congruence|].
  rewrite (nth_error_nth _ _ _ E). apply sorted_eq. exact H.
Qed.
Lemma simplex_to_index_ex faces t f : In f faces -> Permutation f t -> exists i, simplex_to_index faces t = Some i.
Proof.
  intros Hf HP. apply (element_index_some leqb leqb_eq). apply sorted_eq in HP. rewrite <- HP.
  apply in_map. exact Hf.
Qed.
Lemma simplex_to_index_perm faces t u : Permutation t u -> simplex_to_index faces t = simplex_to_index faces u.
Proof. intros H. unfold simplex_to_index. apply sorted_eq in H. rewrite H. reflexivity. Qed.

(** Sign of [t] relative to the stored face number [l] (0 when [t] is not a
    rearrangement of it). *)
Definition psi (faces : list (list nat)) (l : nat) (t : list nat) : Z :=
  match simplex_to_index faces t with
  | Some i => if i =? l then
      match (let* p := construct_permutation_general Nat.eqb (nth l faces []) t true in sign p) with
      | Ok z => z | Err _ => 0%Z end
      else 0%Z
  | None => 0%Z
  end.

Section Matrix.
  Variable faces : list (list nat).
  Hypothesis HN : Forall (@NoDup nat) faces.

  Lemma face_nodup l : NoDup (nth l faces []).
  Proof.
    destruct (Nat.lt_ge_cases l (length faces)) as [H|H].
    - rewrite Forall_forall in HN. apply HN, nth_In, H.
    - rewrite nth_overflow by exact H. constructor.
  Qed.

  Lemma psi_sperm l t b : simplex_to_index faces t = Some l -> sperm b (nth l faces []) t -> psi faces l t = sgn b.
  Proof.
    intros E H. unfold psi. rewrite E, Nat.eqb_refl.
    destruct (sign_construct_general b _ t (face_nodup l) H) as (p & -> & Hs). cbn [bind]. rewrite Hs. reflexivity.
  Qed.
  Lemma psi_neq l t i : simplex_to_index faces t = Some i -> i <> l -> psi faces l t = 0%Z.
  Proof. intros E H. unfold psi. rewrite E. apply Nat.eqb_neq in H. rewrite H. reflexivity. Qed.
  Lemma psi_none l t : simplex_to_index faces t = None -> psi faces l t = 0%Z.
  Proof. intros E. unfold psi. rewrite E. reflexivity. Qed.

  Lemma psi_alternating l : alternating (psi faces l).
  Proof.
    intros b t u H. pose proof (sperm_perm _ _ _ H) as HP.
    destruct (simplex_to_index faces t) as [i|] eqn:E.
    - assert (E' := E). rewrite (simplex_to_index_perm _ _ _ HP) in E'.
      destruct (Nat.eq_dec i l) as [->|Hn].
      + destruct (simplex_to_index_some _ _ _ E) as [_ HP'].
        destruct (perm_sperm _ _ HP') as [c Hc].
        rewrite (psi_sperm l t c E Hc), (psi_sperm l u (xorb c b) E') by (econstructor; eauto).
        rewrite sgn_xorb. ring.
      + rewrite (psi_neq _ _ _ E Hn), (psi_neq _ _ _ E' Hn). ring.
    - assert (E' := E). rewrite (simplex_to_index_perm _ _ _ HP) in E'.
      rewrite !psi_none by assumption. ring.
  Qed.

  Definition has_faces (s : list nat) : Prop :=
    2 <= length s /\ forall i, i < length s -> exists f, In f faces /\ Permutation f (delete_at i s).

  Definition fidx (t : list nat) : nat := match simplex_to_index faces t with Some i => i | None => 0 end.

  Lemma face_entry j t a f : In f faces -> Permutation f t ->
    simplex_to_index faces t = Some (fidx t) /\
    matrix_entries_of_face faces j (t, a) = Ok ((psi faces (fidx t) t * a)%Z, fidx t, j).
  Proof.
    intros Hf HP. destruct (simplex_to_index_ex _ _ _ Hf HP) as [i E]. unfold fidx. rewrite E. split; [reflexivity|].
    unfold matrix_entries_of_face. rewrite E. destruct (simplex_to_index_some _ _ _ E) as [Hi HPi].
    rewrite (get_ok _ _ [] Hi). cbn [bind]. destruct (perm_sperm _ _ HPi) as [b Hb].
    rewrite (psi_sperm i t b E Hb).
    destruct (sign_construct_general b _ t (face_nodup i) Hb) as (p & -> & Hs). cbn [bind]. rewrite Hs. reflexivity.
  Qed.

  Definition column (j : nat) (s : list nat) : list (Z * nat * nat) :=
    map (fun i => let t := delete_at i s in ((psi faces (fidx t) t * (-1) ^ Z.of_nat i)%Z, fidx t, j)) (seq 0 (length s)).

  Lemma combine_map {A B C} (f : A -> B) (g : A -> C) l : combine (map f l) (map g l) = map (fun x => (f x, g x)) l.
  Proof. induction l; cbn; [reflexivity|]. f_equal. assumption. Qed.

  Lemma mapM_map_in {A B C} (f : B -> result C) (h : A -> B) (g : A -> C) l :
    (forall x, In x l -> f (h x) = Ok (g x)) -> mapM f (map h l) = Ok (map g l).
  Proof.
    induction l as [|a l IH]; intros H; cbn [mapM map]; [reflexivity|].
    rewrite H by (left; reflexivity). cbn [bind]. rewrite IH by (intros; apply H; right; assumption). reflexivity.
  Qed.
  Lemma matrix_column_ok j s : has_faces s -> matrix_column faces (j, s) = Ok (column j s).
  Proof.
    intros [HL HF]. unfold matrix_column, simplex_boundary_map.
    destruct s as [|x [|y s]]; cbn [length] in HL; try lia. set (s' := x :: y :: s) in *.
    cbn [bind fst snd]. rewrite combine_map. apply mapM_map_in. intros i Hi. apply in_seq in Hi.
    destruct (HF i) as (f & Hf & HP); [lia|]. exact (proj2 (face_entry j _ _ f Hf HP)).
  Qed.

  Lemma column_entry i j s : has_faces s ->
    zsum (map (fun e => fst (fst e)) (filter (fun e => (snd (fst e) =? i) && (snd e =? j)) (column j s))) = bd (psi faces i) s.
  Proof.
    intros [HL HF]. rewrite bd_sum. unfold column.
    assert (HB : forall k, In k (seq 0 (length s)) -> k < length s) by (intros k Hk; apply in_seq in Hk; lia).
    revert HB. generalize (seq 0 (length s)). induction l as [|k l IH]; intros HB; cbn [map filter]; [reflexivity|].
    cbn [fst snd]. rewrite Nat.eqb_refl, andb_true_r. destruct (HF k) as (f & Hf & HP); [apply HB; left; reflexivity|].
    destruct (face_entry j _ 0%Z f Hf HP) as [E _].
    specialize (IH ltac:(intros; apply HB; right; assumption)).
    destruct (Nat.eqb_spec (fidx (delete_at k s)) i) as [Hi|Hi].
    - cbn [map zsum fold_right fst snd]. unfold zsum in IH. rewrite IH, Hi. ring.
    - unfold zsum in *. cbn [fold_right]. rewrite IH, (psi_neq _ _ _ E Hi). ring.
  Qed.
  Lemma column_entry_other i j j' s : j' <> j ->
    filter (fun e => (snd (fst e) =? i) && (snd e =? j)) (column j' s) = [].
  Proof.
    intros H. unfold column. induction (seq 0 (length s)) as [|k l IH]; cbn [map filter]; [reflexivity|]. cbn [fst snd].
    apply Nat.eqb_neq in H. rewrite H, andb_false_r. exact IH.
  Qed.

  Lemma zsum_app l m : zsum (l ++ m) = (zsum l + zsum m)%Z.
  Proof. unfold zsum. induction l as [|x l IH]; cbn [fold_right app]; [reflexivity|]. rewrite IH. ring. Qed.

  Definition columns (ss : list (list nat)) (k : nat) : list (Z * nat * nat) :=
    concat (map (fun js => column (fst js) (snd js)) (combine (seq k (length ss)) ss)).

  Lemma columns_entry i j : forall ss k, Forall has_faces ss -> 
    matrix_entry (columns ss k) i (k + j) = if j <? length ss then bd (psi faces i) (nth j ss []) else 0%Z.
  Proof.
    intros ss. revert j. induction ss as [|s ss IH]; intros j k HF.
    - unfold columns. cbn. reflexivity.
    - apply Forall_cons_iff in HF as [Hs HF].
      unfold columns. cbn [length seq combine map concat fst snd]. fold (columns ss (S k)).
      unfold matrix_entry. rewrite filter_app, map_app, zsum_app.
      destruct j as [|j].
      + rewrite Nat.add_0_r. rewrite column_entry by exact Hs. cbn [Nat.ltb Nat.leb nth].
        assert (E : filter (fun e => (snd (fst e) =? i) && (snd e =? k)) (columns ss (S k)) = []).
        { clear - k. assert (H : k < S k) by lia. revert H. generalize (S k) as k'. unfold columns.
          induction ss as [|s ss IH]; intros k' H; [reflexivity|].
          cbn [length seq combine map concat fst snd]. rewrite filter_app, column_entry_other by lia. apply IH. lia. }
        rewrite E. cbn. ring.
      + rewrite column_entry_other by lia. cbn [map zsum fold_right]. cbn [nth].
        replace (k + S j) with (S k + j) by lia. specialize (IH j (S k) HF). unfold matrix_entry in IH.
        rewrite IH. change (S j <? S (length ss)) with (j <? length ss). ring.
  Qed.
End Matrix.

Lemma boundary_map_matrix_ok simplices k : 1 <= k -> k < length simplices ->
  Forall (@NoDup nat) (nth (k - 1) simplices []) -> Forall (has_faces (nth (k - 1) simplices [])) (nth k simplices []) ->
  exists m, boundary_map_matrix simplices k = Ok m /\
    forall i j, matrix_entry m i j =
      if j <? length (nth k simplices []) then bd (psi (nth (k - 1) simplices []) i) (nth j (nth k simplices []) []) else 0%Z.
Proof.
  intros H1 Hk HN HF. set (faces := nth (k - 1) simplices []) in *. set (ss := nth k simplices []) in *.
  exists (columns faces ss 0). split.
  - unfold boundary_map_matrix. rewrite (get_ok _ _ []) by lia. rewrite (get_ok _ _ []) by lia. cbn [bind].
    fold faces ss. rewrite (mapM_map _ (fun js => column faces (fst js) (snd js))); [reflexivity|].
    intros [j s] Hjs. apply in_combine_r in Hjs. rewrite Forall_forall in HF. apply matrix_column_ok; auto.
  - intros i j. exact (columns_entry faces HN i j ss 0 HF).
Qed.

(** Sum over the middle index. *)
Lemma zsum_pick (l n : nat) (f : nat -> Z) : l < n -> (forall i, i <> l -> f i = 0%Z) ->
  zsum (map f (seq 0 n)) = f l.
Proof.
  intros H Hf. replace n with (l + S (n - l - 1)) by lia. rewrite seq_app. cbn [seq Nat.add].
  rewrite map_app, zsum_app. cbn [map]. unfold zsum at 2. cbn [fold_right].
  assert (E : forall m, ~ In l m -> zsum (map f m) = 0%Z).
  { induction m as [|x m IH]; intros Hm; [reflexivity|]. unfold zsum in *. cbn [map fold_right].
    rewrite IH by (intros ?; apply Hm; right; assumption). rewrite Hf; [ring|]. intros ->. apply Hm. left. reflexivity. }
  rewrite E by (rewrite in_seq; lia). fold (zsum (map f (seq (S l) (n - l - 1)))).
  rewrite E by (rewrite in_seq; lia). ring.
Qed.
Lemma zsum_map_mul {A} (c : Z) (f : A -> Z) l : zsum (map (fun x => c * f x)%Z l) = (c * zsum (map f l))%Z.
Proof. unfold zsum. induction l as [|x l IH]; cbn [map fold_right]; [ring|]. rewrite IH. ring. Qed.
Lemma zsum_swap {A B} (f : A -> B -> Z) l m :
  zsum (map (fun a => zsum (map (f a) m)) l) = zsum (map (fun b => zsum (map (fun a => f a b) l)) m).
Proof.
  induction l as [|a l IH].
  - cbn [map]. induction m as [|b m IHm]; [reflexivity|]. unfold zsum in *. cbn [map fold_right] in *. rewrite <- IHm. reflexivity.
  - unfold zsum in *. cbn [map fold_right]. rewrite IH.
    clear IH. induction m as [|b m IHm]; [reflexivity|]. cbn [map fold_right]. rewrite <- IHm. ring.
Qed.
Lemma zsum_ext {A} (f g : A -> Z) l : (forall x, In x l -> f x = g x) -> zsum (map f l) = zsum (map g l).
Proof.
  intros H. f_equal. apply map_ext_in. exact H.
Qed.

Theorem matrix_product_zero f0 f1 s i :
  Forall (@NoDup nat) f0 -> Forall (@NoDup nat) f1 -> has_faces f1 s ->
  zsum (map (fun l => bd (psi f0 i) (nth l f1 []) * bd (psi f1 l) s)%Z (seq 0 (length f1))) = 0%Z.
Proof.
  intros H0 H1 [HL HF].
  rewrite (zsum_ext _ (fun l => zsum (map (fun a => (-1) ^ Z.of_nat a * (bd (psi f0 i) (nth l f1 []) * psi f1 l (delete_at a s)))%Z (seq 0 (length s))))).
  2:{ intros l _. rewrite (bd_sum s). rewrite <- zsum_map_mul. apply zsum_ext. intros a _. ring. }
  rewrite zsum_swap. rewrite <- (bd_bd s (psi f0 i)), (bd_sum s).
  apply zsum_ext. intros a Ha. apply in_seq in Ha. rewrite zsum_map_mul. f_equal.
  destruct (HF a) as (f & Hf & HP); [lia|]. destruct (simplex_to_index_ex _ _ _ Hf HP) as [l E].
  destruct (simplex_to_index_some _ _ _ E) as [Hl HPl]. destruct (perm_sperm _ _ HPl) as [b Hb].
  rewrite (zsum_pick l).
  - rewrite (psi_sperm f1 H1 l _ b E Hb). rewrite (bd_alternating b _ _ Hb) by (apply psi_alternating; exact H0). ring.
  - exact Hl.
  - intros l' Hl'. rewrite (psi_neq f1 l' _ _ E) by auto. ring.
Qed.
