(** Numbering of the triangles and tetrahedra that are cut along multi-indices. *)
From Verif Require Import Base MultiIndex MultiIndexFacts MultiIndexCache Mesh MeshFacts.

(** ** Sums over all multi-indices of a function of the missing degree *)
Definition cum (f : nat -> nat) (m : nat) : nat := nsum (map f (seq 0 (S m))).
Lemma cum_0 f : cum f 0 = f 0. Proof. unfold cum. cbn. lia. Qed.
Lemma cum_S f m : cum f (S m) = cum f m + f (S m).
Proof. unfold cum. rewrite (seq_S (S m)). rewrite map_app, nsum_app. cbn [map]. rewrite nsum_cons. cbn. lia. Qed.
Lemma cum_shift f m : cum f (S m) = f 0 + cum (fun k => f (S k)) m.
Proof. unfold cum. change (seq 0 (S (S m))) with (0 :: seq 1 (S m)). rewrite <- (seq_shift (S m) 0). cbn [map]. rewrite nsum_cons, map_map. reflexivity. Qed.
Lemma cum_rev f m : nsum (map (fun a => f (m - a)) (seq 0 (S m))) = cum f m.
Proof.
  change (cum (fun a => f (m - a)) m = cum f m). revert f. induction m as [|m IH]; intros f; [reflexivity|].
  rewrite cum_shift, cum_S, Nat.sub_0_r. rewrite <- (IH f). rewrite Nat.add_comm. f_equal.
Qed.
Lemma nsum_flat_map {A} (f : A -> list nat) l : nsum (flat_map f l) = nsum (map (fun x => nsum (f x)) l).
Proof. induction l as [|a l IH]; cbn [flat_map map]; [reflexivity|]. rewrite nsum_app, nsum_cons, IH. reflexivity. Qed.
Lemma nsum_ext {A} (f g : A -> nat) l : (forall x, In x l -> f x = g x) -> nsum (map f l) = nsum (map g l).
Proof. intros H. f_equal. apply map_ext_in. exact H. Qed.
Lemma sum_all_mi n r f : nsum (map (fun mi => f (r - nsum mi)) (all_mi (S n) r)) = nsum (map (fun mi => cum f (r - nsum mi)) (all_mi n r)).
Proof.
  cbn [all_mi]. rewrite map_flat_map, nsum_flat_map. apply nsum_ext. intros t _. rewrite map_map.
  rewrite <- cum_rev. apply nsum_ext. intros a _. rewrite nsum_cons. f_equal. lia.
Qed.
Lemma sum_all_mi_0 r f : nsum (map (fun mi => f (r - nsum mi)) (all_mi 0 r)) = f r.
Proof. cbn. rewrite Nat.sub_0_r. lia. Qed.

(** ** Rows of decreasing length *)
Lemma nth_flat_map_var {A} (f : nat -> list A) : forall n s i j d, i < n -> j < length (f (s + i)) ->
  nth (nsum (map (fun k => length (f k)) (seq s i)) + j) (flat_map f (seq s n)) d = nth j (f (s + i)) d.
Proof.
  induction n as [|n IH]; intros s i j d Hi Hj; [lia|]. cbn [seq flat_map]. destruct i as [|i].
  - cbn [seq map]. rewrite Nat.add_0_r in *. rewrite app_nth1 by exact Hj. reflexivity.
  - cbn [seq map]. rewrite nsum_cons. rewrite app_nth2 by lia. replace (length (f s) + nsum (map (fun k => length (f k)) (seq (S s) i)) + j - length (f s)) with (nsum (map (fun k => length (f k)) (seq (S s) i)) + j) by lia.
    rewrite IH; [|lia|rewrite Nat.add_succ_comm; exact Hj]. rewrite Nat.add_succ_comm. reflexivity.
Qed.
Lemma tri_off E : forall b, b <= E -> 2 * nsum (map (fun k => E - k) (seq 0 b)) = (2 * E - b + 1) * b.
Proof.
  induction b as [|b IH]; intros H; [cbn; lia|]. rewrite seq_S, map_app, nsum_app. cbn [map]. rewrite nsum_cons. cbn [nsum fold_right]. rewrite Nat.mul_add_distr_l, IH by lia. rewrite Nat.add_0_l. nia.
Qed.
Lemma tri_index_eq E a b : b <= E -> tri_index E a b = nsum (map (fun k => E - k) (seq 0 b)) + a.
Proof. intros H. unfold tri_index. rewrite <- tri_off by exact H. rewrite Nat.mul_comm, Nat.div_mul by lia. reflexivity. Qed.
Lemma nth_tri_rows {A} (f : nat -> nat -> A) E a b d : a + b < E -> nth (tri_index E a b) (flat_map (fun row => map (fun col => f row col) (seq 0 (E - row))) (seq 0 E)) d = f b a.
Proof.
  intros H. rewrite tri_index_eq by lia.
  pose proof (nth_flat_map_var (fun row => map (fun col => f row col) (seq 0 (E - row))) E 0 b a d ltac:(lia)) as N. cbn [Nat.add] in N. rewrite map_length, seq_length in N. specialize (N ltac:(lia)).
  rewrite nth_seq_map in N by lia. rewrite <- N. f_equal. f_equal. f_equal. apply map_ext. intros k. rewrite map_length, seq_length. reflexivity.
Qed.
Lemma tcells_all_mi r : all_mi 2 r = map (fun c => [fst c; snd c]) (tcells r).
Proof.
  unfold tcells. rewrite map_flat_map. cbn [all_mi flat_map]. rewrite app_nil_r. rewrite flat_map_of_map. change (nsum []) with 0. rewrite Nat.sub_0_r. apply flat_map_ext_in. intros b Hb. apply in_seq in Hb. rewrite map_map. cbn [fst snd]. change (nsum [b]) with (b + 0). rewrite Nat.add_0_r. replace (S (r - b)) with (S r - b) by lia. reflexivity.
Qed.
Lemma tri_index_pos E a b : 1 <= E -> a + b <= E - 1 -> pos (all_mi 2 (E - 1)) [a; b] = Some (tri_index E a b).
Proof.
  intros HE H. apply pos_nth_error; [apply NoDup_all_mi|]. rewrite tcells_all_mi. unfold tcells. rewrite map_flat_map.
  replace (S (E - 1)) with E by lia.
  rewrite (flat_map_ext_in _ (fun row => map (fun col => [col; row]) (seq 0 (E - row)))) by (intros; rewrite map_map; reflexivity).
  pose proof (nth_tri_rows (fun row col => [col; row]) E a b [0; 0] ltac:(lia)) as N.
  rewrite (nth_error_nth' _ [0; 0]); [rewrite N; reflexivity|].
  destruct (Nat.lt_ge_cases (tri_index E a b) (length (flat_map (fun row => map (fun col => [col; row]) (seq 0 (E - row))) (seq 0 E)))) as [L|L]; [exact L|].
  pose proof (nth_tri_rows (fun row col => [col; row]) E a b [] ltac:(lia)) as N'. rewrite nth_overflow in N' by exact L. discriminate.
Qed.
Lemma flat_map_filter {A B} (f : A -> list B) p l : flat_map f (filter p l) = flat_map (fun x => if p x then f x else []) l.
Proof. induction l as [|a l IH]; cbn [filter flat_map]; [reflexivity|]. destruct (p a); cbn [flat_map]; rewrite IH; reflexivity. Qed.
Definition tenc (E : nat) (c : pt2) : nat := tri_index E (fst c) (snd c).
Lemma tenc_inj E x y : fst x + snd x < E -> fst y + snd y < E -> tenc E x = tenc E y -> x = y.
Proof.
  intros Hx Hy EQ. destruct x as [a b], y as [a' b']. unfold tenc in EQ. cbn [fst snd] in *.
  pose proof (tri_index_pos E a b ltac:(lia) ltac:(lia)) as P1. pose proof (tri_index_pos E a' b' ltac:(lia) ltac:(lia)) as P2. apply pos_nth in P1, P2. rewrite EQ in P1. congruence.
Qed.
Definition wt2 (d : nat) : nat := match d with 0 => 0 | 1 => 1 | _ => 2 end.
Lemma cum_wt2 m : cum wt2 m = 2 * m - 1.
Proof. induction m as [|m IH]; [reflexivity|]. rewrite cum_S, IH. destruct m; cbn [wt2]; lia. Qed.
Lemma cum_cum_wt2 m : cum (cum wt2) m = m * m.
Proof. induction m as [|m IH]; [reflexivity|]. rewrite cum_S, IH, cum_wt2. lia. Qed.
Lemma tri_ct_length r : length (tri_ct r) = r ^ 2.
Proof.
  transitivity (nsum (map (fun mi => wt2 (r - nsum mi)) (all_mi 2 r))).
  - rewrite tcells_all_mi, map_map. unfold tri_ct, ct2. rewrite flat_map_filter, length_flat_map. apply nsum_ext. intros [a b] H. apply in_tcells in H. cbn [fst snd]. rewrite !nsum_cons. change (nsum []) with 0. rewrite Nat.add_0_r.
    destruct (a + b <? r) eqn:E1; [apply Nat.ltb_lt in E1|apply Nat.ltb_ge in E1; replace (r - (a + b)) with 0 by lia; reflexivity].
    destruct (S (a + b) <? r) eqn:E2; [apply Nat.ltb_lt in E2|apply Nat.ltb_ge in E2]; cbn [length].
    + destruct (r - (a + b)) as [|[|k]] eqn:E3; [lia|lia|reflexivity].
    + replace (r - (a + b)) with 1 by lia. reflexivity.
  - rewrite !sum_all_mi, sum_all_mi_0, cum_cum_wt2. cbn. lia.
Qed.
Lemma triangle_eq E : 1 <= E -> triangle_triangulation E = Ok (map (map (tenc E)) (tri_ct (E - 1))).
Proof.
  intros HE. unfold triangle_triangulation. rewrite generate_all_eq. cbn [bind].
  rewrite <- tri_ct_length. rewrite <- (map_length (map (tenc E)) (tri_ct (E - 1))). erewrite alloc_ok; [f_equal|f_equal].
  all: rewrite tcells_all_mi, flat_map_of_map; unfold tri_ct, ct2; rewrite flat_map_filter, map_flat_map; apply flat_map_ext_in; intros [a b] _; cbn [fst snd nth]; unfold norm; rewrite !nsum_cons; change (nsum []) with 0; rewrite Nat.add_0_r.
  all: destruct (a + b <? E - 1) eqn:E1; [apply Nat.ltb_lt in E1|reflexivity]; replace (a + b <? E - 2) with (S (a + b) <? E - 1) by (apply eq_iff_eq_true; rewrite !Nat.ltb_lt; lia); destruct (S (a + b) <? E - 1); cbn [map T1 T2 tenc fst snd]; unfold tenc, tri_index; cbn [fst snd]; rewrite (Nat.add_1_r b); lists_lia.
Qed.

(** ** Tetrahedra in a grid *)
Notation pt3 := (nat * nat * nat)%type.
Definition six (c : pt3) : list (list pt3) :=
  let '(a, b, c) := c in
  let a1 := (a, b, c) in let a2 := (S a, b, c) in let a3 := (a, S b, c) in let a4 := (S a, S b, c) in
  let a5 := (a, b, S c) in let a6 := (S a, b, S c) in let a7 := (a, S b, S c) in let a8 := (S a, S b, S c) in
  [ [a1; a2; a3; a5]; [a5; a6; a2; a3]; [a5; a6; a3; a7]; [a2; a4; a3; a6]; [a6; a4; a3; a7]; [a6; a8; a4; a7] ].
Definition ct3 (L : list pt3) (cnt : pt3 -> nat) : list (list pt3) := flat_map (fun c => firstn (cnt c) (six c)) L.
Lemma in_firstn {A} (l : list A) k d x : In x (firstn k l) <-> exists q, q < k /\ q < length l /\ x = nth q l d.
Proof.
  split.
  - intros H. apply (In_nth _ _ d) in H as (q & Hq & <-). rewrite firstn_length in Hq. exists q. split; [lia|]. split; [lia|].
    rewrite <- (firstn_skipn k l) at 2. rewrite app_nth1; [reflexivity|]. rewrite firstn_length. lia.
  - intros (q & H1 & H2 & ->). rewrite <- (firstn_skipn k l) at 1. rewrite app_nth1 by (rewrite firstn_length; lia). apply nth_In. rewrite firstn_length. lia.
Qed.
Lemma in_ct3 L cnt t : In t (ct3 L cnt) <-> exists c q, In c L /\ q < cnt c /\ q < 6 /\ t = nth q (six c) [].
Proof.
  unfold ct3. rewrite in_flat_map. split.
  - intros (c & Hc & H). apply (in_firstn _ _ []) in H as (q & H1 & H2 & ->). exists c, q. destruct c as [[a b] c]. cbn [six length] in H2. auto.
  - intros (c & q & Hc & H1 & H2 & ->). exists c. split; [exact Hc|]. apply (in_firstn _ _ []). exists q. destruct c as [[a b] c]. cbn [six length]. auto.
Qed.
Lemma six_inj c c' q q' : q < 6 -> q' < 6 -> nth q (six c) [] = nth q' (six c') [] -> c = c' /\ q = q'.
Proof.
  destruct c as [[a b] c], c' as [[a' b'] c']. intros Hq Hq' E.
  destruct q as [|[|[|[|[|[|q]]]]]], q' as [|[|[|[|[|[|q']]]]]]; try lia; cbn in E; injection E; intros; try (exfalso; lia); (split; [repeat f_equal; lia|reflexivity]).
Qed.
Lemma firstn_nodup {A} (l : list A) k : NoDup l -> NoDup (firstn k l).
Proof.
  revert l. induction k as [|k IH]; intros [|x l] H; cbn [firstn]; try constructor.
  - apply NoDup_cons_iff in H as [H1 H2]. intros Hx. apply H1. rewrite <- (firstn_skipn k l). apply in_or_app. left. exact Hx.
  - apply NoDup_cons_iff in H as [H1 H2]. apply IH, H2.
Qed.
Lemma ct3_nodup L cnt : NoDup L -> NoDup (ct3 L cnt).
Proof.
  intros HN. unfold ct3. apply NoDup_flat_map; [exact HN| |].
  - intros c _. apply firstn_nodup. apply (proj2 (NoDup_nth (six c) [])). intros i j Hi Hj E. apply (six_inj c c i j); [| |exact E]; destruct c as [[a b] c]; exact Hi || exact Hj.
  - intros x y t _ _ H H'. apply (in_firstn _ _ []) in H as (q & _ & H2 & ->). apply (in_firstn _ _ []) in H' as (q' & _ & H2' & E).
    apply (six_inj x y q q'); [destruct x as [[a b] c]; exact H2|destruct y as [[a b] c]; exact H2'|exact E].
Qed.

(** The four faces of a tetrahedron. *)
Definition faces {A} (t : list A) : list (list A) :=
  match t with [p; q; r; s] => [[q; r; s]; [p; r; s]; [p; q; s]; [p; q; r]] | _ => [] end.
Definition gcells3 (m n p : nat) : list pt3 := flat_map (fun i => flat_map (fun j => map (fun k => (k, j, i)) (seq 0 m)) (seq 0 n)) (seq 0 p).
Definition tcells3 (E : nat) : list pt3 := flat_map (fun w => flat_map (fun v => map (fun u => (u, v, w)) (seq 0 (E - v - w))) (seq 0 (E - w))) (seq 0 E).
Definition cx (c : pt3) : nat := fst (fst c).
Definition cy (c : pt3) : nat := snd (fst c).
Definition cz (c : pt3) : nat := snd c.
Lemma in_gcells3 m n p a b c : In (a, b, c) (gcells3 m n p) <-> a < m /\ b < n /\ c < p.
Proof.
  unfold gcells3. rewrite in_flat_map. split.
  - intros (i & Hi & H). apply in_flat_map in H as (j & Hj & H). apply in_map_iff in H as (k & E & Hk). injection E as <- <- <-. apply in_seq in Hi, Hj, Hk. lia.
  - intros (H1 & H2 & H3). exists c. split; [apply in_seq; lia|]. apply in_flat_map. exists b. split; [apply in_seq; lia|]. apply in_map_iff. exists a. split; [reflexivity|apply in_seq; lia].
Qed.
Lemma in_tcells3 E a b c : In (a, b, c) (tcells3 E) <-> a + b + c < E.
Proof.
  unfold tcells3. rewrite in_flat_map. split.
  - intros (i & Hi & H). apply in_flat_map in H as (j & Hj & H). apply in_map_iff in H as (k & EQ & Hk). injection EQ as <- <- <-. apply in_seq in Hi, Hj, Hk. lia.
  - intros H1. exists c. split; [apply in_seq; lia|]. apply in_flat_map. exists b. split; [apply in_seq; lia|]. apply in_map_iff. exists a. split; [reflexivity|apply in_seq; lia].
Qed.
Lemma NoDup_cells3 (k : nat -> nat -> nat) (l : nat -> nat) n : NoDup (flat_map (fun w => flat_map (fun v => map (fun u => (u, v, w)) (seq 0 (k v w))) (seq 0 (l w))) (seq 0 n)).
Proof.
  apply NoDup_flat_map; [apply seq_NoDup| |].
  - intros w _. apply NoDup_flat_map; [apply seq_NoDup| |].
    + intros v _. apply NoDup_map_inj; [congruence|apply seq_NoDup].
    + intros v v' e _ _ H H'. apply in_map_iff in H as (a & <- & _). apply in_map_iff in H' as (a' & E & _). congruence.
  - intros w w' e _ _ H H'. apply in_flat_map in H as (v & _ & H). apply in_flat_map in H' as (v' & _ & H'). apply in_map_iff in H as (a & <- & _). apply in_map_iff in H' as (a' & E & _). congruence.
Qed.
Lemma in_six_bound a b c q x : In x (nth q (six (a, b, c)) []) -> (cx x = a \/ cx x = S a) /\ (cy x = b \/ cy x = S b) /\ (cz x = c \/ cz x = S c) /\
  (cx x + cy x + cz x = a + b + c \/ cx x + cy x + cz x = a + b + c + 1 \/ (q <> 0 /\ cx x + cy x + cz x = a + b + c + 2) \/ (q = 5 /\ cx x + cy x + cz x = a + b + c + 3)).
Proof. destruct q as [|[|[|[|[|[|[|q]]]]]]]; cbn; intros H; edge_cases; subst; cbv [cx cy cz fst snd]; try contradiction; lia. Qed.

(** *** Box *)
Definition box_ct (m n p : nat) : list (list pt3) := ct3 (gcells3 m n p) (fun _ => 6).
Ltac bdry := cbn [cx cy cz fst snd forallb]; intros; unfold cx, cy, cz in *; intuition (subst; cbn [fst snd]; auto; lia).
Definition box_side (m n p : nat) (f : list pt3) : Prop :=
  (forall x, In x f -> cx x = 0) \/ (forall x, In x f -> cx x = m) \/ (forall x, In x f -> cy x = 0) \/
  (forall x, In x f -> cy x = n) \/ (forall x, In x f -> cz x = 0) \/ (forall x, In x f -> cz x = p).
Ltac all_in := intros ? Hin; cbn in Hin; edge_cases; subst; cbv [cx cy cz fst snd]; lia.
Ltac box_bdry := unfold box_side; first [left; all_in|right; left; all_in|right; right; left; all_in|right; right; right; left; all_in|right; right; right; right; left; all_in|right; right; right; right; right; all_in].
Ltac nbr_incl := intros ? Hin; cbn in Hin |- *; edge_cases; subst; tauto.
Lemma box_conf m n p t f : In t (box_ct m n p) -> In f (faces t) ->
  box_side m n p f \/ exists t', In t' (box_ct m n p) /\ t' <> t /\ incl f t'.
Proof.
  intros Ht Hf. apply in_ct3 in Ht as ([[a b] c] & q & Hc & _ & Hq & ->). apply in_gcells3 in Hc as (Ha & Hb & Hc).
  assert (N : forall a' b' c' q', a' < m -> b' < n -> c' < p -> q' < 6 -> (a', b', c', q') <> (a, b, c, q) -> incl f (nth q' (six (a', b', c')) []) ->
    exists t', In t' (box_ct m n p) /\ t' <> nth q (six (a, b, c)) [] /\ incl f t').
  { intros a' b' c' q' H1 H2 H3 H4 H5 H6. exists (nth q' (six (a', b', c')) []). split; [apply in_ct3; exists (a', b', c'), q'; rewrite in_gcells3; auto|]. split; [|exact H6].
    intros E. apply six_inj in E as [E1 E2]; [|assumption..]. apply H5. congruence. }
  assert (Hq' : q = 0 \/ q = 1 \/ q = 2 \/ q = 3 \/ q = 4 \/ q = 5) by lia. clear Hq.
  destruct Hq' as [->|[->|[->|[->|[->| ->]]]]]; cbn in Hf; destruct Hf as [<-|[<-|[<-|[<-|[]]]]].
  - right. apply (N a b c 1); [lia..|intros EE; injection EE; intros; lia|nbr_incl].
  - destruct a as [|a]; [left; box_bdry|]. right. apply (N a b c 3); [lia..|intros EE; injection EE; intros; lia|nbr_incl].
  - destruct b as [|b]; [left; box_bdry|]. right. apply (N a b c 4); [lia..|intros EE; injection EE; intros; lia|nbr_incl].
  - destruct c as [|c]; [left; box_bdry|]. right. apply (N a b c 2); [lia..|intros EE; injection EE; intros; lia|nbr_incl].
  - right. apply (N a b c 3); [lia..|intros EE; injection EE; intros; lia|nbr_incl].
  - right. apply (N a b c 0); [lia..|intros EE; injection EE; intros; lia|nbr_incl].
  - right. apply (N a b c 2); [lia..|intros EE; injection EE; intros; lia|nbr_incl].
  - destruct b as [|b]; [left; box_bdry|]. right. apply (N a b c 5); [lia..|intros EE; injection EE; intros; lia|nbr_incl].
  - right. apply (N a b c 4); [lia..|intros EE; injection EE; intros; lia|nbr_incl].
  - destruct a as [|a]; [left; box_bdry|]. right. apply (N a b c 5); [lia..|intros EE; injection EE; intros; lia|nbr_incl].
  - destruct (Nat.eq_dec (S c) p) as [EB|EB]; [left; box_bdry|]. right. apply (N a b (S c) 0); [lia..|intros EE; injection EE; intros; lia|nbr_incl].
  - right. apply (N a b c 1); [lia..|intros EE; injection EE; intros; lia|nbr_incl].
  - right. apply (N a b c 4); [lia..|intros EE; injection EE; intros; lia|nbr_incl].
  - right. apply (N a b c 1); [lia..|intros EE; injection EE; intros; lia|nbr_incl].
  - destruct (Nat.eq_dec (S a) m) as [EB|EB]; [left; box_bdry|]. right. apply (N (S a) b c 0); [lia..|intros EE; injection EE; intros; lia|nbr_incl].
  - destruct c as [|c]; [left; box_bdry|]. right. apply (N a b c 5); [lia..|intros EE; injection EE; intros; lia|nbr_incl].
  - destruct (Nat.eq_dec (S b) n) as [EB|EB]; [left; box_bdry|]. right. apply (N a (S b) c 0); [lia..|intros EE; injection EE; intros; lia|nbr_incl].
  - right. apply (N a b c 2); [lia..|intros EE; injection EE; intros; lia|nbr_incl].
  - right. apply (N a b c 5); [lia..|intros EE; injection EE; intros; lia|nbr_incl].
  - right. apply (N a b c 3); [lia..|intros EE; injection EE; intros; lia|nbr_incl].
  - destruct (Nat.eq_dec (S b) n) as [EB|EB]; [left; box_bdry|]. right. apply (N a (S b) c 1); [lia..|intros EE; injection EE; intros; lia|nbr_incl].
  - right. apply (N a b c 4); [lia..|intros EE; injection EE; intros; lia|nbr_incl].
  - destruct (Nat.eq_dec (S c) p) as [EB|EB]; [left; box_bdry|]. right. apply (N a b (S c) 3); [lia..|intros EE; injection EE; intros; lia|nbr_incl].
  - destruct (Nat.eq_dec (S a) m) as [EB|EB]; [left; box_bdry|]. right. apply (N (S a) b c 2); [lia..|intros EE; injection EE; intros; lia|nbr_incl].
Qed.

(** *** Tetrahedron *)
Definition tcnt (r : nat) (c : pt3) : nat :=
  let s := cx c + cy c + cz c in
  if s + 3 <=? r then 6 else if s + 2 =? r then 5 else if s + 1 =? r then 1 else 0.
Lemma tcnt_lt r a b c q : q < tcnt r (a, b, c) <-> (q < 6 /\ a + b + c + 3 <= r) \/ (q < 5 /\ a + b + c + 2 = r) \/ (q < 1 /\ a + b + c + 1 = r).
Proof.
  unfold tcnt. cbv [cx cy cz fst snd]. cbv zeta. destruct (a + b + c + 3 <=? r) eqn:E1; [apply Nat.leb_le in E1; lia|apply Nat.leb_gt in E1].
  destruct (a + b + c + 2 =? r) eqn:E2; [apply Nat.eqb_eq in E2; lia|apply Nat.eqb_neq in E2]. destruct (a + b + c + 1 =? r) eqn:E3; [apply Nat.eqb_eq in E3|apply Nat.eqb_neq in E3]; lia.
Qed.
Definition tet_ct (E : nat) : list (list pt3) := ct3 (tcells3 E) (tcnt (E - 1)).
Definition tet_side (r : nat) (f : list pt3) : Prop :=
  (forall x, In x f -> cx x = 0) \/ (forall x, In x f -> cy x = 0) \/ (forall x, In x f -> cz x = 0) \/ (forall x, In x f -> cx x + cy x + cz x = r).
Ltac tet_bdry := unfold tet_side; first [left; all_in|right; left; all_in|right; right; left; all_in|right; right; right; all_in].
Lemma tet_conf E t f : In t (tet_ct E) -> In f (faces t) ->
  tet_side (E - 1) f \/ exists t', In t' (tet_ct E) /\ t' <> t /\ incl f t'.
Proof.
  intros Ht Hf. apply in_ct3 in Ht as ([[a b] c] & q & Hc & Hq & _ & ->). apply in_tcells3 in Hc. apply tcnt_lt in Hq.
  set (r := E - 1) in *.
  assert (N : forall a' b' c' q', (q' < 6 /\ a' + b' + c' + 3 <= r) \/ (q' < 5 /\ a' + b' + c' + 2 = r) \/ (q' < 1 /\ a' + b' + c' + 1 = r) -> (a', b', c', q') <> (a, b, c, q) -> incl f (nth q' (six (a', b', c')) []) ->
    exists t', In t' (tet_ct E) /\ t' <> nth q (six (a, b, c)) [] /\ incl f t').
  { intros a' b' c' q' H1 H5 H6. exists (nth q' (six (a', b', c')) []). split; [apply in_ct3; exists (a', b', c'), q'; rewrite in_tcells3, tcnt_lt; subst r; repeat split; try exact H1; lia|]. split; [|exact H6].
    intros EQ. apply six_inj in EQ as [E1 E2]; [|lia..]. apply H5. congruence. }
  assert (Hq' : q = 0 \/ q = 1 \/ q = 2 \/ q = 3 \/ q = 4 \/ q = 5) by lia.
  destruct Hq' as [->|[->|[->|[->|[->| ->]]]]]; cbn in Hf; destruct Hf as [<-|[<-|[<-|[<-|[]]]]].
  - destruct Hq as [Hq|[Hq|Hq]]; first [exfalso; lia|left; tet_bdry|right; apply (N a b c 1); [lia|intros EE; injection EE; intros; lia|nbr_incl]].
  - destruct a as [|a]; [left; tet_bdry|]. destruct Hq as [Hq|[Hq|Hq]]; first [exfalso; lia|left; tet_bdry|right; apply (N a b c 3); [lia|intros EE; injection EE; intros; lia|nbr_incl]].
  - destruct b as [|b]; [left; tet_bdry|]. destruct Hq as [Hq|[Hq|Hq]]; first [exfalso; lia|left; tet_bdry|right; apply (N a b c 4); [lia|intros EE; injection EE; intros; lia|nbr_incl]].
  - destruct c as [|c]; [left; tet_bdry|]. destruct Hq as [Hq|[Hq|Hq]]; first [exfalso; lia|left; tet_bdry|right; apply (N a b c 2); [lia|intros EE; injection EE; intros; lia|nbr_incl]].
  - destruct Hq as [Hq|[Hq|Hq]]; first [exfalso; lia|left; tet_bdry|right; apply (N a b c 3); [lia|intros EE; injection EE; intros; lia|nbr_incl]].
  - destruct Hq as [Hq|[Hq|Hq]]; first [exfalso; lia|left; tet_bdry|right; apply (N a b c 0); [lia|intros EE; injection EE; intros; lia|nbr_incl]].
  - destruct Hq as [Hq|[Hq|Hq]]; first [exfalso; lia|left; tet_bdry|right; apply (N a b c 2); [lia|intros EE; injection EE; intros; lia|nbr_incl]].
  - destruct b as [|b]; [left; tet_bdry|]. destruct Hq as [Hq|[Hq|Hq]]; first [exfalso; lia|left; tet_bdry|right; apply (N a b c 5); [lia|intros EE; injection EE; intros; lia|nbr_incl]].
  - destruct Hq as [Hq|[Hq|Hq]]; first [exfalso; lia|left; tet_bdry|right; apply (N a b c 4); [lia|intros EE; injection EE; intros; lia|nbr_incl]].
  - destruct a as [|a]; [left; tet_bdry|]. destruct Hq as [Hq|[Hq|Hq]]; first [exfalso; lia|left; tet_bdry|right; apply (N a b c 5); [lia|intros EE; injection EE; intros; lia|nbr_incl]].
  - destruct Hq as [Hq|[Hq|Hq]]; first [exfalso; lia|left; tet_bdry|right; apply (N a b (S c) 0); [lia|intros EE; injection EE; intros; lia|nbr_incl]].
  - destruct Hq as [Hq|[Hq|Hq]]; first [exfalso; lia|left; tet_bdry|right; apply (N a b c 1); [lia|intros EE; injection EE; intros; lia|nbr_incl]].
  - destruct Hq as [Hq|[Hq|Hq]]; first [exfalso; lia|left; tet_bdry|right; apply (N a b c 4); [lia|intros EE; injection EE; intros; lia|nbr_incl]].
  - destruct Hq as [Hq|[Hq|Hq]]; first [exfalso; lia|left; tet_bdry|right; apply (N a b c 1); [lia|intros EE; injection EE; intros; lia|nbr_incl]].
  - destruct Hq as [Hq|[Hq|Hq]]; first [exfalso; lia|left; tet_bdry|right; apply (N (S a) b c 0); [lia|intros EE; injection EE; intros; lia|nbr_incl]].
  - destruct c as [|c]; [left; tet_bdry|]. destruct Hq as [Hq|[Hq|Hq]]; first [exfalso; lia|left; tet_bdry|right; apply (N a b c 5); [lia|intros EE; injection EE; intros; lia|nbr_incl]].
  - destruct Hq as [Hq|[Hq|Hq]]; first [exfalso; lia|left; tet_bdry|right; apply (N a (S b) c 0); [lia|intros EE; injection EE; intros; lia|nbr_incl]].
  - destruct Hq as [Hq|[Hq|Hq]]; first [exfalso; lia|left; tet_bdry|right; apply (N a b c 2); [lia|intros EE; injection EE; intros; lia|nbr_incl]].
  - destruct Hq as [Hq|[Hq|Hq]]; first [exfalso; lia|left; tet_bdry|right; apply (N a b c 5); [lia|intros EE; injection EE; intros; lia|nbr_incl]].
  - destruct Hq as [Hq|[Hq|Hq]]; first [exfalso; lia|left; tet_bdry|right; apply (N a b c 3); [lia|intros EE; injection EE; intros; lia|nbr_incl]].
  - destruct Hq as [Hq|[Hq|Hq]]; first [exfalso; lia|left; tet_bdry|right; apply (N a (S b) c 1); [lia|intros EE; injection EE; intros; lia|nbr_incl]].
  - destruct Hq as [Hq|[Hq|Hq]]; first [exfalso; lia|left; tet_bdry|right; apply (N a b c 4); [lia|intros EE; injection EE; intros; lia|nbr_incl]].
  - destruct Hq as [Hq|[Hq|Hq]]; first [exfalso; lia|left; tet_bdry|right; apply (N a b (S c) 3); [lia|intros EE; injection EE; intros; lia|nbr_incl]].
  - destruct Hq as [Hq|[Hq|Hq]]; first [exfalso; lia|left; tet_bdry|right; apply (N (S a) b c 2); [lia|intros EE; injection EE; intros; lia|nbr_incl]].
Qed.

(** *** Numbering *)
Definition enc3 (w h : nat) (c : pt3) : nat := cz c * (w * h) + cy c * w + cx c.
Lemma enc3_enc w h c : enc3 w h c = enc (w * h) (enc w (cx c, cy c), cz c).
Proof. unfold enc3, enc. cbn [fst snd]. lia. Qed.
Lemma enc3_inj w h x y : cx x < w -> cy x < h -> cx y < w -> cy y < h -> enc3 w h x = enc3 w h y -> x = y.
Proof.
  intros H1 H2 H3 H4 E. rewrite !enc3_enc in E. apply enc_inj in E; cbn [fst]; try (apply enc_bound; assumption).
  injection E as E1 E2. apply enc_inj in E1; try assumption. destruct x as [[a b] c], y as [[a' b'] c']. cbv [cx cy cz fst snd] in *. congruence.
Qed.
Lemma enc3_bound w h d x : cx x < w -> cy x < h -> cz x < d -> enc3 w h x < w * h * d.
Proof. intros H1 H2 H3. rewrite enc3_enc. apply enc_bound; [apply enc_bound; assumption|exact H3]. Qed.
Lemma box_eq w h d : 1 < w -> 1 < h -> 1 < d ->
  rectangular_box_triangulation w h d = Ok (map (map (enc3 w h)) (box_ct (w - 1) (h - 1) (d - 1))) /\ length (box_ct (w - 1) (h - 1) (d - 1)) = 6 * (w - 1) * (h - 1) * (d - 1).
Proof.
  intros Hw Hh Hd. assert (L : length (box_ct (w - 1) (h - 1) (d - 1)) = 6 * (w - 1) * (h - 1) * (d - 1)).
  { unfold box_ct, ct3, gcells3. rewrite (length_flat_map_const _ _ 6) by (intros [[a b] c] _; reflexivity).
    rewrite (length_flat_map_const _ _ ((h - 1) * (w - 1))); [rewrite seq_length; lia|]. intros i _.
    rewrite (length_flat_map_const _ _ (w - 1)); [rewrite seq_length; lia|]. intros j _. rewrite map_length, seq_length. reflexivity. }
  split; [|exact L]. unfold rectangular_box_triangulation. rewrite !(proj2 (Nat.ltb_ge _ 2)) by lia. cbv zeta.
  rewrite <- L. rewrite <- (map_length (map (enc3 w h)) (box_ct (w - 1) (h - 1) (d - 1))). erewrite alloc_ok; [f_equal|f_equal].
  all: unfold box_ct, ct3, gcells3; rewrite map_flat_map, flat_map_flat_map; apply flat_map_ext_in; intros i _; rewrite flat_map_flat_map; apply flat_map_ext_in; intros j _; rewrite flat_map_of_map; apply flat_map_ext_in; intros k _; cbn [firstn six map]; unfold enc3; cbv [cx cy cz fst snd]; lists_lia.
Qed.
Lemma box_ct_bound m n p t c : In t (box_ct m n p) -> In c t -> cx c <= m /\ cy c <= n /\ cz c <= p.
Proof.
  intros Ht Hc. apply in_ct3 in Ht as ([[a b] c'] & q & H & _ & _ & ->). apply in_gcells3 in H. apply in_six_bound in Hc. lia.
Qed.
Lemma tet_ct_bound E t c : In t (tet_ct E) -> In c t -> cx c + cy c + cz c < E.
Proof.
  intros Ht Hc. apply in_ct3 in Ht as ([[a b] c'] & q & H & H1 & H2 & ->). apply in_tcells3 in H. apply tcnt_lt in H1. apply in_six_bound in Hc. lia.
Qed.

Lemma tcells3_all_mi E : 1 <= E -> all_mi 3 (E - 1) = map (fun c => [cx c; cy c; cz c]) (tcells3 E).
Proof.
  intros HE. unfold tcells3. rewrite map_flat_map. change (all_mi 3 (E - 1)) with (flat_map (fun t => map (fun a => a :: t) (seq 0 (S (E - 1 - nsum t)))) (all_mi 2 (E - 1))).
  rewrite tcells_all_mi. unfold tcells. rewrite flat_map_of_map, flat_map_flat_map. replace (S (E - 1)) with E by lia. apply flat_map_ext_in. intros w Hw. apply in_seq in Hw.
  rewrite flat_map_of_map, map_flat_map. apply flat_map_ext_in. intros v Hv. apply in_seq in Hv. rewrite map_map. cbn [fst snd]. rewrite !nsum_cons. change (nsum []) with 0. replace (S (E - 1 - (v + (w + 0)))) with (E - v - w) by lia. reflexivity.
Qed.
(** The position of the multi-index [(a, b, c)] in the enumeration. *)
Definition penc (E : nat) (c : pt3) : nat := match pos (all_mi 3 (E - 1)) [cx c; cy c; cz c] with Some i => i | None => 0 end.
Lemma penc_pos E c : cx c + cy c + cz c < E -> pos (all_mi 3 (E - 1)) [cx c; cy c; cz c] = Some (penc E c).
Proof.
  intros H. unfold penc. destruct (pos_in (all_mi 3 (E - 1)) [cx c; cy c; cz c]) as (i & Hi); [apply in_all_mi; rewrite !nsum_cons; change (nsum []) with 0; cbn [length]; lia|]. rewrite Hi. reflexivity.
Qed.
Lemma penc_inj E x y : cx x + cy x + cz x < E -> cx y + cy y + cz y < E -> penc E x = penc E y -> x = y.
Proof.
  intros Hx Hy EQ. apply penc_pos in Hx, Hy. apply pos_nth in Hx, Hy. rewrite EQ in Hx. rewrite Hx in Hy. injection Hy. destruct x as [[a b] c], y as [[a' b'] c']. cbv [cx cy cz fst snd]. intros. congruence.
Qed.
Lemma nth_error_block (k : list nat -> nat) a t : forall l i, nth_error (flat_map (fun t => map (fun a => a :: t) (seq 0 (k t))) l) i = Some (a :: t) -> S a < k t ->
  nth_error (flat_map (fun t => map (fun a => a :: t) (seq 0 (k t))) l) (S i) = Some (S a :: t).
Proof.
  induction l as [|t0 l IH]; intros i E H; cbn [flat_map] in *; [destruct i; discriminate|].
  destruct (Nat.lt_ge_cases i (k t0)) as [Hi|Hi].
  - rewrite nth_error_app1 in E by (rewrite map_length, seq_length; exact Hi).
    rewrite (nth_error_nth' _ []) in E by (rewrite map_length, seq_length; exact Hi). rewrite nth_seq_map in E by exact Hi. injection E as -> ->.
    rewrite nth_error_app1 by (rewrite map_length, seq_length; exact H). rewrite (nth_error_nth' _ []) by (rewrite map_length, seq_length; exact H). rewrite nth_seq_map by exact H. reflexivity.
  - rewrite nth_error_app2 in E by (rewrite map_length, seq_length; exact Hi). rewrite nth_error_app2 by (rewrite map_length, seq_length; lia). rewrite map_length, seq_length in *. replace (S i - k t0) with (S (i - k t0)) by lia. apply IH; assumption.
Qed.
Lemma penc_S E a b c : S a + b + c < E -> penc E (S a, b, c) = penc E (a, b, c) + 1.
Proof.
  intros H. pose proof (penc_pos E (a, b, c)) as P. pose proof (penc_pos E (S a, b, c)) as P'. cbv [cx cy cz fst snd] in P, P'. specialize (P ltac:(lia)). specialize (P' ltac:(lia)).
  apply pos_nth in P. cbn [all_mi] in P. apply nth_error_block in P; [|rewrite !nsum_cons; change (nsum []) with 0; lia].
  apply pos_nth_error in P; [|apply (NoDup_all_mi 3)]. change (pos (all_mi 3 (E - 1)) [S a; b; c] = Some (S (penc E (a, b, c)))) in P. rewrite P' in P. injection P as ->. lia.
Qed.
Lemma penc_get E a b c : a + b + c < E -> get_index [a; b; c] (E - 1) = Ok (penc E (a, b, c)).
Proof.
  intros H. rewrite get_index_eq. rewrite (proj2 (Nat.leb_le _ _)) by (rewrite !nsum_cons; change (nsum []) with 0; lia). cbn [length].
  pose proof (penc_pos E (a, b, c)) as P. cbv [cx cy cz fst snd] in P. rewrite P by lia. reflexivity.
Qed.
Lemma tet_cell_eq E c : 2 <= E -> In c (tcells3 E) -> tet_cell E [cx c; cy c; cz c] = Ok (map (map (penc E)) (firstn (tcnt (E - 1) c) (six c))).
Proof.
  destruct c as [[a b] c]. intros HE H. apply in_tcells3 in H. unfold tet_cell, tcnt, norm. cbv [cx cy cz fst snd]. cbn [nth]. rewrite !nsum_cons. change (nsum []) with 0. cbv zeta.
  replace (a + (b + (c + 0))) with (a + b + c) by lia. rewrite !(Nat.add_1_r b), !(Nat.add_1_r c).
  replace (a + b + c + 3 <? E) with (a + b + c + 3 <=? E - 1) by (apply eq_iff_eq_true; rewrite Nat.ltb_lt, Nat.leb_le; lia).
  replace (a + b + c + 3 =? E) with (a + b + c + 2 =? E - 1) by (apply eq_iff_eq_true; rewrite !Nat.eqb_eq; lia).
  replace (a + b + c + 2 =? E) with (a + b + c + 1 =? E - 1) by (apply eq_iff_eq_true; rewrite !Nat.eqb_eq; lia).
  destruct (a + b + c + 3 <=? E - 1) eqn:E1; [apply Nat.leb_le in E1|apply Nat.leb_gt in E1; destruct (a + b + c + 2 =? E - 1) eqn:E2; [apply Nat.eqb_eq in E2|apply Nat.eqb_neq in E2; destruct (a + b + c + 1 =? E - 1) eqn:E3; [apply Nat.eqb_eq in E3|reflexivity]]].
  all: rewrite !penc_get by lia; cbn [bind firstn six map box_tets prism cut_prism app]; rewrite !penc_S by lia; reflexivity.
Qed.
Lemma mapM_ok {A B} (f : A -> result B) (g : A -> B) l : (forall x, In x l -> f x = Ok (g x)) -> mapM f l = Ok (map g l).
Proof. induction l as [|a l IH]; intros H; cbn [mapM map]; [reflexivity|]. rewrite (H a) by (left; reflexivity). cbn [bind]. rewrite IH; [reflexivity|]. intros x Hx. apply H. right. exact Hx. Qed.
Definition wt3 (d : nat) : nat := match d with 0 => 0 | 1 => 1 | 2 => 5 | _ => 6 end.
Lemma cum_wt3 m : cum wt3 m = match m with 0 => 0 | 1 => 1 | _ => 6 * m - 6 end.
Proof. induction m as [|m IH]; [reflexivity|]. rewrite cum_S, IH. destruct m as [|[|m]]; cbn [wt3]; lia. Qed.
Lemma cum2_wt3 m : cum (cum wt3) m = match m with 0 => 0 | S k => 3 * k * m + 1 end.
Proof. induction m as [|m IH]; [reflexivity|]. rewrite cum_S, IH, cum_wt3. destruct m as [|[|m]]; [reflexivity|reflexivity|]. lia. Qed.
Lemma cum3_wt3 m : cum (cum (cum wt3)) m = m ^ 3.
Proof. induction m as [|m IH]; [reflexivity|]. rewrite cum_S, IH, cum2_wt3. cbn [Nat.pow]. lia. Qed.
Lemma tet_ct_length E : 1 <= E -> length (tet_ct E) = (E - 1) ^ 3.
Proof.
  intros HE. transitivity (nsum (map (fun mi => wt3 (E - 1 - nsum mi)) (all_mi 3 (E - 1)))).
  - rewrite tcells3_all_mi by exact HE. rewrite map_map. unfold tet_ct, ct3. rewrite length_flat_map. apply nsum_ext. intros [[a b] c] H. apply in_tcells3 in H. rewrite firstn_length. unfold tcnt. cbv [cx cy cz fst snd]. cbv zeta. rewrite !nsum_cons. change (nsum []) with 0. cbn [six length]. replace (a + (b + (c + 0))) with (a + b + c) by lia. set (s := a + b + c) in *. clearbody s.
    destruct (s + 3 <=? E - 1) eqn:E1; [apply Nat.leb_le in E1|apply Nat.leb_gt in E1].
    { destruct (E - 1 - s) as [|[|[|k]]] eqn:E2; try lia. reflexivity. }
    destruct (s + 2 =? E - 1) eqn:E2; [apply Nat.eqb_eq in E2; replace (E - 1 - s) with 2 by lia; reflexivity|apply Nat.eqb_neq in E2].
    destruct (s + 1 =? E - 1) eqn:E3; [apply Nat.eqb_eq in E3; replace (E - 1 - s) with 1 by lia; reflexivity|apply Nat.eqb_neq in E3]. replace (E - 1 - s) with 0 by lia. reflexivity.
  - rewrite !sum_all_mi, sum_all_mi_0, cum3_wt3. reflexivity.
Qed.
Lemma tet_eq E : 2 <= E -> tetrahedron_triangulation E = Ok (map (map (penc E)) (tet_ct E)).
Proof.
  intros HE. unfold tetrahedron_triangulation. rewrite (proj2 (Nat.leb_le 2 E) HE). cbn [assert_ bind]. rewrite generate_all_eq. cbn [bind]. rewrite tcells3_all_mi by lia.
  assert (M : mapM (tet_cell E) (map (fun c => [cx c; cy c; cz c]) (tcells3 E)) = Ok (map (fun c => map (map (penc E)) (firstn (tcnt (E - 1) c) (six c))) (tcells3 E))).
  { assert (G : forall l, (forall c, In c l -> In c (tcells3 E)) -> mapM (tet_cell E) (map (fun c => [cx c; cy c; cz c]) l) = Ok (map (fun c => map (map (penc E)) (firstn (tcnt (E - 1) c) (six c))) l)).
    { induction l as [|c l IH]; intros H; cbn [map mapM]; [reflexivity|]. rewrite tet_cell_eq by (try exact HE; apply H; left; reflexivity). cbn [bind]. rewrite IH; [reflexivity|]. intros x Hx. apply H. right. exact Hx. }
    apply G. auto. }
  rewrite M. cbn [bind]. rewrite <- flat_map_concat_map, <- map_flat_map. rewrite alloc_ok; [reflexivity|]. rewrite map_length. apply tet_ct_length. lia.
Qed.
