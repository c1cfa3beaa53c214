(** Vertex arrays of the meshes, areas and volumes. *)
From Coq Require Import Field_theory Field.
From Verif Require Import Base MultiIndex MultiIndexFacts Fld Mesh MeshFacts MeshNum.

Section Verts.
  Context {F : fld}.
  Add Field Kfield36 : (kth F).
  Local Open Scope fld_scope.
  Notation two := (1 + 1).

  Lemma two_neq : two <> 0 :> F.
  Proof. pose proof (kofnat_neq (F := F) 2 ltac:(discriminate)) as H. intros E. apply H. cbn. rewrite <- E. unfold kofnat. cbn. ring. Qed.
  Lemma n1_neq n : (1 < n)%nat -> kofnat (n - 1) <> 0 :> F.
  Proof. intros H. apply kofnat_neq. lia. Qed.

  Definition coord (j : nat) (p : list F) : F := nth j p 0.
  (** Half the determinant of the edge vectors in the xy plane. *)
  Definition signed_area (vs : list (list F)) (t : list nat) : F :=
    match map (fun i => nth i vs []) t with
    | [p; q; r] => ((coord 0 q - coord 0 p) * (coord 1 r - coord 1 p) - (coord 0 r - coord 0 p) * (coord 1 q - coord 1 p)) / two
    | _ => 0
    end.
  (** A sixth of the determinant of the edge vectors. *)
  Definition signed_volume (vs : list (list F)) (t : list nat) : F :=
    match map (fun i => nth i vs []) t with
    | [p; q; r; s] =>
      let d j v := coord j v - coord j p in
      (d 0%nat q * (d 1%nat r * d 2%nat s - d 2%nat r * d 1%nat s) - d 1%nat q * (d 0%nat r * d 2%nat s - d 2%nat r * d 0%nat s)
       + d 2%nat q * (d 0%nat r * d 1%nat s - d 1%nat r * d 0%nat s)) / kofnat 6
    | _ => 0
    end.

  Lemma rectangle_vertices_eq (W H : F) w h : (1 < w)%nat -> (1 < h)%nat -> exists vs, rectangle_vertices W H w h = Ok vs /\ length vs = (w * h)%nat /\
    forall a b, (a < w)%nat -> (b < h)%nat -> nth (enc w (a, b)) vs [] = [- W / two + kofnat a * (W / kofnat (w - 1)); - H / two + kofnat b * (H / kofnat (h - 1)); 0].
  Proof.
    intros Hw Hh. unfold rectangle_vertices. rewrite (proj2 (Nat.ltb_lt 1 w) Hw), (proj2 (Nat.ltb_lt 1 h) Hh). cbn [andb assert_ bind]. cbv zeta.
    match goal with |- exists vs, alloc _ ?r = _ /\ _ => set (rows := r) end.
    assert (L : length rows = (w * h)%nat).
    { unfold rows. rewrite (length_flat_map_const _ _ w) by (intros; rewrite map_length, seq_length; reflexivity). rewrite seq_length. lia. }
    exists rows. split; [apply alloc_ok, L|]. split; [exact L|]. intros a b Ha Hb. unfold rows, enc. cbn [fst snd].
    rewrite nth_flat_map_const; [|intros; rewrite map_length, seq_length; reflexivity|exact Hb|exact Ha]. rewrite nth_seq_map by exact Ha. cbn [Nat.add]. unfold frac.
    pose proof (n1_neq w Hw). pose proof (n1_neq h Hh). pose proof two_neq. repeat (apply f_equal2; [field; auto|]). reflexivity.
  Qed.
  Lemma unit_square_eq w h : (1 < w)%nat -> (1 < h)%nat -> exists vs us, rectangle_vertices (F := F) 1 1 w h = Ok vs /\ unit_square_vertices w h = Ok us /\
    us = map (fun p => [coord 0 p + 1 / two; coord 1 p + 1 / two; 0]) vs.
  Proof.
    intros Hw Hh. unfold rectangle_vertices, unit_square_vertices. rewrite (proj2 (Nat.ltb_lt 1 w) Hw), (proj2 (Nat.ltb_lt 1 h) Hh). cbn [andb assert_ bind]. cbv zeta.
    match goal with |- exists vs us, alloc _ ?r = _ /\ alloc _ ?r' = _ /\ _ => set (rows := r); set (rows' := r') end.
    assert (L : length rows = (w * h)%nat).
    { unfold rows. rewrite (length_flat_map_const _ _ w) by (intros; rewrite map_length, seq_length; reflexivity). rewrite seq_length. lia. }
    assert (L' : length rows' = (w * h)%nat).
    { unfold rows'. rewrite (length_flat_map_const _ _ w) by (intros; rewrite map_length, seq_length; reflexivity). rewrite seq_length. lia. }
    exists rows, rows'. split; [apply alloc_ok, L|]. split; [apply alloc_ok, L'|].
    unfold rows, rows'. rewrite map_flat_map. apply flat_map_ext_in. intros i _. rewrite map_map. apply map_ext. intros j. unfold coord. cbn [nth]. unfold frac.
    pose proof (n1_neq w Hw). pose proof (n1_neq h Hh). pose proof two_neq. repeat (apply f_equal2; [field; auto|]). reflexivity.
  Qed.

  Lemma triangle_rows_eq E vertex : (2 <= E)%nat -> exists vs, triangle_rows (F := F) E vertex = Ok vs /\ length vs = (E * (E + 1) / 2)%nat /\
    (forall a b, (a + b < E)%nat -> nth (tenc E (a, b)) vs [] = vertex b a) /\ forall p, In p vs -> exists a b, (a + b < E)%nat /\ p = vertex b a.
  Proof.
    intros HE. unfold triangle_rows. rewrite (proj2 (Nat.eqb_neq E 1)) by lia.
    match goal with |- exists vs, alloc _ ?r = _ /\ _ => set (rows := r) end.
    assert (L : length rows = (E * (E + 1) / 2)%nat).
    { unfold rows. rewrite length_flat_map. rewrite (nsum_ext _ (fun k => (E - k)%nat)) by (intros; rewrite map_length, seq_length; reflexivity).
      pose proof (tri_off E E (Nat.le_refl E)) as T. apply (Nat.div_unique _ _ _ 0); [lia|]. rewrite T. lia. }
    exists rows. split; [apply alloc_ok, L|]. split; [exact L|]. split; [intros a b Hab; apply (nth_tri_rows vertex), Hab|].
    intros p Hp. apply in_flat_map in Hp as (b & Hb & Hp). apply in_map_iff in Hp as (a & <- & Ha). apply in_seq in Hb, Ha. exists a, b. split; [lia|reflexivity].
  Qed.
  Lemma triangle_rows_len E vertex vs : triangle_rows (F := F) E vertex = Ok vs -> length vs = (E * (E + 1) / 2)%nat.
  Proof. unfold triangle_rows. destruct (E =? 1)%nat; [discriminate|]. intros H. apply alloc_inv in H as [-> H]. exact H. Qed.
  Lemma triangle_rows_ext E v v' : (forall a b, (a + b < E)%nat -> (2 <= E)%nat -> v b a = v' b a) -> triangle_rows (F := F) E v = triangle_rows E v'.
  Proof.
    intros H. unfold triangle_rows. destruct (E =? 1)%nat eqn:E1; [reflexivity|]. f_equal. apply flat_map_ext_in. intros b Hb. apply in_seq in Hb. apply map_ext_in. intros a Ha. apply in_seq in Ha. apply H; [lia|]. apply Nat.eqb_neq in E1. lia.
  Qed.
  Lemma triangle_general (W H : F) E : triangle_vertices W H E = general_triangle_vertices [0; 0; 0] [W; 0; 0] [0; H; 0] E.
  Proof. apply triangle_rows_ext. intros a b _ _. unfold vadd, vscale. cbn [map combine fst snd]. repeat (apply f_equal2; [ring|]). reflexivity. Qed.
  Lemma equilateral_general (s L : F) E : equilateral_triangle_vertices s L E = general_triangle_vertices [0; 0; 0] [L; 0; 0] [L / two; s / two * L; 0] E.
  Proof.
    apply triangle_rows_ext. intros a b _ HE. unfold vadd, vscale, frac. cbn [map combine fst snd]. pose proof (n1_neq E ltac:(lia)). pose proof two_neq. repeat (apply f_equal2; [field; auto|]). reflexivity.
  Qed.
  Lemma nth_vadd (u v : list F) j : length u = length v -> nth j (vadd u v) 0 = nth j u 0 + nth j v 0.
  Proof.
    revert v j. induction u as [|x u IH]; intros [|y v] j L; try discriminate; [destruct j; cbn; ring|]. destruct j as [|j]; [reflexivity|]. cbn [vadd combine map nth]. apply IH. cbn in L. lia.
  Qed.
  Lemma nth_vscale c (u : list F) j : nth j (vscale c u) 0 = c * nth j u 0.
  Proof. revert j. induction u as [|x u IH]; intros [|j]; cbn [vscale map nth]; try ring. apply IH. Qed.
  Lemma length_vadd (u v : list F) : length (vadd u v) = Nat.min (length u) (length v).
  Proof. unfold vadd. rewrite map_length, combine_length. reflexivity. Qed.
  Lemma length_vscale c (u : list F) : length (vscale c u) = length u. Proof. apply map_length. Qed.
  (** Coordinate [j] of the vertex of the multi-index [(a, b)]. *)
  Lemma general_vertices_eq (v0 v1 v2 : list F) E : (2 <= E)%nat -> length v1 = length v0 -> length v2 = length v0 -> exists vs, general_triangle_vertices v0 v1 v2 E = Ok vs /\ length vs = (E * (E + 1) / 2)%nat /\
    (forall p, In p vs -> length p = length v0) /\
    forall a b j, (a + b < E)%nat -> nth j (nth (tenc E (a, b)) vs []) 0 = nth j v0 0 + kofnat a * ((nth j v1 0 - nth j v0 0) / kofnat (E - 1)) + kofnat b * ((nth j v2 0 - nth j v0 0) / kofnat (E - 1)).
  Proof.
    intros HE L1 L2. destruct (triangle_rows_eq E (fun row col => let w := frac row E in let v := frac col E in let u := 1 - v - w in vadd (vadd (vscale u v0) (vscale v v1)) (vscale w v2)) HE) as (vs & EQ & L & N & A).
    exists vs. split; [exact EQ|]. split; [exact L|]. split.
    - intros p Hp. apply A in Hp as (a & b & _ & ->). cbv zeta. rewrite !length_vadd, !length_vscale. lia.
    - intros a b j Hab. rewrite N by exact Hab. cbv zeta. rewrite nth_vadd by (rewrite length_vadd, !length_vscale; lia). rewrite nth_vadd by (rewrite !length_vscale; lia). rewrite !nth_vscale. unfold frac. pose proof (n1_neq E ltac:(lia)). field. auto.
  Qed.

  Lemma unit_cube_eq w h d : (1 < w)%nat -> (1 < h)%nat -> (1 < d)%nat -> exists vs, unit_cube_vertices (F := F) w h d = Ok vs /\ length vs = (w * h * d)%nat /\
    forall a b c, (a < w)%nat -> (b < h)%nat -> (c < d)%nat -> nth (enc3 w h (a, b, c)) vs [] = [frac a w; frac b h; frac c d].
  Proof.
    intros Hw Hh Hd. unfold unit_cube_vertices. rewrite !(proj2 (Nat.ltb_ge _ 2)) by lia.
    match goal with |- exists vs, alloc _ ?r = _ /\ _ => set (rows := r) end.
    assert (LI : forall i, length (flat_map (fun j => map (fun k => [frac (F := F) k w; frac j h; frac i d]) (seq 0 w)) (seq 0 h)) = (w * h)%nat).
    { intros i. rewrite (length_flat_map_const _ _ w) by (intros; rewrite map_length, seq_length; reflexivity). rewrite seq_length. lia. }
    assert (L : length rows = (w * h * d)%nat).
    { unfold rows. rewrite (length_flat_map_const _ _ (w * h)) by (intros; apply LI). rewrite seq_length. lia. }
    exists rows. split; [apply alloc_ok, L|]. split; [exact L|]. intros a b c Ha Hb Hc. rewrite enc3_enc. unfold rows. cbv [cx cy cz fst snd]. unfold enc at 1. cbn [fst snd].
    rewrite nth_flat_map_const; [|intros; apply LI|exact Hc|apply enc_bound; assumption]. unfold enc. cbn [fst snd].
    rewrite nth_flat_map_const; [|intros; rewrite map_length, seq_length; reflexivity|exact Hb|exact Ha]. rewrite nth_seq_map by exact Ha. reflexivity.
  Qed.
  Lemma length_tcells3 E : length (tcells3 E) = ((E + 2) * (E + 1) * E / 6)%nat.
  Proof.
    destruct E as [|r]; [reflexivity|].
    assert (LC : length (tcells3 (S r)) = cum (cum (cum (fun _ => 1%nat))) r).
    { pose proof (tcells3_all_mi (S r) ltac:(lia)) as T. rewrite <- (map_length (fun c => [cx c; cy c; cz c])), <- T. replace (S r - 1)%nat with r by lia.
      rewrite <- (sum_all_mi_0 r (cum (cum (cum (fun _ => 1%nat))))), <- !sum_all_mi. generalize (all_mi 3 r). induction l as [|x l IH]; [reflexivity|]. cbn [map length]. rewrite nsum_cons, IH. reflexivity. }
    assert (C1 : forall m, cum (fun _ => 1%nat) m = S m) by (induction m as [|m IH]; [reflexivity|rewrite cum_S, IH; lia]).
    assert (C2 : forall m, (2 * cum (cum (fun _ => 1%nat)) m = S m * (m + 2))%nat) by (induction m as [|m IH]; [reflexivity|rewrite cum_S, Nat.mul_add_distr_l, IH, C1; lia]).
    assert (C3 : forall m, (6 * cum (cum (cum (fun _ => 1%nat))) m = S m * (m + 2) * (m + 3))%nat).
    { induction m as [|m IH]; [reflexivity|]. rewrite cum_S, Nat.mul_add_distr_l, IH. replace (6 * cum (cum (fun _ => 1%nat)) (S m))%nat with (3 * (2 * cum (cum (fun _ => 1%nat)) (S m)))%nat by lia. rewrite C2. lia. }
    rewrite LC. apply (Nat.div_unique _ _ _ 0); [lia|]. rewrite C3. lia.
  Qed.
  Lemma tetrahedron_vertices_eq E : (2 <= E)%nat -> exists vs, tetrahedron_vertices (F := F) E = Ok vs /\ length vs = ((E + 2) * (E + 1) * E / 6)%nat /\
    forall a b c, (a + b + c < E)%nat -> nth (penc E (a, b, c)) vs [] = [frac a E; frac b E; frac c E].
  Proof.
    intros HE. unfold tetrahedron_vertices. rewrite (proj2 (Nat.leb_le 2 E) HE). cbn [assert_ bind].
    assert (R : flat_map (fun w => flat_map (fun v => map (fun u => [frac (F := F) u E; frac v E; frac w E]) (seq 0 (E - v - w))) (seq 0 (E - w))) (seq 0 E) = map (fun c => [frac (cx c) E; frac (cy c) E; frac (cz c) E]) (tcells3 E)).
    { unfold tcells3. rewrite map_flat_map. apply flat_map_ext_in. intros w _. rewrite map_flat_map. apply flat_map_ext_in. intros v _. rewrite map_map. reflexivity. }
    rewrite R. eexists. split; [apply alloc_ok; rewrite map_length; apply length_tcells3|]. split; [rewrite map_length; apply length_tcells3|].
    intros a b c H. pose proof (penc_pos E (a, b, c)) as P. cbv [cx cy cz fst snd] in P. specialize (P H). apply pos_nth in P. rewrite tcells3_all_mi in P by lia.
    rewrite nth_error_map in P. destruct (nth_error (tcells3 E) (penc E (a, b, c))) as [[[a' b'] c']|] eqn:N; [|discriminate]. cbn in P. injection P as -> -> ->.
    apply (map_nth_error (fun c => [frac (F := F) (cx c) E; frac (cy c) E; frac (cz c) E])) in N. apply nth_error_nth with (d := []) in N. rewrite N. reflexivity.
  Qed.

  (** ** Areas and volumes *)
  Lemma rectangle_area (W H : F) w h tris vs : (1 < w)%nat -> (1 < h)%nat -> rectangle_triangulation w h = Ok tris -> rectangle_vertices W H w h = Ok vs ->
    forall t, In t tris -> signed_area vs t = W * H / (two * kofnat (w - 1) * kofnat (h - 1)).
  Proof.
    intros Hw Hh ET EV t Ht. destruct (rectangle_eq w h Hw Hh) as [ET' _]. rewrite ET' in ET. injection ET as <-. destruct (rectangle_vertices_eq W H w h Hw Hh) as (vs' & EV' & _ & N). rewrite EV' in EV. injection EV as <-.
    apply in_map_iff in Ht as (c & <- & Hc). pose proof Hc as Hc'. apply in_ct2 in Hc as ([a b] & Hab & Hc). apply in_gcells in Hab.
    pose proof (n1_neq w Hw). pose proof (n1_neq h Hh). pose proof two_neq.
    destruct Hc as [->|[_ ->]]; unfold signed_area, T1, T2; cbn [map fst snd]; rewrite !N by lia; unfold coord; cbn [nth]; rewrite !kofnat_S; field; auto.
  Qed.
  Lemma sum_const {A} (f : A -> F) c l : (forall x, In x l -> f x = c) -> ksum l f = kofnat (length l) * c.
  Proof. intros H. rewrite (ksum_ext f (fun _ => c)) by exact H. apply ksum_const. Qed.
  Lemma rectangle_area_sum (W H : F) w h tris vs : (1 < w)%nat -> (1 < h)%nat -> rectangle_triangulation w h = Ok tris -> rectangle_vertices W H w h = Ok vs -> ksum tris (signed_area vs) = W * H.
  Proof.
    intros Hw Hh ET EV. rewrite (sum_const _ (W * H / (two * kofnat (w - 1) * kofnat (h - 1)))) by (apply (rectangle_area W H w h); assumption).
    destruct (rectangle_eq w h Hw Hh) as [ET' L]. rewrite ET' in ET. injection ET as <-. rewrite map_length, L, !kofnat_mul. replace (kofnat 2) with (two : F) by (unfold kofnat; cbn; ring).
    pose proof (n1_neq w Hw). pose proof (n1_neq h Hh). pose proof two_neq. field. auto.
  Qed.
  Lemma general_area (v0 v1 v2 : list F) E tris vs : (2 <= E)%nat -> length v1 = length v0 -> length v2 = length v0 -> triangle_triangulation E = Ok tris -> general_triangle_vertices v0 v1 v2 E = Ok vs ->
    forall t, In t tris -> signed_area vs t = signed_area [v0; v1; v2] [0; 1; 2]%nat / kofnat ((E - 1) ^ 2).
  Proof.
    intros HE L1 L2 ET EV t Ht. rewrite triangle_eq in ET by lia. injection ET as <-. destruct (general_vertices_eq v0 v1 v2 E HE L1 L2) as (vs' & EV' & _ & _ & N). rewrite EV' in EV. injection EV as <-.
    apply in_map_iff in Ht as (c & <- & Hc). apply in_ct2 in Hc as ([a b] & Hab & Hc). apply in_tri_cells in Hab. cbn [fst snd] in Hc. rewrite Nat.ltb_lt in Hc.
    pose proof (n1_neq E ltac:(lia)). pose proof two_neq. replace ((E - 1) ^ 2)%nat with ((E - 1) * (E - 1))%nat by (cbn; lia). rewrite kofnat_mul.
    destruct Hc as [->|[Hp ->]]; unfold signed_area, T1, T2; cbn [map fst snd nth]; unfold coord; rewrite !N by lia; rewrite !kofnat_S; field; auto.
  Qed.
  Lemma general_area_sum (v0 v1 v2 : list F) E tris vs : (2 <= E)%nat -> length v1 = length v0 -> length v2 = length v0 -> triangle_triangulation E = Ok tris -> general_triangle_vertices v0 v1 v2 E = Ok vs ->
    ksum tris (signed_area vs) = signed_area [v0; v1; v2] [0; 1; 2]%nat.
  Proof.
    intros HE L1 L2 ET EV. rewrite (sum_const _ (signed_area [v0; v1; v2] [0; 1; 2]%nat / kofnat ((E - 1) ^ 2))) by (apply (general_area v0 v1 v2 E); assumption).
    rewrite triangle_eq in ET by lia. injection ET as <-. rewrite map_length, tri_ct_length. assert (kofnat ((E - 1) ^ 2) <> 0 :> F) by (apply kofnat_neq, Nat.pow_nonzero; lia). field. auto.
  Qed.
  Lemma six_neq : kofnat 6 <> 0 :> F. Proof. apply kofnat_neq. discriminate. Qed.
  Lemma box_volume w h d tets vs : (1 < w)%nat -> (1 < h)%nat -> (1 < d)%nat -> rectangular_box_triangulation w h d = Ok tets -> unit_cube_vertices w h d = Ok vs ->
    forall t, In t tets -> signed_volume vs t = 1 / (kofnat 6 * kofnat (w - 1) * kofnat (h - 1) * kofnat (d - 1)).
  Proof.
    intros Hw Hh Hd ET EV t Ht. destruct (box_eq w h d Hw Hh Hd) as [ET' _]. rewrite ET' in ET. injection ET as <-. destruct (unit_cube_eq w h d Hw Hh Hd) as (vs' & EV' & _ & N). rewrite EV' in EV. injection EV as <-.
    apply in_map_iff in Ht as (t' & <- & Hc). apply in_ct3 in Hc as ([[a b] c] & q & Hab & _ & Hq & ->). apply in_gcells3 in Hab.
    pose proof (n1_neq w Hw). pose proof (n1_neq h Hh). pose proof (n1_neq d Hd). pose proof six_neq.
    destruct q as [|[|[|[|[|[|q]]]]]]; [..|lia]; unfold signed_volume; cbn [nth six map]; rewrite !N by lia; unfold coord; cbn [nth]; unfold frac; rewrite !kofnat_S; set (k6 := 1 + (1 + (1 + (1 + (1 + (1 + kofnat 0)))))) in *; field; auto.
  Qed.
  Lemma box_volume_sum w h d tets vs : (1 < w)%nat -> (1 < h)%nat -> (1 < d)%nat -> rectangular_box_triangulation w h d = Ok tets -> unit_cube_vertices w h d = Ok vs -> ksum tets (signed_volume vs) = 1.
  Proof.
    intros Hw Hh Hd ET EV. rewrite (sum_const _ (1 / (kofnat 6 * kofnat (w - 1) * kofnat (h - 1) * kofnat (d - 1)))) by (apply (box_volume w h d); assumption).
    destruct (box_eq w h d Hw Hh Hd) as [ET' L]. rewrite ET' in ET. injection ET as <-. rewrite map_length, L, !kofnat_mul.
    pose proof (n1_neq w Hw). pose proof (n1_neq h Hh). pose proof (n1_neq d Hd). pose proof six_neq. field. auto.
  Qed.
  Lemma tet_volume E tets vs : (2 <= E)%nat -> tetrahedron_triangulation E = Ok tets -> tetrahedron_vertices E = Ok vs ->
    forall t, In t tets -> signed_volume vs t = 1 / (kofnat 6 * kofnat ((E - 1) ^ 3)).
  Proof.
    intros HE ET EV t Ht. rewrite tet_eq in ET by exact HE. injection ET as <-. destruct (tetrahedron_vertices_eq E HE) as (vs' & EV' & _ & N). rewrite EV' in EV. injection EV as <-.
    apply in_map_iff in Ht as (t' & <- & Hc). pose proof Hc as HB. apply in_ct3 in Hc as ([[a b] c] & q & Hab & Hq & H6 & ->). apply in_tcells3 in Hab. apply tcnt_lt in Hq.
    pose proof (n1_neq E ltac:(lia)). pose proof six_neq. replace ((E - 1) ^ 3)%nat with ((E - 1) * (E - 1) * (E - 1))%nat by (cbn; lia). rewrite !kofnat_mul.
    destruct q as [|[|[|[|[|[|q]]]]]]; [..|lia]; unfold signed_volume; cbn [nth six map]; rewrite !N by lia; unfold coord; cbn [nth]; unfold frac; rewrite !kofnat_S; set (k6 := 1 + (1 + (1 + (1 + (1 + (1 + kofnat 0)))))) in *; field; auto.
  Qed.
  Lemma tet_volume_sum E tets vs : (2 <= E)%nat -> tetrahedron_triangulation E = Ok tets -> tetrahedron_vertices E = Ok vs -> ksum tets (signed_volume vs) = 1 / kofnat 6.
  Proof.
    intros HE ET EV. rewrite (sum_const _ (1 / (kofnat 6 * kofnat ((E - 1) ^ 3)))) by (apply (tet_volume E); assumption).
    rewrite tet_eq in ET by exact HE. injection ET as <-. rewrite map_length, tet_ct_length by lia. assert (kofnat ((E - 1) ^ 3) <> 0 :> F) by (apply kofnat_neq, Nat.pow_nonzero; lia). pose proof six_neq. field. auto.
  Qed.
End Verts.
