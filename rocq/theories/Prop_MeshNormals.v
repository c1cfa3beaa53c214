(** Properties C104-C107: geometry/mesh/triangle_mesh.py. *)
From Coq Require Import Reals Lra Psatz Lia.
From Coquelicot Require Import Coquelicot.
From Verif Require Import Base MultiIndex RVec Angle AngleFacts Rotation RotFacts Triangle TriFacts Prop_Triangle MeshNormals MeshNormalsFacts.
Local Open Scope R_scope.

(** ** vocabulary *)
(** corner [j] of a triangle of a mesh, corners are counted modulo three *)
Definition corner (tr : list nat) (j : nat) : nat := nth (j mod 3) tr 0%nat.
Definition at_corner (v : list vec) (tr : list nat) (j : nat) : vec := point v (corner tr j).
(** the sum of [f] over the corners at vertex [k] *)
Definition star (d : nat) (t : list (list nat)) (k : nat) (f : list nat -> nat -> vec) : vec :=
  vsum d (flat_map (fun tr => map (f tr) (filter (fun j => (corner tr j =? k)%nat) [0; 1; 2]%nat)) t).
(** [r] is the unit vector along [s], nan for the zero vector *)
Definition is_direction (r : row) (s : vec) : Prop :=
  match r with Some u => vnorm u = 1 /\ exists c, 0 < c /\ u = vscale c s | None => s = vzero (length s) end.
(** the normal of a triangle, its length is twice the area *)
Definition long_normal (p q r : vec) : vec := cross3 (vsub q p) (vsub r p).
Definition unit_normal (p q r : vec) : vec := vscale (/ vnorm (long_normal p q r)) (long_normal p q r).
(** the weight of a triangle at its corner [p] *)
Definition weight_at (w : weight) (p q r : vec) : R :=
  match w with
  | WNone => 1
  | WArea => vnorm (long_normal p q r) / 2
  | WAngle => acos (vdot (vsub q p) (vsub r p) / (vnorm (vsub q p) * vnorm (vsub r p)))
  | WCentroid => / vnorm (vsub (vscale (/ 3) (vadd (vadd p q) r)) p)
  end.

Lemma long_normal_cyc p q r : length p = 3%nat -> length q = 3%nat -> length r = 3%nat -> long_normal q r p = long_normal p q r.
Proof.
  intros Hp Hq Hr. unfold long_normal. destruct (len3 p Hp) as (a & b & c & ->), (len3 q Hq) as (d & e & f & ->), (len3 r Hr) as (g & h & i & ->). vcalc. veq ltac:(ring).
Qed.
Lemma long_normal_norm p q r : length p = 3%nat -> length q = 3%nat -> length r = 3%nat -> vnorm (long_normal p q r) = tS p q r.
Proof.
  intros Hp Hq Hr. unfold long_normal. rewrite cross_shift by assumption. unfold vnorm, tS. rewrite lagrange_id by (unfold e0, e1; rewrite vsub_len; congruence). reflexivity.
Qed.
Lemma normal_row_ok p q r : proper p q r -> length p = 3%nat -> normal_row [p; q; r] = Ok (Some (unit_normal p q r)).
Proof.
  intros Hp H3. pose proof Hp as (Hq & Hr & _). pose proof (tS_gt p q r (proper_gram _ _ _ Hp)) as T. rewrite <- long_normal_norm in T by congruence.
  assert (E : area_weighted_normal [p; q; r] = Ok (CV (long_normal p q r))).
  { unfold area_weighted_normal. rewrite edges_eq. cbn [vx nth]. unfold np_cross, long_normal. rewrite cross_shift by congruence. assert (L0 : length (e0 q r) = 3%nat) by (unfold e0; vlen). assert (L1 : length (e1 p r) = 3%nat) by (unfold e1; vlen). rewrite L0, L1. reflexivity. }
  unfold normal_row, normal. unfold area_weighted_normal in E. unfold area_weighted_normal. rewrite E. cbn [bind cross_norm cross_div]. rewrite reqb_f by lra. rewrite vdivs_scale. reflexivity.
Qed.
Lemma weight0_ok w p q r : proper p q r -> length p = 3%nat -> corner_weight w [p; q; r] p 0 = Ok (weight_at w p q r).
Proof.
  intros Hp H3. pose proof Hp as (Hq & Hr & _). destruct w; cbn [corner_weight weight_at].
  - reflexivity.
  - rewrite (area_ok (length p)) by auto. rewrite long_normal_norm by congruence. f_equal. unfold tS. field.
  - destruct (angle0_ok (length p) p q r eq_refl Hq Hr (meas_of _ _ _ (meas3 _ _ _ Hp H3))) as (a & -> & I & K). f_equal. rewrite <- (acos_cos a I). f_equal. rewrite K. f_equal.
    + replace (gB p q r + gC p r) with (- vdot (e1 p r) (e2 p q)) by (rewrite (dot12 (length p)) by auto; ring). unfold e1, e2. replace (vsub r p) with (vscale (-1) (vsub p r)) by vring. rewrite vdot_scale_r, (vdot_sym (vsub q p)). ring.
    + unfold len1, len2_, e1, e2. replace (vsub r p) with (vscale (-1) (vsub p r)) by vring. rewrite neg_norm. ring.
  - f_equal. f_equal. f_equal. unfold centroid. cbn [vx nth]. rewrite vdivs_scale. f_equal. 
Qed.
Lemma weight1_ok w p q r : proper p q r -> length p = 3%nat -> corner_weight w [p; q; r] q 1 = Ok (weight_at w q r p).
Proof.
  intros Hp H3. pose proof Hp as (Hq & Hr & _). rewrite <- weight0_ok; [|apply proper_cyc, Hp|congruence]. destruct w; cbn [corner_weight]; try reflexivity.
  - rewrite !(area_ok (length p)) by (congruence || auto). rewrite (gD_cyc (length p) p q r) by auto. reflexivity.
  - f_equal. f_equal. f_equal. unfold centroid. cbn [vx nth]. f_equal. vring.
Qed.
Lemma weight2_ok w p q r : proper p q r -> length p = 3%nat -> corner_weight w [p; q; r] r 2 = Ok (weight_at w r p q).
Proof.
  intros Hp H3. pose proof Hp as (Hq & Hr & _). rewrite <- (weight1_ok w q r p); [|apply proper_cyc, Hp|congruence]. destruct w; cbn [corner_weight]; try reflexivity.
  - rewrite !(area_ok (length p)) by (congruence || auto). rewrite (gD_cyc (length p) p q r) by auto. reflexivity.
  - f_equal. f_equal. f_equal. unfold centroid. cbn [vx nth]. f_equal. vring.
Qed.
Lemma normalize_direction s : is_direction (row_normalize (Some s)) s.
Proof.
  cbn [row_normalize]. unfold reqb. destruct (Req_EM_T (vnorm s) 0) as [E|N].
  - apply vdot_zero_inv, vnorm_zero, E.
  - pose proof (vnorm_pos s) as P. assert (Q : 0 < / vnorm s) by (apply Rinv_0_lt_compat; lra). cbn [is_direction]. rewrite vdivs_scale. split; [|exists (/ vnorm s); auto]. rewrite vnorm_scale, Rabs_right by lra. field. exact N.
Qed.
Lemma at_key_star (f : list nat -> nat -> vec) k t : (forall tr, In tr t -> length tr = 3%nat) ->
  at_key k (flat_map (fun tr => map (fun j => (corner tr j, f tr j)) [0; 1; 2]%nat) t) = flat_map (fun tr => map (f tr) (filter (fun j => (corner tr j =? k)%nat) [0; 1; 2]%nat)) t.
Proof.
  intros H. rewrite at_key_flat. induction t as [|tr t IH]; [reflexivity|]. cbn [flat_map]. f_equal; [|apply IH; intros; apply H; now right]. unfold at_key. cbn [map filter fst].
  destruct (corner tr 0 =? k)%nat, (corner tr 1 =? k)%nat, (corner tr 2 =? k)%nat; reflexivity.
Qed.
Lemma combine_map {A B} (f : A -> B) l : combine l (map f l) = map (fun x => (x, f x)) l.
Proof. induction l as [|x l IH]; cbn [map combine]; [|rewrite IH]; reflexivity. Qed.
Lemma foldM_map {S A B} (f : S -> B -> result S) (g : A -> B) st l : foldM f st (map g l) = foldM (fun s x => f s (g x)) st l.
Proof. revert st. induction l as [|x l IH]; intros st; [reflexivity|]. cbn [map foldM]. destruct (f st (g x)); cbn [bind]; auto. Qed.

Lemma some_repeat (x : vec) n : map (@Some vec) (repeat x n) = repeat (Some x) n.
Proof. induction n as [|n IH]; cbn [repeat map]; [|rewrite IH]; reflexivity. Qed.

Lemma nth_rows (f : row -> row) (ms : list vec) k : (k < length ms)%nat -> nth k (map f (map (@Some vec) ms)) None = f (Some (nth k ms [])).
Proof. revert k. induction ms as [|m ms IH]; intros k H; [cbn in H; lia|]. destruct k; [reflexivity|]. cbn [map nth]. apply IH. cbn in H. lia. Qed.

Lemma nth_rep (x : vec) n k d : (k < n)%nat -> nth k (repeat x n) d = x.
Proof. revert k. induction n as [|n IH]; intros k H; [lia|]. destruct k; [reflexivity|]. cbn [repeat nth]. apply IH. lia. Qed.

(** ** C104: vertex normals are weighted sums of triangle normals *)
Definition corner_normal (w : weight) (v : list vec) (tr : list nat) (j : nat) : vec :=
  let p := at_corner v tr j in let q := at_corner v tr (j + 1) in let r := at_corner v tr (j + 2) in
  vscale (weight_at w p q r) (unit_normal p q r).
Lemma normals_ok t v : is_mesh 3 t v -> normals t v = Ok (map (fun tr => Some (unit_normal (at_corner v tr 0) (at_corner v tr 1) (at_corner v tr 2))) t).
Proof.
  intros H. unfold normals. pose proof (proj2 H) as Ht. assert (Hpt : forall a, (a < length v)%nat -> length (point v a) = 3%nat) by (intros; eapply point_len; eauto). clear H.
  induction t as [|tr t IH]; [reflexivity|]. cbn [mapM map]. rewrite IH by (intros; apply Ht; now right). destruct (Ht tr ltac:(now left)) as (a & b & c & -> & Ha & Hb & Hc & Hp). rewrite vertices_ok by assumption. cbn [bind]. rewrite normal_row_ok by auto. reflexivity.
Qed.
Lemma unit_normal_cyc p q r : length p = 3%nat -> length q = 3%nat -> length r = 3%nat -> unit_normal q r p = unit_normal p q r.
Proof. intros. unfold unit_normal. rewrite long_normal_cyc by assumption. reflexivity. Qed.
Theorem C104_vertex_normals : forall t v w, is_mesh 3 t v -> exists rows, vertex_normals t v w = Ok rows /\ length rows = length v /\
  forall k, (k < length v)%nat -> is_direction (nth k rows None) (star 3 t k (corner_normal w v)).
Proof.
  intros t v w H. unfold vertex_normals. rewrite (normals_ok t v H). cbn [bind]. rewrite combine_map, foldM_map.
  destruct (Nat.eq_dec (length v) 0) as [Z|NZ].
  { destruct t as [|tr t]; [|destruct (proj2 H tr ltac:(now left)) as (a & _ & _ & _ & Ha & _); lia]. destruct v; [|discriminate Z]. exists []. split; [reflexivity|]. split; [reflexivity|]. cbn. intros; lia. }
  rewrite (mesh_dim_ok 3 t v H) by lia.
  assert (Hpt : forall a, (a < length v)%nat -> length (point v a) = 3%nat) by (intros; eapply point_len; eauto). pose proof (proj2 H) as Ht.
  rewrite (foldM_flat _ (fun tr => map (fun j => (corner tr j, corner_normal w v tr j)) [0; 1; 2]%nat)).
  2: { intros n tr Htr. destruct (Ht tr Htr) as (a & b & c & -> & Ha & Hb & Hc & Hp). cbn [fst snd]. rewrite vertices_ok by assumption. cbn [bind]. pose proof Hp as (Lq & Lr & _).
    unfold add_all. cbn [seq map foldM get nth_error bind fst snd]. change (corner [a; b; c] 0) with a. change (corner [a; b; c] 1) with b. change (corner [a; b; c] 2) with c.
    unfold get. rewrite (nth_error_nth' v [] Ha), (nth_error_nth' v [] Hb), (nth_error_nth' v [] Hc). cbn [bind]. fold (point v a) (point v b) (point v c).
    rewrite weight0_ok, weight1_ok, weight2_ok by auto. cbn [bind Nat.eqb option_map].
    unfold corner_normal, at_corner. cbn [Nat.add]. change (corner [a; b; c] 0) with a. change (corner [a; b; c] 1) with b. change (corner [a; b; c] 2) with c. change (corner [a; b; c] 3) with a. change (corner [a; b; c] 4) with b.
    cbv zeta. rewrite (unit_normal_cyc (point v b) (point v c) (point v a)), (unit_normal_cyc (point v a) (point v b) (point v c)) by auto. reflexivity. }
  destruct (add_all_ok 3 (flat_map (fun tr => map (fun j => (corner tr j, corner_normal w v tr j)) [0; 1; 2]%nat) t) (repeat (vzero 3) (length v))) as (ms & E & L & Hm & N).
  { intros x Hx. apply repeat_spec in Hx. subst x. reflexivity. }
  { intros c Hc. apply in_flat_map in Hc as (tr & Htr & Hc). destruct (Ht tr Htr) as (a & b & c' & -> & Ha & Hb & Hc' & Hp). rewrite repeat_length. apply in_map_iff in Hc as (j & <- & Hj). cbn [fst snd]. split; [|unfold corner_normal; cbv zeta; unfold unit_normal; rewrite !vscale_len; reflexivity]. destruct Hj as [ <- |[ <- |[ <- |[]]]]; assumption. }
  rewrite some_repeat in E. rewrite repeat_length in L, N. exists (map row_normalize (map Some ms)). split; [exact (f_equal (fun z => bind z (fun n => Ok (map row_normalize n))) E)|]. rewrite !map_length. split; [exact L|]. intros k Hk.
  rewrite nth_rows by (rewrite L; exact Hk). rewrite (N k Hk). rewrite at_key_star by (intros tr Htr; destruct (Ht tr Htr) as (a & b & c & -> & _); reflexivity).
  fold (star 3 t k (corner_normal w v)). rewrite nth_rep by exact Hk. assert (Ls : length (star 3 t k (corner_normal w v)) = 3%nat).
  { apply vsum_len. intros x Hx. apply in_flat_map in Hx as (tr & _ & Hx). apply in_map_iff in Hx as (j & <- & _). unfold corner_normal. cbv zeta. unfold unit_normal. rewrite !vscale_len. reflexivity. }
  replace (vadd (vzero 3) (star 3 t k (corner_normal w v))) with (star 3 t k (corner_normal w v)); [apply normalize_direction|]. symmetry. apply vec_ext; [rewrite vadd_len; [symmetry; exact Ls|rewrite Ls; reflexivity]|]. intros i _. rewrite nth_vadd by (rewrite Ls; reflexivity). rewrite nth_vzero. apply Rplus_0_l.
Qed.
Print Assumptions C104_vertex_normals.

(** ** C105: the area weighted normal of a closed mesh is the direction of the volume gradient *)
(** six times the signed volume between the origin and a triangle *)
Definition mesh_volume (t : list (list nat)) (v : list vec) : R :=
  / 6 * rsum (map (fun tr => vdot (at_corner v tr 0) (cross3 (at_corner v tr 1) (at_corner v tr 2))) t).
Definition directed_edges (t : list (list nat)) : list (nat * nat) := flat_map (fun tr => map (fun j => (corner tr j, corner tr (j + 1))) [0; 1; 2]%nat) t.
Definition edge_dec : forall e f : nat * nat, {e = f} + {e <> f}.
Proof. decide equality; apply Nat.eq_dec. Defined.
(** every edge is used as often in each direction *)
Definition closed (t : list (list nat)) : Prop := forall a b, count_occ edge_dec (directed_edges t) (a, b) = count_occ edge_dec (directed_edges t) (b, a).
(** vertex [k] moved from its place in the direction [d] *)
Definition moved (v : list vec) (k : nat) (d : vec) (h : R) : list vec := upd v k (vadd (point v k) (vscale h d)).
(** [g] is the gradient of [f] with respect to the coordinates of vertex [k] *)
Definition is_gradient (f : list vec -> R) (v : list vec) (k : nat) (g : vec) : Prop :=
  length g = length (point v k) /\ forall d, length d = length g -> derivable_pt_lim (fun h => f (moved v k d h)) 0 (vdot g d).

Lemma direction_scale r s c : 0 < c -> is_direction r (vscale c s) -> is_direction r s.
Proof.
  intros Hc. destruct r as [u|]; cbn [is_direction].
  - intros (Hu & x & Hx & ->). split; [exact Hu|]. exists (x * c). split; [nra|]. apply vec_ext; [rewrite !vscale_len; reflexivity|]. intros i _. rewrite !nth_vscale. ring.
  - rewrite vscale_len. intros E. apply vec_ext; [rewrite vzero_len; reflexivity|]. intros i _. pose proof (f_equal (fun w => nth i w 0) E) as K. cbn beta in K. rewrite nth_vscale in K. rewrite nth_vzero in *. nra.
Qed.
Lemma direction_scale_inv r s c : 0 < c -> is_direction r s -> is_direction r (vscale c s).
Proof.
  intros Hc H. apply (direction_scale r (vscale c s) (/ c)); [apply Rinv_0_lt_compat, Hc|]. replace (vscale (/ c) (vscale c s)) with s; [exact H|]. apply vec_ext; [rewrite !vscale_len; reflexivity|]. intros i _. rewrite !nth_vscale. field. lra.
Qed.
Lemma rsum_perm l m : Permutation l m -> rsum l = rsum m.
Proof.
  induction 1 as [|x l m _ IH|x y l|l m n _ IH1 _ IH2]; [reflexivity| | |congruence].
  - change (x + rsum l = x + rsum m). rewrite IH. reflexivity.
  - change (y + (x + rsum l) = x + (y + rsum l)). ring.
Qed.
Definition swap (e : nat * nat) : nat * nat := (snd e, fst e).
Lemma closed_perm t : closed t -> Permutation (directed_edges t) (map swap (directed_edges t)).
Proof.
  intros C. apply (Permutation_count_occ edge_dec). intros [a b]. rewrite C. generalize (directed_edges t). induction l as [|[x y] l IH]; [reflexivity|]. cbn [map count_occ]. change (swap (x, y)) with (y, x). destruct (edge_dec (x, y) (b, a)) as [E|N], (edge_dec (y, x) (a, b)) as [E'|N']; try (exfalso; congruence); [f_equal|]; exact IH.
Qed.
Lemma rsum_flat {A} (f : A -> vec) l : rsum (flat_map f l) = rsum (map (fun x => rsum (f x)) l).
Proof. induction l as [|x l IH]; [reflexivity|]. cbn [flat_map]. rewrite rsum_app, IH. reflexivity. Qed.
(** sums over the edges out of a vertex and over those into it *)
Lemma closed_sum t k (phi : nat -> R) : closed t ->
  rsum (map (fun tr => rsum (map (fun j => phi (corner tr (j + 1))) (filter (fun j => (corner tr j =? k)%nat) [0; 1; 2]%nat))) t) =
  rsum (map (fun tr => rsum (map (fun j => phi (corner tr (j + 2))) (filter (fun j => (corner tr j =? k)%nat) [0; 1; 2]%nat))) t).
Proof.
  intros C. set (F := fun e : nat * nat => if (fst e =? k)%nat then phi (snd e) else 0).
  transitivity (rsum (map F (directed_edges t))); [|transitivity (rsum (map F (map swap (directed_edges t))))].
  - unfold directed_edges. rewrite flat_map_concat_map, concat_map, map_map, <- flat_map_concat_map, rsum_flat. apply rsum_ext. intros tr _. cbn [map filter Nat.add]. unfold F. cbn [fst snd].
    destruct (corner tr 0 =? k)%nat, (corner tr 1 =? k)%nat, (corner tr 2 =? k)%nat; cbn [map Nat.add]; unfold rsum; cbn [fold_right]; ring.
  - apply rsum_perm, Permutation_map, closed_perm, C.
  - unfold directed_edges. rewrite flat_map_concat_map, !concat_map, !map_map, <- flat_map_concat_map, rsum_flat. apply rsum_ext. intros tr _. cbn [map filter Nat.add]. unfold F, swap. cbn [fst snd].
    change (corner tr 3) with (corner tr 0). change (corner tr 4) with (corner tr 1).
    destruct (corner tr 0 =? k)%nat, (corner tr 1 =? k)%nat, (corner tr 2 =? k)%nat; cbn [map Nat.add]; change (corner tr 3) with (corner tr 0); change (corner tr 4) with (corner tr 1); unfold rsum; cbn [fold_right]; ring.
Qed.
Lemma point_moved v k d h a : (k < length v)%nat -> point (moved v k d h) a = if (a =? k)%nat then vadd (point v k) (vscale h d) else point v a.
Proof.
  intros Hk. unfold point, moved. destruct (Nat.eqb_spec a k) as [ -> |N]; [apply nth_upd_same, Hk|apply nth_upd_other; congruence].
Qed.
Lemma area_corner v tr j : corner_normal WArea v tr j = vscale (/ 2) (long_normal (at_corner v tr j) (at_corner v tr (j + 1)) (at_corner v tr (j + 2))).
Proof.
  unfold corner_normal. cbv zeta. cbn [weight_at]. unfold unit_normal. set (L := long_normal _ _ _). destruct (Req_dec (vnorm L) 0) as [E|N].
  - rewrite E. pose proof (vdot_zero_inv L (proj1 (vnorm_zero L) E)) as Z. apply vec_ext; [rewrite !vscale_len; reflexivity|]. intros i _. rewrite !nth_vscale. rewrite Z, nth_vzero. ring.
  - apply vec_ext; [rewrite !vscale_len; reflexivity|]. intros i _. rewrite !nth_vscale. field. exact N.
Qed.
Theorem C105_volume_gradient : forall t v, is_mesh 3 t v -> closed t -> exists rows, vertex_normals t v WArea = Ok rows /\ length rows = length v /\
  forall k, (k < length v)%nat -> exists g, is_gradient (mesh_volume t) v k g /\ is_direction (nth k rows None) g.
Proof.
  intros t v H C. destruct (C104_vertex_normals t v WArea H) as (rows & E & L & N). exists rows. split; [exact E|]. split; [exact L|]. intros k Hk.
  pose proof (proj2 H) as Ht. assert (Hpt : forall a, (a < length v)%nat -> length (point v a) = 3%nat) by (intros; eapply point_len; eauto).
  set (s := star 3 t k (corner_normal WArea v)). assert (Hl : forall x, In x (flat_map (fun tr => map (corner_normal WArea v tr) (filter (fun j => (corner tr j =? k)%nat) [0; 1; 2]%nat)) t) -> length x = 3%nat).
  { intros x Hx. apply in_flat_map in Hx as (tr & _ & Hx). apply in_map_iff in Hx as (j & <- & _). unfold corner_normal. cbv zeta. unfold unit_normal. rewrite !vscale_len. reflexivity. }
  assert (Ls : length s = 3%nat) by (apply vsum_len, Hl).
  exists (vscale (/ 3) s). split; [|apply direction_scale_inv; [lra|exact (N k Hk)]]. split; [rewrite vscale_len, Ls; symmetry; apply Hpt, Hk|]. rewrite vscale_len, Ls. intros d Hd.
  rewrite vdot_sym, vdot_scale_r. unfold s, star. rewrite vdot_vsum, dsum_flat by exact Hl.
  (* the change of the volume *)
  set (G := fun tr => rsum (map (fun j => vdot d (cross3 (at_corner v tr (j + 1)) (at_corner v tr (j + 2)))) (filter (fun j => (corner tr j =? k)%nat) [0; 1; 2]%nat))).
  assert (V : forall h, mesh_volume t (moved v k d h) = mesh_volume t v + h * (/ 6 * rsum (map G t))).
  { intros h. unfold mesh_volume. replace (/ 6 * rsum (map (fun tr => vdot (at_corner v tr 0) (cross3 (at_corner v tr 1) (at_corner v tr 2))) t) + h * (/ 6 * rsum (map G t)))
      with (/ 6 * (rsum (map (fun tr => vdot (at_corner v tr 0) (cross3 (at_corner v tr 1) (at_corner v tr 2))) t) + h * rsum (map G t))) by ring. f_equal. rewrite <- rsum_map_scale, <- rsum_map_add. apply rsum_ext. intros tr Htr.
    destruct (Ht tr Htr) as (a & b & c & -> & Ha & Hb & Hc & Hp). destruct (proper_idx _ _ _ _ Hp) as (N1 & N2 & N3). unfold G, at_corner. cbn [map filter Nat.add].
    change (corner [a; b; c] 0) with a. change (corner [a; b; c] 1) with b. change (corner [a; b; c] 2) with c. rewrite !point_moved by exact Hk.
    destruct (len3 _ (Hpt a Ha)) as (a0 & a1 & a2 & Ea), (len3 _ (Hpt b Hb)) as (b0 & b1 & b2 & Eb), (len3 _ (Hpt c Hc)) as (c0 & c1 & c2 & Ec), (len3 d Hd) as (d0 & d1 & d2 & Ed).
    destruct (Nat.eqb_spec a k) as [Ka|Ka], (Nat.eqb_spec b k) as [Kb|Kb], (Nat.eqb_spec c k) as [Kc|Kc]; try (exfalso; congruence); cbn [map Nat.add];
      change (corner [a; b; c] 1) with b; change (corner [a; b; c] 2) with c; change (corner [a; b; c] 3) with a; change (corner [a; b; c] 4) with b; rewrite <- ?Ka, <- ?Kb, <- ?Kc, ?Ea, ?Eb, ?Ec, ?Ed; vcalc; ring. }
  (* the closing terms *)
  assert (K : / 3 * rsum (map (fun tr => dsum d (map (corner_normal WArea v tr) (filter (fun j => (corner tr j =? k)%nat) [0; 1; 2]%nat))) t) = / 6 * rsum (map G t)).
  { pose proof (closed_sum t k (fun b => vdot d (cross3 (point v k) (point v b))) C) as CS.
    transitivity (/ 6 * (rsum (map G t) + (rsum (map (fun tr => rsum (map (fun j => vdot d (cross3 (point v k) (point v (corner tr (j + 1))))) (filter (fun j => (corner tr j =? k)%nat) [0; 1; 2]%nat))) t) -
      rsum (map (fun tr => rsum (map (fun j => vdot d (cross3 (point v k) (point v (corner tr (j + 2))))) (filter (fun j => (corner tr j =? k)%nat) [0; 1; 2]%nat))) t)))); [|rewrite CS; ring].
    replace (/ 3) with (/ 6 * 2) by lra. rewrite Rmult_assoc. f_equal. rewrite <- rsum_map_scale. unfold Rminus. replace (- rsum (map (fun tr => rsum (map (fun j => vdot d (cross3 (point v k) (point v (corner tr (j + 2))))) (filter (fun j => (corner tr j =? k)%nat) [0; 1; 2]%nat))) t))
      with ((-1) * rsum (map (fun tr => rsum (map (fun j => vdot d (cross3 (point v k) (point v (corner tr (j + 2))))) (filter (fun j => (corner tr j =? k)%nat) [0; 1; 2]%nat))) t)) by ring.
    rewrite <- rsum_map_scale, <- !rsum_map_add. apply rsum_ext. intros tr Htr. unfold G, dsum. rewrite map_map.
    destruct (Ht tr Htr) as (a & b & c & -> & Ha & Hb & Hc & Hp). destruct (proper_idx _ _ _ _ Hp) as (N1 & N2 & N3). cbn [map filter].
    change (corner [a; b; c] 0) with a. change (corner [a; b; c] 1) with b. change (corner [a; b; c] 2) with c.
    destruct (len3 _ (Hpt a Ha)) as (a0 & a1 & a2 & Ea), (len3 _ (Hpt b Hb)) as (b0 & b1 & b2 & Eb), (len3 _ (Hpt c Hc)) as (c0 & c1 & c2 & Ec), (len3 d Hd) as (d0 & d1 & d2 & Ed).
    destruct (Nat.eqb_spec a k) as [Ka|Ka], (Nat.eqb_spec b k) as [Kb|Kb], (Nat.eqb_spec c k) as [Kc|Kc]; try (exfalso; congruence); cbn [map Nat.add]; rewrite ?area_corner; unfold at_corner, long_normal; cbn [Nat.add];
      change (corner [a; b; c] 0) with a; change (corner [a; b; c] 1) with b; change (corner [a; b; c] 2) with c; change (corner [a; b; c] 3) with a; change (corner [a; b; c] 4) with b; rewrite <- ?Ka, <- ?Kb, <- ?Kc, ?Ea, ?Eb, ?Ec, ?Ed; vcalc; field. }
  rewrite K. apply is_derive_Reals. apply (is_derive_ext (fun h => mesh_volume t v + h * (/ 6 * rsum (map G t)))); [intros h; symmetry; apply V|]. auto_derive; [exact I|]. ring.
Qed.
Print Assumptions C105_volume_gradient.

(** ** C106: the cotangent normal is the direction of the area gradient *)
Definition area_of (p q r : vec) : R := sqrt (vdot (vsub q p) (vsub q p) * vdot (vsub r p) (vsub r p) - vdot (vsub q p) (vsub r p) * vdot (vsub q p) (vsub r p)) / 2.
Definition mesh_area (t : list (list nat)) (v : list vec) : R := rsum (map (fun tr => area_of (at_corner v tr 0) (at_corner v tr 1) (at_corner v tr 2)) t).
Definition measurable_mesh (t : list (list nat)) (v : list vec) : Prop := forall tr, In tr t -> measurable_triangle (at_corner v tr 0) (at_corner v tr 1) (at_corner v tr 2).

Lemma area_of_gram (p q r : vec) : length q = length p -> length r = length p -> area_of p q r = sqrt (gD p q r) / 2.
Proof.
  intros Hq Hr. unfold area_of. f_equal. f_equal. rewrite <- (gD_cyc (length p)) by auto. unfold gD, gA, gB, gC, e0, e1. replace (vsub r p) with (vscale (-1) (vsub p r)) by vring. vdots. rewrite (vdot_sym p q), (vdot_sym r q), (vdot_sym r p). ring.
Qed.
Lemma area_derive (p q r d : vec) : length q = length p -> length r = length p -> length d = length p -> 0 < gD p q r ->
  is_derive (fun h => area_of (vadd p (vscale h d)) q r) 0 ((gA q r * vdot d (e1 p r) - gB p q r * vdot d (e0 q r)) / (2 * tS p q r)).
Proof.
  intros Hq Hr Hd D. pose proof (tS_gt p q r D) as T.
  assert (E : forall h, gD (vadd p (vscale h d)) q r = gA q r * (gC p r + 2 * h * vdot d (e1 p r) + h * h * vdot d d) - (gB p q r + h * vdot d (e0 q r)) * (gB p q r + h * vdot d (e0 q r))).
  { intros h. unfold gD, gC at 1, gB at 1 2. replace (e1 (vadd p (vscale h d)) r) with (vadd (e1 p r) (vscale h d)) by (unfold e1; vring). assert (L1 : length (e1 p r) = length p) by (unfold e1; vlen).
    rewrite !vdot_add_l, !vdot_add_r by (rewrite vscale_len; congruence). rewrite !vdot_scale_l, !vdot_scale_r. rewrite (vdot_sym (e1 p r) d), (vdot_sym (e0 q r) d). unfold gC, gB. ring. }
  apply (is_derive_ext (fun h => sqrt (gA q r * (gC p r + 2 * h * vdot d (e1 p r) + h * h * vdot d d) - (gB p q r + h * vdot d (e0 q r)) * (gB p q r + h * vdot d (e0 q r))) / 2)).
  - intros h. rewrite area_of_gram by (rewrite vadd_len by (rewrite vscale_len; congruence); assumption). rewrite E. reflexivity.
  - auto_derive.
    + match goal with |- context [0 < ?x] => replace x with (gD p q r) by (unfold gD; ring) end. tauto.
    + replace (gA q r * (gC p r + 2 * 0 * vdot d (e1 p r) + 0 * 0 * vdot d d) + - ((gB p q r + 0 * vdot d (e0 q r)) * (gB p q r + 0 * vdot d (e0 q r)))) with (gD p q r) by (unfold gD; ring). fold (tS p q r). field. lra.
Qed.
Lemma area_of_cyc (p q r : vec) : length q = length p -> length r = length p -> area_of q r p = area_of p q r.
Proof. intros Hq Hr. rewrite !area_of_gram by congruence. rewrite (gD_cyc (length p)) by auto. reflexivity. Qed.
(** the cotangents of the angles *)
Definition cot0 p q r := (gB p q r + gC p r) / tS p q r.
Definition cot1 p q r := (gA q r + gB p q r) / tS p q r.
Definition cot2 p q r := - gB p q r / tS p q r.
Lemma cot_of a x y z t : 0 < y -> 0 < z -> 0 < t -> 0 <= a <= PI -> cos a = x / (y * z) -> x * x + t * t = y * y * (z * z) -> py_cot a = Ok (x / t).
Proof.
  intros Hy Hz Ht Ha Hc E. assert (S : sin a = t / (y * z)).
  { apply (sin_of a (x / (y * z))); auto; [apply Rlt_le, Rdiv_lt_0_compat; [exact Ht|apply Rmult_lt_0_compat; assumption]|]. replace (t / (y * z) * (t / (y * z))) with (t * t / (y * y * (z * z))) by (field; lra). replace (t * t) with (y * y * (z * z) - x * x) by lra. field. lra. }
  assert (0 < t / (y * z)) by (apply Rdiv_lt_0_compat; [exact Ht|apply Rmult_lt_0_compat; assumption]). unfold py_cot. rewrite S, reqb_f by lra. rewrite Hc. f_equal. field. lra.
Qed.
Lemma cot_ok (p q r : vec) : proper p q r -> measurable_triangle p q r -> exists a0 a1 a2, angle [p; q; r] 0 = Ok a0 /\ angle [p; q; r] 1 = Ok a1 /\ angle [p; q; r] 2 = Ok a2 /\
  py_cot a0 = Ok (cot0 p q r) /\ py_cot a1 = Ok (cot1 p q r) /\ py_cot a2 = Ok (cot2 p q r).
Proof.
  intros Hp M. pose proof Hp as (Hq & Hr & _). apply meas_of in M. pose proof (proper_gram _ _ _ Hp) as D. pose proof (tS_gt p q r D) as T. pose proof (tS_sq p q r D) as TS. destruct (meas_pos (length p) p q r eq_refl Hq Hr M) as (P0 & P1 & P2).
  destruct (angle0_ok (length p) p q r eq_refl Hq Hr M) as (a & Ea & Ia & Ka), (angle1_ok (length p) p q r eq_refl Hq Hr M) as (b & Eb & Ib & Kb), (angle2_ok (length p) p q r eq_refl Hq Hr M) as (c & Ec & Ic & Kc).
  exists a, b, c. pose proof (l0_sq q r) as Q0. pose proof (l1_sq p r) as Q1. pose proof (l2_sq (length p) p q r eq_refl Hq Hr) as Q2. repeat (split; [assumption|]).
  split; [|split]; [apply (cot_of a _ (len1 p r) (len2_ p q))|apply (cot_of b _ (len0 q r) (len2_ p q))|apply (cot_of c _ (len0 q r) (len1 p r))]; try assumption; rewrite TS, ?Q0, ?Q1, ?Q2; unfold gD; ring.
Qed.
(** what a triangle adds at its corners *)
Definition cot_adds (v : list vec) (tr : list nat) : list (nat * vec) :=
  let p := at_corner v tr 0 in let q := at_corner v tr 1 in let r := at_corner v tr 2 in
  [(corner tr 1, vscale (cot0 p q r) (e0 q r)); (corner tr 2, vscale (-1) (vscale (cot0 p q r) (e0 q r))); (corner tr 2, vscale (cot1 p q r) (e1 p r)); (corner tr 0, vscale (-1) (vscale (cot1 p q r) (e1 p r)));
   (corner tr 0, vscale (cot2 p q r) (e2 p q)); (corner tr 1, vscale (-1) (vscale (cot2 p q r) (e2 p q)))].
Lemma at_corners v a b c : at_corner v [a; b; c] 0 = point v a /\ at_corner v [a; b; c] 1 = point v b /\ at_corner v [a; b; c] 2 = point v c. Proof. repeat split. Qed.
Lemma cot_gradient n t v k d : is_mesh n t v -> (k < length v)%nat -> length d = n -> is_derive (fun h => mesh_area t (moved v k d h)) 0 (- / 2 * dsum d (at_key k (flat_map (cot_adds v) t))).
Proof.
  intros H Hk Hd. pose proof (proj2 H) as Ht. assert (Hpt : forall a, (a < length v)%nat -> length (point v a) = n) by (intros; eapply point_len; eauto). clear H.
  rewrite at_key_flat, dsum_flat, <- rsum_map_scale. unfold mesh_area. induction t as [|tr t IH].
  { cbn [map]. change (rsum []) with 0. apply (is_derive_ext (fun _ => 0)); [reflexivity|]. exact (is_derive_const (V := R_NormedModule) 0 0). }
  apply (is_derive_plus (V := R_NormedModule) (fun h => area_of (at_corner (moved v k d h) tr 0) (at_corner (moved v k d h) tr 1) (at_corner (moved v k d h) tr 2))
    (fun h => rsum (map (fun tr => area_of (at_corner (moved v k d h) tr 0) (at_corner (moved v k d h) tr 1) (at_corner (moved v k d h) tr 2)) t))); [|apply IH; intros; apply Ht; now right]. clear IH.
  destruct (Ht tr ltac:(now left)) as (a & b & c & -> & Ha & Hb & Hc & Hp). destruct (proper_idx _ _ _ _ Hp) as (N1 & N2 & N3).
  destruct (at_corners v a b c) as (-> & -> & ->) || idtac. pose proof (proper_gram _ _ _ Hp) as D. pose proof (tS_gt _ _ _ D) as T. pose proof (proper_gram _ _ _ (proper_cyc _ _ _ Hp)) as D1. pose proof (proper_gram _ _ _ (proper_cyc _ _ _ (proper_cyc _ _ _ Hp))) as D2.
  assert (Lp := Hpt a Ha). assert (Lq := Hpt b Hb). assert (Lr := Hpt c Hc).
  apply (is_derive_ext (fun h => area_of (if (a =? k)%nat then vadd (point v k) (vscale h d) else point v a) (if (b =? k)%nat then vadd (point v k) (vscale h d) else point v b) (if (c =? k)%nat then vadd (point v k) (vscale h d) else point v c))).
  { intros h. rewrite <- !point_moved by exact Hk. reflexivity. }
  unfold cot_adds, at_key. cbv zeta. change (corner [a; b; c] 0) with a. change (corner [a; b; c] 1) with b. change (corner [a; b; c] 2) with c. destruct (at_corners v a b c) as (-> & -> & ->). cbn [filter fst].
  set (p := point v a) in *. set (q := point v b) in *. set (r := point v c) in *. unfold cot0, cot1, cot2.
  assert (X2 : vdot d (e2 p q) = - (vdot d (e0 q r) + vdot d (e1 p r))). { rewrite (e2_eq n p q r) by assumption. rewrite vdot_scale_r, vdot_add_r by (unfold e0, e1; rewrite !vsub_len; congruence). ring. }
  destruct (Nat.eqb_spec a k) as [Ka|Ka], (Nat.eqb_spec b k) as [Kb|Kb], (Nat.eqb_spec c k) as [Kc|Kc]; try (exfalso; congruence); cbn [filter fst map snd]; unfold dsum; cbn [map rsum fold_right]; rewrite ?vdot_scale_r, ?X2.
  - rewrite <- Ka. fold p. evar_last; [apply area_derive; congruence|]. field. lra.
  - rewrite <- Kb. fold q. apply (is_derive_ext (fun h => area_of (vadd q (vscale h d)) r p)).
    { intros h. symmetry. rewrite <- area_of_cyc by (rewrite ?vadd_len by (rewrite vscale_len; congruence); congruence). reflexivity. }
    evar_last; [apply area_derive; congruence|]. replace (tS q r p) with (tS p q r) by (unfold tS; rewrite (gD_cyc n p q r) by assumption; reflexivity).
    change (gA r p) with (gC p r). change (e1 q p) with (e2 p q). change (e0 r p) with (e1 p r). change (gB q r p) with (vdot (e1 p r) (e2 p q)). rewrite (dot12 n p q r) by assumption. rewrite X2. field. lra.
  - rewrite <- Kc. fold r. apply (is_derive_ext (fun h => area_of (vadd r (vscale h d)) p q)).
    { intros h. assert (Lx : length (vadd r (vscale h d)) = n) by (rewrite vadd_len by (rewrite vscale_len; congruence); assumption). rewrite (area_of_cyc q) by congruence. apply area_of_cyc; congruence. }
    evar_last; [apply area_derive; congruence|]. replace (tS r p q) with (tS p q r) by (unfold tS; rewrite (gD_cyc n q r p), (gD_cyc n p q r) by assumption; reflexivity).
    change (gA p q) with (vdot (e2 p q) (e2 p q)). change (e1 r q) with (e0 q r). change (e0 p q) with (e2 p q). change (gB r p q) with (vdot (e2 p q) (e0 q r)). rewrite (e2_sq n p q r), (vdot_sym (e2 p q)), (dot02 n p q r) by assumption. rewrite X2. field. lra.
  - apply (is_derive_ext (fun _ => area_of p q r)); [reflexivity|]. evar_last; [exact (is_derive_const (V := R_NormedModule) (area_of p q r) 0)|]. change (@zero R_NormedModule) with 0. ring.
Qed.
Lemma cotangent_rows n t v : is_mesh n t v -> measurable_mesh t v -> exists rows, vertex_normals_cotangent t v = Ok rows /\ length rows = length v /\
  forall k, (k < length v)%nat -> is_direction (nth k rows None) (vscale (-1) (vsum n (at_key k (flat_map (cot_adds v) t)))).
Proof.
  intros H M. unfold vertex_normals_cotangent. destruct (Nat.eq_dec (length v) 0) as [Z|NZ].
  { destruct t as [|tr t]; [|destruct (proj2 H tr ltac:(now left)) as (a & _ & _ & _ & Ha & _); lia]. destruct v; [|discriminate Z]. exists []. split; [reflexivity|]. split; [reflexivity|]. cbn. intros; lia. }
  rewrite (mesh_dim_ok n t v H) by lia. assert (Hpt : forall a, (a < length v)%nat -> length (point v a) = n) by (intros; eapply point_len; eauto). pose proof (proj2 H) as Ht.
  rewrite (foldM_flat _ (cot_adds v)).
  2: { intros ns tr Htr. pose proof (M tr Htr) as Mt. destruct (Ht tr Htr) as (a & b & c & -> & Ha & Hb & Hc & Hp). rewrite vertices_ok by assumption. cbn [bind]. destruct (at_corners v a b c) as (X0 & X1 & X2). rewrite X0, X1, X2 in Mt.
    destruct (cot_ok _ _ _ Hp Mt) as (a0 & a1 & a2 & E0 & E1 & E2 & C0 & C1 & C2). unfold cot_adds, add_all. rewrite X0, X1, X2. cbv zeta. change (corner [a; b; c] 0) with a. change (corner [a; b; c] 1) with b. change (corner [a; b; c] 2) with c.
    cbn [seq foldM]. rewrite E0, E1, E2. cbn [bind]. rewrite C0, C1, C2. rewrite edges_eq. change ((0 + 1) mod 3)%nat with 1%nat. change ((0 + 2) mod 3)%nat with 2%nat. change ((1 + 1) mod 3)%nat with 2%nat. change ((1 + 2) mod 3)%nat with 0%nat. change ((2 + 1) mod 3)%nat with 0%nat. change ((2 + 2) mod 3)%nat with 1%nat.
    cbn [bind get nth_error vx nth fst snd]. repeat (match goal with |- context[bind (row_add_at ?n ?k ?w) _] => destruct (row_add_at n k w); cbn [bind]; [|reflexivity] end). reflexivity. }
  destruct (add_all_ok n (flat_map (cot_adds v) t) (repeat (vzero n) (length v))) as (ms & E & L & Hm & N).
  { intros x Hx. apply repeat_spec in Hx. subst x. apply vzero_len. }
  { intros c Hc. apply in_flat_map in Hc as (tr & Htr & Hc). destruct (Ht tr Htr) as (a & b & c' & -> & Ha & Hb & Hc' & Hp). rewrite repeat_length. assert (Lp := Hpt a Ha). assert (Lq := Hpt b Hb). assert (Lr := Hpt c' Hc').
    unfold cot_adds in Hc. cbv zeta in Hc. destruct (at_corners v a b c') as (X0 & X1 & X2). rewrite X0, X1, X2 in Hc. unfold e0, e1, e2 in Hc.
    cbn [In] in Hc. repeat (destruct Hc as [ <- |Hc]; [cbn [fst snd]; rewrite !vscale_len, vsub_len by congruence; split; assumption|]). destruct Hc. }
  rewrite some_repeat in E. rewrite repeat_length in L, N. exists (map (fun r => option_map (vscale (-1)) (row_normalize r)) (map Some ms)). split; [exact (f_equal (fun z => bind z (fun m => Ok (map (fun r => option_map (vscale (-1)) (row_normalize r)) m))) E)|]. rewrite !map_length. split; [exact L|]. intros k Hk.
  rewrite nth_rows by (rewrite L; exact Hk). rewrite (N k Hk). rewrite nth_rep by exact Hk. set (s := vsum n (at_key k (flat_map (cot_adds v) t))) in *.
  assert (Ls : length s = n).
  { assert (X : length (nth k ms []) = n) by (apply Hm, nth_In; rewrite L; exact Hk). rewrite (N k Hk), nth_rep in X by exact Hk. unfold vadd, vmap2 in X. rewrite map_length, combine_length, vzero_len in X.
    apply vsum_len. intros x Hx. unfold at_key in Hx. apply in_map_iff in Hx as (cc & <- & Hcc). apply filter_In in Hcc as [Hcc _]. apply in_flat_map in Hcc as (tr & Htr & Hcc). destruct (Ht tr Htr) as (a & b & c' & -> & Ha & Hb & Hc' & Hp). assert (Lp := Hpt a Ha). assert (Lq := Hpt b Hb). assert (Lr := Hpt c' Hc').
    unfold cot_adds in Hcc. cbv zeta in Hcc. destruct (at_corners v a b c') as (X0 & X1 & X2). rewrite X0, X1, X2 in Hcc. unfold e0, e1, e2 in Hcc.
    cbn [In] in Hcc. repeat (destruct Hcc as [ <- |Hcc]; [cbn [fst snd]; rewrite !vscale_len, vsub_len by congruence; assumption|]). destruct Hcc. }
  replace (vadd (vzero n) s) with s.
  - pose proof (normalize_direction s) as Q. destruct (row_normalize (Some s)) as [u|]; cbn [option_map is_direction] in *.
    + destruct Q as (Qu & x & Hx & ->). split; [rewrite neg_norm; exact Qu|]. exists x. split; [exact Hx|]. apply vec_ext; [rewrite !vscale_len; reflexivity|]. intros i _. rewrite !nth_vscale. ring.
    + rewrite vscale_len. rewrite Q at 1. apply vec_ext; [rewrite vscale_len; reflexivity|]. intros i _. rewrite nth_vscale, nth_vzero. ring.
  - symmetry. apply vec_ext; [rewrite vadd_len; [symmetry; rewrite vzero_len; exact Ls|rewrite vzero_len, Ls; reflexivity]|]. intros i _. rewrite nth_vadd by (rewrite vzero_len, Ls; reflexivity). rewrite nth_vzero. apply Rplus_0_l.
Qed.
Theorem C106_area_gradient : forall n t v, is_mesh n t v -> measurable_mesh t v -> exists rows, vertex_normals_cotangent t v = Ok rows /\ length rows = length v /\
  forall k, (k < length v)%nat -> exists g, is_gradient (mesh_area t) v k g /\ is_direction (nth k rows None) g.
Proof.
  intros n t v H M. destruct (cotangent_rows n t v H M) as (rows & E & L & N). exists rows. split; [exact E|]. split; [exact L|]. intros k Hk. pose proof (proj2 H) as Ht. assert (Hpt : forall a, (a < length v)%nat -> length (point v a) = n) by (intros; eapply point_len; eauto).
  set (s := vsum n (at_key k (flat_map (cot_adds v) t))) in *. assert (Hl : forall x, In x (at_key k (flat_map (cot_adds v) t)) -> length x = n).
  { intros x Hx. unfold at_key in Hx. apply in_map_iff in Hx as (cc & <- & Hcc). apply filter_In in Hcc as [Hcc _]. apply in_flat_map in Hcc as (tr & Htr & Hcc). destruct (Ht tr Htr) as (a & b & c' & -> & Ha & Hb & Hc' & Hp). assert (Lp := Hpt a Ha). assert (Lq := Hpt b Hb). assert (Lr := Hpt c' Hc').
    unfold cot_adds in Hcc. cbv zeta in Hcc. destruct (at_corners v a b c') as (X0 & X1 & X2). rewrite X0, X1, X2 in Hcc. unfold e0, e1, e2 in Hcc.
    cbn [In] in Hcc. repeat (destruct Hcc as [ <- |Hcc]; [cbn [fst snd]; rewrite !vscale_len, vsub_len by congruence; assumption|]). destruct Hcc. }
  exists (vscale (/ 2) (vscale (-1) s)). split; [|apply direction_scale_inv; [lra|exact (N k Hk)]]. split; [rewrite !vscale_len; unfold s; rewrite vsum_len by exact Hl; symmetry; apply Hpt, Hk|]. rewrite !vscale_len. unfold s at 1. rewrite vsum_len by exact Hl. intros d Hd.
  apply is_derive_Reals. rewrite vdot_sym, !vdot_scale_r. unfold s. rewrite vdot_vsum by exact Hl. replace (/ 2 * (-1 * dsum d (at_key k (flat_map (cot_adds v) t)))) with (- / 2 * dsum d (at_key k (flat_map (cot_adds v) t))) by ring. apply (cot_gradient n); assumption.
Qed.
Print Assumptions C106_area_gradient.

(** ** consequences *)
Lemma direction_unique r r' s : is_direction r s -> is_direction r' s -> r = r'.
Proof.
  assert (Z : forall u, is_direction (Some u) s -> s = vzero (length s) -> False).
  { intros u (Hu & c & _ & ->) E. rewrite vnorm_scale, E in Hu. replace (vnorm (vzero (length s))) with 0 in Hu; [lra|]. symmetry. apply vnorm_zero, vdot_zero_l. }
  destruct r as [u|], r' as [u'|]; intros H H'; [|exfalso; exact (Z u H H')|exfalso; exact (Z u' H' H)|reflexivity]. f_equal.
  destruct H as (Hu & c & Hc & ->), H' as (Hu' & c' & Hc' & ->). rewrite vnorm_scale, Rabs_right in Hu, Hu' by lra. assert (vnorm s <> 0) by (intros E; rewrite E in Hu; lra). assert (c = c') by (apply (Rmult_eq_reg_r (vnorm s)); [lra|assumption]). subst c'. reflexivity.
Qed.
Lemma gradient_unique f v k g g' : is_gradient f v k g -> is_gradient f v k g' -> g = g'.
Proof.
  intros (L & D) (L' & D'). apply dot_ext; [congruence|]. intros w Hw. rewrite !(vdot_sym w). apply (uniqueness_limite (fun h => f (moved v k w h)) 0); [apply D, Hw|apply D'; congruence].
Qed.
(** the other orientation of every triangle *)
Definition reversed (t : list (list nat)) : list (list nat) := map (fun tr => [corner tr 0; corner tr 2; corner tr 1]) t.
Lemma proper_swap p q r : proper p q r -> proper p r q.
Proof.
  intros (Hq & Hr & N). split; [exact Hr|]. split; [exact Hq|]. intros s t E. destruct (N t s) as [X Y]; [|auto]. rewrite <- E. vring.
Qed.
Lemma reversed_mesh n t v : is_mesh n t v -> is_mesh n (reversed t) v.
Proof.
  intros [H Ht]. split; [exact H|]. intros tr Htr. apply in_map_iff in Htr as (tr' & <- & Htr). destruct (Ht tr' Htr) as (a & b & c & -> & Ha & Hb & Hc & Hp). exists a, c, b. split; [reflexivity|]. split; [exact Ha|]. split; [exact Hc|]. split; [exact Hb|]. exact (proper_swap _ _ _ Hp).
Qed.
Lemma star_len t k w v : length (star 3 t k (corner_normal w v)) = 3%nat.
Proof. apply vsum_len. intros x Hx. apply in_flat_map in Hx as (tr & _ & Hx). apply in_map_iff in Hx as (j & <- & _). unfold corner_normal. cbv zeta. unfold unit_normal. rewrite !vscale_len. reflexivity. Qed.
Lemma star_dot t k w v d : vdot d (star 3 t k (corner_normal w v)) = rsum (map (fun tr => dsum d (map (corner_normal w v tr) (filter (fun j => (corner tr j =? k)%nat) [0; 1; 2]%nat))) t).
Proof.
  unfold star. rewrite vdot_vsum, dsum_flat; [reflexivity|]. intros x Hx. apply in_flat_map in Hx as (tr & _ & Hx). apply in_map_iff in Hx as (j & <- & _). unfold corner_normal. cbv zeta. unfold unit_normal. rewrite !vscale_len. reflexivity.
Qed.
Lemma long_normal_swap p q r : length p = 3%nat -> length q = 3%nat -> length r = 3%nat -> long_normal p r q = vscale (-1) (long_normal p q r).
Proof.
  intros Hp Hq Hr. unfold long_normal. destruct (len3 p Hp) as (a & b & c & ->), (len3 q Hq) as (d & e & f & ->), (len3 r Hr) as (g & h & i & ->). vcalc. veq ltac:(ring).
Qed.
Lemma weight_swap w p q r : length p = 3%nat -> length q = 3%nat -> length r = 3%nat -> weight_at w p r q = weight_at w p q r.
Proof.
  intros Hp Hq Hr. destruct w; cbn [weight_at]; [reflexivity| | |].
  - rewrite long_normal_swap, neg_norm by assumption. reflexivity.
  - rewrite (vdot_sym (vsub r p)), (Rmult_comm (vnorm (vsub r p))). reflexivity.
  - replace (vadd (vadd p r) q) with (vadd (vadd p q) r) by vring. reflexivity.
Qed.
Lemma term_swap w p q r : length p = 3%nat -> length q = 3%nat -> length r = 3%nat -> vscale (weight_at w p r q) (unit_normal p r q) = vscale (-1) (vscale (weight_at w p q r) (unit_normal p q r)).
Proof.
  intros Hp Hq Hr. rewrite weight_swap by assumption. unfold unit_normal. rewrite long_normal_swap, neg_norm by assumption. apply vec_ext; [rewrite !vscale_len; reflexivity|]. intros i _. rewrite !nth_vscale. ring.
Qed.
Theorem C104_reversed : forall t v w, is_mesh 3 t v -> exists rows, vertex_normals t v w = Ok rows /\ vertex_normals (reversed t) v w = Ok (map (option_map (vscale (-1))) rows).
Proof.
  intros t v w H. destruct (C104_vertex_normals t v w H) as (rows & E & L & N), (C104_vertex_normals _ v w (reversed_mesh 3 t v H)) as (rows' & E' & L' & N'). exists rows. split; [exact E|]. rewrite E'. f_equal.
  apply (nth_ext _ _ None None); [rewrite map_length; congruence|]. intros k Hk. rewrite L' in Hk. refine (eq_trans _ (eq_sym (map_nth (option_map (vscale (-1))) rows None k))). apply (direction_unique _ _ _ (N' k Hk)).
  assert (S : star 3 (reversed t) k (corner_normal w v) = vscale (-1) (star 3 t k (corner_normal w v))).
  { apply dot_ext; [rewrite vscale_len, !star_len; reflexivity|]. intros d _. rewrite vdot_scale_r, !star_dot. rewrite <- rsum_map_scale. unfold reversed. rewrite map_map. apply rsum_ext. intros tr Htr. destruct (proj2 H tr Htr) as (a & b & c & -> & Ha & Hb & Hc & _).
    assert (Hpt : forall a, (a < length v)%nat -> length (point v a) = 3%nat) by (intros; eapply point_len; eauto). cbn [filter].
    change (corner [a; b; c] 0) with a. change (corner [a; b; c] 1) with b. change (corner [a; b; c] 2) with c. change (corner [a; c; b] 0) with a. change (corner [a; c; b] 1) with c. change (corner [a; c; b] 2) with b.
    assert (C0 : corner_normal w v [a; c; b] 0 = vscale (-1) (corner_normal w v [a; b; c] 0)) by (apply term_swap; apply Hpt; solve [exact Ha|exact Hb|exact Hc]).
    assert (C1 : corner_normal w v [a; c; b] 1 = vscale (-1) (corner_normal w v [a; b; c] 2)) by (apply term_swap; apply Hpt; solve [exact Ha|exact Hb|exact Hc]).
    assert (C2 : corner_normal w v [a; c; b] 2 = vscale (-1) (corner_normal w v [a; b; c] 1)) by (apply term_swap; apply Hpt; solve [exact Ha|exact Hb|exact Hc]).
    unfold dsum. destruct (a =? k)%nat, (b =? k)%nat, (c =? k)%nat; cbn [map rsum fold_right]; rewrite ?C0, ?C1, ?C2, ?vdot_scale_r; ring. }
  rewrite S. pose proof (N k Hk) as Nk. pose proof (star_len t k w v) as Ls. revert Nk Ls. generalize (star 3 t k (corner_normal w v)). intros s. destruct (nth k rows None) as [u|]; cbn [option_map is_direction].
  - intros (Hu & c & Hc & ->) _. split; [rewrite neg_norm; exact Hu|]. exists c. split; [exact Hc|]. apply vec_ext; [rewrite !vscale_len; reflexivity|]. intros i _. rewrite !nth_vscale. ring.
  - intros Es _. rewrite vscale_len, Es at 1. apply vec_ext; [rewrite vscale_len; reflexivity|]. intros i _. rewrite nth_vscale, nth_vzero. ring.
Qed.
Print Assumptions C104_reversed.
(** the cotangent normals do not depend on the orientation *)
Theorem C106_reversed : forall n t v, is_mesh n t v -> measurable_mesh t v -> exists rows, vertex_normals_cotangent t v = Ok rows /\ vertex_normals_cotangent (reversed t) v = Ok rows.
Proof.
  intros n t v H M. destruct (C106_area_gradient n t v H M) as (rows & E & L & N). destruct (C106_area_gradient n (reversed t) v (reversed_mesh n t v H)) as (rows' & E' & L' & N').
  { intros tr Htr. apply in_map_iff in Htr as (tr' & <- & Htr). pose proof (M tr' Htr) as Mt. destruct (proj2 H tr' Htr) as (a & b & c & -> & Ha & Hb & Hc & (Hq & Hr & _)). revert Mt. unfold measurable_triangle. unfold at_corner. change (corner [a; b; c] 0) with a. change (corner [a; b; c] 1) with b. change (corner [a; b; c] 2) with c.
    change (corner [a; c; b] 0) with a. change (corner [a; c; b] 1) with c. change (corner [a; c; b] 2) with b. set (p := point v a) in *. set (q := point v b) in *. set (r := point v c) in *.
    assert (S : forall x y : vec, length x = length y -> vnorm (vsub x y) = vnorm (vsub y x)) by (intros x y X; rewrite <- neg_norm; f_equal; vring). intros [(X & Y1 & Y2 & Y3)|X]; [left; repeat split; auto; congruence|right]. intros l Hl. apply X. rewrite edge_lengths_eq in *. unfold len0, len1, len2_, e0, e1, e2 in *. cbn [In] in *. rewrite (S q r), (S r p), (S p q) in Hl by congruence. intuition. }
  exists rows. split; [exact E|]. rewrite E'. f_equal. apply (nth_ext _ _ None None); [congruence|]. intros k Hk. rewrite L' in Hk. destruct (N k Hk) as (g & G & D), (N' k Hk) as (g' & G' & D').
  assert (g' = g). { apply (gradient_unique (mesh_area t) v k); [|exact G]. destruct G' as [Lg K]. split; [exact Lg|]. intros d Hd. apply is_derive_Reals. apply (is_derive_ext (fun h => mesh_area (reversed t) (moved v k d h))); [|apply is_derive_Reals, K, Hd].
    intros h. unfold mesh_area, reversed. rewrite map_map. apply rsum_ext. intros tr _. change (at_corner (moved v k d h) [corner tr 0; corner tr 2; corner tr 1] 0) with (at_corner (moved v k d h) tr 0). change (at_corner (moved v k d h) [corner tr 0; corner tr 2; corner tr 1] 1) with (at_corner (moved v k d h) tr 2). change (at_corner (moved v k d h) [corner tr 0; corner tr 2; corner tr 1] 2) with (at_corner (moved v k d h) tr 1).
    unfold area_of. f_equal. f_equal. rewrite (vdot_sym (vsub (at_corner (moved v k d h) tr 2) (at_corner (moved v k d h) tr 0)) (vsub (at_corner (moved v k d h) tr 1) _)). ring. }
  subst g'. exact (direction_unique _ _ _ D' D).
Qed.
Print Assumptions C106_reversed.

(** a flat neighbourhood: the normal of the vertex is that of the triangles, whatever the weights *)
Lemma weight_pos w p q r : proper p q r -> length p = 3%nat -> 0 < weight_at w p q r.
Proof.
  intros Hp H3. pose proof Hp as (Hq & Hr & N). pose proof (proper_gram _ _ _ Hp) as D. pose proof (tS_gt p q r D) as T. destruct w; cbn [weight_at]; [lra| | |].
  - rewrite long_normal_norm by congruence. lra.
  - pose proof (weight0_ok WAngle p q r Hp H3) as W. cbn [corner_weight weight_at] in W. pose proof (meas_of _ _ _ (meas3 _ _ _ Hp H3)) as M. destruct (angle0_ok (length p) p q r eq_refl Hq Hr M) as (a & Ea & Ia & Ka). rewrite Ea in W. injection W as <-.
    destruct (meas_pos (length p) p q r eq_refl Hq Hr M) as (P0 & P1 & P2). destruct (Req_dec a 0) as [Z|NZ]; [exfalso|lra]. rewrite Z, cos_0 in Ka. pose proof (l1_sq p r) as Q1. pose proof (l2_sq (length p) p q r eq_refl Hq Hr) as Q2.
    assert (X : gB p q r + gC p r = len1 p r * len2_ p q) by (apply (Rmult_eq_reg_r (/ (len1 p r * len2_ p q))); [rewrite Rinv_r by nra; exact (eq_sym Ka)|apply Rinv_neq_0_compat; nra]).
    assert (Y : (gB p q r + gC p r) * (gB p q r + gC p r) = gC p r * (gA q r + 2 * gB p q r + gC p r)) by (rewrite X; refine (eq_trans _ (f_equal2 Rmult Q1 Q2)); ring). unfold gD in D. nra.
  - apply Rinv_0_lt_compat. apply vnorm_gt0. intros Z. apply vdot_zero_inv in Z. destruct (N (/ 3) (/ 3)) as [X _]; [|lra]. assert (L : length (vsub (vscale (/ 3) (vadd (vadd p q) r)) p) = length p) by vlen. rewrite L in Z. rewrite <- Z. vfield idtac.
Qed.
Lemma corner_next tr j : corner tr (j + 3) = corner tr j.
Proof. unfold corner. rewrite <- Nat.add_mod_idemp_r by lia. change (3 mod 3)%nat with 0%nat. rewrite Nat.add_0_r. reflexivity. Qed.
Lemma corners_proper n t v tr j : is_mesh n t v -> In tr t -> (j < 3)%nat -> proper (at_corner v tr j) (at_corner v tr (j + 1)) (at_corner v tr (j + 2)) /\ length (at_corner v tr j) = n.
Proof.
  intros H Htr Hj. destruct (proj2 H tr Htr) as (a & b & c & -> & Ha & Hb & Hc & Hp). assert (Hpt : forall a, (a < length v)%nat -> length (point v a) = n) by (intros; eapply point_len; eauto).
  pose proof (proper_cyc _ _ _ Hp) as Hp1. pose proof (proper_cyc _ _ _ Hp1) as Hp2. destruct j as [|[|[|j]]]; [| | |lia]; split; solve [exact Hp|exact Hp1|exact Hp2|exact (Hpt a Ha)|exact (Hpt b Hb)|exact (Hpt c Hc)].
Qed.
Theorem C104_flat : forall t v w k m, is_mesh 3 t v -> (exists tr, In tr t /\ In k tr) ->
  (forall tr, In tr t -> In k tr -> unit_normal (at_corner v tr 0) (at_corner v tr 1) (at_corner v tr 2) = m) -> exists rows, vertex_normals t v w = Ok rows /\ nth_error rows k = Some (Some m).
Proof.
  intros t v w k m H (tr0 & I0 & K0) Hm. destruct (C104_vertex_normals t v w H) as (rows & E & L & N). exists rows. split; [exact E|].
  assert (Hk : (k < length v)%nat). { destruct (proj2 H tr0 I0) as (a & b & c & -> & Ha & Hb & Hc & _). destruct K0 as [ <- |[ <- |[ <- |[]]]]; assumption. }
  rewrite (nth_error_nth' rows None) by (rewrite L; exact Hk). f_equal. refine (direction_unique _ _ _ (N k Hk) _).
  assert (Hpt : forall a, (a < length v)%nat -> length (point v a) = 3%nat) by (intros; eapply point_len; eauto).
  set (W := fun tr => rsum (map (fun j => weight_at w (at_corner v tr j) (at_corner v tr (j + 1)) (at_corner v tr (j + 2))) (filter (fun j => (corner tr j =? k)%nat) [0; 1; 2]%nat))).
  assert (Wp : forall tr, In tr t -> 0 <= W tr /\ (In k tr -> 0 < W tr)).
  { intros tr Htr. pose proof (corners_proper 3 t v tr 0 H Htr ltac:(lia)) as (Q0 & L0). pose proof (corners_proper 3 t v tr 1 H Htr ltac:(lia)) as (Q1 & L1). pose proof (corners_proper 3 t v tr 2 H Htr ltac:(lia)) as (Q2 & L2).
    pose proof (weight_pos w _ _ _ Q0 L0) as P0. pose proof (weight_pos w _ _ _ Q1 L1) as P1. pose proof (weight_pos w _ _ _ Q2 L2) as P2. unfold W. cbn [filter].
    destruct (proj2 H tr Htr) as (a & b & c & -> & _). change (corner [a; b; c] 0) with a. change (corner [a; b; c] 1) with b. change (corner [a; b; c] 2) with c.
    destruct (Nat.eqb_spec a k) as [Ka|Ka], (Nat.eqb_spec b k) as [Kb|Kb], (Nat.eqb_spec c k) as [Kc|Kc]; unfold rsum; cbn [map fold_right In]; split; try lra; intros [X|[X|[X|[]]]]; contradiction. }
  assert (C : 0 < rsum (map W t)).
  { clear - I0 K0 Wp. induction t as [|tr t IH]; [destruct I0|]. change (0 < W tr + rsum (map W t)). assert (P : 0 <= rsum (map W t)).
    { assert (X : forall tr, In tr t -> 0 <= W tr) by (intros x Hx; apply Wp; now right). clear - X. induction t as [|tr t IH]; [change (0 <= 0); lra|]. change (0 <= W tr + rsum (map W t)). pose proof (X tr ltac:(now left)). assert (0 <= rsum (map W t)) by (apply IH; intros; apply X; now right). lra. }
    destruct I0 as [ -> |I0]; [pose proof (proj2 (Wp tr0 ltac:(now left)) K0); lra|]. assert (0 < rsum (map W t)) by (apply IH; [exact I0|intros; apply Wp; now right]). pose proof (proj1 (Wp tr ltac:(now left))). lra. }
  assert (Um : length m = 3%nat /\ vnorm m = 1).
  { rewrite <- (Hm tr0 I0 K0). pose proof (corners_proper 3 t v tr0 0 H I0 ltac:(lia)) as (Q0 & L0). unfold unit_normal. split; [rewrite vscale_len; reflexivity|]. rewrite vnorm_scale. pose proof Q0 as (X & Y & _). pose proof (tS_gt _ _ _ (proper_gram _ _ _ Q0)) as T. rewrite <- long_normal_norm in T by congruence. cbn [Nat.add] in T. rewrite Rabs_right by (apply Rle_ge, Rlt_le, Rinv_0_lt_compat, T). field. lra. }
  assert (S : star 3 t k (corner_normal w v) = vscale (rsum (map W t)) m).
  { apply dot_ext; [rewrite vscale_len, star_len; symmetry; apply Um|]. intros d _. rewrite vdot_scale_r, star_dot, Rmult_comm, <- rsum_map_scale. apply rsum_ext. intros tr Htr. unfold W, dsum. rewrite map_map, <- rsum_map_scale.
    apply rsum_ext. intros j Hj. apply filter_In in Hj as [Hj Kj]. apply Nat.eqb_eq in Kj. assert (Hj3 : (j < 3)%nat) by (destruct Hj as [ <- |[ <- |[ <- |[]]]]; lia). unfold corner_normal. cbv zeta. rewrite vdot_scale_r, Rmult_comm. f_equal. f_equal.
    assert (Kin : In k tr) by (destruct (proj2 H tr Htr) as (a & b & c & -> & _); rewrite <- Kj; destruct Hj as [ <- |[ <- |[ <- |[]]]]; cbn; auto). rewrite <- (Hm tr Htr Kin).
    pose proof (corners_proper 3 t v tr 0 H Htr ltac:(lia)) as (_ & L0). pose proof (corners_proper 3 t v tr 1 H Htr ltac:(lia)) as (_ & L1). pose proof (corners_proper 3 t v tr 2 H Htr ltac:(lia)) as (_ & L2).
    destruct Hj as [ <- |[ <- |[ <- |[]]]]; [reflexivity| |]; cbn [Nat.add]; change (at_corner v tr 3) with (at_corner v tr 0); change (at_corner v tr 4) with (at_corner v tr 1).
    - apply unit_normal_cyc; assumption.
    - rewrite <- (unit_normal_cyc (at_corner v tr 0)) by assumption. apply unit_normal_cyc; assumption. }
  rewrite S. cbn [is_direction]. split; [apply Um|]. exists (/ rsum (map W t)). split; [apply Rinv_0_lt_compat, C|]. apply vec_ext; [rewrite !vscale_len; reflexivity|]. intros i _. rewrite !nth_vscale. field. lra.
Qed.
Print Assumptions C104_flat.

(** a vertex that belongs to no triangle has no normal *)
Lemma unused_star t k f d : (forall tr, In tr t -> length tr = 3%nat /\ ~ In k tr) -> star d t k f = vzero d.
Proof.
  intros H. unfold star. replace (flat_map _ t) with (@nil vec); [reflexivity|]. symmetry. induction t as [|tr t IH]; [reflexivity|]. cbn [flat_map]. rewrite IH by (intros; apply H; now right). rewrite app_nil_r. destruct (H tr ltac:(now left)) as [L K].
  destruct tr as [|a [|b [|c [|? ?]]]]; try discriminate L. cbn [filter]. change (corner [a; b; c] 0) with a. change (corner [a; b; c] 1) with b. change (corner [a; b; c] 2) with c.
  destruct (Nat.eqb_spec a k) as [Ka|Ka], (Nat.eqb_spec b k) as [Kb|Kb], (Nat.eqb_spec c k) as [Kc|Kc]; try reflexivity; exfalso; apply K; cbn; auto.
Qed.
Theorem C104_unused_vertex : forall t v w k, is_mesh 3 t v -> (k < length v)%nat -> (forall tr, In tr t -> ~ In k tr) -> exists rows, vertex_normals t v w = Ok rows /\ nth_error rows k = Some None.
Proof.
  intros t v w k H Hk Hn. destruct (C104_vertex_normals t v w H) as (rows & E & L & N). exists rows. split; [exact E|]. rewrite (nth_error_nth' rows None) by (rewrite L; exact Hk). f_equal. apply (direction_unique _ _ _ (N k Hk)). cbn [is_direction]. rewrite star_len. apply unused_star. intros tr Htr. split; [|auto]. destruct (proj2 H tr Htr) as (a & b & c & -> & _). reflexivity.
Qed.
Print Assumptions C104_unused_vertex.

(** a triangle without area spoils the normals of its vertices *)
Definition indexed (n : nat) (t : list (list nat)) (v : list vec) : Prop := (forall x, In x v -> length x = n) /\
  forall tr, In tr t -> exists a b c, tr = [a; b; c] /\ (a < length v)%nat /\ (b < length v)%nat /\ (c < length v)%nat.
Definition add_rows (n : list row) (cs : list (nat * row)) : result (list row) := foldM (fun n c => row_add_at n (fst c) (snd c)) n cs.
Lemma add_rows_nan cs : forall ns, (forall c, In c cs -> (fst c < length ns)%nat) -> exists ms, add_rows ns cs = Ok ms /\ length ms = length ns /\
  forall k, (k < length ns)%nat -> nth_error ns k = Some None \/ In (k, None) cs -> nth_error ms k = Some None.
Proof.
  induction cs as [|[i r] cs IH]; intros ns Hc.
  - exists ns. split; [reflexivity|]. split; [reflexivity|]. intros k _ [H|[]]; exact H.
  - assert (Hi : (i < length ns)%nat) by (apply (Hc (i, r)); now left). assert (E0 : row_add_at ns i r = Ok (upd ns i (row_add (nth i ns None) r))).
    { unfold row_add_at, get. rewrite (nth_error_nth' ns None Hi). cbn [bind]. unfold set. replace (i <? length ns)%nat with true by (symmetry; apply Nat.ltb_lt, Hi). reflexivity. }
    destruct (IH (upd ns i (row_add (nth i ns None) r))) as (ms & E & L & N); [intros c Hcc; rewrite upd_length; apply Hc; now right|]. exists ms. split; [unfold add_rows; cbn [foldM fst snd]; rewrite E0; exact E|]. rewrite upd_length in *. split; [exact L|]. intros k Hk Hn. apply (N k Hk). destruct Hn as [Hn|[Hn|Hn]]; [|injection Hn as -> ->|right; exact Hn].
    + left. destruct (Nat.eq_dec i k) as [ -> |Ne]; [|rewrite nth_error_upd_other by exact Ne; exact Hn]. rewrite nth_error_upd_same by exact Hk. f_equal. rewrite (nth_error_nth ns k None Hn). reflexivity.
    + left. rewrite nth_error_upd_same by exact Hk. f_equal. destruct (nth k ns None); reflexivity.
Qed.
Lemma foldM_flat_rows {A} (f : list row -> A -> result (list row)) (g : A -> list (nat * row)) l n : (forall n x, In x l -> f n x = add_rows n (g x)) -> foldM f n l = add_rows n (flat_map g l).
Proof.
  revert n. induction l as [|x l IH]; intros n H; [reflexivity|]. cbn [foldM flat_map]. rewrite H by now left. unfold add_rows at 2. rewrite foldM_app. fold (add_rows n (g x)). destruct (add_rows n (g x)); cbn [bind]; [|reflexivity]. apply IH. intros; apply H; now right.
Qed.
Lemma corner_weight_total w (p q r x : vec) j : length p = 3%nat -> length q = 3%nat -> length r = 3%nat -> (j < 3)%nat -> exists a, corner_weight w [p; q; r] x j = Ok a.
Proof.
  intros Hp Hq Hr Hj. destruct w; cbn [corner_weight]; eauto.
  - rewrite (area_ok 3) by auto. eauto.
  - unfold angle. rewrite edges_eq. unfold compute_angle. assert (L : forall i, (i < 3)%nat -> length (vx [e0 q r; e1 p r; e2 p q] i) = 3%nat) by (intros i Hi; destruct i as [|[|[|i]]]; [| | |lia]; cbn [vx nth]; unfold e0, e1, e2; rewrite vsub_len; congruence).
    rewrite vscale_len, !L by (apply Nat.mod_upper_bound; lia). cbn. eauto.
Qed.
Theorem C104_degenerate_triangle : forall t v w a b c k, indexed 3 t v -> In [a; b; c] t -> ~ proper (point v a) (point v b) (point v c) -> In k [a; b; c] ->
  exists rows, vertex_normals t v w = Ok rows /\ nth_error rows k = Some None.
Proof.
  intros t v w a b c k [Hv Ht] Hin Hd Hk. assert (Hpt : forall a, (a < length v)%nat -> length (point v a) = 3%nat) by (intros x Hx; apply Hv, nth_In, Hx).
  assert (NR : forall tr, In tr t -> exists r, (let* p := vertices tr v in normal_row p) = Ok r /\ (tr = [a; b; c] -> r = None)).
  { intros tr Htr. destruct (Ht tr Htr) as (a' & b' & c' & -> & Ha & Hb & Hc). rewrite vertices_ok by assumption. cbn [bind].
    assert (E : area_weighted_normal [point v a'; point v b'; point v c'] = Ok (CV (long_normal (point v a') (point v b') (point v c')))).
    { unfold area_weighted_normal. rewrite edges_eq. cbn [vx nth]. unfold np_cross, long_normal. rewrite cross_shift by auto. assert (X0 : length (e0 (point v b') (point v c')) = 3%nat) by (unfold e0; rewrite vsub_len; auto; rewrite !Hpt; auto). assert (X1 : length (e1 (point v a') (point v c')) = 3%nat) by (unfold e1; rewrite vsub_len; auto; rewrite !Hpt; auto). rewrite X0, X1. reflexivity. }
    unfold normal_row, normal. rewrite E. cbn [bind]. unfold area_weighted_normal in E. rewrite E. cbn [bind cross_norm cross_div]. unfold reqb. destruct (Req_EM_T _ 0) as [Z|NZ]; eexists; (split; [reflexivity|]); intros X; [reflexivity|]. exfalso. injection X as -> -> ->. apply Hd. rewrite long_normal_norm in NZ by auto.
    assert (Hl : length (point v b) = length (point v a)) by (rewrite !Hpt; auto). assert (Hl' : length (point v c) = length (point v a)) by (rewrite !Hpt; auto). destruct (C86_area (point v a) (point v b) (point v c)) as (S & ES & PS & _ & _ & _ & IS); auto. apply IS. rewrite (area_ok 3) in ES by auto. injection ES as <-. unfold tS in NZ. pose proof (sqrt_pos (gD (point v a) (point v b) (point v c))). lra. }
  assert (T : exists tn, normals t v = Ok tn /\ length tn = length t /\ forall i, nth_error t i = Some [a; b; c] -> nth_error tn i = Some None).
  { clear - NR. unfold normals. induction t as [|tr t IH]; [exists []; split; [reflexivity|]; split; [reflexivity|]; intros [|i] X; discriminate X|]. destruct (NR tr ltac:(now left)) as (r & Er & Kr). destruct IH as (tn & E & L & N); [intros; apply NR; now right|].
    exists (r :: tn). cbn [mapM]. rewrite Er. cbn [bind]. rewrite E. split; [reflexivity|]. split; [cbn; congruence|]. intros [|i] X; cbn [nth_error] in *; [injection X as ->; rewrite Kr; reflexivity|apply N, X]. }
  destruct T as (tn & Etn & Ltn & Ntn). unfold vertex_normals. rewrite Etn. cbn [bind].
  assert (NZ : (0 < length v)%nat) by (destruct (Ht _ Hin) as (a' & _ & _ & _ & Ha & _); lia). replace (mesh_dim v) with 3%nat by (symmetry; apply Hv, nth_In, NZ).
  set (wt := fun (tr : list nat) j => match corner_weight w [at_corner v tr 0; at_corner v tr 1; at_corner v tr 2] (at_corner v tr j) j with Ok x => x | Err _ => 0 end).
  rewrite (foldM_flat_rows _ (fun ti : list nat * row => map (fun j => (corner (fst ti) j, option_map (vscale (wt (fst ti) j)) (snd ti))) [0; 1; 2]%nat)).
  2: { intros n [tr r] Htr. assert (Htr' : In tr t) by (eapply in_combine_l; eauto). destruct (Ht tr Htr') as (a' & b' & c' & -> & Ha & Hb & Hc). cbn [fst snd]. rewrite vertices_ok by assumption. cbn [bind seq foldM get nth_error map]. unfold add_rows. cbn [foldM fst snd]. unfold get.
    rewrite (nth_error_nth' v [] Ha), (nth_error_nth' v [] Hb), (nth_error_nth' v [] Hc). cbn [bind]. fold (point v a') (point v b') (point v c'). unfold wt. destruct (at_corners v a' b' c') as (-> & -> & ->).
    destruct (corner_weight_total w (point v a') (point v b') (point v c') (point v a') 0) as (x0 & ->); auto. destruct (corner_weight_total w (point v a') (point v b') (point v c') (point v b') 1) as (x1 & ->); auto. destruct (corner_weight_total w (point v a') (point v b') (point v c') (point v c') 2) as (x2 & ->); auto. }
  edestruct (add_rows_nan (flat_map (fun ti : list nat * row => map (fun j => (corner (fst ti) j, option_map (vscale (wt (fst ti) j)) (snd ti))) [0; 1; 2]%nat) (combine t tn)) (repeat (Some (vzero 3)) (length v))) as (ms & E & L & N).
  { intros x Hx. apply in_flat_map in Hx as ([tr r] & Htr & Hx). assert (Htr' : In tr t) by (eapply in_combine_l; eauto). destruct (Ht tr Htr') as (a' & b' & c' & -> & Ha & Hb & Hc). rewrite repeat_length. cbn [map fst snd In] in Hx. destruct Hx as [ <- |[ <- |[ <- |[]]]]; assumption. }
  exists (map row_normalize ms). split; [rewrite E; reflexivity|]. rewrite nth_error_map. rewrite repeat_length in N. rewrite N; [reflexivity| |].
  - destruct (Ht _ Hin) as (a' & b' & c' & X & Ha & Hb & Hc). injection X as <- <- <-. destruct Hk as [ <- |[ <- |[ <- |[]]]]; assumption.
  - right. apply In_nth_error in Hin as (i & Hi). pose proof (Ntn i Hi) as Ni. assert (IC : In ([a; b; c], @None vec) (combine t tn)).
    { clear - Hi Ni. revert tn i Hi Ni. induction t as [|tr t IH]; intros tn i Hi Ni; [destruct i; discriminate|]. destruct tn as [|r tn]; [destruct i; discriminate|]. destruct i as [|i]; cbn [nth_error] in *; [injection Hi as ->; injection Ni as ->; now left|right; eapply IH; eauto]. }
    apply in_flat_map. exists ([a; b; c], None). split; [exact IC|]. cbn [map fst snd option_map]. change (corner [a; b; c] 0) with a. change (corner [a; b; c] 1) with b. change (corner [a; b; c] 2) with c. destruct Hk as [ <- |[ <- |[ <- |[]]]]; cbn; auto.
Qed.
Print Assumptions C104_degenerate_triangle.

(** a rigid motion turns the vertex normals *)
Definition turn (a b c x : vec) : vec := vadd (vadd (vscale (nth 0 x 0) a) (vscale (nth 1 x 0) b)) (vscale (nth 2 x 0) c).
Definition rigid_motion (a b c s x : vec) : vec := vadd (turn a b c x) s.
(** [a], [b], [c] are the images of the coordinate directions under a rotation *)
Definition right_handed (a b c : vec) : Prop := length a = 3%nat /\ length b = 3%nat /\ vdot a a = 1 /\ vdot b b = 1 /\ vdot a b = 0 /\ c = cross3 a b.
Section Rigid.
  Variables a b c s : vec.
  Hypothesis (Hf : right_handed a b c) (Hs : length s = 3%nat).
  Notation rot := (turn a b c).
  Notation mv := (rigid_motion a b c s).
  Lemma rot_len x : length (rot x) = 3%nat.
  Proof. destruct Hf as (La & Lb & _ & _ & _ & ->). assert (Lc : length (cross3 a b) = 3%nat) by reflexivity. revert Lc. generalize (cross3 a b). intros w Lw. unfold turn. vlen. Qed.
  Lemma mv_len x : length (mv x) = 3%nat. Proof. unfold rigid_motion. rewrite vadd_len; rewrite rot_len; auto. Qed.
  Lemma frame_more : length c = 3%nat /\ vdot c c = 1 /\ vdot a c = 0 /\ vdot b c = 0 /\ cross3 b c = a /\ cross3 c a = b.
  Proof.
    destruct Hf as (La & Lb & Na & Nb & O & ->). split; [reflexivity|]. split; [rewrite lagrange_id by assumption; rewrite Na, Nb, O; ring|]. split; [apply cross_dot_l; assumption|]. split; [apply cross_dot_r; assumption|].
    destruct (len3 a La) as (a0 & a1 & a2 & ->), (len3 b Lb) as (b0 & b1 & b2 & ->). revert Na Nb O. vcalc. intros Na Nb O.
    assert (X0 : a0 = a0 * (b0 * b0 + (b1 * b1 + (b2 * b2 + 0))) - b0 * (a0 * b0 + (a1 * b1 + (a2 * b2 + 0)))) by (rewrite Nb, O; ring).
    assert (X1 : a1 = a1 * (b0 * b0 + (b1 * b1 + (b2 * b2 + 0))) - b1 * (a0 * b0 + (a1 * b1 + (a2 * b2 + 0)))) by (rewrite Nb, O; ring).
    assert (X2 : a2 = a2 * (b0 * b0 + (b1 * b1 + (b2 * b2 + 0))) - b2 * (a0 * b0 + (a1 * b1 + (a2 * b2 + 0)))) by (rewrite Nb, O; ring).
    assert (Y0 : b0 = b0 * (a0 * a0 + (a1 * a1 + (a2 * a2 + 0))) - a0 * (a0 * b0 + (a1 * b1 + (a2 * b2 + 0)))) by (rewrite Na, O; ring).
    assert (Y1 : b1 = b1 * (a0 * a0 + (a1 * a1 + (a2 * a2 + 0))) - a1 * (a0 * b0 + (a1 * b1 + (a2 * b2 + 0)))) by (rewrite Na, O; ring).
    assert (Y2 : b2 = b2 * (a0 * a0 + (a1 * a1 + (a2 * a2 + 0))) - a2 * (a0 * b0 + (a1 * b1 + (a2 * b2 + 0)))) by (rewrite Na, O; ring).
    split; vcons; try reflexivity; lra.
  Qed.
  Lemma rot_dot x y : length x = 3%nat -> length y = 3%nat -> vdot (rot x) (rot y) = vdot x y.
  Proof.
    intros Hx Hy. destruct Hf as (La & Lb & Na & Nb & O & _). destruct frame_more as (Lc & Nc & Oac & Obc & _). unfold turn. destruct (len3 x Hx) as (x0 & x1 & x2 & ->), (len3 y Hy) as (y0 & y1 & y2 & ->). cbn [nth]. vdots.
    rewrite (vdot_sym b a), (vdot_sym c a), (vdot_sym c b), Na, Nb, O, Nc, Oac, Obc. vcalc. ring.
  Qed.
  Lemma rot_cross x y : length x = 3%nat -> length y = 3%nat -> cross3 (rot x) (rot y) = rot (cross3 x y).
  Proof.
    intros Hx Hy. destruct frame_more as (Lc & _ & _ & _ & Ebc & Eca). destruct Hf as (La & Lb & _ & _ & _ & Eab).
    assert (G : forall u v w : vec, length u = 3%nat -> length v = 3%nat -> length w = 3%nat -> cross3 (turn u v w x) (turn u v w y) = turn (cross3 v w) (cross3 w u) (cross3 u v) (cross3 x y)).
    { intros u v w Hu Hv Hw. destruct (len3 x Hx) as (x0 & x1 & x2 & ->), (len3 y Hy) as (y0 & y1 & y2 & ->), (len3 u Hu) as (u0 & u1 & u2 & ->), (len3 v Hv) as (v0 & v1 & v2 & ->), (len3 w Hw) as (w0 & w1 & w2 & ->). unfold turn. vcalc. veq ltac:(ring). }
    rewrite (G a b c La Lb Lc), Ebc, Eca, <- Eab. reflexivity.
  Qed.
  Lemma rot_lin k x y : length x = 3%nat -> length y = 3%nat -> rot (vadd (vscale k x) y) = vadd (vscale k (rot x)) (rot y).
  Proof.
    intros Hx Hy. destruct frame_more as (Lc & _). destruct Hf as (La & Lb & _ & _ & _ & _). unfold turn. rewrite !nth_vadd, !nth_vscale by (rewrite vscale_len; congruence). vring.
  Qed.
  Lemma rot_scale k x : length x = 3%nat -> rot (vscale k x) = vscale k (rot x).
  Proof. intros Hx. destruct frame_more as (Lc & _). destruct Hf as (La & Lb & _ & _ & _ & _). unfold turn. rewrite !nth_vscale. vring. Qed.
  Lemma rot_zero : rot (vzero 3) = vzero 3.
  Proof.
    destruct frame_more as (Lc & _). destruct Hf as (La & Lb & _ & _ & _ & _). unfold turn. apply vec_ext; [vlen|]. intros i _. rewrite !nth_vzero. vnths. ring.
  Qed.
  Lemma rot_sum l : (forall x, In x l -> length x = 3%nat) -> rot (vsum 3 l) = vsum 3 (map rot l).
  Proof.
    induction l as [|x l IH]; intros H; [apply rot_zero|]. cbn [map vsum fold_right]. fold (vsum 3 l) (vsum 3 (map rot l)). rewrite <- IH by (intros; apply H; now right). assert (Lx : length x = 3%nat) by (apply H; now left). assert (Ll : length (vsum 3 l) = 3%nat) by (apply vsum_len; intros; apply H; now right).
    replace (vadd x (vsum 3 l)) with (vadd (vscale 1 x) (vsum 3 l)) by vring. rewrite rot_lin by assumption. pose proof (rot_len x) as R1. pose proof (rot_len (vsum 3 l)) as R2. revert R1 R2. generalize (rot x), (rot (vsum 3 l)). intros u w Hu Hw. vring.
  Qed.
  Lemma mv_sub x y : length x = 3%nat -> length y = 3%nat -> vsub (mv x) (mv y) = rot (vsub x y).
  Proof.
    intros Hx Hy. destruct frame_more as (Lc & _). destruct Hf as (La & Lb & _ & _ & _ & _). unfold rigid_motion, turn. rewrite !nth_vsub by congruence. vring.
  Qed.
  Lemma rot_norm x : length x = 3%nat -> vnorm (rot x) = vnorm x. Proof. intros H. unfold vnorm. rewrite rot_dot by assumption. reflexivity. Qed.
  Lemma mv_long p q r : length p = 3%nat -> length q = 3%nat -> length r = 3%nat -> long_normal (mv p) (mv q) (mv r) = rot (long_normal p q r).
  Proof. intros Hp Hq Hr. unfold long_normal. rewrite !mv_sub by assumption. apply rot_cross; rewrite vsub_len; congruence. Qed.
  Lemma mv_term w p q r : length p = 3%nat -> length q = 3%nat -> length r = 3%nat ->
    vscale (weight_at w (mv p) (mv q) (mv r)) (unit_normal (mv p) (mv q) (mv r)) = rot (vscale (weight_at w p q r) (unit_normal p q r)).
  Proof.
    intros Hp Hq Hr. unfold unit_normal. assert (Ll : length (long_normal p q r) = 3%nat) by reflexivity. rewrite !rot_scale by (rewrite ?vscale_len; exact Ll). rewrite mv_long, rot_norm by assumption. f_equal.
    destruct w; cbn [weight_at]; [reflexivity| | |].
    - rewrite mv_long, rot_norm by assumption. reflexivity.
    - rewrite !mv_sub by assumption. rewrite rot_dot, !rot_norm by (rewrite vsub_len; congruence). reflexivity.
    - f_equal. replace (vsub (vscale (/ 3) (vadd (vadd (mv p) (mv q)) (mv r))) (mv p)) with (rot (vsub (vscale (/ 3) (vadd (vadd p q) r)) p)); [apply rot_norm; vlen|].
      destruct frame_more as (Lc & _). destruct Hf as (La & Lb & _ & _ & _ & _). unfold rigid_motion, turn. repeat (rewrite ?nth_vscale, ?nth_vsub, ?nth_vadd by vlen). vfield idtac.
  Qed.
  Lemma mv_proper p q r : proper p q r -> length p = 3%nat -> proper (mv p) (mv q) (mv r).
  Proof.
    intros (Hq & Hr & N) Hp. split; [rewrite !mv_len; reflexivity|]. split; [rewrite !mv_len; reflexivity|]. rewrite mv_len, !mv_sub by congruence. intros x y E.
    assert (Lq : length (vsub q p) = 3%nat) by vlen. assert (Lr : length (vsub r p) = 3%nat) by vlen. rewrite <- (rot_scale y), <- rot_lin in E by (rewrite ?vscale_len; assumption).
    apply N. rewrite Hp. assert (L : length (vadd (vscale x (vsub q p)) (vscale y (vsub r p))) = 3%nat) by vlen. refine (eq_trans (vdot_zero_inv _ _) (f_equal vzero L)). rewrite <- rot_dot by exact L. rewrite E. apply vdot_zero_l.
  Qed.
End Rigid.
Theorem C104_rigid_motion : forall t v w a b c s, is_mesh 3 t v -> right_handed a b c -> length s = 3%nat -> exists rows, vertex_normals t v w = Ok rows /\
  vertex_normals t (map (rigid_motion a b c s) v) w = Ok (map (option_map (turn a b c)) rows).
Proof.
  intros t v w a b c s H Hf Hs. assert (Hpt : forall a, (a < length v)%nat -> length (point v a) = 3%nat) by (intros; eapply point_len; eauto).
  assert (Pm : forall k, (k < length v)%nat -> point (map (rigid_motion a b c s) v) k = rigid_motion a b c s (point v k)).
  { intros k Hk. unfold point. rewrite (nth_indep _ [] (rigid_motion a b c s [])) by (rewrite map_length; exact Hk). apply map_nth. }
  assert (H' : is_mesh 3 t (map (rigid_motion a b c s) v)).
  { split; [intros x Hx; apply in_map_iff in Hx as (y & <- & _); apply mv_len; assumption|]. intros tr Htr. destruct (proj2 H tr Htr) as (i & j & k & -> & Hi & Hj & Hk & Hp). exists i, j, k. rewrite map_length, !Pm by assumption. split; [reflexivity|]. split; [exact Hi|]. split; [exact Hj|]. split; [exact Hk|]. apply mv_proper; auto. }
  destruct (C104_vertex_normals t v w H) as (rows & E & L & N), (C104_vertex_normals t _ w H') as (rows' & E' & L' & N'). rewrite map_length in L', N'. exists rows. split; [exact E|]. rewrite E'. f_equal.
  apply (nth_ext _ _ None None); [rewrite map_length; congruence|]. intros k Hk. rewrite L' in Hk. refine (eq_trans _ (eq_sym (map_nth (option_map (turn a b c)) rows None k))). apply (direction_unique _ _ _ (N' k Hk)).
  assert (S : star 3 t k (corner_normal w (map (rigid_motion a b c s) v)) = turn a b c (star 3 t k (corner_normal w v))).
  { unfold star. rewrite (rot_sum a b c Hf) by (intros x Hx; apply in_flat_map in Hx as (tr & _ & Hx); apply in_map_iff in Hx as (j & <- & _); unfold corner_normal; cbv zeta; unfold unit_normal; rewrite !vscale_len; reflexivity). f_equal.
    rewrite !flat_map_concat_map, concat_map, map_map. f_equal. apply map_ext_in. intros tr Htr. rewrite map_map. apply map_ext_in. intros j _. unfold corner_normal. cbv zeta.
    assert (Q : forall j, at_corner (map (rigid_motion a b c s) v) tr j = rigid_motion a b c s (at_corner v tr j) /\ length (at_corner v tr j) = 3%nat).
    { intros i. unfold at_corner. assert (B : (corner tr i < length v)%nat). { destruct (proj2 H tr Htr) as (a' & b' & c' & -> & Ha & Hb & Hc & _). unfold corner. pose proof (Nat.mod_upper_bound i 3 ltac:(lia)) as U. destruct (i mod 3)%nat as [|[|[|m]]]; [exact Ha|exact Hb|exact Hc|lia]. } split; [apply Pm, B|apply Hpt, B]. }
    destruct (Q j) as [-> L0], (Q (j + 1)%nat) as [-> L1], (Q (j + 2)%nat) as [-> L2]. apply mv_term; assumption. }
  rewrite S. pose proof (N k Hk) as Nk. pose proof (star_len t k w v) as Ls. revert Nk Ls. generalize (star 3 t k (corner_normal w v)). intros x. destruct (nth k rows None) as [u|]; cbn [option_map is_direction].
  - intros (Hu & e & He & ->) Lx. split; [rewrite rot_norm; [exact Hu|exact Hf|rewrite vscale_len; exact Lx]|]. exists e. split; [exact He|]. apply rot_scale; assumption.
  - intros Ex Lx. rewrite (rot_len a b c Hf). rewrite Lx in Ex. rewrite Ex. apply rot_zero, Hf.
Qed.
Print Assumptions C104_rigid_motion.

(** ** examples and findings *)
Lemma proper_det (a0 a1 a2 b0 b1 b2 c0 c1 c2 : R) : vdot (cross3 [b0 - a0; b1 - a1; b2 - a2] [c0 - a0; c1 - a1; c2 - a2]) (cross3 [b0 - a0; b1 - a1; b2 - a2] [c0 - a0; c1 - a1; c2 - a2]) <> 0 -> proper [a0; a1; a2] [b0; b1; b2] [c0; c1; c2].
Proof.
  intros N. split; [reflexivity|]. split; [reflexivity|]. intros s t E. revert N E. vcalc. cbn [vzero repeat length]. intros N E. injection E as E0 E1 E2.
  set (x0 := b0 - a0) in *. set (x1 := b1 - a1) in *. set (x2 := b2 - a2) in *. set (y0 := c0 - a0) in *. set (y1 := c1 - a1) in *. set (y2 := c2 - a2) in *. clearbody x0 x1 x2 y0 y1 y2.
  set (n0 := x1 * y2 - x2 * y1) in *. set (n1 := x2 * y0 - x0 * y2) in *. set (n2 := x0 * y1 - x1 * y0) in *.
  assert (S0 : s * n0 = 0) by (unfold n0; replace (s * (x1 * y2 - x2 * y1)) with ((s * x1 + t * y1) * y2 - (s * x2 + t * y2) * y1) by ring; rewrite E1, E2; ring).
  assert (S1 : s * n1 = 0) by (unfold n1; replace (s * (x2 * y0 - x0 * y2)) with ((s * x2 + t * y2) * y0 - (s * x0 + t * y0) * y2) by ring; rewrite E0, E2; ring).
  assert (S2 : s * n2 = 0) by (unfold n2; replace (s * (x0 * y1 - x1 * y0)) with ((s * x0 + t * y0) * y1 - (s * x1 + t * y1) * y0) by ring; rewrite E0, E1; ring).
  assert (T0 : t * n0 = 0) by (unfold n0; replace (t * (x1 * y2 - x2 * y1)) with ((s * x2 + t * y2) * x1 - (s * x1 + t * y1) * x2) by ring; rewrite E1, E2; ring).
  assert (T1 : t * n1 = 0) by (unfold n1; replace (t * (x2 * y0 - x0 * y2)) with ((s * x0 + t * y0) * x2 - (s * x2 + t * y2) * x0) by ring; rewrite E0, E2; ring).
  assert (T2 : t * n2 = 0) by (unfold n2; replace (t * (x0 * y1 - x1 * y0)) with ((s * x1 + t * y1) * x0 - (s * x0 + t * y0) * x1) by ring; rewrite E0, E1; ring).
  split; [destruct (Req_dec s 0) as [Z|Z]|destruct (Req_dec t 0) as [Z|Z]]; try exact Z; exfalso; apply N.
  - apply Rmult_integral in S0, S1, S2. destruct S0, S1, S2; try contradiction. nra.
  - apply Rmult_integral in T0, T1, T2. destruct T0, T1, T2; try contradiction. nra.
Qed.
Ltac proper_num := apply proper_det; vcalc; lra.
Ltac mesh_num := match goal with |- is_mesh _ _ _ => split; [let x := fresh in let H := fresh in intros x H; repeat (destruct H as [ <- |H]; [reflexivity|]); destruct H|let tr := fresh in let H := fresh in intros tr H; repeat (destruct H as [ <- |H]; [do 3 eexists; split; [reflexivity|]; split; [cbn; lia|]; split; [cbn; lia|]; split; [cbn; lia|]; unfold point; cbn [nth]; proper_num|]); destruct H] end.
(** the surface of a tetrahedron *)
Definition tetra_v : list vec := [[0; 0; 0]; [1; 0; 0]; [0; 1; 0]; [0; 0; 1]].
Definition tetra_t : list (list nat) := [[0; 2; 1]; [0; 1; 3]; [0; 3; 2]; [1; 2; 3]]%nat.
Lemma tetra_mesh : is_mesh 3 tetra_t tetra_v. Proof. unfold tetra_t, tetra_v. mesh_num. Qed.
Lemma tetra_measurable : measurable_mesh tetra_t tetra_v.
Proof. intros tr H. pose proof (corners_proper 3 tetra_t tetra_v tr 0 tetra_mesh H ltac:(lia)) as [P L]. apply meas3; assumption. Qed.
Example C104_ex : is_mesh 3 tetra_t tetra_v /\ (exists tr, In tr tetra_t /\ In 0%nat tr). Proof. split; [apply tetra_mesh|]. exists [0; 2; 1]%nat. cbn. auto. Qed.
Example C105_ex : is_mesh 3 tetra_t tetra_v /\ closed tetra_t.
Proof.
  split; [apply tetra_mesh|]. intros a b. destruct (le_lt_dec 4 a) as [Ha|Ha]; [|destruct (le_lt_dec 4 b) as [Hb|Hb]].
  - transitivity 0%nat; [|symmetry]; apply count_occ_not_In; cbn; intros H; repeat (destruct H as [H|H]; [injection H; lia|]); exact H.
  - transitivity 0%nat; [|symmetry]; apply count_occ_not_In; cbn; intros H; repeat (destruct H as [H|H]; [injection H; lia|]); exact H.
  - do 4 (destruct a as [|a]; [do 4 (destruct b as [|b]; [reflexivity|]); lia|]); lia.
Qed.
Example C106_ex : is_mesh 3 tetra_t tetra_v /\ measurable_mesh tetra_t tetra_v. Proof. split; [apply tetra_mesh|apply tetra_measurable]. Qed.
Example C104_rigid_ex : right_handed [0; 1; 0] [-1; 0; 0] [0; 0; 1]. Proof. repeat split; try (vcalc; ring). vcalc. vcons; try reflexivity; ring. Qed.
(** one triangle *)
Definition tri_v : list vec := [[0; 0; 0]; [1; 0; 0]; [0; 1; 0]].
Lemma tri_mesh : is_mesh 3 [[0; 1; 2]]%nat tri_v. Proof. unfold tri_v. mesh_num. Qed.
Example C104_flat_ex : forall tr, In tr [[0; 1; 2]]%nat -> In 1%nat tr -> unit_normal (at_corner tri_v tr 0) (at_corner tri_v tr 1) (at_corner tri_v tr 2) = [0; 0; 1].
Proof.
  intros tr [ <- |[]] _. destruct (at_corners tri_v 0 1 2) as (-> & -> & ->). unfold unit_normal. replace (long_normal (point tri_v 0) (point tri_v 1) (point tri_v 2)) with [0; 0; 1] by (unfold long_normal, point, tri_v; cbn [nth]; vcalc; vcons; try reflexivity; ring).
  replace (vnorm [0; 0; 1]) with 1 by (symmetry; apply vnorm_eq; [lra|vcalc; ring]). rewrite Rinv_1. vcalc. vcons; try reflexivity; ring.
Qed.
Definition four_v : list vec := [[0; 0; 0]; [1; 0; 0]; [0; 1; 0]; [2; 0; 0]].
Theorem C104_unused_refuted : exists t v k, is_mesh 3 t v /\ (k < length v)%nat /\ forall w, exists rows, vertex_normals t v w = Ok rows /\ nth_error rows k = Some None.
Proof.
  exists [[0; 1; 2]]%nat, four_v, 3%nat. assert (M : is_mesh 3 [[0; 1; 2]]%nat four_v) by (unfold four_v; mesh_num). split; [exact M|]. split; [cbn; lia|]. intros w. apply C104_unused_vertex; [exact M|cbn; lia|]. intros tr [ <- |[]]. cbn. lia.
Qed.
Print Assumptions C104_unused_refuted.
(** the triangles with area at vertex 0 have the same normal, a triangle without area has the weight zero *)
Theorem C104_degenerate_refuted : exists t v k m, indexed 3 t v /\ (exists tr, In tr t /\ In k tr /\ proper (at_corner v tr 0) (at_corner v tr 1) (at_corner v tr 2)) /\
  (forall tr, In tr t -> In k tr -> proper (at_corner v tr 0) (at_corner v tr 1) (at_corner v tr 2) -> unit_normal (at_corner v tr 0) (at_corner v tr 1) (at_corner v tr 2) = m) /\
  exists rows, vertex_normals t v WArea = Ok rows /\ nth_error rows k = Some None.
Proof.
  assert (D : ~ proper [0; 0; 0] [1; 0; 0] [2; 0; 0]). { intros (_ & _ & N). destruct (N 2 (-1)) as [X _]; [|lra]. vcalc. unfold vzero. cbn [repeat length]. vcons; try reflexivity; ring. }
  assert (I : indexed 3 [[0; 1; 2]; [0; 1; 3]]%nat four_v). { split; [intros x H; repeat (destruct H as [ <- |H]; [reflexivity|]); destruct H|]. intros tr [ <- |[ <- |[]]]; do 3 eexists; (split; [reflexivity|]); cbn; lia. }
  exists [[0; 1; 2]; [0; 1; 3]]%nat, four_v, 0%nat, [0; 0; 1]. split; [exact I|]. split; [|split].
  - exists [0; 1; 2]%nat. split; [now left|]. split; [now left|]. unfold at_corner, corner, point, four_v. cbn [nth Nat.modulo Nat.divmod Nat.sub fst snd]. proper_num.
  - intros tr [ <- |[ <- |[]]] _ P; [|contradiction]. exact (C104_flat_ex [0; 1; 2]%nat ltac:(now left) ltac:(cbn; auto)).
  - apply (C104_degenerate_triangle _ _ WArea 0 1 3 0); [exact I|cbn; auto|exact D|now left].
Qed.
Print Assumptions C104_degenerate_refuted.

(** in a mesh that lies in a plane the cotangent vectors lie in the plane *)
Theorem C106_flat : forall n t v m, is_mesh n t v -> measurable_mesh t v -> (forall i j, (i < length v)%nat -> (j < length v)%nat -> vdot m (vsub (point v i) (point v j)) = 0) ->
  exists rows, vertex_normals_cotangent t v = Ok rows /\ forall u, In (Some u) rows -> vdot m u = 0.
Proof.
  intros n t v m H M Hm. destruct (cotangent_rows n t v H M) as (rows & E & L & N). exists rows. split; [exact E|]. intros u Hu. apply (In_nth _ _ None) in Hu as (k & Hk & Ek). rewrite L in Hk. pose proof (N k Hk) as Nk. rewrite Ek in Nk. destruct Nk as (_ & c & _ & ->).
  assert (Hpt : forall a, (a < length v)%nat -> length (point v a) = n) by (intros; eapply point_len; eauto). rewrite !vdot_scale_r.
  assert (A : forall x, In x (at_key k (flat_map (cot_adds v) t)) -> length x = n /\ vdot m x = 0).
  { intros x Hx. unfold at_key in Hx. apply in_map_iff in Hx as (cc & <- & Hcc). apply filter_In in Hcc as [Hcc _]. apply in_flat_map in Hcc as (tr & Htr & Hcc). destruct (proj2 H tr Htr) as (i & j & l & -> & Hi & Hj & Hl & _). assert (Li := Hpt i Hi). assert (Lj := Hpt j Hj). assert (Ll := Hpt l Hl).
    unfold cot_adds in Hcc. cbv zeta in Hcc. destruct (at_corners v i j l) as (X0 & X1 & X2). rewrite X0, X1, X2 in Hcc. unfold e0, e1, e2 in Hcc.
    cbn [In] in Hcc. repeat (destruct Hcc as [ <- |Hcc]; [cbn [fst snd]; rewrite !vscale_len, vsub_len, !vdot_scale_r, Hm by congruence; split; [assumption|ring]|]). destruct Hcc. }
  rewrite vdot_vsum by (intros x Hx; apply A, Hx). unfold dsum. replace (map (vdot m) (at_key k (flat_map (cot_adds v) t))) with (map (fun _ : vec => 0 * 0) (at_key k (flat_map (cot_adds v) t))) by (apply map_ext_in; intros x Hx; rewrite (proj2 (A x Hx)); ring). rewrite rsum_map_scale. ring.
Qed.
Print Assumptions C106_flat.
(** For a single triangle the "normal" of a vertex is orthogonal to the normal of the triangle. *)
Theorem C106_boundary_refuted : exists t v rows u, is_mesh 3 t v /\ vertex_normals_cotangent t v = Ok rows /\ nth_error rows 0 = Some (Some u) /\ vnorm u = 1 /\
  vdot (unit_normal (point v 0) (point v 1) (point v 2)) u = 0.
Proof.
  assert (M : measurable_mesh [[0; 1; 2]]%nat tri_v). { intros tr H. pose proof (corners_proper 3 _ tri_v tr 0 tri_mesh H ltac:(lia)) as [P L]. apply meas3; assumption. }
  destruct (cotangent_rows 3 _ _ tri_mesh M) as (rows & E & L & N). destruct (C106_flat 3 _ _ [0; 0; 1] tri_mesh M) as (rows' & E' & F).
  { intros i j Hi Hj. destruct i as [|[|[|i]]]; [| | |cbn in Hi; lia]; (destruct j as [|[|[|j]]]; [| | |cbn in Hj; lia]); unfold point, tri_v; cbn [nth]; vcalc; ring. }
  rewrite E in E'. injection E' as <-. specialize (N 0%nat ltac:(cbn; lia)). destruct (nth 0 rows None) as [u|] eqn:Eu.
  - exists [[0; 1; 2]]%nat, tri_v, rows, u. split; [apply tri_mesh|]. split; [exact E|]. assert (I : nth_error rows 0 = Some (Some u)) by (rewrite <- Eu; apply nth_error_nth'; rewrite L; cbn; lia). split; [exact I|]. split; [apply N|].
    pose proof (C104_flat_ex [0; 1; 2]%nat ltac:(now left) ltac:(cbn; auto)) as U. destruct (at_corners tri_v 0 1 2) as (X0 & X1 & X2). rewrite X0, X1, X2 in U. rewrite U. apply F. eapply nth_error_In, I.
  - exfalso. cbn [is_direction] in N. rewrite vscale_len in N. pose proof (f_equal (fun w => nth 0 w 0) N) as K. cbn beta in K. rewrite nth_vzero, nth_vscale in K. revert K.
    unfold at_key, cot_adds. cbv zeta. destruct (at_corners tri_v 0 1 2) as (X0 & X1 & X2). cbn [flat_map]. rewrite X0, X1, X2. change (corner [0%nat; 1%nat; 2%nat] 0) with 0%nat. change (corner [0%nat; 1%nat; 2%nat] 1) with 1%nat. change (corner [0%nat; 1%nat; 2%nat] 2) with 2%nat. cbn [app filter fst Nat.eqb map snd].
    assert (T : tS (point tri_v 0) (point tri_v 1) (point tri_v 2) = 1). { unfold tS. replace (gD _ _ _) with 1; [apply sqrt_1|]. unfold gD, gA, gB, gC, e0, e1, point, tri_v. cbn [nth]. vcalc. ring. }
    unfold cot1, cot2. rewrite T. unfold gA, gB, gC, e0, e1, e2, point, tri_v, vsum. cbn [nth]. vcalc. cbn. lra.
Qed.
Print Assumptions C106_boundary_refuted.
(** At an interior vertex of a flat mesh the area does not depend on the vertex, and the result is nan. *)
Definition fan_v : list vec := [[0; 0; 0]; [1; 0; 0]; [0; 1; 0]; [-1; 0; 0]; [0; -1; 0]].
Definition fan_t : list (list nat) := [[0; 1; 2]; [0; 2; 3]; [0; 3; 4]; [0; 4; 1]]%nat.
Theorem C106_interior_refuted : is_mesh 3 fan_t fan_v /\ measurable_mesh fan_t fan_v /\ exists rows rows', vertex_normals_cotangent fan_t fan_v = Ok rows /\ nth_error rows 0 = Some None /\
  vertex_normals fan_t fan_v WArea = Ok rows' /\ nth_error rows' 0 = Some (Some [0; 0; 1]).
Proof.
  assert (M : is_mesh 3 fan_t fan_v) by (unfold fan_t, fan_v; mesh_num). split; [exact M|].
  assert (MM : measurable_mesh fan_t fan_v). { intros tr H. pose proof (corners_proper 3 _ fan_v tr 0 M H ltac:(lia)) as [P L]. apply meas3; assumption. } split; [exact MM|].
  destruct (cotangent_rows 3 _ _ M MM) as (rows & E & L & N). destruct (C104_flat fan_t fan_v WArea 0 [0; 0; 1] M) as (rows' & E' & N').
  { exists [0; 1; 2]%nat. cbn. auto. }
  { intros tr Htr _. assert (LN : long_normal (at_corner fan_v tr 0) (at_corner fan_v tr 1) (at_corner fan_v tr 2) = [0; 0; 1]).
    { repeat (destruct Htr as [ <- |Htr]; [unfold long_normal, at_corner, corner, point, fan_v; cbn [nth Nat.modulo Nat.divmod Nat.sub fst snd]; vcalc; vcons; try reflexivity; ring|]). destruct Htr. }
    unfold unit_normal. rewrite LN. replace (vnorm [0; 0; 1]) with 1 by (symmetry; apply vnorm_eq; [lra|vcalc; ring]). rewrite Rinv_1. vcalc. vcons; try reflexivity; ring. }
  exists rows, rows'. split; [exact E|]. split; [|split; assumption]. rewrite (nth_error_nth' rows None) by (rewrite L; cbn; lia). f_equal. apply (direction_unique _ _ _ (N 0%nat ltac:(cbn; lia))). cbn [is_direction]. rewrite vscale_len.
  assert (T : forall tr, In tr fan_t -> tS (at_corner fan_v tr 0) (at_corner fan_v tr 1) (at_corner fan_v tr 2) = 1 /\ gA (at_corner fan_v tr 1) (at_corner fan_v tr 2) = 2 /\ gB (at_corner fan_v tr 0) (at_corner fan_v tr 1) (at_corner fan_v tr 2) = -1 /\ gC (at_corner fan_v tr 0) (at_corner fan_v tr 2) = 1).
  { intros tr Htr. assert (G : gA (at_corner fan_v tr 1) (at_corner fan_v tr 2) = 2 /\ gB (at_corner fan_v tr 0) (at_corner fan_v tr 1) (at_corner fan_v tr 2) = -1 /\ gC (at_corner fan_v tr 0) (at_corner fan_v tr 2) = 1).
    { repeat (destruct Htr as [ <- |Htr]; [unfold gA, gB, gC, e0, e1, at_corner, corner, point, fan_v; cbn [nth Nat.modulo Nat.divmod Nat.sub fst snd]; vcalc; lra|]). destruct Htr. }
    destruct G as (GA & GB & GC). repeat split; try assumption. unfold tS, gD. rewrite GA, GB, GC. replace (2 * 1 - -1 * -1) with 1 by ring. apply sqrt_1. }
  assert (C : forall tr, In tr fan_t -> cot_adds fan_v tr = let p := at_corner fan_v tr 0 in let q := at_corner fan_v tr 1 in let r := at_corner fan_v tr 2 in
    [(corner tr 1, vscale (0 / 1) (e0 q r)); (corner tr 2, vscale (-1) (vscale (0 / 1) (e0 q r))); (corner tr 2, vscale (1 / 1) (e1 p r)); (corner tr 0, vscale (-1) (vscale (1 / 1) (e1 p r))); (corner tr 0, vscale (1 / 1) (e2 p q)); (corner tr 1, vscale (-1) (vscale (1 / 1) (e2 p q)))]).
  { intros tr Htr. destruct (T tr Htr) as (TS & GA & GB & GC). unfold cot_adds, cot0, cot1, cot2. cbv zeta. rewrite TS, GA, GB, GC. replace (-1 + 1) with 0 by ring. replace (2 + -1) with 1 by ring. replace (- -1) with 1 by ring. reflexivity. }
  assert (S : vsum 3 (at_key 0 (flat_map (cot_adds fan_v) fan_t)) = [0; 0; 0]).
  { unfold fan_t at 1. cbn [flat_map]. rewrite !C by (cbn; auto). cbv zeta. unfold at_key, at_corner, corner. cbn [nth Nat.modulo Nat.divmod Nat.sub fst snd app filter Nat.eqb map]. unfold vsum, e1, e2, point, fan_v. cbn [nth]. vcalc. cbn. vcons; try reflexivity; lra. }
  rewrite S. vcalc. cbn. vcons; try reflexivity; ring.
Qed.
Print Assumptions C106_interior_refuted.

(** ** C107: centroids and the number of vertices *)
(** a point of a triangle, and integrals over a triangle and over a mesh *)
Definition chart (p q r : vec) (s u : R) : vec := vadd p (vadd (vscale s (vsub q p)) (vscale u (vsub r p))).
Definition triangle_integral (f : vec -> R) (p q r : vec) (J : R) : Prop := exists inner I,
  (forall s, 0 <= s <= 1 -> is_RInt (fun u => f (chart p q r s u)) 0 (1 - s) (inner s)) /\ is_RInt inner 0 1 I /\ J = 2 * area_of p q r * I.
Definition surface_integral (f : vec -> R) (t : list (list nat)) (v : list vec) (J : R) : Prop :=
  exists Js, Forall2 (fun tr => triangle_integral f (at_corner v tr 0) (at_corner v tr 1) (at_corner v tr 2)) t Js /\ J = rsum Js.

Lemma affine_integral a b c (g : R -> R -> R) : (forall s u, g s u = a + s * b + u * c) ->
  (forall s, is_RInt (fun u => g s u) 0 (1 - s) ((a + s * b) * (1 - s) + c * (1 - s) * (1 - s) / 2)) /\
  is_RInt (fun s => (a + s * b) * (1 - s) + c * (1 - s) * (1 - s) / 2) 0 1 (a / 2 + b / 6 + c / 6).
Proof.
  intros G. split.
  - intros s. apply (is_RInt_ext (fun u => a + s * b + u * c)); [intros u _; symmetry; apply G|].
    evar_last; [apply (is_RInt_derive (fun u => (a + s * b) * u + c * u * u / 2))|].
    + intros x _. auto_derive; [exact I|]. field.
    + intros x _. apply (ex_derive_continuous (fun u => a + s * b + u * c)). auto_derive. exact I.
    + unfold minus, plus, opp. cbn. field.
  - evar_last; [apply (is_RInt_derive (fun s => a * s + (b - a) * s * s / 2 - b * s * s * s / 3 - c * (1 - s) * (1 - s) * (1 - s) / 6))|].
    + intros x _. auto_derive; [exact I|]. field.
    + intros x _. apply (ex_derive_continuous (fun s => (a + s * b) * (1 - s) + c * (1 - s) * (1 - s) / 2)). auto_derive. exact I.
    + unfold minus, plus, opp. cbn. field.
Qed.
Lemma integral_one p q r : triangle_integral (fun _ => 1) p q r (area_of p q r).
Proof.
  destruct (affine_integral 1 0 0 (fun _ _ => 1)) as [H1 H2]; [intros; ring|]. eexists _, _. split; [intros s _; exact (H1 s)|]. split; [exact H2|]. field.
Qed.
Lemma integral_coordinate (p q r : vec) i : length q = length p -> length r = length p -> triangle_integral (fun x => nth i x 0) p q r (area_of p q r * ((nth i p 0 + nth i q 0 + nth i r 0) / 3)).
Proof.
  intros Hq Hr. destruct (affine_integral (nth i p 0) (nth i q 0 - nth i p 0) (nth i r 0 - nth i p 0) (fun s u => nth i (chart p q r s u) 0)) as [H1 H2].
  { intros s u. unfold chart. vnths. ring. }
  eexists _, _. split; [intros s _; exact (H1 s)|]. split; [exact H2|]. field.
Qed.
Lemma centroid_fold n v t : n = 2%nat \/ n = 3%nat -> indexed n t v -> forall c0 a0, length c0 = n -> exists c1,
  foldM (fun (ca : vec * R) tr => let* p := vertices tr v in let ct := centroid p in let* a := area p in Ok (vadd (fst ca) (vscale a ct), snd ca + a)) (c0, a0) t = Ok (c1, a0 + mesh_area t v) /\ length c1 = n /\
  forall i, nth i c1 0 = nth i c0 0 + rsum (map (fun tr => area_of (at_corner v tr 0) (at_corner v tr 1) (at_corner v tr 2) * ((nth i (at_corner v tr 0) 0 + nth i (at_corner v tr 1) 0 + nth i (at_corner v tr 2) 0) / 3)) t).
Proof.
  intros Hn [Hv Ht]. assert (Hpt : forall a, (a < length v)%nat -> length (point v a) = n) by (intros x Hx; apply Hv, nth_In, Hx).
  induction t as [|tr t IH]; intros c0 a0 L0.
  { exists c0. split; [unfold mesh_area; cbn; f_equal; f_equal; symmetry; apply Rplus_0_r|]. split; [exact L0|]. intros i. symmetry. apply Rplus_0_r. }
  destruct (Ht tr ltac:(now left)) as (a & b & c & -> & Ha & Hb & Hc). pose proof (Hpt a Ha) as La. pose proof (Hpt b Hb) as Lb. pose proof (Hpt c Hc) as Lc. cbn [foldM]. rewrite vertices_ok by assumption. cbn [bind]. rewrite (area_ok n) by assumption. cbn [bind fst snd].
  set (ct := centroid [point v a; point v b; point v c]). assert (Lct : length ct = n) by (unfold ct, centroid; cbn [vx nth]; vlen). set (S := / 2 * sqrt (gD (point v a) (point v b) (point v c))).
  destruct (IH ltac:(intros; apply Ht; now right) (vadd c0 (vscale S ct)) (a0 + S)) as (c1 & E & L1 & N); [rewrite vadd_len; [exact L0|rewrite vscale_len; congruence]|].
  assert (AS : area_of (point v a) (point v b) (point v c) = S) by (rewrite area_of_gram by congruence; unfold S; field).
  exists c1. split; [refine (eq_trans E _); f_equal; f_equal; unfold mesh_area; cbn [map]; destruct (at_corners v a b c) as (-> & -> & ->); rewrite AS; change (a0 + S + rsum (map (fun tr => area_of (at_corner v tr 0) (at_corner v tr 1) (at_corner v tr 2)) t) = a0 + (S + rsum (map (fun tr => area_of (at_corner v tr 0) (at_corner v tr 1) (at_corner v tr 2)) t))); ring|].
  split; [exact L1|]. intros i. rewrite N. rewrite nth_vadd, nth_vscale by (rewrite vscale_len; congruence). cbn [map]. destruct (at_corners v a b c) as (-> & -> & ->). rewrite AS.
  assert (Nc : nth i ct 0 = (nth i (point v a) 0 + nth i (point v b) 0 + nth i (point v c) 0) / 3) by (unfold ct, centroid; cbn [vx nth]; rewrite vdivs_scale; vnths; field). rewrite Nc.
  match goal with |- _ = _ + rsum (?x :: ?l) => change (rsum (x :: l)) with (x + rsum l) end. ring.
Qed.
Lemma indexed_weaken n t v : is_mesh n t v -> indexed n t v.
Proof. intros [H Ht]. split; [exact H|]. intros tr Htr. destruct (Ht tr Htr) as (a & b & c & E & Ha & Hb & Hc & _). exists a, b, c. auto. Qed.
Theorem C107_centroid : forall n t v, n = 2%nat \/ n = 3%nat -> indexed n t v -> 0 < mesh_area t v -> exists c M, mesh_centroid t v = Ok (Some c) /\ length c = n /\
  surface_integral (fun _ => 1) t v M /\ 0 < M /\ forall i, (i < n)%nat -> exists J, surface_integral (fun x => nth i x 0) t v J /\ nth i c 0 = J / M.
Proof.
  intros n t v Hn H A. destruct t as [|tr0 t0] eqn:Et; [unfold mesh_area in A; cbn in A; lra|]. rewrite <- Et in *. pose proof H as [Hv Ht].
  assert (H0 : (0 < length v)%nat) by (destruct (Ht tr0 ltac:(rewrite Et; now left)) as (a & _ & _ & _ & Ha & _); lia). clear Et.
  assert (Hpt : forall a, (a < length v)%nat -> length (point v a) = n) by (intros x Hx; apply Hv, nth_In, Hx).
  unfold mesh_centroid, get. rewrite (nth_error_nth' v [] H0). cbn [bind]. assert (Ln : length (nth 0 v []) = n) by (apply Hv, nth_In, H0). rewrite Ln.
  destruct (centroid_fold n v t Hn H (vzero n) 0 (vzero_len n)) as (c1 & E & L1 & N). match type of E with _ = ?rhs => match goal with |- context[foldM ?f ?x t] => let H := fresh in assert (H : foldM f x t = rhs) by exact E; rewrite H end end. cbn [bind fst snd]. rewrite Rplus_0_l. rewrite reqb_f by lra.
  exists (vdivs c1 (mesh_area t v)), (mesh_area t v). split; [reflexivity|]. split; [rewrite vdivs_len; exact L1|]. split; [|split; [exact A|]].
  - exists (map (fun tr => area_of (at_corner v tr 0) (at_corner v tr 1) (at_corner v tr 2)) t). split; [|reflexivity]. clear. induction t as [|tr t IH]; cbn [map]; constructor; [apply integral_one|exact IH].
  - intros i _. eexists. split.
    + exists (map (fun tr => area_of (at_corner v tr 0) (at_corner v tr 1) (at_corner v tr 2) * ((nth i (at_corner v tr 0) 0 + nth i (at_corner v tr 1) 0 + nth i (at_corner v tr 2) 0) / 3)) t). split; [|reflexivity].
      clear - Ht Hpt. induction t as [|tr t IH]; cbn [map]; constructor; [|apply IH; intros; apply Ht; now right]. destruct (Ht tr ltac:(now left)) as (a & b & c & -> & Ha & Hb & Hc). destruct (at_corners v a b c) as (-> & -> & ->). apply integral_coordinate; rewrite !Hpt; auto.
    + rewrite vdivs_scale, nth_vscale, N, nth_vzero. unfold Rdiv. ring.
Qed.
Print Assumptions C107_centroid.
Example C107_ex : 0 < mesh_area [[0; 1; 2]]%nat tri_v.
Proof.
  unfold mesh_area. cbn [map]. destruct (at_corners tri_v 0 1 2) as (-> & -> & ->). change (rsum [area_of (point tri_v 0) (point tri_v 1) (point tri_v 2)]) with (area_of (point tri_v 0) (point tri_v 1) (point tri_v 2) + 0). unfold area_of. match goal with |- 0 < sqrt ?x / 2 + 0 => assert (0 < sqrt x); [apply sqrt_lt_R0|lra] end. unfold point, tri_v. cbn [nth]. vcalc. lra.
Qed.
(** without area the result is nan *)
Theorem C107_no_area : forall n t v, n = 2%nat \/ n = 3%nat -> indexed n t v -> (0 < length v)%nat -> mesh_area t v = 0 -> mesh_centroid t v = Ok None.
Proof.
  intros n t v Hn H H0 A. pose proof H as [Hv _]. unfold mesh_centroid, get. rewrite (nth_error_nth' v [] H0). cbn [bind]. assert (Ln : length (nth 0 v []) = n) by (apply Hv, nth_In, H0). rewrite Ln.
  destruct (centroid_fold n v t Hn H (vzero n) 0 (vzero_len n)) as (c1 & E & L1 & N). match type of E with _ = ?rhs => match goal with |- context[foldM ?f ?x t] => let H := fresh in assert (H : foldM f x t = rhs) by exact E; rewrite H end end. cbn [bind fst snd]. rewrite A. unfold reqb. destruct (Req_EM_T (0 + 0) 0) as [_|X]; [reflexivity|lra].
Qed.
Print Assumptions C107_no_area.
Example C107_no_area_ex : indexed 3 [] tri_v /\ mesh_area [] tri_v = 0. Proof. split; [split; [intros x H; repeat (destruct H as [ <- |H]; [reflexivity|]); destruct H|intros tr []]|reflexivity]. Qed.
(** the centroids of the triangles; vertices in the plane do not fit in the result *)
Theorem C107_centroids : forall t v, indexed 3 t v -> exists rows, centroids t v = Ok rows /\ length rows = length t /\
  forall i, (i < length t)%nat -> let tr := nth i t [] in vscale 3 (nth i rows []) = vadd (vadd (at_corner v tr 0) (at_corner v tr 1)) (at_corner v tr 2).
Proof.
  intros t v [Hv Ht]. assert (Hpt : forall a, (a < length v)%nat -> length (point v a) = 3%nat) by (intros x Hx; apply Hv, nth_In, Hx). unfold centroids. induction t as [|tr t IH].
  { exists []. split; [reflexivity|]. split; [reflexivity|]. cbn. lia. }
  destruct IH as (rows & E & L & N); [intros; apply Ht; now right|]. destruct (Ht tr ltac:(now left)) as (a & b & c & -> & Ha & Hb & Hc). pose proof (Hpt a Ha) as La. pose proof (Hpt b Hb) as Lb. pose proof (Hpt c Hc) as Lc.
  assert (Lct : length (centroid [point v a; point v b; point v c]) = 3%nat) by (unfold centroid; cbn [vx nth]; vlen).
  exists (centroid [point v a; point v b; point v c] :: rows). cbn [mapM]. rewrite vertices_ok by assumption. cbn [bind]. rewrite Lct. cbn [Nat.eqb bind]. rewrite E. split; [reflexivity|]. split; [cbn; congruence|].
  intros [|i] Hi; [|apply N; cbn in Hi; lia]. cbv zeta. cbn [nth]. destruct (at_corners v a b c) as (-> & -> & ->). unfold centroid. cbn [vx nth]. vfield idtac.
Qed.
Print Assumptions C107_centroids.
Theorem C107_centroids_plane : forall t v, indexed 2 t v -> t <> [] -> centroids t v = Err ValueError.
Proof.
  intros t v [Hv Ht] N. destruct t as [|tr t]; [contradiction|]. assert (Hpt : forall a, (a < length v)%nat -> length (point v a) = 2%nat) by (intros x Hx; apply Hv, nth_In, Hx). destruct (Ht tr ltac:(now left)) as (a & b & c & -> & Ha & Hb & Hc). pose proof (Hpt a Ha) as La. pose proof (Hpt b Hb) as Lb. pose proof (Hpt c Hc) as Lc.
  unfold centroids. cbn [mapM]. rewrite vertices_ok by assumption. cbn [bind]. assert (Lct : length (centroid [point v a; point v b; point v c]) = 2%nat) by (unfold centroid; cbn [vx nth]; vlen). rewrite Lct. reflexivity.
Qed.
Print Assumptions C107_centroids_plane.
Example C107_centroids_ex : indexed 3 tetra_t tetra_v /\ indexed 2 [[0; 1; 2]]%nat [[0; 0]; [1; 0]; [0; 1]].
Proof. split; [apply indexed_weaken, tetra_mesh|]. split; [intros x H; repeat (destruct H as [ <- |H]; [reflexivity|]); destruct H|]. intros tr [ <- |[]]. exists 0%nat, 1%nat, 2%nat. cbn. repeat split; lia. Qed.
(** the number of vertices: one more than the largest index *)
Theorem C107_num_vertices : forall t k, In k (concat t) -> exists n, get_num_vertices t = Ok n /\ (forall j, In j (concat t) -> (j < n)%nat) /\ In (n - 1)%nat (concat t).
Proof.
  intros t k Hk. unfold get_num_vertices. destruct (concat t) as [|x l] eqn:E; [destruct Hk|]. exists (S (fold_left Nat.max l x)). split; [reflexivity|].
  assert (F : forall l x, (x <= fold_left Nat.max l x)%nat /\ (forall j, In j l -> (j <= fold_left Nat.max l x)%nat) /\ In (fold_left Nat.max l x) (x :: l)).
  { clear. induction l as [|y l IH]; intros x; cbn [fold_left]; [split; [lia|]; split; [intros j []|now left]|]. destruct (IH (Nat.max x y)) as (A & B & C). split; [lia|]. split; [intros j [ -> |Hj]; [lia|auto]|]. destruct C as [C|C]; [|right; now right]. destruct (Nat.max_dec x y) as [M|M]; rewrite M in C; [left|right; left]; rewrite M; exact C. }
  destruct (F l x) as (A & B & C). split; [intros j [ -> |Hj]; [lia|pose proof (B j Hj); lia]|]. replace (S (fold_left Nat.max l x) - 1)%nat with (fold_left Nat.max l x) by lia. exact C.
Qed.
Print Assumptions C107_num_vertices.
Theorem C107_num_vertices_empty : forall t, concat t = [] -> get_num_vertices t = Err ValueError.
Proof. intros t E. unfold get_num_vertices. rewrite E. reflexivity. Qed.
Print Assumptions C107_num_vertices_empty.
Example C107_num_vertices_ex : In 3%nat (concat tetra_t) /\ get_num_vertices tetra_t = Ok 4%nat. Proof. split; [cbn; tauto|reflexivity]. Qed.
