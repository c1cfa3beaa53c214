(** Conformity of the meshes, and covering of the meshed domains. *)
From Coq Require Import Reals Lra.
From Coq Require Import Field_theory Field.
From Verif Require Import Base MultiIndex MultiIndexFacts Fld FldInst KdMesh Mesh MeshFacts MeshNum MeshVerts MeshGeo.

Lemma edges_rev {A} (num : A -> nat) (ct : list (list A)) (P : A -> Prop) x y :
  (forall t x, In t ct -> In x t -> P x) -> (forall x y, P x -> P y -> num x = num y -> x = y) -> In (x, y) (flat_map edges ct) ->
  (In (num y, num x) (flat_map edges (map (map num) ct)) <-> In (y, x) (flat_map edges ct)).
Proof.
  intros HP HI Hxy. rewrite in_edges_map. split; [|intros H; exists y, x; auto].
  intros (x' & y' & H & E1 & E2). apply in_edges_vertex in Hxy as [(t1 & T1' & I1) (t2 & T2' & I2)]. pose proof H as H'. apply in_edges_vertex in H' as [(t3 & T3' & I3) (t4 & T4' & I4)].
  apply HI in E1; [|eauto..]. apply HI in E2; [|eauto..]. congruence.
Qed.
Lemma faces_map {A B} (f : A -> B) t : faces (map f t) = map (map f) (faces t).
Proof. destruct t as [|a [|b [|c [|d [|e t]]]]]; reflexivity. Qed.
Lemma faces_incl {A} (t f : list A) : In f (faces t) -> incl f t.
Proof. destruct t as [|a [|b [|c [|d [|e t]]]]]; cbn; try tauto. intros [<-|[<-|[<-|[<-|[]]]]] x Hx; cbn in *; tauto. Qed.

Section Conform.
  Context {F : fld}.
  Add Field Kfield37 : (kth F).
  Local Open Scope fld_scope.
  Notation two := (1 + 1).

  Lemma rectangle_edges w h tris : (1 < w)%nat -> (1 < h)%nat -> rectangle_triangulation w h = Ok tris -> NoDup (flat_map edges tris).
  Proof.
    intros Hw Hh ET. destruct (rectangle_eq w h Hw Hh) as [ET' _]. rewrite ET' in ET. injection ET as <-.
    apply (edges_map_nodup (enc w) _ (fun c => (fst c < w)%nat)).
    - intros t c Ht Hc. pose proof (rect_ct_bound _ _ t c Ht Hc). lia.
    - intros x y. apply enc_inj.
    - apply edges_ct2_nodup, NoDup_cells.
  Qed.
  Lemma rectangle_conforming (W H : F) w h tris vs : W <> 0 -> H <> 0 -> (1 < w)%nat -> (1 < h)%nat -> rectangle_triangulation w h = Ok tris -> rectangle_vertices W H w h = Ok vs ->
    forall i j, In (i, j) (flat_map edges tris) -> let X k := coord 0 (nth k vs []) in let Y k := coord 1 (nth k vs []) in
    (In (j, i) (flat_map edges tris) <->
     ~ (X i = X j /\ (X i = - W / two \/ X i = W / two)) /\ ~ (Y i = Y j /\ (Y i = - H / two \/ Y i = H / two))).
  Proof.
    intros HW HH Hw Hh ET EV i j Hij X Y. destruct (rectangle_eq w h Hw Hh) as [ET' _]. rewrite ET' in ET. injection ET as <-. destruct (rectangle_vertices_eq W H w h Hw Hh) as (vs' & EV' & _ & N). rewrite EV' in EV. injection EV as <-.
    apply in_edges_map in Hij as (x & y & Hxy & -> & ->).
    rewrite (edges_rev (enc w) _ (fun c => (fst c < w)%nat) x y); [|intros t c Ht Hc; pose proof (rect_ct_bound _ _ t c Ht Hc); lia|intros ? ?; apply enc_inj|exact Hxy].
    rewrite (rect_edges_rev _ _ x y Hxy). apply in_edges_vertex in Hxy as [(t1 & A1 & I1) (t2 & A2 & I2)]. apply (rect_ct_bound _ _ _ _ A1) in I1. apply (rect_ct_bound _ _ _ _ A2) in I2.
    destruct x as [a b], y as [a' b']. cbn [fst snd] in *.
    pose proof (n1_neq (F := F) w Hw) as Nw. pose proof (n1_neq (F := F) h Hh) as Nh. pose proof (two_neq (F := F)) as N2.
    assert (PX : forall a b, (a <= w - 1)%nat -> (b <= h - 1)%nat -> X (enc w (a, b)) = - W / two + kofnat a * (W / kofnat (w - 1))) by (intros; unfold X; rewrite N by lia; reflexivity).
    assert (PY : forall a b, (a <= w - 1)%nat -> (b <= h - 1)%nat -> Y (enc w (a, b)) = - H / two + kofnat b * (H / kofnat (h - 1))) by (intros; unfold Y; rewrite N by lia; reflexivity).
    assert (G : forall (L : F) n c c', L <> 0 -> kofnat n <> 0 :> F -> (- L / two + kofnat c * (L / kofnat n) = - L / two + kofnat c' * (L / kofnat n)) <-> c = c').
    { intros L n c c' HL Hn. split; [|intros ->; reflexivity]. intros E. apply (kofnat_inj (F := F)). apply (kmul_cancel (L / kofnat n)).
      - intros Z. apply HL. transitivity (L / kofnat n * kofnat n); [field; exact Hn|rewrite Z; ring].
      - transitivity (- L / two + kofnat c * (L / kofnat n) - (- L / two)); [ring|]. rewrite E. ring. }
    rewrite !PX, !PY by lia. rewrite !G by assumption.
    assert (G0 : forall (L : F) n c, L <> 0 -> kofnat n <> 0 :> F -> (- L / two + kofnat c * (L / kofnat n) = - L / two) <-> c = 0%nat).
    { intros L n c HL Hn. rewrite <- (G L n c 0%nat HL Hn). rewrite kofnat_0. split; intros E; rewrite E; ring. }
    assert (G1 : forall (L : F) n c, L <> 0 -> kofnat n <> 0 :> F -> (- L / two + kofnat c * (L / kofnat n) = L / two) <-> c = n).
    { intros L n c HL Hn. rewrite <- (G L n c n HL Hn). split; intros E; rewrite E; field; auto. }
    rewrite !G0, !G1 by assumption. tauto.
  Qed.
  Lemma triangle_edges E tris : (1 <= E)%nat -> triangle_triangulation E = Ok tris -> NoDup (flat_map edges tris).
  Proof.
    intros HE ET. rewrite triangle_eq in ET by exact HE. injection ET as <-.
    apply (edges_map_nodup (tenc E) _ (fun c => (fst c + snd c < E)%nat)).
    - intros t c Ht Hc. pose proof (tri_ct_bound _ t c Ht Hc). lia.
    - intros x y. apply tenc_inj.
    - apply edges_ct2_nodup, NoDup_filter, NoDup_cells.
  Qed.
  Lemma triangle_conforming (W H : F) E tris vs : W <> 0 -> H <> 0 -> (2 <= E)%nat -> triangle_triangulation E = Ok tris -> triangle_vertices W H E = Ok vs ->
    forall i j, In (i, j) (flat_map edges tris) -> let X k := coord 0 (nth k vs []) in let Y k := coord 1 (nth k vs []) in
    (In (j, i) (flat_map edges tris) <->
     ~ (X i = 0 /\ X j = 0) /\ ~ (Y i = 0 /\ Y j = 0) /\ ~ (X i / W + Y i / H = 1 /\ X j / W + Y j / H = 1)).
  Proof.
    intros HW HH HE ET EV i j Hij X Y. rewrite triangle_eq in ET by lia. injection ET as <-. destruct (triangle_rows_eq (F := F) E (fun row col => [frac col E * W; frac row E * H; 0]) HE) as (vs' & EV' & _ & N & _). unfold triangle_vertices in EV. rewrite EV' in EV. injection EV as <-.
    apply in_edges_map in Hij as (x & y & Hxy & -> & ->).
    rewrite (edges_rev (tenc E) _ (fun c => (fst c + snd c < E)%nat) x y); [|intros t c Ht Hc; pose proof (tri_ct_bound _ t c Ht Hc); lia|intros ? ?; apply tenc_inj|exact Hxy].
    rewrite (tri_edges_rev _ x y Hxy). apply in_edges_vertex in Hxy as [(t1 & A1 & I1) (t2 & A2 & I2)]. apply (tri_ct_bound _ _ _ A1) in I1. apply (tri_ct_bound _ _ _ A2) in I2.
    destruct x as [a b], y as [a' b']. cbn [fst snd] in *.
    pose proof (n1_neq (F := F) E ltac:(lia)) as Nw.
    assert (G0 : forall (L : F) c, L <> 0 -> (frac c E * L = 0) <-> c = 0%nat).
    { intros L c HL. unfold frac. split; [|intros ->; rewrite kofnat_0; field; exact Nw]. intros EQ. apply (kofnat_inj (F := F)). rewrite kofnat_0. apply (kmul_cancel (L / kofnat (E - 1))); [|transitivity (kofnat c / kofnat (E - 1) * L); [field; exact Nw|rewrite EQ; ring]].
      intros Z. apply HL. transitivity (L / kofnat (E - 1) * kofnat (E - 1)); [field; exact Nw|rewrite Z; ring]. }
    assert (G1 : forall c c', (frac c E * W / W + frac c' E * H / H = 1) <-> (c + c' = E - 1)%nat).
    { intros c c'. assert (EQ : frac c E * W / W + frac c' E * H / H = kofnat (c + c') / kofnat (E - 1)) by (unfold frac; rewrite kofnat_add; field; auto). rewrite EQ. split.
      - intros Z. apply (kofnat_inj (F := F)). transitivity (kofnat (c + c') / kofnat (E - 1) * kofnat (E - 1) : F); [field; exact Nw|rewrite Z; ring].
      - intros ->. field. exact Nw. }
    unfold X, Y. rewrite !N by lia. unfold coord. cbn [nth]. rewrite !G0, !G1 by assumption. tauto.
  Qed.
End Conform.

(** ** Rings and discs *)
Lemma ring_ct_bound A n t c : (2 < A)%nat -> In t (ring_ct A n) -> In c t -> (fst c < A /\ snd c <= n)%nat.
Proof.
  intros HA Ht Hc. unfold ring_ct in Ht. apply in_flat_map in Ht as ([a b] & Hab & Ht). apply in_gcells in Hab. destruct (smod A a HA ltac:(lia)) as [[Z1 Z]|[Z1 Z]];
  destruct Ht as [<-|[<-|[]]]; unfold R1, R2 in Hc; cbn [fst snd] in Hc; rewrite Z in Hc; cbn in Hc; edge_cases; subst c; cbn [fst snd]; lia.
Qed.
Lemma enc_ring A n c : (fst c < A)%nat -> (snd c <= n)%nat -> ((snd c = 0%nat <-> (enc A c < A)%nat) /\ (snd c = n <-> (n * A <= enc A c)%nat)).
Proof. intros Hc Hn. unfold enc. split; split; intros; nia. Qed.
Lemma annulus_facts A n tris : (2 < A)%nat -> (1 < n)%nat -> annulus_triangulation A n = Ok tris ->
  length tris = (2 * (n - 1) * A)%nat /\ (forall t, In t tris -> length t = 3%nat /\ forall i, In i t -> (i < A * n)%nat) /\
  NoDup (flat_map edges tris) /\
  forall i j, In (i, j) (flat_map edges tris) -> (In (j, i) (flat_map edges tris) <-> ~ (i < A /\ j < A)%nat /\ ~ ((n - 1) * A <= i /\ (n - 1) * A <= j)%nat).
Proof.
  intros HA Hn ET. destruct (annulus_eq A n HA Hn) as [ET' L]. rewrite ET' in ET. injection ET as <-. rewrite map_length. split; [exact L|].
  assert (HP : forall t c, In t (ring_ct A (n - 1)) -> In c t -> (fst c < A /\ snd c <= n - 1)%nat) by (intros t c; apply ring_ct_bound, HA).
  split; [|split].
  - intros t Ht. apply in_map_iff in Ht as (t' & <- & Ht). split.
    + rewrite map_length. unfold ring_ct in Ht. apply in_flat_map in Ht as (c & _ & Ht). destruct Ht as [<-|[<-|[]]]; reflexivity.
    + intros i Hi. apply in_map_iff in Hi as ([a b] & <- & Hc). apply (HP t' _ Ht) in Hc. cbn [fst snd] in Hc. apply enc_bound; lia.
  - apply (edges_map_nodup (enc A) _ (fun c => (fst c < A)%nat)); [intros t c Ht Hc; apply (HP t c Ht Hc)|intros x y; apply enc_inj|apply ring_nodup, HA].
  - intros i j Hij. apply in_edges_map in Hij as (x & y & Hxy & -> & ->).
    rewrite (edges_rev (enc A) _ (fun c => (fst c < A)%nat) x y); [|intros t c Ht Hc; apply (HP t c Ht Hc)|intros ? ?; apply enc_inj|exact Hxy].
    rewrite (ring_edges_rev A (n - 1) x y HA Hxy). pose proof Hxy as HH. apply in_edges_vertex in HH as [(t1 & A1 & I1) (t2 & A2 & I2)]. apply (HP _ _ A1) in I1. apply (HP _ _ A2) in I2.
    destruct (enc_ring A (n - 1) x) as [X0 X1]; [lia..|]. destruct (enc_ring A (n - 1) y) as [Y0 Y1]; [lia..|]. rewrite <- X0, <- X1, <- Y0, <- Y1. lia.
Qed.
Lemma disc_facts A n tris : (2 < A)%nat -> (1 < n)%nat -> disc_triangulation A n = Ok tris ->
  length tris = (A + 2 * (n - 2) * A)%nat /\ (forall t, In t tris -> length t = 3%nat /\ forall i, In i t -> (i < 1 + A * (n - 1))%nat) /\
  NoDup (flat_map edges tris) /\
  forall i j, In (i, j) (flat_map edges tris) -> (In (j, i) (flat_map edges tris) <-> ~ (1 + (n - 2) * A <= i /\ 1 + (n - 2) * A <= j)%nat).
Proof.
  intros HA Hn ET. destruct (disc_eq A n HA Hn) as [ET' L]. rewrite ET' in ET. injection ET as <-. rewrite map_length. split; [exact L|].
  set (P := fun x : option pt2 => match x with None => True | Some c => (fst c < A /\ snd c <= n - 2)%nat end).
  assert (HP : forall t c, In t (disc_ct A (n - 2)) -> In c t -> P c).
  { intros t c Ht Hc. unfold disc_ct in Ht. apply in_app_or in Ht as [Ht|Ht]; apply in_map_iff in Ht as (a & <- & Ha).
    - apply in_seq in Ha. pose proof (Nat.mod_upper_bound (S a) A ltac:(lia)). cbn [In] in Hc. destruct Hc as [<-|[<-|[<-|[]]]]; cbn [P fst snd]; try exact I; lia.
    - apply in_map_iff in Hc as (x & <- & Hx). cbn [P]. apply (ring_ct_bound A (n - 2) a x HA Ha Hx). }
  assert (HI : forall x y, P x -> P y -> denc A x = denc A y -> x = y).
  { intros [x|] [y|] Hx Hy; cbn [denc]; intros E; try discriminate; [|reflexivity]. injection E as E. f_equal. apply (enc_inj A); [apply Hx|apply Hy|exact E]. }
  split; [|split].
  - intros t Ht. apply in_map_iff in Ht as (t' & <- & Ht). split.
    + rewrite map_length. unfold disc_ct in Ht. apply in_app_or in Ht as [Ht|Ht]; apply in_map_iff in Ht as (a & <- & Ha); [reflexivity|]. rewrite map_length. unfold ring_ct in Ha. apply in_flat_map in Ha as (c & _ & Ha). destruct Ha as [<-|[<-|[]]]; reflexivity.
    + intros i Hi. apply in_map_iff in Hi as (c & <- & Hc). apply (HP t' _ Ht) in Hc. unfold P in Hc. destruct c as [[a b]|]; cbn [denc fst snd] in *; [|apply Nat.lt_0_succ]. pose proof (enc_bound A (n - 1) a b ltac:(lia) ltac:(lia)). lia.
  - apply (edges_map_nodup (denc A) _ P); [exact HP|exact HI|apply disc_nodup, HA].
  - intros i j Hij. apply in_edges_map in Hij as (x & y & Hxy & -> & ->).
    rewrite (edges_rev (denc A) _ P x y HP HI Hxy). rewrite (disc_edges_rev A (n - 2) x y HA Hxy). apply in_edges_vertex in Hxy as [(t1 & A1 & I1) (t2 & A2 & I2)]. apply (HP _ _ A1) in I1. apply (HP _ _ A2) in I2.
    assert (O : forall x, P x -> outer (n - 2) x <-> (1 + (n - 2) * A <= denc A x)%nat).
    { intros [c|] Hc; unfold P in Hc; cbn [outer denc] in *; [|split; [contradiction|intros HH; inversion HH]]. destruct (enc_ring A (n - 2) c) as [_ X1]; [lia..|]. rewrite X1. lia. }
    rewrite !O by assumption. tauto.
Qed.

(** ** Boxes and tetrahedra *)
Lemma map_inj_in {A B} (f : A -> B) (P : A -> Prop) l m : (forall x y, P x -> P y -> f x = f y -> x = y) -> (forall x, In x l -> P x) -> (forall x, In x m -> P x) -> map f l = map f m -> l = m.
Proof.
  intros HI. revert m. induction l as [|a l IH]; intros [|b m] Hl Hm E; try discriminate; [reflexivity|]. cbn [map] in E. injection E as E1 E2. f_equal.
  - apply HI; [apply Hl; left; reflexivity|apply Hm; left; reflexivity|exact E1].
  - apply IH; [intros x Hx; apply Hl; right; exact Hx|intros x Hx; apply Hm; right; exact Hx|exact E2].
Qed.
Lemma conform_num {A} (num : A -> nat) (ct : list (list A)) (P : A -> Prop) (side : list A -> Prop) :
  (forall t x, In t ct -> In x t -> P x) -> (forall x y, P x -> P y -> num x = num y -> x = y) ->
  (forall t f, In t ct -> In f (faces t) -> side f \/ exists t', In t' ct /\ t' <> t /\ incl f t') ->
  forall t f, In t (map (map num) ct) -> In f (faces t) -> (exists f', side f' /\ (forall x, In x f' -> P x) /\ f = map num f') \/ exists t', In t' (map (map num) ct) /\ t' <> t /\ incl f t'.
Proof.
  intros HP HI HC t f Ht Hf. apply in_map_iff in Ht as (c & <- & Hc). rewrite faces_map in Hf. apply in_map_iff in Hf as (f' & <- & Hf').
  destruct (HC c f' Hc Hf') as [S|(t' & Ht' & Hne & Hin)].
  - left. exists f'. split; [exact S|]. split; [|reflexivity]. intros x Hx. apply (HP c x Hc), (faces_incl c f' Hf' x Hx).
  - right. exists (map num t'). split; [apply in_map, Ht'|]. split; [|intros y Hy; apply in_map_iff in Hy as (x & <- & Hx); apply in_map, Hin, Hx].
    intros E. apply Hne. apply (map_inj_in num P); [exact HI|intros x Hx; apply (HP t' x Ht' Hx)|intros x Hx; apply (HP c x Hc Hx)|exact E].
Qed.
Lemma nodup_num {A} (num : A -> nat) (ct : list (list A)) (P : A -> Prop) :
  (forall t x, In t ct -> In x t -> P x) -> (forall x y, P x -> P y -> num x = num y -> x = y) -> NoDup ct -> NoDup (map (map num) ct).
Proof.
  intros HP HI HN. apply NoDup_map_inj; [|exact HN]. intros x y Hx Hy E. apply (map_inj_in num P); [exact HI|intros z Hz; apply (HP x z Hx Hz)|intros z Hz; apply (HP y z Hy Hz)|exact E].
Qed.
Section Conform3.
  Context {F : fld}.
  Add Field Kfield38 : (kth F).
  Local Open Scope fld_scope.
  Lemma frac_0 n : (1 < n)%nat -> frac (F := F) 0 n = 0.
  Proof. intros H. unfold frac. rewrite kofnat_0. pose proof (n1_neq (F := F) n H). field. auto. Qed.
  Lemma frac_1 n : (1 < n)%nat -> frac (F := F) (n - 1) n = 1.
  Proof. intros H. unfold frac. pose proof (n1_neq (F := F) n H). field. auto. Qed.
  Definition box_P (w h d : nat) (c : pt3) : Prop := (cx c < w /\ cy c < h /\ cz c < d)%nat.
  Lemma box_facts w h d tets vs : (1 < w)%nat -> (1 < h)%nat -> (1 < d)%nat -> rectangular_box_triangulation w h d = Ok tets -> unit_cube_vertices (F := F) w h d = Ok vs ->
    length tets = (6 * (w - 1) * (h - 1) * (d - 1))%nat /\ length vs = (w * h * d)%nat /\ (forall t, In t tets -> length t = 4%nat /\ forall i, In i t -> (i < length vs)%nat) /\ NoDup tets /\
    forall t f, In t tets -> In f (faces t) ->
      (exists k v, (k < 3)%nat /\ (v = 0 \/ v = 1) /\ forall i, In i f -> coord k (nth i vs []) = v) \/ exists t', In t' tets /\ t' <> t /\ incl f t'.
  Proof.
    intros Hw Hh Hd ET EV. destruct (box_eq w h d Hw Hh Hd) as [ET' L]. rewrite ET' in ET. injection ET as <-. destruct (unit_cube_eq (F := F) w h d Hw Hh Hd) as (vs' & EV' & LV & N). rewrite EV' in EV. injection EV as <-.
    assert (HP : forall t x, In t (box_ct (w - 1) (h - 1) (d - 1)) -> In x t -> box_P w h d x) by (intros t x Ht Hx; apply (box_ct_bound _ _ _ _ _ Ht) in Hx; unfold box_P; lia).
    assert (HI : forall x y, box_P w h d x -> box_P w h d y -> enc3 w h x = enc3 w h y -> x = y) by (intros x y (? & ? & ?) (? & ? & ?); apply enc3_inj; assumption).
    split; [rewrite map_length; exact L|]. split; [exact LV|]. split; [|split].
    - intros t Ht. apply in_map_iff in Ht as (t' & <- & Ht). split.
      + rewrite map_length. apply in_ct3 in Ht as ([[a b] c] & q & _ & _ & Hq & ->). destruct q as [|[|[|[|[|[|q]]]]]]; [reflexivity..|lia].
      + intros i Hi. apply in_map_iff in Hi as (x & <- & Hx). apply (HP t' x Ht) in Hx. destruct Hx as (? & ? & ?). rewrite LV. apply enc3_bound; assumption.
    - apply (nodup_num (enc3 w h) _ (box_P w h d) HP HI). apply ct3_nodup. apply (NoDup_cells3 (fun _ _ => w - 1)%nat (fun _ => h - 1)%nat (d - 1)%nat).
    - intros t f Ht Hf. destruct (conform_num (enc3 w h) _ (box_P w h d) (box_side (w - 1) (h - 1) (d - 1)) HP HI (fun t f => box_conf (w - 1) (h - 1) (d - 1) t f) t f Ht Hf) as [(f' & S & HF & ->)|H]; [left|right; exact H].
      assert (NV : forall x, In x f' -> nth (enc3 w h x) vs' [] = [frac (cx x) w; frac (cy x) h; frac (cz x) d]) by (intros [[a b] c] Hx; apply HF in Hx as (? & ? & ?); apply N; assumption).
      destruct S as [S|[S|[S|[S|[S|S]]]]].
      + exists 0%nat, 0. split; [lia|]. split; [auto|]. intros i Hi. apply in_map_iff in Hi as (x & <- & Hx). rewrite NV by exact Hx. unfold coord. cbn [nth]. rewrite S by exact Hx. apply frac_0, Hw.
      + exists 0%nat, 1. split; [lia|]. split; [auto|]. intros i Hi. apply in_map_iff in Hi as (x & <- & Hx). rewrite NV by exact Hx. unfold coord. cbn [nth]. rewrite S by exact Hx. apply frac_1, Hw.
      + exists 1%nat, 0. split; [lia|]. split; [auto|]. intros i Hi. apply in_map_iff in Hi as (x & <- & Hx). rewrite NV by exact Hx. unfold coord. cbn [nth]. rewrite S by exact Hx. apply frac_0, Hh.
      + exists 1%nat, 1. split; [lia|]. split; [auto|]. intros i Hi. apply in_map_iff in Hi as (x & <- & Hx). rewrite NV by exact Hx. unfold coord. cbn [nth]. rewrite S by exact Hx. apply frac_1, Hh.
      + exists 2%nat, 0. split; [lia|]. split; [auto|]. intros i Hi. apply in_map_iff in Hi as (x & <- & Hx). rewrite NV by exact Hx. unfold coord. cbn [nth]. rewrite S by exact Hx. apply frac_0, Hd.
      + exists 2%nat, 1. split; [lia|]. split; [auto|]. intros i Hi. apply in_map_iff in Hi as (x & <- & Hx). rewrite NV by exact Hx. unfold coord. cbn [nth]. rewrite S by exact Hx. apply frac_1, Hd.
  Qed.
  Lemma tet_facts E tets vs : (2 <= E)%nat -> tetrahedron_triangulation E = Ok tets -> tetrahedron_vertices (F := F) E = Ok vs ->
    length tets = ((E - 1) ^ 3)%nat /\ length vs = ((E + 2) * (E + 1) * E / 6)%nat /\ (forall t, In t tets -> length t = 4%nat /\ forall i, In i t -> (i < length vs)%nat) /\ NoDup tets /\
    forall t f, In t tets -> In f (faces t) ->
      (exists k, (k < 3)%nat /\ forall i, In i f -> coord k (nth i vs []) = 0) \/ (forall i, In i f -> coord 0 (nth i vs []) + coord 1 (nth i vs []) + coord 2 (nth i vs []) = 1) \/ exists t', In t' tets /\ t' <> t /\ incl f t'.
  Proof.
    intros HE ET EV. rewrite tet_eq in ET by exact HE. injection ET as <-. destruct (tetrahedron_vertices_eq (F := F) E HE) as (vs' & EV' & LV & N). rewrite EV' in EV. injection EV as <-.
    set (P := fun c : pt3 => (cx c + cy c + cz c < E)%nat).
    assert (HP : forall t x, In t (tet_ct E) -> In x t -> P x) by (intros t x Ht Hx; apply (tet_ct_bound _ _ _ Ht Hx)).
    assert (HI : forall x y, P x -> P y -> penc E x = penc E y -> x = y) by (intros x y; apply penc_inj).
    split; [rewrite map_length; apply tet_ct_length; lia|]. split; [exact LV|]. split; [|split].
    - intros t Ht. apply in_map_iff in Ht as (t' & <- & Ht). split.
      + rewrite map_length. apply in_ct3 in Ht as ([[a b] c] & q & _ & _ & Hq & ->). destruct q as [|[|[|[|[|[|q]]]]]]; [reflexivity..|lia].
      + intros i Hi. apply in_map_iff in Hi as (x & <- & Hx). apply (HP t' x Ht) in Hx. destruct (Nat.lt_ge_cases (penc E x) (length vs')) as [Z|Z]; [exact Z|]. exfalso. destruct x as [[a b] c]. specialize (N a b c Hx). rewrite nth_overflow in N by exact Z. discriminate.
    - apply (nodup_num (penc E) _ P HP HI). apply ct3_nodup. apply (NoDup_cells3 (fun v w => E - v - w)%nat (fun w => E - w)%nat E).
    - intros t f Ht Hf. destruct (conform_num (penc E) _ P (tet_side (E - 1)) HP HI (fun t f => tet_conf E t f) t f Ht Hf) as [(f' & S & HF & ->)|H]; [|right; right; exact H].
      assert (NV : forall x, In x f' -> nth (penc E x) vs' [] = [frac (cx x) E; frac (cy x) E; frac (cz x) E]) by (intros [[a b] c] Hx; apply HF in Hx; apply N; exact Hx).
      destruct S as [S|[S|[S|S]]].
      + left. exists 0%nat. split; [lia|]. intros i Hi. apply in_map_iff in Hi as (x & <- & Hx). rewrite NV by exact Hx. unfold coord. cbn [nth]. rewrite S by exact Hx. apply frac_0. lia.
      + left. exists 1%nat. split; [lia|]. intros i Hi. apply in_map_iff in Hi as (x & <- & Hx). rewrite NV by exact Hx. unfold coord. cbn [nth]. rewrite S by exact Hx. apply frac_0. lia.
      + left. exists 2%nat. split; [lia|]. intros i Hi. apply in_map_iff in Hi as (x & <- & Hx). rewrite NV by exact Hx. unfold coord. cbn [nth]. rewrite S by exact Hx. apply frac_0. lia.
      + right. left. intros i Hi. apply in_map_iff in Hi as (x & <- & Hx). rewrite NV by exact Hx. unfold coord. cbn [nth]. specialize (S x Hx). pose proof (n1_neq (F := F) E ltac:(lia)) as Nw.
        transitivity (kofnat (cx x + cy x + cz x) / kofnat (E - 1) : F); [unfold frac; rewrite !kofnat_add; field; exact Nw|]. rewrite S. field. exact Nw.
  Qed.
End Conform3.

(** ** Covering *)
Section Cover.
  Local Open Scope R_scope.
  Lemma kofnat_R n : kofnat (F := RO) n = INR n.
  Proof. exact (R_nat_in n). Qed.
  Lemma INR_pos n : (1 < n)%nat -> 0 < INR (n - 1).
  Proof. intros H. apply lt_0_INR. lia. Qed.
  Ltac rr := cbn [kadd kmul ksub kopp kdiv k0 k1 RO RF OF K] in *.
  Ltac fieldR := match goal with |- @eq _ ?a ?b => change (@eq R a b) end; field; lra.
  Ltac case3 j := destruct j as [|[|[|j]]]; [| | |lia].

  Lemma scale_le u n : 0 < n -> 0 <= u <= n -> 0 <= u / n <= 1.
  Proof.
    intros Hn [A B]. assert (E : u = u / n * n) by (field; lra).
    split; [apply Rmult_le_pos; [lra|left; apply Rinv_0_lt_compat; lra]|]. apply (Rmult_le_reg_r n); [exact Hn|]. rewrite <- E. lra.
  Qed.

  Section Rect.
    Variables (W H : RO) (w h : nat) (tris : list (list nat)) (vs : list (list RO)).
    Hypotheses (HW : 0 < W) (HH : 0 < H) (Hw : (1 < w)%nat) (Hh : (1 < h)%nat).
    Hypotheses (ET : rectangle_triangulation w h = Ok tris) (EV : rectangle_vertices W H w h = Ok vs).
    Let o j := nth j [- W / 2; - H / 2; 0] 0.
    Let e1 j := nth j [W / INR (w - 1); 0; 0] 0.
    Let e2 j := nth j [0; H / INR (h - 1); 0] 0.
    Lemma rect_HV t c j : In t (rect_ct (w - 1) (h - 1)) -> In c t -> (j < 3)%nat -> nth j (nth (enc w c) vs []) 0 = o j + INR (fst c) * e1 j + INR (snd c) * e2 j.
    Proof.
      intros Ht Hc Hj. destruct (rectangle_vertices_eq (F := RO) W H w h Hw Hh) as (vs' & EV' & _ & N). rewrite EV' in EV. injection EV as EV2. apply (rect_ct_bound _ _ _ _ Ht) in Hc. destruct c as [a b]. cbn [fst snd] in *.
      rewrite <- EV2, N by lia. unfold o, e1, e2. rewrite !kofnat_R. rr. case3 j; cbn [nth]; lra.
    Qed.
    Lemma rect_H3 t : In t (rect_ct (w - 1) (h - 1)) -> length t = 3%nat.
    Proof. intros Ht. apply in_ct2 in Ht as (c & _ & [->|[_ ->]]); reflexivity. Qed.
    Lemma rect_tris : tris = map (map (enc w)) (rect_ct (w - 1) (h - 1)).
    Proof. destruct (rectangle_eq w h Hw Hh) as [E _]. rewrite E in ET. injection ET as <-. reflexivity. Qed.
    Lemma rectangle_cover x y : (- W / 2 <= x <= W / 2 /\ - H / 2 <= y <= H / 2) <-> exists t, In t tris /\ in_hull (Q := RO) 3 (corners vs t) [x; y; 0].
    Proof.
      pose proof (INR_pos w Hw) as Pw. pose proof (INR_pos h Hh) as Ph. rewrite rect_tris. split.
      - intros [Hx Hy]. rr. set (X := (x + W / 2) / W * INR (w - 1)). set (Y := (y + H / 2) / H * INR (h - 1)).
        apply (cover2 3 o e1 e2 _ (enc w) vs rect_HV rect_H3 _ X Y).
        + intros j Hj. unfold o, e1, e2, X, Y. case3 j; cbn [nth]; rr; [| |lra]; fieldR.
        + apply rect_cover; [lia|lia| |].
          * assert (0 <= (x + W / 2) / W <= 1) by (apply scale_le; [exact HW|split; lra]). unfold X. generalize dependent ((x + W / 2) / W). intros. split; [apply Rmult_le_pos; lra|]. nra.
          * assert (0 <= (y + H / 2) / H <= 1) by (apply scale_le; [exact HH|split; lra]). unfold Y. generalize dependent ((y + H / 2) / H). intros. split; [apply Rmult_le_pos; lra|]. nra.
      - intros (t & Ht & Hx). destruct (within2 3 o e1 e2 _ (enc w) vs rect_HV rect_H3 t _ Ht Hx) as (t' & X & Y & Ht' & B & E).
        assert (BX : 0 <= 1 * X + 0 * Y <= INR (w - 1)). { apply (bw2_bounds false t'); [exact B|]. intros c Hc. apply (rect_ct_bound _ _ _ _ Ht') in Hc as [Hc _]. apply le_INR in Hc. pose proof (pos_INR (fst c)). lra. }
        assert (BY : 0 <= 0 * X + 1 * Y <= INR (h - 1)). { apply (bw2_bounds false t'); [exact B|]. intros c Hc. apply (rect_ct_bound _ _ _ _ Ht') in Hc as [_ Hc]. apply le_INR in Hc. pose proof (pos_INR (snd c)). lra. }
        pose proof (E 0%nat ltac:(lia)) as E0. pose proof (E 1%nat ltac:(lia)) as E1. unfold o, e1, e2 in E0, E1. cbn [nth] in E0, E1.
        assert (S1 : 0 <= X / INR (w - 1) <= 1) by (apply scale_le; lra). assert (S2 : 0 <= Y / INR (h - 1) <= 1) by (apply scale_le; lra).
        replace (X * (W / INR (w - 1))) with (X / INR (w - 1) * W) in E0 by (fieldR). replace (Y * (H / INR (h - 1))) with (Y / INR (h - 1) * H) in E1 by (fieldR). rr. split; nra.
    Qed.
    Lemma rectangle_disjoint t t' x : In t tris -> In t' tris -> in_interior (Q := RO) 3 (corners vs t) x -> in_interior (Q := RO) 3 (corners vs t') x -> t = t'.
    Proof.
      pose proof (INR_pos w Hw) as Pw. pose proof (INR_pos h Hh) as Ph. rewrite rect_tris. apply (disjoint2 3 o e1 e2 _ (enc w) vs rect_HV rect_H3); [|intros ? ? ? ?; apply ct2_disjoint].
      intros al be HE. pose proof (HE 0%nat ltac:(lia)) as E0. pose proof (HE 1%nat ltac:(lia)) as E1. unfold e1, e2 in E0, E1. cbn [nth] in E0, E1.
      assert (0 < W / INR (w - 1)) by (apply Rdiv_lt_0_compat; lra). assert (0 < H / INR (h - 1)) by (apply Rdiv_lt_0_compat; lra).
      split; [apply (Rmult_eq_reg_r (W / INR (w - 1))); lra|apply (Rmult_eq_reg_r (H / INR (h - 1))); lra].
    Qed.
  End Rect.

  Section Tri.
    Variables (k : nat) (v0 v1 v2 : list RO) (E : nat) (tris : list (list nat)) (vs : list (list RO)).
    Hypotheses (L0 : length v0 = k) (L1 : length v1 = k) (L2 : length v2 = k) (HE : (2 <= E)%nat).
    Hypotheses (ET : triangle_triangulation E = Ok tris) (EV : general_triangle_vertices v0 v1 v2 E = Ok vs).
    Let o j := nth j v0 0.
    Let e1 j := (nth j v1 0 - nth j v0 0) / INR (E - 1).
    Let e2 j := (nth j v2 0 - nth j v0 0) / INR (E - 1).
    Lemma tri_HV t c j : In t (tri_ct (E - 1)) -> In c t -> (j < k)%nat -> nth j (nth (tenc E c) vs []) 0 = o j + INR (fst c) * e1 j + INR (snd c) * e2 j.
    Proof.
      intros Ht Hc Hj. destruct (general_vertices_eq (F := RO) v0 v1 v2 E HE ltac:(lia) ltac:(lia)) as (vs' & EV' & _ & _ & N). rewrite EV' in EV. injection EV as EV2. apply (tri_ct_bound _ _ _ Ht) in Hc. destruct c as [a b]. cbn [fst snd] in *.
      rewrite <- EV2. refine (eq_trans (N a b j ltac:(lia)) _). rewrite !kofnat_R. reflexivity.
    Qed.
    Lemma tri_H3 t : In t (tri_ct (E - 1)) -> length t = 3%nat.
    Proof. intros Ht. apply in_ct2 in Ht as (c & _ & [->|[_ ->]]); reflexivity. Qed.
    Lemma tri_tris : tris = map (map (tenc E)) (tri_ct (E - 1)).
    Proof. rewrite triangle_eq in ET by lia. injection ET as <-. reflexivity. Qed.
    Lemma triangle_cover x : in_hull (Q := RO) k [v0; v1; v2] x <-> exists t, In t tris /\ in_hull (Q := RO) k (corners vs t) x.
    Proof.
      pose proof (INR_pos E ltac:(lia)) as Pw. rewrite tri_tris. split.
      - intros Hx. apply (conv3 false) in Hx as (u & v & w & U1 & U2 & U3 & U4 & U5). unfold wle in *.
        apply (cover2 k o e1 e2 _ (tenc E) vs tri_HV tri_H3 _ (v * INR (E - 1)) (w * INR (E - 1))).
        + intros j Hj. refine (eq_trans (U5 j Hj) _). unfold o, e1, e2. replace u with (1 - v - w) by lra. rr. fieldR.
        + apply tri_cover; [lia|apply Rmult_le_pos; lra|apply Rmult_le_pos; lra|]. nra.
      - intros (t & Ht & Hx). destruct (within2 k o e1 e2 _ (tenc E) vs tri_HV tri_H3 t _ Ht Hx) as (t' & X & Y & Ht' & B & EQ).
        assert (BX : 0 <= 1 * X + 0 * Y <= INR (E - 1)). { apply (bw2_bounds false t'); [exact B|]. intros c Hc. apply (tri_ct_bound _ _ _ Ht') in Hc. assert (Z : (fst c <= E - 1)%nat) by lia. apply le_INR in Z. pose proof (pos_INR (fst c)). lra. }
        assert (BY : 0 <= 0 * X + 1 * Y <= INR (E - 1)). { apply (bw2_bounds false t'); [exact B|]. intros c Hc. apply (tri_ct_bound _ _ _ Ht') in Hc. assert (Z : (snd c <= E - 1)%nat) by lia. apply le_INR in Z. pose proof (pos_INR (snd c)). lra. }
        assert (BS : 0 <= 1 * X + 1 * Y <= INR (E - 1)). { apply (bw2_bounds false t'); [exact B|]. intros c Hc. apply (tri_ct_bound _ _ _ Ht') in Hc. apply le_INR in Hc. rewrite plus_INR in Hc. pose proof (pos_INR (fst c)). pose proof (pos_INR (snd c)). lra. }
        apply (conv3 false). exists (1 - X / INR (E - 1) - Y / INR (E - 1)), (X / INR (E - 1)), (Y / INR (E - 1)). unfold wle.
        assert (S1 : 0 <= X / INR (E - 1) <= 1) by (apply scale_le; lra). assert (S2 : 0 <= Y / INR (E - 1) <= 1) by (apply scale_le; lra).
        assert (S3 : 0 <= (X + Y) / INR (E - 1) <= 1) by (apply scale_le; lra). replace ((X + Y) / INR (E - 1)) with (X / INR (E - 1) + Y / INR (E - 1)) in S3 by (fieldR).
        split; [lra|]. split; [lra|]. split; [lra|]. split; [lra|]. intros j Hj. refine (eq_trans (EQ j Hj) _). unfold o, e1, e2. rr. fieldR.
    Qed.
    Hypothesis HI : forall al be : R, (forall j, (j < k)%nat -> al * (nth j v1 0 - nth j v0 0) + be * (nth j v2 0 - nth j v0 0) = 0) -> al = 0 /\ be = 0.
    Lemma triangle_disjoint t t' x : In t tris -> In t' tris -> in_interior (Q := RO) k (corners vs t) x -> in_interior (Q := RO) k (corners vs t') x -> t = t'.
    Proof.
      pose proof (INR_pos E ltac:(lia)) as Pw. rewrite tri_tris. apply (disjoint2 k o e1 e2 _ (tenc E) vs tri_HV tri_H3); [|intros ? ? ? ?; apply ct2_disjoint].
      intros al be HE'. destruct (HI (al / INR (E - 1)) (be / INR (E - 1))) as [Z1 Z2].
      - intros j Hj. pose proof (HE' j Hj) as EE. unfold e1, e2 in EE. refine (eq_trans _ EE). rr. fieldR.
      - assert (A1 : al = al / INR (E - 1) * INR (E - 1)) by (fieldR). assert (A2 : be = be / INR (E - 1) * INR (E - 1)) by (fieldR). rewrite Z1 in A1. rewrite Z2 in A2. lra.
    Qed.
  End Tri.

  Section Box.
    Variables (w h d : nat) (tets : list (list nat)) (vs : list (list RO)).
    Hypotheses (Hw : (1 < w)%nat) (Hh : (1 < h)%nat) (Hd : (1 < d)%nat).
    Hypotheses (ET : rectangular_box_triangulation w h d = Ok tets) (EV : unit_cube_vertices (F := RO) w h d = Ok vs).
    Let o (j : nat) := 0.
    Let e1 j := nth j [/ INR (w - 1); 0; 0] 0.
    Let e2 j := nth j [0; / INR (h - 1); 0] 0.
    Let e3 j := nth j [0; 0; / INR (d - 1)] 0.
    Lemma box_HV t c j : In t (box_ct (w - 1) (h - 1) (d - 1)) -> In c t -> (j < 3)%nat -> nth j (nth (enc3 w h c) vs []) 0 = o j + INR (cx c) * e1 j + INR (cy c) * e2 j + INR (cz c) * e3 j.
    Proof.
      intros Ht Hc Hj. destruct (unit_cube_eq (F := RO) w h d Hw Hh Hd) as (vs' & EV' & _ & N). rewrite EV' in EV. injection EV as EV2. apply (box_ct_bound _ _ _ _ _ Ht) in Hc. destruct c as [[a b] c]. cbv [cx cy cz fst snd] in *.
      rewrite <- EV2, N by lia. unfold o, e1, e2, e3, frac. rewrite !kofnat_R. rr. unfold Rdiv. case3 j; cbn [nth]; lra.
    Qed.
    Lemma box_H4 t : In t (box_ct (w - 1) (h - 1) (d - 1)) -> length t = 4%nat.
    Proof. intros Ht. apply in_ct3 in Ht as ([[a b] c] & q & _ & _ & Hq & ->). destruct q as [|[|[|[|[|[|q]]]]]]; [reflexivity..|lia]. Qed.
    Lemma box_tets_eq : tets = map (map (enc3 w h)) (box_ct (w - 1) (h - 1) (d - 1)).
    Proof. destruct (box_eq w h d Hw Hh Hd) as [E _]. rewrite E in ET. injection ET as <-. reflexivity. Qed.
    Lemma box_covering x y z : (0 <= x <= 1 /\ 0 <= y <= 1 /\ 0 <= z <= 1) <-> exists t, In t tets /\ in_hull (Q := RO) 3 (corners vs t) [x; y; z].
    Proof.
      pose proof (INR_pos w Hw) as Pw. pose proof (INR_pos h Hh) as Ph. pose proof (INR_pos d Hd) as Pd. rewrite box_tets_eq. split.
      - intros (Hx & Hy & Hz).
        apply (cover3 3 o e1 e2 e3 _ (enc3 w h) vs box_HV box_H4 _ (x * INR (w - 1)) (y * INR (h - 1)) (z * INR (d - 1))).
        + intros j Hj. unfold o, e1, e2, e3. case3 j; cbn [nth]; rr; fieldR.
        + apply box_cover; [lia|lia|lia|nra|nra|nra].
      - intros (t & Ht & Hx). destruct (within3 3 o e1 e2 e3 _ (enc3 w h) vs box_HV box_H4 t _ Ht Hx) as (t' & X & Y & Z & Ht' & B & E).
        assert (BX : 0 <= 1 * X + 0 * Y + 0 * Z <= INR (w - 1)). { apply (bw3_bounds false t'); [exact B|]. intros c Hc. apply (box_ct_bound _ _ _ _ _ Ht') in Hc as (Hc & _ & _). apply le_INR in Hc. pose proof (pos_INR (cx c)). lra. }
        assert (BY : 0 <= 0 * X + 1 * Y + 0 * Z <= INR (h - 1)). { apply (bw3_bounds false t'); [exact B|]. intros c Hc. apply (box_ct_bound _ _ _ _ _ Ht') in Hc as (_ & Hc & _). apply le_INR in Hc. pose proof (pos_INR (cy c)). lra. }
        assert (BZ : 0 <= 0 * X + 0 * Y + 1 * Z <= INR (d - 1)). { apply (bw3_bounds false t'); [exact B|]. intros c Hc. apply (box_ct_bound _ _ _ _ _ Ht') in Hc as (_ & _ & Hc). apply le_INR in Hc. pose proof (pos_INR (cz c)). lra. }
        pose proof (E 0%nat ltac:(lia)) as E0. pose proof (E 1%nat ltac:(lia)) as E1. pose proof (E 2%nat ltac:(lia)) as E2. unfold o, e1, e2, e3 in E0, E1, E2. cbn [nth] in E0, E1, E2.
        assert (S1 : 0 <= X / INR (w - 1) <= 1) by (apply scale_le; lra). assert (S2 : 0 <= Y / INR (h - 1) <= 1) by (apply scale_le; lra). assert (S3 : 0 <= Z / INR (d - 1) <= 1) by (apply scale_le; lra).
        unfold Rdiv in S1, S2, S3. rr. repeat split; lra.
    Qed.
    Lemma box_disjoint t t' x : In t tets -> In t' tets -> in_interior (Q := RO) 3 (corners vs t) x -> in_interior (Q := RO) 3 (corners vs t') x -> t = t'.
    Proof.
      pose proof (INR_pos w Hw) as Pw. pose proof (INR_pos h Hh) as Ph. pose proof (INR_pos d Hd) as Pd. rewrite box_tets_eq. apply (disjoint3 3 o e1 e2 e3 _ (enc3 w h) vs box_HV box_H4); [|intros ? ? ? ? ?; apply ct3_disjoint].
      intros al be ga HE. pose proof (HE 0%nat ltac:(lia)) as E0. pose proof (HE 1%nat ltac:(lia)) as E1. pose proof (HE 2%nat ltac:(lia)) as E2. unfold e1, e2, e3 in E0, E1, E2. cbn [nth] in E0, E1, E2.
      apply Rinv_0_lt_compat in Pw, Ph, Pd.
      split; [apply (Rmult_eq_reg_r (/ INR (w - 1))); lra|split; [apply (Rmult_eq_reg_r (/ INR (h - 1))); lra|apply (Rmult_eq_reg_r (/ INR (d - 1))); lra]].
    Qed.
  End Box.

  Section Tet.
    Variables (E : nat) (tets : list (list nat)) (vs : list (list RO)).
    Hypothesis HE : (2 <= E)%nat.
    Hypotheses (ET : tetrahedron_triangulation E = Ok tets) (EV : tetrahedron_vertices (F := RO) E = Ok vs).
    Let o (j : nat) := 0.
    Let e1 j := nth j [/ INR (E - 1); 0; 0] 0.
    Let e2 j := nth j [0; / INR (E - 1); 0] 0.
    Let e3 j := nth j [0; 0; / INR (E - 1)] 0.
    Lemma tet_HV t c j : In t (tet_ct E) -> In c t -> (j < 3)%nat -> nth j (nth (penc E c) vs []) 0 = o j + INR (cx c) * e1 j + INR (cy c) * e2 j + INR (cz c) * e3 j.
    Proof.
      intros Ht Hc Hj. destruct (tetrahedron_vertices_eq (F := RO) E HE) as (vs' & EV' & _ & N). rewrite EV' in EV. injection EV as EV2. apply (tet_ct_bound _ _ _ Ht) in Hc. destruct c as [[a b] c]. cbv [cx cy cz fst snd] in *.
      rewrite <- EV2, N by lia. unfold o, e1, e2, e3, frac. rewrite !kofnat_R. rr. unfold Rdiv. case3 j; cbn [nth]; lra.
    Qed.
    Lemma tet_H4 t : In t (tet_ct E) -> length t = 4%nat.
    Proof. intros Ht. apply in_ct3 in Ht as ([[a b] c] & q & _ & _ & Hq & ->). destruct q as [|[|[|[|[|[|q]]]]]]; [reflexivity..|lia]. Qed.
    Lemma tet_tets_eq : tets = map (map (penc E)) (tet_ct E).
    Proof. rewrite tet_eq in ET by exact HE. injection ET as <-. reflexivity. Qed.
    Lemma tet_covering x y z : (0 <= x /\ 0 <= y /\ 0 <= z /\ x + y + z <= 1) <-> exists t, In t tets /\ in_hull (Q := RO) 3 (corners vs t) [x; y; z].
    Proof.
      pose proof (INR_pos E ltac:(lia)) as Pw. rewrite tet_tets_eq. split.
      - intros (Hx & Hy & Hz & Hs).
        apply (cover3 3 o e1 e2 e3 _ (penc E) vs tet_HV tet_H4 _ (x * INR (E - 1)) (y * INR (E - 1)) (z * INR (E - 1))).
        + intros j Hj. unfold o, e1, e2, e3. case3 j; cbn [nth]; rr; fieldR.
        + apply tet_cover; [lia|nra|nra|nra|nra].
      - intros (t & Ht & Hx). destruct (within3 3 o e1 e2 e3 _ (penc E) vs tet_HV tet_H4 t _ Ht Hx) as (t' & X & Y & Z & Ht' & B & EQ).
        assert (BC : forall c, In c t' -> INR (cx c) + INR (cy c) + INR (cz c) <= INR (E - 1) /\ 0 <= INR (cx c) /\ 0 <= INR (cy c) /\ 0 <= INR (cz c)).
        { intros c Hc. apply (tet_ct_bound _ _ _ Ht') in Hc. rewrite <- !plus_INR. split; [apply le_INR; lia|]. repeat split; apply pos_INR. }
        assert (BX : 0 <= 1 * X + 0 * Y + 0 * Z <= INR (E - 1)). { apply (bw3_bounds false t'); [exact B|]. intros c Hc. apply BC in Hc. lra. }
        assert (BY : 0 <= 0 * X + 1 * Y + 0 * Z <= INR (E - 1)). { apply (bw3_bounds false t'); [exact B|]. intros c Hc. apply BC in Hc. lra. }
        assert (BZ : 0 <= 0 * X + 0 * Y + 1 * Z <= INR (E - 1)). { apply (bw3_bounds false t'); [exact B|]. intros c Hc. apply BC in Hc. lra. }
        assert (BS : 0 <= 1 * X + 1 * Y + 1 * Z <= INR (E - 1)). { apply (bw3_bounds false t'); [exact B|]. intros c Hc. apply BC in Hc. lra. }
        pose proof (EQ 0%nat ltac:(lia)) as E0. pose proof (EQ 1%nat ltac:(lia)) as E1. pose proof (EQ 2%nat ltac:(lia)) as E2. unfold o, e1, e2, e3 in E0, E1, E2. cbn [nth] in E0, E1, E2.
        assert (S1 : 0 <= X / INR (E - 1) <= 1) by (apply scale_le; lra). assert (S2 : 0 <= Y / INR (E - 1) <= 1) by (apply scale_le; lra). assert (S3 : 0 <= Z / INR (E - 1) <= 1) by (apply scale_le; lra). assert (S4 : 0 <= (X + Y + Z) / INR (E - 1) <= 1) by (apply scale_le; lra).
        unfold Rdiv in S1, S2, S3, S4. rr. repeat split; lra.
    Qed.
    Lemma tet_disjoint t t' x : In t tets -> In t' tets -> in_interior (Q := RO) 3 (corners vs t) x -> in_interior (Q := RO) 3 (corners vs t') x -> t = t'.
    Proof.
      pose proof (INR_pos E ltac:(lia)) as Pw. rewrite tet_tets_eq. apply (disjoint3 3 o e1 e2 e3 _ (penc E) vs tet_HV tet_H4); [|intros ? ? ? ? ?; apply ct3_disjoint].
      intros al be ga HE'. pose proof (HE' 0%nat ltac:(lia)) as E0. pose proof (HE' 1%nat ltac:(lia)) as E1. pose proof (HE' 2%nat ltac:(lia)) as E2. unfold e1, e2, e3 in E0, E1, E2. cbn [nth] in E0, E1, E2.
      apply Rinv_0_lt_compat in Pw.
      split; [apply (Rmult_eq_reg_r (/ INR (E - 1))); lra|split; apply (Rmult_eq_reg_r (/ INR (E - 1))); lra].
    Qed.
  End Tet.
End Cover.

(** ** Counts for the triangle meshes *)
Lemma tenc_bound E c : (fst c + snd c < E)%nat -> (tenc E c < E * (E + 1) / 2)%nat.
Proof.
  destruct c as [a b]. unfold tenc, tri_index. cbn [fst snd]. intros H.
  assert (X : ((2 * E - b + 1) * b + (a + 1) * 2 <= E * (E + 1))%nat).
  { remember (E - b)%nat as n eqn:En. assert (E = n + b)%nat by lia. subst E. replace (2 * (n + b) - b + 1)%nat with (2 * n + b + 1)%nat by lia.
    destruct n; [lia|]. nia. }
  apply (Nat.div_le_mono _ _ 2) in X; [|lia]. rewrite Nat.div_add in X by lia. lia.
Qed.
Section Counts.
  Context {F : fld}.
  Add Field Kfield39 : (kth F).
  Lemma rectangle_counts (W H : F) w h : (1 < w)%nat -> (1 < h)%nat -> exists tris vs,
    rectangle_triangulation w h = Ok tris /\ rectangle_vertices W H w h = Ok vs /\ length tris = (2 * (w - 1) * (h - 1))%nat /\ length vs = (w * h)%nat /\
    (forall t, In t tris -> length t = 3%nat /\ forall i, In i t -> (i < length vs)%nat) /\ forall p, In p vs -> length p = 3%nat.
  Proof.
    intros Hw Hh. destruct (rectangle_eq w h Hw Hh) as [E L]. destruct (rectangle_vertices_eq W H w h Hw Hh) as (vs & EV & LV & N).
    eexists _, vs. split; [exact E|]. split; [exact EV|]. rewrite map_length, L, LV. split; [reflexivity|]. split; [reflexivity|]. split.
    - intros t Ht. apply in_map_iff in Ht as (t0 & <- & Ht). rewrite map_length. split; [exact (rect_H3 w h t0 Ht)|].
      intros i Hi. apply in_map_iff in Hi as (c & <- & Hc). apply (rect_ct_bound _ _ _ _ Ht) in Hc. destruct c. cbn [fst snd] in Hc. apply enc_bound; lia.
    - intros p Hp. apply (In_nth _ _ []) in Hp as (i & Hi & <-). rewrite LV in Hi.
      assert (Ei : i = enc w (i mod w, i / w)%nat) by (unfold enc; cbn [fst snd]; pose proof (Nat.div_mod i w ltac:(lia)); nia).
      rewrite Ei, N; [reflexivity| |]; [apply Nat.mod_upper_bound; lia|apply Nat.div_lt_upper_bound; lia].
  Qed.
  Lemma triangle_counts (v0 v1 v2 : list F) E : (2 <= E)%nat -> length v1 = length v0 -> length v2 = length v0 -> exists tris vs,
    triangle_triangulation E = Ok tris /\ general_triangle_vertices v0 v1 v2 E = Ok vs /\ length tris = ((E - 1) ^ 2)%nat /\ length vs = (E * (E + 1) / 2)%nat /\
    (forall t, In t tris -> length t = 3%nat /\ forall i, In i t -> (i < length vs)%nat) /\ forall p, In p vs -> length p = length v0.
  Proof.
    intros HE L1 L2. destruct (general_vertices_eq v0 v1 v2 E HE L1 L2) as (vs & EV & LV & LP & _).
    eexists _, vs. split; [apply triangle_eq; lia|]. split; [exact EV|]. rewrite map_length, tri_ct_length, LV. split; [reflexivity|]. split; [reflexivity|]. split; [|exact LP].
    intros t Ht. apply in_map_iff in Ht as (t0 & <- & Ht). rewrite map_length. split; [exact (tri_H3 E t0 Ht)|].
    intros i Hi. apply in_map_iff in Hi as (c & <- & Hc). apply (tri_ct_bound _ _ _ Ht) in Hc. apply tenc_bound; lia.
  Qed.
  Lemma equilateral_sides (s L : F) E : exists v0 v1 v2, equilateral_triangle_vertices s L E = general_triangle_vertices v0 v1 v2 E /\
    length v0 = 3%nat /\ length v1 = 3%nat /\ length v2 = 3%nat /\
    ((s * s = kofnat 3)%K -> forall a b, In (a, b) [(v0, v1); (v1, v2); (v2, v0)] -> ksum (seq 0 3) (fun j => (nth j b 0 - nth j a 0) * (nth j b 0 - nth j a 0))%K = (L * L)%K).
  Proof.
    eexists _, _, _. split; [apply equilateral_general|]. split; [reflexivity|]. split; [reflexivity|]. split; [reflexivity|].
    intros Hs a b Hab. pose proof (two_neq (F := F)) as H2.
    assert (Es : (s * s = 1 + 1 + 1)%K) by (rewrite Hs; unfold kofnat, nat_in; ring).
    destruct Hab as [E1|[E1|[E1|[]]]]; injection E1 as <- <-; unfold ksum; cbn [seq fold_right nth].
    - ring.
    - transitivity (L * L / (1 + 1) / (1 + 1) * (1 + s * s))%K; [field; exact H2|rewrite Es; field; exact H2].
    - transitivity (L * L / (1 + 1) / (1 + 1) * (1 + s * s))%K; [field; exact H2|rewrite Es; field; exact H2].
  Qed.
End Counts.
