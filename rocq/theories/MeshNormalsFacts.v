(** Facts about sums over the corners of a triangle mesh for the properties of
    MeshNormals.v. *)
From Coq Require Import Reals Lra Psatz Lia.
From Coquelicot Require Import Coquelicot.
From Verif Require Import Base MultiIndex RVec Angle AngleFacts Rotation RotFacts Triangle TriFacts Prop_Triangle MeshNormals.
Local Open Scope R_scope.

(** ** sums of vectors *)
Definition vsum (d : nat) (l : list vec) : vec := fold_right vadd (vzero d) l.
Lemma vadd_assoc a b c : length a = length b -> length b = length c -> vadd (vadd a b) c = vadd a (vadd b c).
Proof. intros. vring. Qed.
Definition dsum (w : vec) (l : list vec) : R := rsum (map (vdot w) l).
Lemma vsum_len d l : (forall x, In x l -> length x = d) -> length (vsum d l) = d.
Proof.
  induction l as [|x l IH]; intros H; [apply vzero_len|]. cbn [vsum fold_right]. fold (vsum d l). rewrite vadd_len; [apply H; now left|]. rewrite IH by (intros; apply H; now right). apply H. now left.
Qed.
Lemma vdot_vsum d w l : (forall x, In x l -> length x = d) -> vdot w (vsum d l) = dsum w l.
Proof.
  induction l as [|x l IH]; intros H; [cbn; rewrite vdot_sym; apply vdot_zero_l|]. cbn [vsum fold_right]. fold (vsum d l). rewrite vdot_add_r by (rewrite vsum_len by (intros; apply H; now right); apply H; now left).
  rewrite IH by (intros; apply H; now right). reflexivity.
Qed.
Lemma rsum_app l m : rsum (l ++ m) = rsum l + rsum m.
Proof. induction l as [|x l IH]; [cbn [app]; change (rsum []) with 0; ring|]. change (x + rsum (l ++ m) = x + rsum l + rsum m). rewrite IH. ring. Qed.
Lemma dsum_app w l m : dsum w (l ++ m) = dsum w l + dsum w m.
Proof. unfold dsum. rewrite map_app. apply rsum_app. Qed.
Lemma dsum_flat {A} w (f : A -> list vec) l : dsum w (flat_map f l) = rsum (map (fun x => dsum w (f x)) l).
Proof. induction l as [|x l IH]; [reflexivity|]. cbn [flat_map]. rewrite dsum_app, IH. reflexivity. Qed.
Lemma dot_ext (x y : vec) : length x = length y -> (forall w, length w = length x -> vdot w x = vdot w y) -> x = y.
Proof.
  intros H E. assert (L : length (vsub x y) = length x) by (apply vsub_len, H). pose proof (E (vsub x y) L) as K. assert (Z : vdot (vsub x y) (vsub x y) = 0) by (rewrite vdot_sub_r by exact H; lra).
  apply vdot_zero_inv in Z. apply vec_ext; [exact H|]. intros i _. pose proof (f_equal (fun w => nth i w 0) Z) as J. cbn beta in J. rewrite nth_vsub, nth_vzero in J by exact H. lra.
Qed.
Lemma rsum_ext {A} (f g : A -> R) l : (forall x, In x l -> f x = g x) -> rsum (map f l) = rsum (map g l).
Proof. intros H. f_equal. apply map_ext_in, H. Qed.
Lemma rsum_map_scale {A} c (f : A -> R) l : rsum (map (fun x => c * f x) l) = c * rsum (map f l).
Proof. induction l as [|x l IH]; [change (rsum []) with 0; cbn [map]; change (rsum []) with 0; ring|]. change (c * f x + rsum (map (fun x => c * f x) l) = c * (f x + rsum (map f l))). rewrite IH. ring. Qed.
Lemma rsum_map_add {A} (f g : A -> R) l : rsum (map (fun x => f x + g x) l) = rsum (map f l) + rsum (map g l).
Proof. induction l as [|x l IH]; [cbn [map]; change (rsum []) with 0; ring|]. change (f x + g x + rsum (map (fun x => f x + g x) l) = (f x + rsum (map f l)) + (g x + rsum (map g l))). rewrite IH. ring. Qed.

(** ** accumulation into the rows of an array *)
Definition add_all (n : list row) (cs : list (nat * vec)) : result (list row) := foldM (fun n c => row_add_at n (fst c) (Some (snd c))) n cs.
Definition at_key (k : nat) (cs : list (nat * vec)) : list vec := map snd (filter (fun c => (fst c =? k)%nat) cs).
Lemma foldM_app {S A} (f : S -> A -> result S) st l m : foldM f st (l ++ m) = (let* s := foldM f st l in foldM f s m).
Proof. revert st. induction l as [|a l IH]; intros st; [reflexivity|]. cbn [app foldM]. destruct (f st a); cbn [bind]; auto. Qed.
Lemma foldM_flat {A} (f : list row -> A -> result (list row)) (g : A -> list (nat * vec)) l n : (forall n x, In x l -> f n x = add_all n (g x)) -> foldM f n l = add_all n (flat_map g l).
Proof.
  revert n. induction l as [|x l IH]; intros n H; [reflexivity|]. cbn [foldM flat_map]. rewrite H by now left. unfold add_all at 2. rewrite foldM_app. fold (add_all n (g x)). destruct (add_all n (g x)); cbn [bind]; [|reflexivity]. apply IH. intros; apply H; now right.
Qed.
Lemma bind_ok {A} (x : result A) : bind x Ok = x. Proof. destruct x; reflexivity. Qed.
Lemma at_key_flat {A} k (g : A -> list (nat * vec)) l : at_key k (flat_map g l) = flat_map (fun x => at_key k (g x)) l.
Proof. unfold at_key. induction l as [|x l IH]; [reflexivity|]. cbn [flat_map]. rewrite filter_app, map_app, IH. reflexivity. Qed.
Lemma add_all_ok d cs : forall ns, (forall x, In x ns -> length x = d) -> (forall c, In c cs -> (fst c < length ns)%nat /\ length (snd c) = d) ->
  exists ms, add_all (map Some ns) cs = Ok (map Some ms) /\ length ms = length ns /\ (forall x, In x ms -> length x = d) /\
    forall k, (k < length ns)%nat -> nth k ms [] = vadd (nth k ns []) (vsum d (at_key k cs)).
Proof.
  induction cs as [|[i w] cs IH]; intros ns Hn Hc.
  - exists ns. split; [reflexivity|]. split; [reflexivity|]. split; [exact Hn|]. intros k Hk. cbn [at_key filter map vsum fold_right]. assert (L : length (nth k ns []) = d) by (apply Hn, nth_In, Hk). symmetry. apply vec_ext; [rewrite vadd_len; [reflexivity|rewrite L, vzero_len; reflexivity]|]. intros j _. rewrite nth_vadd by (rewrite L, vzero_len; reflexivity). rewrite nth_vzero. exact (Rplus_0_r _).
  - destruct (Hc (i, w) ltac:(now left)) as [Hi Hw]. cbn [fst snd] in Hi, Hw. assert (Li : length (nth i ns []) = d) by (apply Hn, nth_In, Hi).
    assert (E : row_add_at (map Some ns) i (Some w) = Ok (map Some (upd ns i (vadd (nth i ns []) w)))).
    { unfold row_add_at, get. rewrite nth_error_map, (nth_error_nth' ns [] Hi). cbn [option_map bind row_add]. unfold set. rewrite map_length. replace (i <? length ns)%nat with true by (symmetry; apply Nat.ltb_lt, Hi). f_equal.
      generalize (vadd (nth i ns []) w). clear. revert i. induction ns as [|n ns IH]; intros i z; [destruct i; reflexivity|]. destruct i; cbn [map upd]; [reflexivity|]. f_equal. apply IH. }
    assert (In_upd : forall (l : list vec) j (z x : vec), In x (upd l j z) -> x = z \/ In x l).
    { clear. induction l as [|y l IHl]; intros j z x; [destruct j; intros []|]. destruct j; cbn [upd]; intros [ -> |H]; auto; [right; now right|right; now left|]. destruct (IHl _ _ _ H); auto. right. now right. }
    destruct (IH (upd ns i (vadd (nth i ns []) w))) as (ms & Em & Lm & Hm & Nm).
    { intros x Hx. apply In_upd in Hx as [ -> |Hx]; [rewrite vadd_len; congruence|auto]. }
    { intros c Hcc. rewrite upd_length. apply Hc. now right. }
    exists ms. split; [exact (eq_trans (f_equal (fun r => bind r (fun st => add_all st cs)) E) Em)|]. rewrite upd_length in Lm, Nm. split; [exact Lm|]. split; [exact Hm|].
    intros k Hk. rewrite (Nm k Hk). assert (Lcs : forall x, In x (at_key k cs) -> length x = d).
    { intros x Hx. unfold at_key in Hx. apply in_map_iff in Hx as (c & <- & Hcc). apply filter_In in Hcc as [Hcc _]. exact (proj2 (Hc c ltac:(now right))). }
    pose proof (vsum_len d _ Lcs) as Lv. unfold at_key. cbn [filter fst]. destruct (Nat.eqb_spec i k) as [ -> |N].
    + rewrite nth_upd_same by exact Hk. cbn [map snd vsum fold_right]. fold (vsum d (map snd (filter (fun c => (fst c =? k)%nat) cs))). fold (at_key k cs). apply vadd_assoc; [exact (eq_trans Li (eq_sym Hw))|exact (eq_trans Hw (eq_sym Lv))].
    + rewrite nth_upd_other by exact N. reflexivity.
Qed.

(** ** meshes *)
Definition point (v : list vec) (k : nat) : vec := nth k v [].
Definition is_mesh (n : nat) (t : list (list nat)) (v : list vec) : Prop := (forall x, In x v -> length x = n) /\
  forall tr, In tr t -> exists a b c, tr = [a; b; c] /\ (a < length v)%nat /\ (b < length v)%nat /\ (c < length v)%nat /\ proper (point v a) (point v b) (point v c).
Lemma vertices_ok v a b c : (a < length v)%nat -> (b < length v)%nat -> (c < length v)%nat -> vertices [a; b; c] v = Ok [point v a; point v b; point v c].
Proof.
  intros Ha Hb Hc. unfold vertices. assert (H0 : (0 < length v)%nat) by lia. unfold get at 1. rewrite (nth_error_nth' v [] H0). cbn [bind seq mapM get nth_error]. unfold get. rewrite (nth_error_nth' v [] Ha), (nth_error_nth' v [] Hb), (nth_error_nth' v [] Hc). reflexivity.
Qed.
Lemma mesh_dim_ok n t v : is_mesh n t v -> (0 < length v)%nat -> mesh_dim v = n.
Proof. intros [H _] L. unfold mesh_dim. apply H, nth_In, L. Qed.
Lemma point_len n t v a : is_mesh n t v -> (a < length v)%nat -> length (point v a) = n.
Proof. intros [H _] L. apply H, nth_In, L. Qed.
Lemma proper_neq p q r : proper p q r -> p <> q /\ q <> r /\ p <> r.
Proof.
  intros (Hq & Hr & N). repeat split; intros E.
  - destruct (N 1 0) as [X _]; [|lra]. subst q. apply vec_ext; [rewrite vzero_len; vlen|]. intros i _. rewrite nth_vzero. vnths. ring.
  - destruct (N 1 (-1)) as [X _]; [|lra]. subst r. apply vec_ext; [rewrite vzero_len; vlen|]. intros i _. rewrite nth_vzero. vnths. ring.
  - destruct (N 0 1) as [_ X]; [|lra]. subst r. apply vec_ext; [rewrite vzero_len; vlen|]. intros i _. rewrite nth_vzero. vnths. ring.
Qed.
Lemma proper_idx v a b c : proper (point v a) (point v b) (point v c) -> a <> b /\ b <> c /\ a <> c.
Proof. intros H. destruct (proper_neq _ _ _ H) as (X & Y & Z). repeat split; congruence. Qed.
