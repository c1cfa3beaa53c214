(** C30-C33, C60: kd-trees. *)
From Coq Require Import Qcanon QArith.
From Verif Require Import Base Fld FldInst MultiIndex Aabb AabbFacts KdTree KdFacts KdProps KdMesh ExNum.

(** A tree in the plane: root cut at x = 1/2, its upper child at y = 1/2, whose
    lower child is cut at x = 3/4; then the first child is cut and removed
    again. *)
Definition pt2 (a b c d : Z) : ppoint QcO := @PVec QcO [rat a (Z.to_pos b); rat c (Z.to_pos d)].
Definition hist : list (@op QcO) := [OSub 0 (pt2 1 2 0 1) 0; OSub 2 (pt2 0 1 1 2) 1; OSub 3 (pt2 3 4 0 1) 0; OSub 1 (pt2 0 1 1 4) 1; OCut 1].
Definition tree0 : heap QcO := run Plain (create_tree 2) hist.
Definition P (a : Z) (b : positive) (c : Z) (d : positive) : list QcO := [rat a b; rat c d].

(** ** C30 *)
Theorem C30_find_leaf : forall (Q : ofld) k (ops : list (@op Q)) (x : list Q), length x = k ->
  let h := run Plain (create_tree k) ops in
  exists r nd, find_leaf_containing_point h 0 x = Ok r /\ attached h r /\ nth_error h r = Some nd /\ is_leaf nd = true /\ in_node_space h r x = Ok true.
Proof. intros Q k ops x Lx h. assert (W : wf k h) by apply run_wf, create_wf. apply (find_leaf_ok k); try assumption; [constructor|apply (root_space k), W]. Qed.
Print Assumptions C30_find_leaf.
(** The search may start at any node whose region contains the point. *)
Theorem C30_find_leaf_below : forall (Q : ofld) k (ops : list (@op Q)) i (x : list Q), length x = k ->
  let h := run Plain (create_tree k) ops in attached h i -> in_node_space h i x = Ok true ->
  exists r nd, find_leaf_containing_point h i x = Ok r /\ attached h r /\ nth_error h r = Some nd /\ is_leaf nd = true /\ in_node_space h r x = Ok true.
Proof. intros Q k ops i x Lx h Ha HS. apply (find_leaf_ok k); try assumption. apply run_wf, create_wf. Qed.
Print Assumptions C30_find_leaf_below.
Theorem C30_leaves_overlap : forall (Q : ofld) k (ops : list (@op Q)) (x : list Q) i i' ni ni', length x = k ->
  let h := run Plain (create_tree k) ops in
  attached h i -> attached h i' -> nth_error h i = Some ni -> nth_error h i' = Some ni' -> is_leaf ni = true -> is_leaf ni' = true ->
  in_node_space h i x = Ok true -> in_node_space h i' x = Ok true ->
  i = i' \/ exists p nd j pt, attached h p /\ nth_error h p = Some nd /\ is_leaf nd = false /\ n_idx nd = Some j /\ n_point nd = Some pt /\ nth j x 0%K = nth j pt 0%K.
Proof. intros Q k ops x i i' ni ni' Lx h. apply (leaves_overlap k); [apply run_wf, create_wf|exact Lx]. Qed.
Print Assumptions C30_leaves_overlap.
Example C30_ex : length tree0 = 9%nat /\ find_leaf_containing_point tree0 0 (P 5 8 1 4) = Ok 5%nat /\ find_leaf_containing_point tree0 0 (P 1 4 1 4) = Ok 1%nat /\
  in_node_space tree0 5 (P 5 8 1 4) = Ok true /\ in_node_space tree0 6 (P 5 8 1 4) = Ok false /\ in_node_space tree0 5 (P 3 4 1 4) = Ok true /\ in_node_space tree0 6 (P 3 4 1 4) = Ok true.
Proof. vm_compute. repeat split. Qed.

(** ** C31 *)
Theorem C31_address : forall (Q : ofld) k (ops : list (@op Q)) i, let h := run Plain (create_tree k) ops in attached h i ->
  exists a d, address h i = Ok a /\ depth h i = Ok d /\ length a = S d /\ get_node_by_address h 0 a = Ok i.
Proof. intros Q k ops i h. apply (address_ok k). apply run_wf, create_wf. Qed.
Print Assumptions C31_address.
Theorem C31_sibling : forall (Q : ofld) k (ops : list (@op Q)) i, let h := run Plain (create_tree k) ops in attached h i -> i <> 0%nat ->
  exists s p ni ns, sibling h i = Ok (Some s) /\ attached h s /\ s <> i /\ sibling h s = Ok (Some i) /\ nth_error h i = Some ni /\ nth_error h s = Some ns /\ n_parent ni = Some p /\ n_parent ns = Some p.
Proof. intros Q k ops i h. apply (sibling_ok k). apply run_wf, create_wf. Qed.
Print Assumptions C31_sibling.
Theorem C31_subdivide_non_leaf : forall (Q : ofld) c (h : heap Q) i nd pp j, nth_error h i = Some nd -> is_leaf nd = false -> subdivide c h i pp j = (h, Err RuntimeError).
Proof. intros Q c h i nd pp j E L. unfold subdivide. rewrite E, L. reflexivity. Qed.
Print Assumptions C31_subdivide_non_leaf.
(** A leaf of a tree of the base class is subdivided into two new leaves. *)
Theorem C31_subdivide_leaf : forall (Q : ofld) k (ops : list (@op Q)) i nd pt j, let h := run Plain (create_tree k) ops in
  nth_error h i = Some nd -> is_leaf nd = true -> (j < k)%nat -> length pt = k ->
  exists h' a b nd' na nb, subdivide Plain h i (PVec pt) j = (h', Ok tt) /\ nth_error h' i = Some nd' /\ n_children nd' = Some (a, b) /\
    nth_error h' a = Some na /\ nth_error h' b = Some nb /\ is_leaf na = true /\ is_leaf nb = true /\ n_parent na = Some i /\ n_parent nb = Some i /\
    nth_error h a = None /\ nth_error h b = None /\ forall q, q <> i -> (q < length h)%nat -> nth_error h' q = nth_error h q.
Proof.
  intros Q k ops i nd pt j h E L Hj Lp. assert (W : wf k h) by apply run_wf, create_wf. assert (Kn : n_k nd = k) by (apply (proj2 W _ _ E)).
  destruct (subdivide_cases Plain h i (PVec pt) j) as [[e EE]|[(h' & e & EE & HJ)|(h' & pt' & pa & pb & EE & HS)]].
  - exfalso. unfold subdivide in EE. rewrite E, L in EE. cbn [negb] in EE. rewrite Kn, Lp in EE. replace (j <? k)%nat with true in EE by (symmetry; apply Nat.ltb_lt, Hj). rewrite Nat.eqb_refl in EE. discriminate.
  - exfalso. unfold subdivide in EE. rewrite E, L in EE. cbn [negb] in EE. rewrite Kn, Lp in EE. replace (j <? k)%nat with true in EE by (symmetry; apply Nat.ltb_lt, Hj). rewrite Nat.eqb_refl in EE. discriminate.
  - assert (N := fun q => sub_nth h i pt' j pa pb h' q HS). destruct (N i) as (nd0 & E0 & _ & Li & Ni). assert (nd0 = nd) by congruence. subst nd0. destruct (Nat.eq_dec i i); [|lia].
    destruct (N (length h)) as (nd1 & E1 & _ & _ & Na). assert (nd1 = nd) by congruence. subst nd1. destruct (Nat.eq_dec (length h) i); [lia|]. destruct (Nat.eq_dec (length h) (length h)); [|lia].
    destruct (N (S (length h))) as (nd2 & E2 & _ & _ & Nb). assert (nd2 = nd) by congruence. subst nd2. destruct (Nat.eq_dec (S (length h)) i); [lia|]. destruct (Nat.eq_dec (S (length h)) (length h)); [lia|]. destruct (Nat.eq_dec (S (length h)) (S (length h))); [|lia].
    exists h', (length h), (S (length h)). do 3 eexists. split; [exact EE|]. split; [exact Ni|]. split; [reflexivity|]. split; [exact Na|]. split; [exact Nb|]. do 4 (split; [reflexivity|]). split; [apply nth_error_None; lia|]. split; [apply nth_error_None; lia|].
    intros q Hq Lq. destruct (N q) as (nd3 & _ & _ & _ & Nq). destruct (Nat.eq_dec q i); [contradiction|]. destruct (Nat.eq_dec q (length h)); [lia|]. destruct (Nat.eq_dec q (S (length h))); [lia|exact Nq].
Qed.
Print Assumptions C31_subdivide_leaf.
Theorem C31_cut_subtree : forall (Q : ofld) (h : heap Q) i nd, nth_error h i = Some nd ->
  exists h' nd', cut_subtree h i = (h', Ok tt) /\ nth_error h' i = Some nd' /\ is_leaf nd' = true /\ n_parent nd' = n_parent nd /\ forall q, q <> i -> nth_error h' q = nth_error h q.
Proof.
  intros Q h i nd E. unfold cut_subtree. rewrite E. eexists _, _. split; [reflexivity|]. split; [rewrite (cut_nth h i nd i E); destruct (Nat.eq_dec i i); [reflexivity|lia]|]. split; [reflexivity|]. split; [reflexivity|]. intros q Hq. rewrite (cut_nth h i nd q E). destruct (Nat.eq_dec q i); [contradiction|reflexivity].
Qed.
Print Assumptions C31_cut_subtree.
Example C31_ex : address tree0 6 = Ok [0; 1; 0; 1]%nat /\ depth tree0 6 = Ok 3%nat /\ get_node_by_address tree0 0 [0; 1; 0; 1]%nat = Ok 6%nat /\ sibling tree0 6 = Ok (Some 5%nat) /\ sibling tree0 5 = Ok (Some 6%nat).
Proof. vm_compute. repeat split. Qed.
(** A node below a cut subtree still answers [address] and [depth], but its
    address no longer leads to it and [sibling] raises. *)
Theorem C31_orphan_refuted : exists (ops : list (@op QcO)) i a, let h := run Plain (create_tree 2) ops in
  (i < length h)%nat /\ address h i = Ok a /\ get_node_by_address h 0 a = Err TypeError /\ sibling h i = Err TypeError.
Proof. exists hist, 7%nat, [0; 0; 0]%nat. split; [apply Nat.ltb_lt; vm_compute; reflexivity|]. vm_compute. auto. Qed.
Print Assumptions C31_orphan_refuted.

(** ** C32 *)
Theorem C32_contains : forall (Q : ofld) k (ops : list (@op Q)) i (x : list Q), length x = k -> let h := run Plain (create_tree k) ops in attached h i ->
  exists b, node_aabb h i = Ok b /\ (in_node_space h i x = Ok true -> point_inside b (map Fin x) = Ok true).
Proof. intros Q k ops i x Lx h Ha. apply (node_aabb_contains k); try assumption. apply run_wf, create_wf. Qed.
Print Assumptions C32_contains.
Theorem C32_exact : forall (Q : ofld) k (ops : list (@op Q)) i (x : list Q), length x = k -> let h := run Plain (create_tree k) ops in attached h i ->
  (forall p, attached h p -> (p < i)%nat -> forall nd j pt b, nth_error h p = Some nd -> n_idx nd = Some j -> n_point nd = Some pt -> node_aabb h p = Ok b ->
    in_closed_range (Fin (nth j pt 0%K)) (nth j (fst b) NaN) (nth j (snd b) NaN) = true) ->
  exists b, node_aabb h i = Ok b /\ (in_node_space h i x = Ok true <-> point_inside b (map Fin x) = Ok true).
Proof. intros Q k ops i x Lx h Ha HP. apply (node_aabb_exact k); try assumption. apply run_wf, create_wf. Qed.
Print Assumptions C32_exact.
Definition xo (v : xnum QcO) : option Q := match v with Fin a => Some (this (a : Qc)) | _ => None end.
Example C32_ex : match node_aabb tree0 5 with Ok b => Some (map xo (fst b), map xo (snd b)) | Err _ => None end = Some ([Some (1#2); None], [Some (3#4); Some (1#2)])%Q.
Proof. vm_compute. reflexivity. Qed.
(** A node cut outside its box: the box of the child is not its region. *)
Theorem C32_exact_refuted : exists (ops : list (@op QcO)) i b x, let h := run Plain (create_tree 2) ops in
  attached h i /\ length x = 2%nat /\ node_aabb h i = Ok b /\ point_inside b (map Fin x) = Ok true /\ in_node_space h i x = Ok false.
Proof.
  set (ops := [OSub 0 (pt2 0 1 0 1) 0; OSub 1 (pt2 1 1 0 1) 0] : list (@op QcO)). set (h := run Plain (create_tree 2) ops). destruct (node_aabb h 3) as [b|e] eqn:E; [|exfalso; apply (f_equal (fun r => match r with Ok _ => true | Err _ => false end)) in E; vm_compute in E; discriminate].
  exists ops, 3%nat, b, (P 1 2 0 1). fold h. split; [|split; [reflexivity|split; [exact E|split]]].
  - pose (d := mkNode (Q := QcO) None 0 None None None 2 []). assert (L : length h = 5%nat) by (vm_compute; reflexivity).
    assert (A1 : attached h 1) by (apply (att_child h 0 (nth 0 h d) 1 2 1); [constructor|apply nth_error_nth'; rewrite L; lia|vm_compute; reflexivity|auto]).
    apply (att_child h 1 (nth 1 h d) 3 4 3); [exact A1|apply nth_error_nth'; rewrite L; lia|vm_compute; reflexivity|auto].
  - assert (X : (let* b := node_aabb h 3 in point_inside b (map Fin (P 1 2 0 1))) = Ok true) by (vm_compute; reflexivity). rewrite E in X. exact X.
  - vm_compute. reflexivity.
Qed.
Print Assumptions C32_exact_refuted.

(** ** C33 *)
Definition root_of {Q : ofld} (ss : list (list nat)) (vs : list (list Q)) (k : nat) (i0 : option (list nat)) : heap Q := fst (new_node (Mesh ss vs) [] None k 0 i0).
Definition of_interest (ss : list (list nat)) (i0 : option (list nat)) : list nat := match i0 with None => seq 0 (length ss) | Some l => l end.
Lemma mesh_hist (Q : ofld) k ss (vs : list (list Q)) i0 ops : mesh_ok k ss vs -> (forall s, In s (of_interest ss i0) -> (s < length ss)%nat) -> minv k ss vs (of_interest ss i0) (run (Mesh ss vs) (root_of ss vs k i0) ops).
Proof. intros M HI. apply run_minv; try assumption. unfold root_of. rewrite (proj1 (root_heap ss vs k i0)). apply minv_root. Qed.
(** For the nodes of a tree over a mesh: a simplex of interest with a point in
    the region of the node is listed. *)
Theorem C33_complete : forall (Q : ofld) k ss (vs : list (list Q)) i0 (ops : list (@op Q)) i nd s x,
  mesh_ok k ss vs -> (forall s, In s (of_interest ss i0) -> (s < length ss)%nat) ->
  let h := run (Mesh ss vs) (root_of ss vs k i0) ops in attached h i -> nth_error h i = Some nd ->
  In s (of_interest ss i0) -> length x = k -> in_node_space h i x = Ok true -> in_hull k (map (fun j => nth j vs []) (nth s ss [])) x -> In s (n_pot nd).
Proof.
  intros Q k ss vs i0 ops i nd s x M HI h Ha E Hs Lx HS HX. destruct (mesh_hist Q k ss vs i0 ops M HI) as [W V]. destruct (space_iff k h i x W Ha Lx) as (l & Hl & _ & EE). rewrite EE in HS. injection HS as HS. destruct (V i nd l Ha E Hl) as (_ & _ & _ & V4). apply (V4 s x); assumption.
Qed.
Print Assumptions C33_complete.
Theorem C33_leaf_of_point : forall (Q : ofld) k ss (vs : list (list Q)) i0 (ops : list (@op Q)) x,
  mesh_ok k ss vs -> (forall s, In s (of_interest ss i0) -> (s < length ss)%nat) -> length x = k ->
  let h := run (Mesh ss vs) (root_of ss vs k i0) ops in
  exists r nd, find_leaf_containing_point h 0 x = Ok r /\ nth_error h r = Some nd /\ is_leaf nd = true /\
    forall s, In s (of_interest ss i0) -> in_hull k (map (fun j => nth j vs []) (nth s ss [])) x -> In s (n_pot nd).
Proof.
  intros Q k ss vs i0 ops x M HI Lx h. destruct (mesh_hist Q k ss vs i0 ops M HI) as [W V]. fold h in W, V. destruct (find_leaf_ok k h 0 x W (att_root h) Lx (root_space k h x W)) as (r & nd & E1 & E2 & E3 & E4 & E5). exists r, nd. split; [exact E1|]. split; [exact E3|]. split; [exact E4|]. intros s Hs HX. apply (C33_complete Q k ss vs i0 ops r nd s x); assumption.
Qed.
Print Assumptions C33_leaf_of_point.
(** Conversely only simplices of interest are listed, and below the root only
    those whose bounding box has a point in common with the box of the node. *)
Theorem C33_listed : forall (Q : ofld) k ss (vs : list (list Q)) i0 (ops : list (@op Q)) i nd s,
  mesh_ok k ss vs -> (forall s, In s (of_interest ss i0) -> (s < length ss)%nat) ->
  let h := run (Mesh ss vs) (root_of ss vs k i0) ops in attached h i -> nth_error h i = Some nd -> In s (n_pot nd) ->
  In s (of_interest ss i0) /\ (i <> 0%nat -> exists b eb q, node_aabb h i = Ok b /\ create (map (map Fin) (map (fun j => nth j vs []) (nth s ss []))) = Ok eb /\ length q = k /\ point_inside b q = Ok true /\ point_inside eb q = Ok true).
Proof.
  intros Q k ss vs i0 ops i nd s M HI h Ha E Hs. destruct (mesh_hist Q k ss vs i0 ops M HI) as [W V]. fold h in W, V. destruct (attached_planes k h i W Ha) as (l & Hl & G). destruct (V i nd l Ha E Hl) as (V1 & _ & V3 & _). split; [apply V1, Hs|]. intros Hi. destruct (V3 Hi s Hs) as (q & eb & H1 & H2 & H3 & H4). exists (fold_right clip (full k) l), eb, q. split; [apply aabb_eq; assumption|]. auto.
Qed.
Print Assumptions C33_listed.
(** A square of two triangles cut at x = 1/2 *)
Definition sq_v : list (list QcO) := [P 0 1 0 1; P 1 1 0 1; P 1 1 1 1; P 0 1 1 1; P 2 1 0 1].
Definition sq_t : list (list nat) := [[0; 1; 3]; [1; 2; 3]; [1; 4; 2]]%nat.
Lemma sq_ok : mesh_ok 2 sq_t sq_v.
Proof. split; [discriminate|]. split; [intros v H; repeat destruct H as [<-|H]; reflexivity || destruct H|]. intros s H. repeat destruct H as [<-|H]; try destruct H; (split; [discriminate|]; intros j Hj; repeat destruct Hj as [<-|Hj]; cbn; try lia; destruct Hj). Qed.
Example C33_ex : map n_pot (run (Mesh sq_t sq_v) (root_of sq_t sq_v 2 None) [OSub 0 (pt2 1 2 0 1) 0; OSub 1 (pt2 0 1 1 4) 1]) = [[0; 1; 2]; [0; 1]; [0; 1; 2]; [0; 1]; [0; 1]]%nat.
Proof. vm_compute. reflexivity. Qed.
Example C33_hull_ex : in_hull 2 (map (fun j => nth j sq_v []) (nth 0 sq_t [])) (P 1 4 1 4).
Proof.
  exists [rat 1 2; rat 1 4; rat 1 4]. split; [reflexivity|]. split; [|split].
  - intros [|[|[|i]]] Hi; cbn in Hi; try lia; apply kleb_spec; vm_compute; reflexivity.
  - apply Qc_is_canon. vm_compute. reflexivity.
  - intros [|[|j]] Hj; try lia; apply Qc_is_canon; vm_compute; reflexivity.
Qed.

(** ** C60: create_kd_tree *)
(** [pca] stands for the principal axis computed by numpy: any function that
    returns [k] numbers for points with [k] coordinates. *)
Theorem C60_terminates : forall (Q : ofld) k ss (vs : list (list Q)) (pca : list (list Q) -> list Q) fixed maxd mil i0 fuel,
  mesh_ok k ss vs -> (forall s, In s (of_interest ss i0) -> (s < length ss)%nat) -> (0 < k)%nat ->
  (forall points, points <> [] -> (forall p, In p points -> length p = k) -> length (pca points) = k) ->
  (fixed = true \/ exists m, mil = Some m) -> (maxd < fuel)%nat ->
  exists h, create_kd_tree pca ss vs fuel fixed maxd mil i0 = (h, Ok 0%nat) /\
    forall i nd, nth_error h i = Some nd -> attached h i /\ exists d, depth h i = Ok d /\ (d <= maxd)%nat /\
      (is_leaf nd = true -> d = maxd \/ n_pot nd = [] \/ (fixed = false /\ exists m, mil = Some m /\ (length (n_pot nd) <= m)%nat)).
Proof.
  intros Q k ss vs pca fixed maxd mil i0 fuel M HI kp HA HM Hf. destruct (create_kd_tree_ok k ss vs M (of_interest ss i0) HI pca kp HA fixed maxd mil HM fuel i0 eq_refl Hf) as (h & E & V & D). exists h. split; [exact E|]. intros i nd Ei. destruct (D i) as (Ha & nd' & l & E' & Hl & Hd & HS); [apply nth_error_Some; congruence|]. assert (nd' = nd) by congruence. subst nd'. split; [exact Ha|]. exists (length l). split; [unfold depth; apply depth_planes; [apply (wf_older k), V|exact Hl|lia]|]. split; [exact Hd|]. unfold is_leaf. destruct (n_children nd); [discriminate|]. intros _. destruct (HS eq_refl) as [H|[H|H]]; auto.
Qed.
Print Assumptions C60_terminates.
(** The tree it returns misses no simplex. *)
Theorem C60_complete : forall (Q : ofld) k ss (vs : list (list Q)) (pca : list (list Q) -> list Q) fixed maxd mil i0 fuel x,
  mesh_ok k ss vs -> (forall s, In s (of_interest ss i0) -> (s < length ss)%nat) -> (0 < k)%nat ->
  (forall points, points <> [] -> (forall p, In p points -> length p = k) -> length (pca points) = k) ->
  (fixed = true \/ exists m, mil = Some m) -> (maxd < fuel)%nat -> length x = k ->
  exists h r nd, create_kd_tree pca ss vs fuel fixed maxd mil i0 = (h, Ok 0%nat) /\ find_leaf_containing_point h 0 x = Ok r /\ nth_error h r = Some nd /\ is_leaf nd = true /\ in_node_space h r x = Ok true /\
    forall s, In s (of_interest ss i0) -> in_hull k (map (fun j => nth j vs []) (nth s ss [])) x -> In s (n_pot nd).
Proof.
  intros Q k ss vs pca fixed maxd mil i0 fuel x M HI kp HA HM Hf Lx. destruct (create_kd_tree_ok k ss vs M (of_interest ss i0) HI pca kp HA fixed maxd mil HM fuel i0 eq_refl Hf) as (h & E & [W V] & D). destruct (find_leaf_ok k h 0 x W (att_root h) Lx (root_space k h x W)) as (r & nd & E1 & E2 & E3 & E4 & E5). exists h, r, nd. do 5 (split; [assumption|]). intros s Hs HX. destruct (space_iff k h r x W E2 Lx) as (l & Hl & _ & EE). rewrite EE in E5. injection E5 as HS. destruct (V r nd l E2 E3 Hl) as (_ & _ & _ & V4). apply (V4 s x); assumption.
Qed.
Print Assumptions C60_complete.
Example C60_ex : (let '(h, r) := create_kd_tree (fun _ => P 1 1 0 1) sq_t sq_v 4 false 3 (Some 2%nat) None in (r, map n_pot h, map n_children h)) = (Ok 0%nat, [[0; 1; 2]; [0; 1]; [0; 1; 2]; [0; 1]; [0; 1; 2]; [0; 1]; [0; 1; 2]]%nat, [Some (1, 2); None; Some (3, 4); None; Some (5, 6); None; None]%nat).
Proof. vm_compute. reflexivity. Qed.
(** With the default arguments the adaptive variant compares a length with
    [None]: a mesh with a simplex is refused. *)
Theorem C60_default_arguments_refuted : forall (Q : ofld) (pca : list (list Q) -> list Q) ss vs maxd fuel s i0, vs <> [] -> (0 < maxd)%nat -> (0 < fuel)%nat -> In s (of_interest ss i0) ->
  exists h, create_kd_tree pca ss vs fuel false maxd None i0 = (h, Err TypeError).
Proof.
  intros Q pca ss vs maxd fuel s i0 Hv Hm Hf Hs. unfold create_kd_tree. destruct vs as [|v vs]; [contradiction|]. destruct fuel as [|fuel]; [lia|]. cbn [get nth_error new_node get_potentially_intersecting_simplices app length bind n_parent recurse]. fold (of_interest ss i0). unfold subdivide_fn, depth. cbn [depth_fuel get nth_error bind n_parent]. destruct (Nat.eqb_spec 0 maxd); [lia|]. cbn [nth_error n_pot]. destruct (of_interest ss i0) as [|a t]; [destruct Hs|]. cbn [length Nat.eqb not_none bind]. eexists. reflexivity.
Qed.
Print Assumptions C60_default_arguments_refuted.
