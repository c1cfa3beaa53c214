(** Combinatorics of the triangulations of Mesh.v: triangles are first described
    by the grid coordinates of their corners, and then numbered. *)
From Verif Require Import Base MultiIndex MultiIndexFacts Mesh.

(** ** Lists *)
Lemma map_flat_map {A B C} (g : B -> C) (f : A -> list B) l : map g (flat_map f l) = flat_map (fun x => map g (f x)) l.
Proof. induction l as [|a l IH]; cbn [flat_map map]; [reflexivity|]. rewrite map_app, IH. reflexivity. Qed.
Lemma flat_map_ext_in {A B} (f g : A -> list B) l : (forall x, In x l -> f x = g x) -> flat_map f l = flat_map g l.
Proof. induction l as [|a l IH]; intros H; cbn [flat_map]; [reflexivity|]. rewrite (H a) by (left; reflexivity). rewrite IH; [reflexivity|]. intros x Hx. apply H. right. exact Hx. Qed.
Lemma flat_map_flat_map {A B C} (f : A -> list B) (g : B -> list C) l : flat_map g (flat_map f l) = flat_map (fun x => flat_map g (f x)) l.
Proof. induction l as [|a l IH]; cbn [flat_map]; [reflexivity|]. rewrite flat_map_app, IH. reflexivity. Qed.
Lemma flat_map_of_map {A B C} (f : A -> B) (g : B -> list C) l : flat_map g (map f l) = flat_map (fun x => g (f x)) l.
Proof. induction l as [|a l IH]; cbn [flat_map map]; [reflexivity|]. rewrite IH. reflexivity. Qed.
Lemma flat_map_single {A B} (f : A -> B) l : flat_map (fun x => [f x]) l = map f l.
Proof. induction l as [|a l IH]; cbn; [reflexivity|]. rewrite IH. reflexivity. Qed.
Lemma length_flat_map {A B} (f : A -> list B) l : length (flat_map f l) = nsum (map (fun x => length (f x)) l).
Proof. induction l as [|a l IH]; cbn [flat_map map]; [reflexivity|]. rewrite app_length, nsum_cons, IH. reflexivity. Qed.
Lemma length_flat_map_const {A B} (f : A -> list B) l k : (forall x, In x l -> length (f x) = k) -> length (flat_map f l) = length l * k.
Proof. induction l as [|a l IH]; intros H; cbn [flat_map length]; [reflexivity|]. rewrite app_length, (H a), IH by (auto using in_eq, in_cons). reflexivity. Qed.
Lemma nth_flat_map_const {A} (f : nat -> list A) w : forall n s i j d, (forall i, s <= i < s + n -> length (f i) = w) -> i < n -> j < w -> nth (i * w + j) (flat_map f (seq s n)) d = nth j (f (s + i)) d.
Proof.
  induction n as [|n IH]; intros s i j d HL Hi Hj; [lia|]. cbn [seq flat_map]. destruct i as [|i].
  - cbn [Nat.mul Nat.add]. rewrite app_nth1 by (rewrite HL; lia). rewrite Nat.add_0_r. reflexivity.
  - rewrite app_nth2 by (rewrite HL; [cbn [Nat.mul]; lia|lia]). rewrite HL by lia. replace (S i * w + j - w) with (i * w + j) by (cbn [Nat.mul]; lia). rewrite IH by (try intros; try apply HL; lia). f_equal. f_equal. lia.
Qed.
Lemma nth_seq_map {A} (f : nat -> A) n i d : i < n -> nth i (map f (seq 0 n)) d = f i.
Proof. intros H. rewrite (nth_map_in f _ _ 0) by (rewrite seq_length; exact H). rewrite seq_nth by exact H. reflexivity. Qed.
Lemma alloc_ok {A} (rows : list A) num : length rows = num -> alloc num rows = Ok rows.
Proof. intros <-. unfold alloc. rewrite Nat.ltb_irrefl. reflexivity. Qed.
Lemma alloc_inv {A} (rows l : list A) num : alloc num rows = Ok l -> l = rows /\ length rows = num.
Proof. unfold alloc. destruct (num <? length rows) eqn:E1; [discriminate|]. destruct (length rows <? num) eqn:E2; [discriminate|]. intros H. injection H as <-. apply Nat.ltb_ge in E1, E2. split; [reflexivity|lia]. Qed.

(** ** Triangles in a grid *)
(** The directed edges of a triangle, in the order of its corners. *)
Definition edges {A} (t : list A) : list (A * A) :=
  match t with [a; b; c] => [(a, b); (b, c); (c, a)] | _ => [] end.
Lemma edges_map {A B} (f : A -> B) t : edges (map f t) = map (fun e => (f (fst e), f (snd e))) (edges t).
Proof. destruct t as [|a [|b [|c [|d t]]]]; reflexivity. Qed.
Lemma edges_in {A} (t : list A) a b : In (a, b) (edges t) -> In a t /\ In b t.
Proof. destruct t as [|x [|y [|z [|d t]]]]; cbn; try tauto. intros [H|[H|[H|[]]]]; injection H as <- <-; auto. Qed.

Notation pt2 := (nat * nat)%type.
Definition T1 (c : pt2) : list pt2 := [(fst c, snd c); (S (fst c), snd c); (fst c, S (snd c))].
Definition T2 (c : pt2) : list pt2 := [(S (fst c), snd c); (S (fst c), S (snd c)); (fst c, S (snd c))].
Definition ct2 (L : list pt2) (p : pt2 -> bool) : list (list pt2) := flat_map (fun c => T1 c :: (if p c then [T2 c] else [])) L.

Lemma in_ct2 L p t : In t (ct2 L p) <-> exists c, In c L /\ (t = T1 c \/ (p c = true /\ t = T2 c)).
Proof.
  unfold ct2. rewrite in_flat_map. split.
  - intros (c & Hc & [H|H]); exists c; (split; [exact Hc|]); [left; auto|]. destruct (p c); [|destruct H]. destruct H as [H|[]]. right. auto.
  - intros (c & Hc & [H|[Hp H]]); exists c; (split; [exact Hc|]); [left; auto|]. right. rewrite Hp. left. auto.
Qed.
Ltac edge_cases := repeat match goal with
  | H : _ \/ _ |- _ => destruct H as [H|H]
  | H : False |- _ => destruct H
  | H : (_, _) = (_, _) |- _ => injection H; clear H; intros
  end.
Lemma in_edges_ct2 L p x y : In (x, y) (flat_map edges (ct2 L p)) <->
  exists a b, In (a, b) L /\
    ((x = (a, b) /\ y = (S a, b)) \/ (x = (S a, b) /\ y = (a, S b)) \/ (x = (a, S b) /\ y = (a, b)) \/
     (p (a, b) = true /\ ((x = (S a, b) /\ y = (S a, S b)) \/ (x = (S a, S b) /\ y = (a, S b)) \/ (x = (a, S b) /\ y = (S a, b))))).
Proof.
  rewrite in_flat_map. split.
  - intros (t & Ht & He). apply in_ct2 in Ht as ([a b] & Hc & Ht). exists a, b. split; [exact Hc|]. destruct Ht as [->|[Hp ->]]; cbn in He; edge_cases; subst; tauto.
  - intros (a & b & Hc & H). destruct H as [[-> ->]|[[-> ->]|[[-> ->]|[Hp H]]]].
    1-3: exists (T1 (a, b)); split; [apply in_ct2; exists (a, b); auto|cbn; auto].
    exists (T2 (a, b)). split; [apply in_ct2; exists (a, b); auto|]. destruct H as [[-> ->]|[[-> ->]|[-> ->]]]; cbn; auto.
Qed.
Lemma edges_ct2_nodup L p : NoDup L -> NoDup (flat_map edges (ct2 L p)).
Proof.
  intros HN. unfold ct2. rewrite flat_map_flat_map. apply NoDup_flat_map; [exact HN| |].
  - intros [a b] _. destruct (p (a, b)); cbn; repeat constructor; cbn; intros H; edge_cases; try discriminate; lia.
  - intros [a b] [a' b'] e _ _ H H'. f_equal; destruct (p (a, b)), (p (a', b')); cbn in H, H'; edge_cases; subst; edge_cases; lia.
Qed.

(** The cells of a grid with [m] columns and [n] rows, row by row. *)
Definition gcells (m n : nat) : list pt2 := flat_map (fun i => map (fun j => (j, i)) (seq 0 m)) (seq 0 n).
(** The cells [(a, b)] with [a + b <= r]. *)
Definition tcells (r : nat) : list pt2 := flat_map (fun b => map (fun a => (a, b)) (seq 0 (S r - b))) (seq 0 (S r)).
Lemma in_gcells m n a b : In (a, b) (gcells m n) <-> a < m /\ b < n.
Proof.
  unfold gcells. rewrite in_flat_map. split.
  - intros (i & Hi & H). apply in_map_iff in H as (j & E & Hj). injection E as <- <-. apply in_seq in Hi, Hj. lia.
  - intros [H1 H2]. exists b. split; [apply in_seq; lia|]. apply in_map_iff. exists a. split; [reflexivity|apply in_seq; lia].
Qed.
Lemma in_tcells r a b : In (a, b) (tcells r) <-> a + b <= r.
Proof.
  unfold tcells. rewrite in_flat_map. split.
  - intros (i & Hi & H). apply in_map_iff in H as (j & E & Hj). injection E as <- <-. apply in_seq in Hi, Hj. lia.
  - intros H1. exists b. split; [apply in_seq; lia|]. apply in_map_iff. exists a. split; [reflexivity|apply in_seq; lia].
Qed.
Lemma NoDup_cells (k : nat -> nat) n : NoDup (flat_map (fun b => map (fun a => (a, b)) (seq 0 (k b))) (seq 0 n)).
Proof.
  apply NoDup_flat_map; [apply seq_NoDup| |].
  - intros b _. apply NoDup_map_inj; [congruence|apply seq_NoDup].
  - intros b b' e _ _ H H'. apply in_map_iff in H as (a & <- & _). apply in_map_iff in H' as (a' & E & _). congruence.
Qed.

(** *** Rectangle *)
Definition rect_ct (m n : nat) : list (list pt2) := ct2 (gcells m n) (fun _ => true).
Lemma rect_edges_rev m n x y : In (x, y) (flat_map edges (rect_ct m n)) ->
  (In (y, x) (flat_map edges (rect_ct m n)) <->
   ~ (fst x = fst y /\ (fst x = 0 \/ fst x = m)) /\ ~ (snd x = snd y /\ (snd x = 0 \/ snd x = n))).
Proof.
  intros H. unfold rect_ct in *. rewrite in_edges_ct2 in H. destruct H as (a & b & Hc & H). apply in_gcells in Hc as [Ha Hb].
  split.
  - rewrite in_edges_ct2. intros (a' & b' & Hc' & H'). apply in_gcells in Hc' as [Ha' Hb'].
    destruct H as [[-> ->]|[[-> ->]|[[-> ->]|[_ [[-> ->]|[[-> ->]|[-> ->]]]]]]]; cbn [fst snd];
    destruct H' as [[E1 E2]|[[E1 E2]|[[E1 E2]|[_ [[E1 E2]|[[E1 E2]|[E1 E2]]]]]]]; injection E1; injection E2; intros; lia.
  - intros [N1 N2]. rewrite in_edges_ct2.
    destruct H as [[-> ->]|[[-> ->]|[[-> ->]|[_ [[-> ->]|[[-> ->]|[-> ->]]]]]]]; cbn [fst snd] in N1, N2.
    + destruct b as [|b]; [lia|]. exists a, b. rewrite in_gcells. split; [lia|auto 10].
    + exists a, b. rewrite in_gcells. split; [lia|auto 10].
    + destruct a as [|a]; [lia|]. exists a, b. rewrite in_gcells. split; [lia|auto 10].
    + exists (S a), b. rewrite in_gcells. split; [lia|auto 10].
    + exists a, (S b). rewrite in_gcells. split; [lia|auto 10].
    + exists a, b. rewrite in_gcells. split; [lia|auto 10].
Qed.
Lemma rect_ct_bound m n t c : In t (rect_ct m n) -> In c t -> fst c <= m /\ snd c <= n.
Proof.
  intros Ht Hc. apply in_ct2 in Ht as ([a b] & Hab & Ht). apply in_gcells in Hab. destruct Ht as [->|[_ ->]]; cbn in Hc; edge_cases; subst c; cbn [fst snd]; lia.
Qed.

(** *** Triangle *)
Definition tri_ct (r : nat) : list (list pt2) := ct2 (filter (fun c => fst c + snd c <? r) (tcells r)) (fun c => S (fst c + snd c) <? r).
Lemma in_tri_cells r a b : In (a, b) (filter (fun c => fst c + snd c <? r) (tcells r)) <-> a + b < r.
Proof. rewrite filter_In, in_tcells. cbn [fst snd]. rewrite Nat.ltb_lt. lia. Qed.
Lemma tri_edges_rev r x y : In (x, y) (flat_map edges (tri_ct r)) ->
  (In (y, x) (flat_map edges (tri_ct r)) <->
   ~ (fst x = 0 /\ fst y = 0) /\ ~ (snd x = 0 /\ snd y = 0) /\ ~ (fst x + snd x = r /\ fst y + snd y = r)).
Proof.
  intros H. unfold tri_ct in *. rewrite in_edges_ct2 in H. destruct H as (a & b & Hc & H). apply in_tri_cells in Hc. cbn [fst snd] in H. rewrite Nat.ltb_lt in H.
  split.
  - rewrite in_edges_ct2. intros (a' & b' & Hc' & H'). apply in_tri_cells in Hc'. cbn [fst snd] in H'. rewrite Nat.ltb_lt in H'.
    destruct H as [[-> ->]|[[-> ->]|[[-> ->]|[HH [[-> ->]|[[-> ->]|[-> ->]]]]]]]; cbn [fst snd];
    destruct H' as [[E1 E2]|[[E1 E2]|[[E1 E2]|[HH' [[E1 E2]|[[E1 E2]|[E1 E2]]]]]]]; injection E1; injection E2; intros; lia.
  - intros [N1 [N2 N3]]. rewrite in_edges_ct2.
    destruct H as [[-> ->]|[[-> ->]|[[-> ->]|[HH [[-> ->]|[[-> ->]|[-> ->]]]]]]]; cbn [fst snd] in *.
    + destruct b as [|b]; [lia|]. exists a, b. rewrite in_tri_cells, Nat.ltb_lt. cbn [fst snd]. split; [lia|]. right. right. right. split; [lia|auto 10].
    + exists a, b. rewrite in_tri_cells, Nat.ltb_lt. cbn [fst snd]. split; [lia|]. right. right. right. split; [lia|auto 10].
    + destruct a as [|a]; [lia|]. exists a, b. rewrite in_tri_cells, Nat.ltb_lt. cbn [fst snd]. split; [lia|]. right. right. right. split; [lia|auto 10].
    + exists (S a), b. rewrite in_tri_cells. split; [lia|auto 10].
    + exists a, (S b). rewrite in_tri_cells. split; [lia|auto 10].
    + exists a, b. rewrite in_tri_cells. split; [lia|auto 10].
Qed.
Lemma tri_ct_bound r t c : In t (tri_ct r) -> In c t -> fst c + snd c <= r.
Proof.
  intros Ht Hc. apply in_ct2 in Ht as ([a b] & Hab & Ht). apply in_tri_cells in Hab. cbn [fst snd] in Ht. rewrite Nat.ltb_lt in Ht. destruct Ht as [->|[Hp ->]]; cbn in Hc; edge_cases; subst c; cbn [fst snd]; lia.
Qed.

(** *** Ring: columns counted modulo [A] *)
Definition R1 (A : nat) (c : pt2) : list pt2 := [(fst c, snd c); (fst c, S (snd c)); (S (fst c) mod A, S (snd c))].
Definition R2 (A : nat) (c : pt2) : list pt2 := [(fst c, snd c); (S (fst c) mod A, S (snd c)); (S (fst c) mod A, snd c)].
Definition ring_ct (A n : nat) : list (list pt2) := flat_map (fun c => [R1 A c; R2 A c]) (gcells A n).
Lemma in_edges_ring A n x y : In (x, y) (flat_map edges (ring_ct A n)) <->
  exists a b, a < A /\ b < n /\
    ((x = (a, b) /\ y = (a, S b)) \/ (x = (a, S b) /\ y = (S a mod A, S b)) \/ (x = (S a mod A, S b) /\ y = (a, b)) \/
     (x = (a, b) /\ y = (S a mod A, S b)) \/ (x = (S a mod A, S b) /\ y = (S a mod A, b)) \/ (x = (S a mod A, b) /\ y = (a, b))).
Proof.
  unfold ring_ct. rewrite flat_map_flat_map, in_flat_map. split.
  - intros ([a b] & Hc & He). apply in_gcells in Hc as [Ha Hb]. exists a, b. split; [exact Ha|]. split; [exact Hb|]. cbn in He. edge_cases; subst; tauto.
  - intros (a & b & Ha & Hb & H). exists (a, b). split; [apply in_gcells; auto|]. cbn. destruct H as [[-> ->]|[[-> ->]|[[-> ->]|[[-> ->]|[[-> ->]|[-> ->]]]]]]; auto 10.
Qed.
Lemma smod A a : 2 < A -> a < A -> (S a < A /\ S a mod A = S a) \/ (S a = A /\ S a mod A = 0).
Proof.
  intros HA H. destruct (Nat.eq_dec (S a) A) as [E|E]; [right; split; [exact E|]; rewrite E; apply Nat.mod_same; lia|]. left. split; [lia|apply Nat.mod_small; lia].
Qed.
Lemma ring_nodup A n : 2 < A -> NoDup (flat_map edges (ring_ct A n)).
Proof.
  intros HA. unfold ring_ct. rewrite flat_map_flat_map. apply NoDup_flat_map; [apply NoDup_cells| |].
  - intros [a b] Hc. apply in_gcells in Hc as [Ha Hb]. cbn [flat_map R1 R2 edges app fst snd]. destruct (smod A a HA Ha) as [[Z1 ->]|[Z1 ->]]; repeat constructor; cbn; intros H; edge_cases; try discriminate; lia.
  - intros [a b] [a' b'] e Hc Hc' H H'. apply in_gcells in Hc as [Ha Hb]. apply in_gcells in Hc' as [Ha' Hb']. cbn [flat_map R1 R2 edges app fst snd] in H, H'.
    destruct (smod A a HA Ha) as [[Z1 Z]|[Z1 Z]], (smod A a' HA Ha') as [[Z1' Z']|[Z1' Z']]; rewrite Z in H; rewrite Z' in H'; cbn in H, H'; f_equal; edge_cases; subst e; edge_cases; lia.
Qed.
Lemma ring_edges_rev A n x y : 2 < A -> In (x, y) (flat_map edges (ring_ct A n)) ->
  (In (y, x) (flat_map edges (ring_ct A n)) <-> ~ (snd x = snd y /\ (snd x = 0 \/ snd x = n))).
Proof.
  intros HA H. rewrite in_edges_ring in H. destruct H as (a & b & Ha & Hb & H).
  split.
  - rewrite in_edges_ring. intros (a' & b' & Ha' & Hb' & H').
    destruct (smod A a HA Ha) as [[Z1 Z]|[Z1 Z]], (smod A a' HA Ha') as [[Z1' Z']|[Z1' Z']]; rewrite Z in H; rewrite Z' in H'; clear Z Z';
    destruct H as [[-> ->]|[[-> ->]|[[-> ->]|[[-> ->]|[[-> ->]|[-> ->]]]]]]; cbn [fst snd];
    destruct H' as [[E1 E2]|[[E1 E2]|[[E1 E2]|[[E1 E2]|[[E1 E2]|[E1 E2]]]]]]; injection E1; injection E2; intros; try (exfalso; lia); lia.
  - intros N. rewrite in_edges_ring.
    assert (P : exists a', a' < A /\ S a' mod A = a).
    { destruct a as [|a]; [exists (A - 1); split; [lia|]; replace (S (A - 1)) with A by lia; apply Nat.mod_same; lia|]. exists a. split; [lia|apply Nat.mod_small; lia]. }
    assert (B : S a mod A < A) by (apply Nat.mod_upper_bound; lia).
    destruct P as (a' & Ha' & P).
    destruct H as [[-> ->]|[[-> ->]|[[-> ->]|[[-> ->]|[[-> ->]|[-> ->]]]]]]; cbn [fst snd] in N.
    + exists a', b. rewrite P. split; [exact Ha'|]. split; [exact Hb|]. auto 10.
    + exists a, (S b). split; [exact Ha|]. split; [lia|]. auto 10.
    + exists a, b. auto 10.
    + exists a, b. auto 10.
    + exists (S a mod A), b. auto 10.
    + destruct b as [|b]; [lia|]. exists a, b. split; [exact Ha|]. split; [lia|]. auto 10.
Qed.

(** *** Disc: a fan around a centre ([None]) and rings *)
Definition disc_ct (A n : nat) : list (list (option pt2)) :=
  map (fun a => [None; Some (a, 0); Some (S a mod A, 0)]) (seq 0 A) ++ map (map Some) (ring_ct A n).
Lemma edges_flat_map {A B} (f : A -> B) ts : flat_map edges (map (map f) ts) = map (fun e => (f (fst e), f (snd e))) (flat_map edges ts).
Proof. rewrite flat_map_of_map, map_flat_map. apply flat_map_ext_in. intros t _. apply edges_map. Qed.
Lemma in_edges_map {A B} (f : A -> B) ts u v : In (u, v) (flat_map edges (map (map f) ts)) <-> exists x y, In (x, y) (flat_map edges ts) /\ u = f x /\ v = f y.
Proof.
  rewrite edges_flat_map, in_map_iff. split.
  - intros ([x y] & E & H). injection E as <- <-. exists x, y. auto.
  - intros (x & y & H & -> & ->). exists (x, y). auto.
Qed.
Lemma in_edges_vertex {A} (ts : list (list A)) x y : In (x, y) (flat_map edges ts) -> (exists t, In t ts /\ In x t) /\ (exists t, In t ts /\ In y t).
Proof. intros H. apply in_flat_map in H as (t & Ht & H). apply edges_in in H as [H1 H2]. split; exists t; auto. Qed.
Lemma edges_map_nodup {A B} (f : A -> B) ts (P : A -> Prop) : (forall t x, In t ts -> In x t -> P x) -> (forall x y, P x -> P y -> f x = f y -> x = y) ->
  NoDup (flat_map edges ts) -> NoDup (flat_map edges (map (map f) ts)).
Proof.
  intros HP HI HN. rewrite edges_flat_map. apply NoDup_map_inj; [|exact HN]. intros [x y] [x' y'] H H' E. injection E as E1 E2.
  apply in_edges_vertex in H as [(t1 & T1' & H1) (t2 & T2' & H2)]. apply in_edges_vertex in H' as [(t3 & T3' & H3) (t4 & T4' & H4)].
  f_equal; apply HI; eauto.
Qed.
Lemma in_disc_edges A n x y : In (x, y) (flat_map edges (disc_ct A n)) <->
  (exists a, a < A /\ ((x = None /\ y = Some (a, 0)) \/ (x = Some (a, 0) /\ y = Some (S a mod A, 0)) \/ (x = Some (S a mod A, 0) /\ y = None))) \/
  (exists x' y', In (x', y') (flat_map edges (ring_ct A n)) /\ x = Some x' /\ y = Some y').
Proof.
  unfold disc_ct. rewrite flat_map_app, in_app_iff, in_edges_map. rewrite flat_map_of_map, in_flat_map. split; (intros [H|H]; [left|right; exact H]).
  - destruct H as (a & Ha & H). apply in_seq in Ha. exists a. split; [lia|]. cbn in H. edge_cases; subst; auto.
  - destruct H as (a & Ha & H). exists a. split; [apply in_seq; lia|]. cbn. destruct H as [[-> ->]|[[-> ->]|[-> ->]]]; auto.
Qed.
Lemma disc_nodup A n : 2 < A -> NoDup (flat_map edges (disc_ct A n)).
Proof.
  intros HA. unfold disc_ct. rewrite flat_map_app. apply NoDup_app_intro.
  - rewrite flat_map_of_map. apply NoDup_flat_map; [apply seq_NoDup| |].
    + intros a Ha. apply in_seq in Ha. cbn [edges]. destruct (smod A a HA ltac:(lia)) as [[Z1 ->]|[Z1 ->]]; repeat constructor; cbn; intros H; edge_cases; discriminate.
    + intros a a' e Ha Ha' H H'. apply in_seq in Ha, Ha'. cbn [edges] in H, H'.
      destruct (smod A a HA ltac:(lia)) as [[Z1 Z]|[Z1 Z]], (smod A a' HA ltac:(lia)) as [[Z1' Z']|[Z1' Z']]; rewrite Z in H; rewrite Z' in H'; cbn in H, H'; edge_cases; subst e; edge_cases; try discriminate;
        repeat match goal with HH : Some _ = Some _ |- _ => injection HH; clear HH; intros end; lia.
  - apply (edges_map_nodup Some _ (fun _ => True)); [auto|congruence|apply ring_nodup, HA].
  - intros [x y] H H'. apply in_edges_map in H' as (x' & y' & He & -> & ->). rewrite flat_map_of_map in H. apply in_flat_map in H as (a & Ha & H). apply in_seq in Ha. cbn in H. edge_cases; try discriminate.
    apply in_edges_ring in He as (a' & b' & Ha' & Hb' & H').
    repeat match goal with HH : Some _ = Some _ |- _ => injection HH; clear HH; intros end. subst x' y'.
    destruct (smod A a HA ltac:(lia)) as [[Z1 Z]|[Z1 Z]], (smod A a' HA ltac:(lia)) as [[Z1' Z']|[Z1' Z']]; rewrite Z, ?Z' in H'; clear Z Z';
    destruct H' as [[E1 E2]|[[E1 E2]|[[E1 E2]|[[E1 E2]|[[E1 E2]|[E1 E2]]]]]]; injection E1; injection E2; intros; lia.
Qed.
(** On the outermost ring. *)
Definition outer (n : nat) (x : option pt2) : Prop := match x with None => False | Some c => snd c = n end.
Lemma disc_edges_rev A n x y : 2 < A -> In (x, y) (flat_map edges (disc_ct A n)) ->
  (In (y, x) (flat_map edges (disc_ct A n)) <-> ~ (outer n x /\ outer n y)).
Proof.
  intros HA H. apply in_disc_edges in H.
  assert (SM : forall a, a < A -> S a mod A < A) by (intros; apply Nat.mod_upper_bound; lia).
  assert (PM : forall a, a < A -> exists a', a' < A /\ S a' mod A = a).
  { intros a Ha. destruct a as [|a]; [exists (A - 1); split; [lia|]; replace (S (A - 1)) with A by lia; apply Nat.mod_same; lia|]. exists a. split; [lia|apply Nat.mod_small; lia]. }
  split.
  - intros H' [O1 O2]. destruct x as [x|], y as [y|]; try (destruct O1; fail); try (destruct O2; fail). cbn in O1, O2.
    apply in_disc_edges in H'. destruct H as [(a & Ha & H)|(x' & y' & He & E1 & E2)].
    + destruct H as [[E _]|[[E1 E2]|[_ E]]]; try discriminate. injection E1 as ->. injection E2 as ->. cbn in O1. clear O2. destruct H' as [(a' & Ha' & H')|(x' & y' & He & E1 & E2)].
      * destruct H' as [[E _]|[[E1 E2]|[_ E]]]; try discriminate. injection E1 as E1. injection E2 as E2. destruct (smod A a HA Ha), (smod A a' HA Ha'); lia.
      * injection E1 as <-. injection E2 as <-. apply in_edges_ring in He as (a' & b' & Ha' & Hb' & H'). lia.
    + injection E1 as <-. injection E2 as <-. destruct H' as [(a' & Ha' & H')|(x' & y' & He' & E1 & E2)].
      * destruct H' as [[E _]|[[E1 E2]|[_ E]]]; try discriminate. injection E1 as ->. injection E2 as ->. cbn in O1. apply in_edges_ring in He as (a & b & Ha & Hb & H). lia.
      * injection E1 as <-. injection E2 as <-. apply (ring_edges_rev A n x y HA) in He. apply He in He'. apply He'. lia.
  - intros N. apply in_disc_edges. destruct H as [(a & Ha & H)|(x' & y' & He & -> & ->)].
    + destruct H as [[-> ->]|[[-> ->]|[-> ->]]].
      * left. destruct (PM a Ha) as (a' & Ha' & E). exists a'. split; [exact Ha'|]. rewrite E. auto.
      * right. exists (S a mod A, 0), (a, 0). split; [|auto]. apply in_edges_ring. exists a, 0. split; [exact Ha|]. split; [|auto 10]. cbn in N. lia.
      * left. exists (S a mod A). split; [apply SM, Ha|auto].
    + cbn [outer] in N. destruct (Nat.eq_dec (snd x') 0) as [E0|E0]; [destruct (Nat.eq_dec (snd y') 0) as [E1|E1]|].
      * left. apply in_edges_ring in He as (a & b & Ha & Hb & H). destruct H as [[-> ->]|[[-> ->]|[[-> ->]|[[-> ->]|[[-> ->]|[-> ->]]]]]]; cbn [snd] in E0, E1; try lia. exists a. split; [exact Ha|]. rewrite E0. auto.
      * right. exists y', x'. split; [|auto]. apply ring_edges_rev; [exact HA|exact He|lia].
      * right. exists y', x'. split; [|auto]. apply ring_edges_rev; [exact HA|exact He|lia].
Qed.

(** ** Numbering *)
Ltac lists_lia := repeat match goal with |- _ :: _ = _ :: _ => apply f_equal2 | |- @eq nat _ _ => lia | |- _ => reflexivity end.
Definition enc (w : nat) (c : pt2) : nat := snd c * w + fst c.
Lemma enc_inj w x y : fst x < w -> fst y < w -> enc w x = enc w y -> x = y.
Proof.
  destruct x as [a b], y as [a' b']. unfold enc. cbn [fst snd]. intros Ha Ha' E.
  assert (b = b') by (rewrite (Nat.div_unique (b * w + a) w b a), (Nat.div_unique (b' * w + a') w b' a'), E by lia; reflexivity).
  subst b'. f_equal. lia.
Qed.
Lemma enc_bound w n a b : a < w -> b < n -> enc w (a, b) < w * n.
Proof. unfold enc. cbn [fst snd]. intros Ha Hb. nia. Qed.

Lemma rectangle_eq w h : 1 < w -> 1 < h -> rectangle_triangulation w h = Ok (map (map (enc w)) (rect_ct (w - 1) (h - 1))) /\ length (rect_ct (w - 1) (h - 1)) = 2 * (w - 1) * (h - 1).
Proof.
  intros Hw Hh. assert (L : length (rect_ct (w - 1) (h - 1)) = 2 * (w - 1) * (h - 1)).
  { unfold rect_ct, ct2, gcells. rewrite (length_flat_map_const _ _ 2) by reflexivity. rewrite (length_flat_map_const _ _ (w - 1)) by (intros; rewrite map_length, seq_length; reflexivity). rewrite seq_length. lia. }
  split; [|exact L]. unfold rectangle_triangulation. rewrite (proj2 (Nat.ltb_lt 1 w) Hw), (proj2 (Nat.ltb_lt 1 h) Hh). cbn [andb assert_ bind].
  rewrite <- L. rewrite <- (map_length (map (enc w)) (rect_ct (w - 1) (h - 1))). erewrite alloc_ok; [f_equal|f_equal].
  all: unfold rect_ct, ct2, gcells; rewrite map_flat_map, flat_map_flat_map; apply flat_map_ext_in; intros i _; rewrite flat_map_of_map; apply flat_map_ext_in; intros j _; cbn [map T1 T2 fst snd]; unfold enc; cbn [fst snd]; lists_lia.
Qed.
Lemma annulus_eq A n : 2 < A -> 1 < n -> annulus_triangulation A n = Ok (map (map (enc A)) (ring_ct A (n - 1))) /\ length (ring_ct A (n - 1)) = 2 * (n - 1) * A.
Proof.
  intros HA Hn. assert (L : length (ring_ct A (n - 1)) = 2 * (n - 1) * A).
  { unfold ring_ct, gcells. rewrite (length_flat_map_const _ _ 2) by reflexivity. rewrite (length_flat_map_const _ _ A) by (intros; rewrite map_length, seq_length; reflexivity). rewrite seq_length. lia. }
  split; [|exact L]. unfold annulus_triangulation. rewrite (proj2 (Nat.ltb_ge A 3)), (proj2 (Nat.ltb_ge n 2)) by lia.
  rewrite <- L. rewrite <- (map_length (map (enc A)) (ring_ct A (n - 1))). erewrite alloc_ok; [f_equal|f_equal].
  all: unfold ring_ct, gcells; rewrite map_flat_map, flat_map_flat_map; apply flat_map_ext_in; intros i _; rewrite flat_map_of_map; apply flat_map_ext_in; intros j _; cbn [map R1 R2 enc fst snd]; unfold enc; cbn [fst snd]; rewrite (Nat.add_1_r j), (Nat.add_1_r i); reflexivity.
Qed.
Definition denc (A : nat) (x : option pt2) : nat := match x with None => 0 | Some c => S (enc A c) end.
Lemma disc_eq A n : 2 < A -> 1 < n -> disc_triangulation A n = Ok (map (map (denc A)) (disc_ct A (n - 2))) /\ length (disc_ct A (n - 2)) = A + 2 * (n - 2) * A.
Proof.
  intros HA Hn. assert (LR : length (ring_ct A (n - 2)) = 2 * (n - 2) * A).
  { unfold ring_ct, gcells. rewrite (length_flat_map_const _ _ 2) by reflexivity. rewrite (length_flat_map_const _ _ A) by (intros; rewrite map_length, seq_length; reflexivity). rewrite seq_length. lia. }
  assert (L : length (disc_ct A (n - 2)) = A + 2 * (n - 2) * A).
  { unfold disc_ct. rewrite app_length, !map_length, seq_length, LR. reflexivity. }
  assert (C : map (map (denc A)) (map (fun a => [None; Some (a, 0); Some (S a mod A, 0)]) (seq 0 A)) = map (fun i => [0; 1 + i; 1 + (i + 1) mod A]) (seq 0 A)).
  { rewrite map_map. apply map_ext. intros a. cbn [map denc]. unfold enc. cbn [fst snd]. rewrite (Nat.add_1_r a). reflexivity. }
  split; [|exact L]. unfold disc_triangulation. rewrite (proj2 (Nat.ltb_ge A 3)), (proj2 (Nat.ltb_ge n 2)) by lia. cbv zeta.
  destruct (2 <? n) eqn:E.
  - apply Nat.ltb_lt in E. destruct (annulus_eq A (n - 1) HA ltac:(lia)) as [EA EL]. rewrite EA. cbn [bind]. replace (n - 1 - 1) with (n - 2) in * by lia.
    rewrite map_length, LR. replace (A + 2 * (n - 2) * A - A) with (2 * (n - 2) * A) by lia. rewrite Nat.eqb_refl.
    erewrite alloc_ok; [f_equal|].
    + unfold disc_ct. rewrite map_app, C. f_equal. unfold offset_triangulation_vertices. rewrite !map_map. apply map_ext. intros t. rewrite !map_map. apply map_ext. intros c. cbn [denc]. lia.
    + unfold offset_triangulation_vertices. rewrite app_length, !map_length, seq_length, LR. reflexivity.
  - apply Nat.ltb_ge in E. assert (n = 2) as -> by lia. rewrite alloc_ok.
    + f_equal. unfold disc_ct. rewrite map_app, C. rewrite <- app_nil_r at 1. reflexivity.
    + rewrite map_length, seq_length. cbn. lia.
Qed.
