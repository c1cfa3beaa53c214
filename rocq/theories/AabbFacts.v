(** Proofs about axis aligned bounding boxes. *)
From Verif Require PermFacts.
From Verif Require Import Base MultiIndex MultiIndexFacts Fld FldInst PolyFacts Aabb.
From Coq Require Import Field_theory Field.

Section AabbFacts.
  Context {Q : ofld}.
  Add Field Kfield32 : (kth Q).
  Local Open Scope fld_scope.
  Notation xn := (xnum Q).

  Definition num (a : xn) : Prop := a <> NaN.
  Lemma xleb_refl a : num a -> xleb a a = true.
  Proof. intros H. destruct a; cbn; try reflexivity; [contradiction H; reflexivity|]. apply kleb_spec, kle_refl. Qed.
  Lemma xleb_trans (a b c : xn) : xleb a b = true -> xleb b c = true -> xleb a c = true.
  Proof. destruct a, b, c; cbn; try congruence; intros H1 H2. apply kleb_spec in H1, H2. apply kleb_spec. apply (kle_trans _ a0); assumption. Qed.
  Lemma xleb_antisym (a b : xn) : xleb a b = true -> xleb b a = true -> a = b.
  Proof. destruct a, b; cbn; try congruence; intros H1 H2. apply kleb_spec in H1, H2. f_equal. apply kle_antisym; assumption. Qed.
  Lemma xleb_total a b : num a -> num b -> xleb a b = true \/ xleb b a = true.
  Proof. intros Ha Hb. destruct a as [| |x|], b as [| |y|]; cbn; try (left; reflexivity); try (right; reflexivity); try (contradiction Ha; reflexivity); try (contradiction Hb; reflexivity). rewrite !kleb_spec. apply kle_total. Qed.
  Lemma xltb_leb a b : num a -> num b -> xltb a b = negb (xleb b a).
  Proof. intros Ha Hb. destruct a as [| |x|], b as [| |y|]; cbn; try reflexivity; try (contradiction Ha; reflexivity); try (contradiction Hb; reflexivity). unfold kleb. rewrite negb_involutive. reflexivity. Qed.
  Lemma xltb_le (a b : xn) : xltb a b = true -> xleb a b = true.
  Proof. destruct a, b; cbn; try congruence. rewrite kltb_spec, kleb_spec. apply klt_le. Qed.
  Lemma xleb_num (a b : xn) : xleb a b = true -> num a /\ num b.
  Proof. destruct a, b; cbn; try discriminate; intros _; split; discriminate. Qed.
  Lemma xltb_num (a b : xn) : xltb a b = true -> num a /\ num b.
  Proof. destruct a, b; cbn; try discriminate; intros _; split; discriminate. Qed.

  Lemma min2_le a b : num a -> num b -> forall c, xleb c (min2 a b) = true <-> xleb c a = true /\ xleb c b = true.
  Proof.
    intros Ha Hb c. unfold min2. rewrite xltb_leb by assumption. destruct (xleb a b) eqn:E; cbn [negb].
    - split; [intros H; split; [exact H|apply (xleb_trans _ a); assumption]|tauto].
    - destruct (xleb_total a b Ha Hb) as [E'|E']; [congruence|]. split; [intros H; split; [apply (xleb_trans _ b); assumption|exact H]|tauto].
  Qed.
  Lemma max2_le a b : num a -> num b -> forall c, xleb (max2 a b) c = true <-> xleb a c = true /\ xleb b c = true.
  Proof.
    intros Ha Hb c. unfold max2. rewrite xltb_leb by assumption. destruct (xleb b a) eqn:E; cbn [negb].
    - split; [intros H; split; [exact H|apply (xleb_trans _ a); assumption]|tauto].
    - destruct (xleb_total a b Ha Hb) as [E'|E']; [|congruence]. split; [intros H; split; [apply (xleb_trans _ b); assumption|exact H]|tauto].
  Qed.
  Lemma min2_sel (a b : xn) : min2 a b = a \/ min2 a b = b.
  Proof. unfold min2. destruct (xltb b a); auto. Qed.
  Lemma max2_sel (a b : xn) : max2 a b = a \/ max2 a b = b.
  Proof. unfold max2. destruct (xltb a b); auto. Qed.
  Lemma npmin_min a b : num a -> num b -> npmin a b = min2 a b.
  Proof. intros Ha Hb. destruct a, b; cbn; try reflexivity; try (contradiction Ha; reflexivity); contradiction Hb; reflexivity. Qed.
  Lemma npmax_max a b : num a -> num b -> npmax a b = max2 a b.
  Proof. intros Ha Hb. destruct a, b; cbn; try reflexivity; try (contradiction Ha; reflexivity); contradiction Hb; reflexivity. Qed.

  (** ** Boxes *)
  (** A box of dimension [n] without nan coordinates *)
  Definition box (n : nat) (b : aabb Q) : Prop := length (fst b) = n /\ length (snd b) = n /\ Forall num (fst b) /\ Forall num (snd b).
  Definition pnt (n : nat) (p : list xn) : Prop := length p = n /\ Forall num p.
  Lemma Forall_num l i : Forall num l -> (i < length l)%nat -> num (nth i l NaN).
  Proof. intros H Hi. rewrite Forall_forall in H. apply H, nth_In, Hi. Qed.
  Lemma box_lo n b i : box n b -> (i < n)%nat -> num (nth i (fst b) NaN).
  Proof. intros (L1 & L2 & N1 & N2) Hi. apply Forall_num; [exact N1|lia]. Qed.
  Lemma box_hi n b i : box n b -> (i < n)%nat -> num (nth i (snd b) NaN).
  Proof. intros (L1 & L2 & N1 & N2) Hi. apply Forall_num; [exact N2|lia]. Qed.
  Definition within (b : aabb Q) (p : list xn) (i : nat) : Prop := xleb (nth i (fst b) NaN) (nth i p NaN) = true /\ xleb (nth i p NaN) (nth i (snd b) NaN) = true.

  Lemma point_inside_from_ok n b p is_ : box n b -> length p = n -> (forall i, In i is_ -> (i < n)%nat) ->
    exists t, point_inside_from b p is_ = Ok t /\ (t = true <-> forall i, In i is_ -> within b p i).
  Proof.
    intros Hb Hp. induction is_ as [|i is_ IH]; intros Hi.
    - exists true. split; [reflexivity|]. split; [intros _ i []|reflexivity].
    - cbn [point_inside_from]. pose proof (Hi i (or_introl eq_refl)) as Hin. pose proof Hb as (L1 & L2 & _). rewrite !(PermFacts.get_ok _ _ NaN) by lia. cbn [bind].
      destruct IH as (t & Et & Ht); [intros j Hj; apply Hi; right; exact Hj|]. unfold in_closed_range. destruct (xleb (nth i (fst b) NaN) (nth i p NaN)) eqn:E1, (xleb (nth i p NaN) (nth i (snd b) NaN)) eqn:E2; cbn [andb negb].
      + exists t. split; [exact Et|]. rewrite Ht. split; [intros H j [<-|Hj]; [split; assumption|apply H, Hj]|intros H j Hj; apply H; right; exact Hj].
      + exists false. split; [reflexivity|]. split; [discriminate|]. intros H. destruct (H i (or_introl eq_refl)). congruence.
      + exists false. split; [reflexivity|]. split; [discriminate|]. intros H. destruct (H i (or_introl eq_refl)). congruence.
      + exists false. split; [reflexivity|]. split; [discriminate|]. intros H. destruct (H i (or_introl eq_refl)). congruence.
  Qed.
  Lemma point_inside_ok n b p : box n b -> length p = n -> exists t, point_inside b p = Ok t /\ (t = true <-> forall i, (i < n)%nat -> within b p i).
  Proof.
    intros Hb Hp. destruct (point_inside_from_ok n b p (seq 0 (length p)) Hb Hp) as (t & E & Ht); [intros i Hi; apply in_seq in Hi; lia|]. exists t. split; [exact E|]. rewrite Ht. split; intros H i Hi; apply H; [apply in_seq; lia|apply in_seq in Hi; lia].
  Qed.
  Lemma inside_iff n b p : box n b -> length p = n -> point_inside b p = Ok true <-> forall i, (i < n)%nat -> within b p i.
  Proof. intros Hb Hp. destruct (point_inside_ok n b p Hb Hp) as (t & E & Ht). rewrite E, <- Ht. split; [intros H; injection H as <-; reflexivity|intros ->; reflexivity]. Qed.

  Lemma nth_map_seq {A} (h : nat -> A) n d i : (i < n)%nat -> nth i (map h (seq 0 n)) d = h i.
  Proof. intros Hi. rewrite (nth_indep _ d (h 0%nat)) by (rewrite map_length, seq_length; exact Hi). rewrite map_nth, seq_nth by exact Hi. reflexivity. Qed.
  (** *** Combination of two boxes *)
  Lemma combine_boxes n (f g : xn -> xn -> xn) (b1 b2 : aabb Q) : box n b1 -> box n b2 -> (forall a b, num a -> num b -> num (f a b)) -> (forall a b, num a -> num b -> num (g a b)) ->
    exists b, (let* r := mapM (fun i => let* l1 := get (fst b1) i in let* l2 := get (fst b2) i in let* u1 := get (snd b1) i in let* u2 := get (snd b2) i in Ok (f l1 l2, g u1 u2)) (seq 0 (dimension b1)) in Ok (map fst r, map snd r)) = Ok b /\ box n b /\
      forall i, (i < n)%nat -> nth i (fst b) NaN = f (nth i (fst b1) NaN) (nth i (fst b2) NaN) /\ nth i (snd b) NaN = g (nth i (snd b1) NaN) (nth i (snd b2) NaN).
  Proof.
    intros B1 B2 Hf Hg. pose proof B1 as (A1 & A2 & A3 & A4). pose proof B2 as (A5 & A6 & A7 & A8). unfold dimension. rewrite A1.
    rewrite (mapM_ok _ (fun i => (f (nth i (fst b1) NaN) (nth i (fst b2) NaN), g (nth i (snd b1) NaN) (nth i (snd b2) NaN)))) by (intros i Hi; apply in_seq in Hi; rewrite !(PermFacts.get_ok _ _ NaN) by lia; reflexivity).
    cbn [bind]. rewrite !map_map. cbn [fst snd]. eexists. split; [reflexivity|]. split.
    - repeat split; cbn [fst snd]; try (rewrite map_length, seq_length; reflexivity); apply Forall_forall; intros x Hx; apply in_map_iff in Hx as (i & <- & Hi); apply in_seq in Hi; [apply Hf; apply (box_lo n)|apply Hg; apply (box_hi n)]; (assumption || lia).
    - intros i Hi. cbn [fst snd]. rewrite !nth_map_seq by exact Hi. split; reflexivity.
  Qed.
  Lemma min2_num a b : num a -> num b -> num (min2 a b).
  Proof. intros. destruct (min2_sel a b) as [-> | ->]; assumption. Qed.
  Lemma max2_num a b : num a -> num b -> num (max2 a b).
  Proof. intros. destruct (max2_sel a b) as [-> | ->]; assumption. Qed.

  Theorem intersection_ok n b1 b2 : box n b1 -> box n b2 -> exists b, intersection b1 b2 = Ok b /\ box n b /\
    forall p, length p = n -> (point_inside b p = Ok true <-> point_inside b1 p = Ok true /\ point_inside b2 p = Ok true).
  Proof.
    intros B1 B2. destruct (combine_boxes n max2 min2 b1 b2 B1 B2 max2_num min2_num) as (b & E & Hb & H). exists b. split; [exact E|]. split; [exact Hb|].
    intros p Hp. rewrite !(inside_iff n) by assumption. split.
    - intros HI. split; intros i Hi; destruct (H i Hi) as [H1 H2], (HI i Hi) as [H3 H4]; rewrite H1 in H3; rewrite H2 in H4;
        rewrite max2_le in H3 by (apply (box_lo n); assumption); rewrite min2_le in H4 by (apply (box_hi n); assumption); split; tauto.
    - intros [I1 I2] i Hi. destruct (H i Hi) as [H1 H2], (I1 i Hi), (I2 i Hi). split; [rewrite H1; apply max2_le; try (apply (box_lo n); assumption); tauto|rewrite H2; apply min2_le; try (apply (box_hi n); assumption); tauto].
  Qed.
  Theorem union_contains n b1 b2 : box n b1 -> box n b2 -> exists b, union b1 b2 = Ok b /\ box n b /\
    (forall p, length p = n -> point_inside b1 p = Ok true \/ point_inside b2 p = Ok true -> point_inside b p = Ok true) /\
    forall b', box n b' -> (exists p, length p = n /\ point_inside b1 p = Ok true) -> (exists p, length p = n /\ point_inside b2 p = Ok true) ->
      (forall p, length p = n -> point_inside b1 p = Ok true \/ point_inside b2 p = Ok true -> point_inside b' p = Ok true) ->
      forall p, length p = n -> point_inside b p = Ok true -> point_inside b' p = Ok true.
  Proof.
    intros B1 B2. destruct (combine_boxes n min2 max2 b1 b2 B1 B2 min2_num max2_num) as (b & E & Hb & H). exists b. split; [exact E|]. split; [exact Hb|].
    assert (ML : forall i, (i < n)%nat -> xleb (nth i (fst b) NaN) (nth i (fst b1) NaN) = true /\ xleb (nth i (fst b) NaN) (nth i (fst b2) NaN) = true).
    { intros i Hi. destruct (H i Hi) as [H1 _]. apply min2_le; try (apply (box_lo n); assumption). rewrite <- H1. apply xleb_refl. apply (box_lo n); assumption. }
    assert (MU : forall i, (i < n)%nat -> xleb (nth i (snd b1) NaN) (nth i (snd b) NaN) = true /\ xleb (nth i (snd b2) NaN) (nth i (snd b) NaN) = true).
    { intros i Hi. destruct (H i Hi) as [_ H1]. apply max2_le; try (apply (box_hi n); assumption). rewrite <- H1. apply xleb_refl. apply (box_hi n); assumption. }
    split.
    - intros p Hp HI. apply (inside_iff n); [exact Hb|exact Hp|]. intros i Hi. destruct (ML i Hi), (MU i Hi). destruct HI as [HI|HI]; rewrite (inside_iff n) in HI by assumption; destruct (HI i Hi); split;
        [apply (xleb_trans _ (nth i (fst b1) NaN))|apply (xleb_trans _ (nth i (snd b1) NaN))|apply (xleb_trans _ (nth i (fst b2) NaN))|apply (xleb_trans _ (nth i (snd b2) NaN))]; assumption.
    - intros b' Hb' (p1 & L1 & P1) (p2 & L2 & P2) HB p Hp HI. apply (inside_iff n); [exact Hb'|exact Hp|]. rewrite (inside_iff n) in HI by assumption.
      assert (C : forall bb, box n bb -> (exists q, length q = n /\ point_inside bb q = Ok true) -> (forall q, length q = n -> point_inside bb q = Ok true -> point_inside b' q = Ok true) ->
        forall i, (i < n)%nat -> xleb (nth i (fst b') NaN) (nth i (fst bb) NaN) = true /\ xleb (nth i (snd bb) NaN) (nth i (snd b') NaN) = true).
      { intros bb Hbb (q & Lq & Hq) HH i Hi. rewrite (inside_iff n) in Hq by assumption.
        assert (V : forall j, (j < n)%nat -> xleb (nth j (fst bb) NaN) (nth j (snd bb) NaN) = true) by (intros j Hj; destruct (Hq j Hj); eapply xleb_trans; eassumption).
        pose proof Hbb as (X1 & X2 & _). split.
        - pose proof (HH (fst bb) X1) as G. rewrite !(inside_iff n) in G by assumption. apply G; [|exact Hi]. intros j Hj. split; [apply xleb_refl, (box_lo n); assumption|apply V, Hj].
        - pose proof (HH (snd bb) X2) as G. rewrite !(inside_iff n) in G by assumption. apply G; [|exact Hi]. intros j Hj. split; [apply V, Hj|apply xleb_refl, (box_hi n); assumption]. }
      intros i Hi. destruct (C b1 B1 (ex_intro _ p1 (conj L1 P1)) (fun q Lq Hq => HB q Lq (or_introl Hq)) i Hi) as [C1 C2], (C b2 B2 (ex_intro _ p2 (conj L2 P2)) (fun q Lq Hq => HB q Lq (or_intror Hq)) i Hi) as [C3 C4].
      destruct (H i Hi) as [H1 H2], (HI i Hi) as [I1 I2]. split.
      + apply (xleb_trans _ (nth i (fst b) NaN)); [|exact I1]. rewrite H1. destruct (min2_sel (nth i (fst b1) NaN) (nth i (fst b2) NaN)) as [-> | ->]; assumption.
      + apply (xleb_trans _ (nth i (snd b) NaN)); [exact I2|]. rewrite H2. destruct (max2_sel (nth i (snd b1) NaN) (nth i (snd b2) NaN)) as [-> | ->]; assumption.
  Qed.

  (** *** The smallest box containing points *)
  Lemma fold_rows_ok n (f f' : xn -> xn -> xn) p ps : (forall a b, num a -> num b -> f a b = f' a b) -> (forall a b, num a -> num b -> num (f' a b)) -> pnt n p -> (forall q, In q ps -> pnt n q) ->
    exists r, fold_rows f (p :: ps) = Ok r /\ pnt n r /\ forall i, (i < n)%nat -> nth i r NaN = fold_left f' (map (fun q => nth i q NaN) ps) (nth i p NaN).
  Proof.
    intros Hf Hf' Hp Hps. cbn [fold_rows].
    replace (forallb (fun q => length q =? length p)%nat ps) with true by (symmetry; apply forallb_forall; intros q Hq; apply Nat.eqb_eq; destruct Hp as [-> _], (Hps q Hq) as [-> _]; reflexivity).
    eexists. split; [reflexivity|]. revert p Hp. induction ps as [|q ps IH]; intros p Hp; cbn [fold_left map]; [split; [exact Hp|reflexivity]|].
    assert (Hpq : pnt n (map (fun ab => f (fst ab) (snd ab)) (combine p q))).
    { destruct Hp as [L1 N1], (Hps q (or_introl eq_refl)) as [L2 N2]. split; [rewrite map_length, combine_length; lia|]. apply Forall_forall. intros x Hx. apply in_map_iff in Hx as ([a b] & <- & Hab). cbn [fst snd].
      rewrite Forall_forall in N1, N2. pose proof (N1 _ (in_combine_l _ _ _ _ Hab)). pose proof (N2 _ (in_combine_r _ _ _ _ Hab)). rewrite Hf by assumption. apply Hf'; assumption. }
    destruct (IH (fun q' h => Hps q' (or_intror h)) _ Hpq) as [H1 H2]. split; [exact H1|]. intros i Hi. rewrite (H2 i Hi). f_equal.
    destruct Hp as [L1 N1], (Hps q (or_introl eq_refl)) as [L2 N2]. set (h := fun ab : xn * xn => f (fst ab) (snd ab)). rewrite (nth_indep _ NaN (h (NaN, NaN))) by (rewrite map_length, combine_length; lia). rewrite map_nth, combine_nth by congruence. unfold h. cbn [fst snd]. apply Hf; apply Forall_num; (assumption || lia).
  Qed.
  Lemma fold_min l : Forall num l -> forall a, num a -> num (fold_left min2 l a) /\ (In (fold_left min2 l a) (a :: l)) /\ forall c, xleb c (fold_left min2 l a) = true <-> xleb c a = true /\ forall b, In b l -> xleb c b = true.
  Proof.
    induction 1 as [|b l Hb Hl IH]; intros a Ha; cbn [fold_left].
    - split; [exact Ha|]. split; [left; reflexivity|]. intros c. split; [intros H; split; [exact H|intros b []]|tauto].
    - destruct (IH (min2 a b) (min2_num a b Ha Hb)) as (H1 & H2 & H3). split; [exact H1|]. split.
      + destruct H2 as [H2|H2]; [|right; right; exact H2]. rewrite <- H2. destruct (min2_sel a b) as [-> | ->]; [left; reflexivity|right; left; reflexivity].
      + intros c. rewrite H3, min2_le by assumption. split; [intros [[A1 A2] A3]; split; [exact A1|]; intros d [<-|Hd]; [exact A2|apply A3, Hd]|intros [A1 A2]; split; [split; [exact A1|apply A2; left; reflexivity]|intros d Hd; apply A2; right; exact Hd]].
  Qed.
  Lemma fold_max l : Forall num l -> forall a, num a -> num (fold_left max2 l a) /\ (In (fold_left max2 l a) (a :: l)) /\ forall c, xleb (fold_left max2 l a) c = true <-> xleb a c = true /\ forall b, In b l -> xleb b c = true.
  Proof.
    induction 1 as [|b l Hb Hl IH]; intros a Ha; cbn [fold_left].
    - split; [exact Ha|]. split; [left; reflexivity|]. intros c. split; [intros H; split; [exact H|intros b []]|tauto].
    - destruct (IH (max2 a b) (max2_num a b Ha Hb)) as (H1 & H2 & H3). split; [exact H1|]. split.
      + destruct H2 as [H2|H2]; [|right; right; exact H2]. rewrite <- H2. destruct (max2_sel a b) as [-> | ->]; [left; reflexivity|right; left; reflexivity].
      + intros c. rewrite H3, max2_le by assumption. split; [intros [[A1 A2] A3]; split; [exact A1|]; intros d [<-|Hd]; [exact A2|apply A3, Hd]|intros [A1 A2]; split; [split; [exact A1|apply A2; left; reflexivity]|intros d Hd; apply A2; right; exact Hd]].
  Qed.
  Lemma create_bounds n ps : ps <> [] -> (forall q, In q ps -> pnt n q) -> exists b, create ps = Ok b /\ box n b /\
    forall i, (i < n)%nat -> (forall q, In q ps -> within b q i) /\ (exists q, In q ps /\ nth i (fst b) NaN = nth i q NaN) /\ (exists q, In q ps /\ nth i (snd b) NaN = nth i q NaN).
  Proof.
    intros Hne Hps. destruct ps as [|p ps]; [contradiction|]. assert (Hp : pnt n p) by (apply Hps; left; reflexivity). assert (Hps' : forall q, In q ps -> pnt n q) by (intros; apply Hps; right; assumption).
    destruct (fold_rows_ok n npmin min2 p ps npmin_min min2_num Hp Hps') as (mn & E1 & P1 & H1). destruct (fold_rows_ok n npmax max2 p ps npmax_max max2_num Hp Hps') as (mx & E2 & P2 & H2).
    exists (mn, mx). unfold create. rewrite E1, E2. split; [reflexivity|]. destruct P1 as [L1 N1], P2 as [L2 N2]. split; [repeat split; assumption|]. intros i Hi.
    assert (NI : Forall num (map (fun q => nth i q NaN) ps)) by (apply Forall_forall; intros x Hx; apply in_map_iff in Hx as (q & <- & Hq); destruct (Hps' q Hq); apply Forall_num; [assumption|lia]).
    assert (N0 : num (nth i p NaN)) by (destruct Hp; apply Forall_num; [assumption|lia]).
    destruct (fold_min _ NI _ N0) as (A1 & A2 & A3), (fold_max _ NI _ N0) as (B1 & B2 & B3). cbn [fst snd]. unfold within. cbn [fst snd]. rewrite H1, H2 by exact Hi.
    pose proof (proj1 (A3 _) (xleb_refl _ A1)) as [C1 C2]. pose proof (proj1 (B3 _) (xleb_refl _ B1)) as [D1 D2]. split; [|split].
    - intros q [<-|Hq]; [split; assumption|]. split; [apply C2|apply D2]; apply in_map_iff; exists q; auto.
    - destruct A2 as [A2|A2]; [exists p; split; [left; reflexivity|congruence]|]. apply in_map_iff in A2 as (q & A2 & Hq). exists q. split; [right; exact Hq|congruence].
    - destruct B2 as [B2|B2]; [exists p; split; [left; reflexivity|congruence]|]. apply in_map_iff in B2 as (q & B2 & Hq). exists q. split; [right; exact Hq|congruence].
  Qed.
  Theorem create_ok n ps : ps <> [] -> (forall q, In q ps -> pnt n q) -> exists b, create ps = Ok b /\ box n b /\
    (forall q, In q ps -> point_inside b q = Ok true) /\
    forall b', box n b' -> (forall q, In q ps -> point_inside b' q = Ok true) -> forall p, length p = n -> point_inside b p = Ok true -> point_inside b' p = Ok true.
  Proof.
    intros Hne Hps. destruct (create_bounds n ps Hne Hps) as (b & E & Hb & H). exists b. split; [exact E|]. split; [exact Hb|]. split.
    - intros q Hq. apply (inside_iff n); [exact Hb|apply Hps, Hq|]. intros i Hi. apply (H i Hi), Hq.
    - intros b' Hb' HB p Lp HI. apply (inside_iff n); [exact Hb'|exact Lp|]. rewrite (inside_iff n) in HI by assumption. intros i Hi. destruct (H i Hi) as (_ & (q1 & I1 & E1) & (q2 & I2 & E2)), (HI i Hi) as [A1 A2]. split.
      + apply (xleb_trans _ (nth i (fst b) NaN)); [|exact A1]. rewrite E1. pose proof (HB q1 I1) as B. rewrite (inside_iff n) in B by (assumption || apply Hps, I1). apply B, Hi.
      + apply (xleb_trans _ (nth i (snd b) NaN)); [exact A2|]. rewrite E2. pose proof (HB q2 I2) as B. rewrite (inside_iff n) in B by (assumption || apply Hps, I2). apply B, Hi.
  Qed.

  (** *** Validity and emptiness *)
  Lemma is_valid_from_ok n b is_ : box n b -> (forall i, In i is_ -> (i < n)%nat) -> exists t, is_valid_from b is_ = Ok t /\ (t = true <-> forall i, In i is_ -> xleb (nth i (fst b) NaN) (nth i (snd b) NaN) = true).
  Proof.
    intros Hb. induction is_ as [|i is_ IH]; intros Hi.
    - exists true. split; [reflexivity|]. split; [intros _ i []|reflexivity].
    - cbn [is_valid_from]. pose proof (Hi i (or_introl eq_refl)) as Hin. pose proof Hb as (L1 & L2 & _). rewrite !(PermFacts.get_ok _ _ NaN) by lia. cbn [bind].
      rewrite xltb_leb by (apply (box_lo n) || apply (box_hi n); assumption). destruct IH as (t & Et & Ht); [intros j Hj; apply Hi; right; exact Hj|]. destruct (xleb (nth i (fst b) NaN) (nth i (snd b) NaN)) eqn:E1; cbn [negb].
      + exists t. split; [exact Et|]. rewrite Ht. split; [intros H j [<-|Hj]; [exact E1|apply H, Hj]|intros H j Hj; apply H; right; exact Hj].
      + exists false. split; [reflexivity|]. split; [discriminate|]. intros H. rewrite (H i (or_introl eq_refl)) in E1. discriminate.
  Qed.
  Lemma is_valid_ok n b : box n b -> exists t, is_valid b = Ok t /\ (t = true <-> forall i, (i < n)%nat -> xleb (nth i (fst b) NaN) (nth i (snd b) NaN) = true).
  Proof.
    intros Hb. pose proof Hb as (L1 & _). destruct (is_valid_from_ok n b (seq 0 (dimension b)) Hb) as (t & E & Ht); [intros i Hi; apply in_seq in Hi; unfold dimension in Hi; lia|]. exists t. split; [exact E|]. rewrite Ht. unfold dimension. rewrite L1. split; intros H i Hi; apply H; [apply in_seq; lia|apply in_seq in Hi; lia].
  Qed.
  Lemma valid_iff n b : box n b -> is_valid b = Ok true <-> exists p, length p = n /\ point_inside b p = Ok true.
  Proof.
    intros Hb. destruct (is_valid_ok n b Hb) as (t & E & Ht). rewrite E. pose proof Hb as (L1 & L2 & _). split.
    - intros H. injection H as ->. exists (fst b). split; [exact L1|]. apply (inside_iff n); [exact Hb|exact L1|]. intros i Hi. split; [apply xleb_refl, (box_lo n); assumption|apply Ht; [reflexivity|exact Hi]].
    - intros (p & Lp & HI). f_equal. apply Ht. rewrite (inside_iff n) in HI by assumption. intros i Hi. destruct (HI i Hi). eapply xleb_trans; eassumption.
  Qed.
  Lemma volume_is n b : box n b -> exists v, volume b = Ok v /\ (v = None <-> is_valid b = Ok false).
  Proof.
    intros Hb. destruct (is_valid_ok n b Hb) as (t & E & Ht). unfold volume. rewrite E. cbn [bind]. destruct t; cbn [negb].
    - assert (G : forall l a, (forall i, In i l -> (i < n)%nat) -> exists v, foldM (fun vol i => let* hi := get (snd b) i in let* lo := get (fst b) i in Ok (xmul vol (xsub hi lo))) a l = Ok v).
      { pose proof Hb as (L1 & L2 & _). induction l as [|i l IH]; intros a Hl; [exists a; reflexivity|]. cbn [foldM]. pose proof (Hl i (or_introl eq_refl)). rewrite !(PermFacts.get_ok _ _ NaN) by lia. cbn [bind]. apply IH. intros j Hj. apply Hl. right. exact Hj. }
      destruct (G (seq 0 (dimension b)) (Fin 1)) as [v Ev]; [intros i Hi; apply in_seq in Hi; destruct Hb as [L1 _]; unfold dimension in Hi; lia|]. rewrite Ev. cbn [bind]. exists (Some v). split; [reflexivity|]. split; discriminate.
    - exists None. split; [reflexivity|]. tauto.
  Qed.
  Theorem is_empty_ok n b : box n b -> exists t, is_empty b = Ok t /\ (t = true <-> forall p, length p = n -> point_inside b p = Ok false) /\
    (t = false <-> exists p, length p = n /\ point_inside b p = Ok true).
  Proof.
    intros Hb. destruct (volume_is n b Hb) as (v & E & Hv). unfold is_empty. rewrite E. cbn [bind]. eexists. split; [reflexivity|]. destruct (is_valid_ok n b Hb) as (t & Et & Ht). pose proof (valid_iff n b Hb) as HI. rewrite Et in HI, Hv.
    assert (D : forall p, length p = n -> point_inside b p = Ok true \/ point_inside b p = Ok false) by (intros p Lp; destruct (point_inside_ok n b p Hb Lp) as ([|] & Ep & _); auto).
    destruct t.
    - destruct v as [v|]; [|exfalso; destruct Hv as [Hv _]; discriminate (Hv eq_refl)]. split; (split; [|]); try discriminate; try tauto.
      intros H. destruct (proj1 HI eq_refl) as (p & Lp & Hp). rewrite (H p Lp) in Hp. discriminate.
    - destruct v as [v|]; [exfalso; destruct Hv as [_ Hv]; discriminate (Hv eq_refl)|]. split; (split; [|]); try discriminate; try tauto.
      + intros _ p Lp. destruct (D p Lp) as [H|H]; [|exact H]. exfalso. discriminate (proj2 HI (ex_intro _ p (conj Lp H))).
      + intros H. discriminate (proj2 HI H).
  Qed.

  (** *** Corners *)
  Definition pick (lo hi : list xn) (i j : nat) : xn := if Nat.testbit i j then nth j hi NaN else nth j lo NaN.
  Lemma firstn_nth {A} (l : list A) d m j : (j < m)%nat -> nth j (firstn m l) d = nth j l d.
  Proof. revert l j. induction m as [|m IH]; intros [|a l] [|j] H; try lia; try reflexivity. cbn [firstn nth]. apply IH. lia. Qed.
  Lemma corner_rec_ok n : forall (b : aabb Q) i, n <> 0%nat -> length (fst b) = n -> length (snd b) = n -> (i < 2 ^ n)%nat -> corner_rec n b i = Ok (map (pick (fst b) (snd b) i) (seq 0 n)).
  Proof.
    induction n as [|m IH]; intros b i Hn L1 L2 Hi; [contradiction|]. destruct m as [|m].
    - cbn [corner_rec seq map]. unfold pick. destruct (fst b) as [|x [|? ?]]; try discriminate. destruct (snd b) as [|y [|? ?]]; try discriminate. destruct i as [|[|i]]; [reflexivity|reflexivity|cbn in Hi; lia].
    - remember (S m) as m' eqn:Em. assert (Hm : m' <> 0%nat) by lia. assert (U : corner_rec (S m') b i = let sub := (firstn m' (fst b), firstn m' (snd b)) in if (2 ^ m' <=? i)%nat then let* upc := corner_rec m' sub (i - 2 ^ m') in let* c := get (snd b) m' in Ok (upc ++ [c]) else let* lpc := corner_rec m' sub i in let* c := get (fst b) m' in Ok (lpc ++ [c])) by (rewrite Em; reflexivity).
      rewrite U. clear U. cbv zeta. assert (F1 : length (firstn m' (fst b)) = m') by (rewrite firstn_length; lia). assert (F2 : length (firstn m' (snd b)) = m') by (rewrite firstn_length; lia).
      assert (P : (0 < 2 ^ m')%nat) by (apply Nat.neq_0_lt_0, Nat.pow_nonzero; discriminate). cbn [Nat.pow] in Hi. rewrite seq_S, map_app. cbn [map Nat.add]. destruct (Nat.leb_spec (2 ^ m') i) as [H|H].
      + rewrite IH by (cbn [fst snd]; try assumption; lia). cbn [bind fst snd]. rewrite (PermFacts.get_ok _ _ NaN) by lia. cbn [bind]. f_equal. f_equal.
        * apply map_ext_in. intros j Hj. apply in_seq in Hj. unfold pick. rewrite !firstn_nth by lia. replace (Nat.testbit (i - 2 ^ m') j) with (Nat.testbit i j); [reflexivity|].
          assert (E : i = ((i - 2 ^ m') + 1 * 2 ^ m')%nat) by lia. rewrite E at 1. rewrite <- (Nat.mod_pow2_bits_low _ m' j) by lia. rewrite Nat.mod_add by lia. apply Nat.mod_pow2_bits_low. lia.
        * unfold pick. replace (Nat.testbit i m') with true; [reflexivity|]. symmetry. apply Nat.testbit_true. replace (i / 2 ^ m')%nat with 1%nat; [reflexivity|]. apply (Nat.div_unique i (2 ^ m') 1 (i - 2 ^ m')); lia.
      + rewrite IH by (cbn [fst snd]; try assumption; lia). cbn [bind fst snd]. rewrite (PermFacts.get_ok _ _ NaN) by lia. cbn [bind]. f_equal. f_equal.
        * apply map_ext_in. intros j Hj. apply in_seq in Hj. unfold pick. rewrite !firstn_nth by lia. reflexivity.
        * unfold pick. replace (Nat.testbit i m') with false; [reflexivity|]. symmetry. apply Nat.testbit_false. rewrite Nat.div_small by lia. reflexivity.
  Qed.
  Theorem corner_ok n b i : n <> 0%nat -> box n b -> (i < 2 ^ n)%nat -> exists c, corner b i = Ok c /\ length c = n /\ forall j, (j < n)%nat -> nth j c NaN = if Nat.testbit i j then nth j (snd b) NaN else nth j (fst b) NaN.
  Proof.
    intros Hn Hb Hi. pose proof Hb as (L1 & L2 & _). eexists. split; [unfold corner, dimension; rewrite L1; apply corner_rec_ok; assumption|]. split; [rewrite map_length, seq_length; reflexivity|]. intros j Hj. rewrite nth_map_seq by exact Hj. reflexivity.
  Qed.
  Lemma corner_rec_range n : forall (b : aabb Q) i, n <> 0%nat -> length (fst b) = n -> length (snd b) = n -> (2 ^ n <= i)%nat -> corner_rec n b i = Err IndexError.
  Proof.
    induction n as [|m IH]; intros b i Hn L1 L2 Hi; [contradiction|]. destruct m as [|m].
    - cbn [corner_rec]. destruct i as [|[|i]]; [cbn in Hi; lia|cbn in Hi; lia|reflexivity].
    - remember (S m) as m' eqn:Em. assert (Hm : m' <> 0%nat) by lia. assert (U : corner_rec (S m') b i = let sub := (firstn m' (fst b), firstn m' (snd b)) in if (2 ^ m' <=? i)%nat then let* upc := corner_rec m' sub (i - 2 ^ m') in let* c := get (snd b) m' in Ok (upc ++ [c]) else let* lpc := corner_rec m' sub i in let* c := get (fst b) m' in Ok (lpc ++ [c])) by (rewrite Em; reflexivity).
      rewrite U. clear U. cbv zeta. cbn [Nat.pow] in Hi. replace (2 ^ m' <=? i)%nat with true by (symmetry; apply Nat.leb_le; lia). rewrite IH; [reflexivity|exact Hm|cbn [fst]; rewrite firstn_length; lia|cbn [snd]; rewrite firstn_length; lia|lia].
  Qed.
  (** The corners of a box with non-empty interior are different, and they are
      all choices of an end point per coordinate. *)
  Lemma bits_ext n i i' : (i < 2 ^ n)%nat -> (i' < 2 ^ n)%nat -> (forall j, (j < n)%nat -> Nat.testbit i j = Nat.testbit i' j) -> i = i'.
  Proof.
    intros H1 H2 H. apply Nat.bits_inj. intros j. destruct (Nat.lt_ge_cases j n) as [Hj|Hj]; [apply H, Hj|]. rewrite <- (Nat.mod_small i (2 ^ n)), <- (Nat.mod_small i' (2 ^ n)) by assumption. rewrite !Nat.mod_pow2_bits_high by exact Hj. reflexivity.
  Qed.
  Theorem corners_distinct n b i i' c : n <> 0%nat -> box n b -> (forall j, (j < n)%nat -> xltb (nth j (fst b) NaN) (nth j (snd b) NaN) = true) -> (i < 2 ^ n)%nat -> (i' < 2 ^ n)%nat -> corner b i = Ok c -> corner b i' = Ok c -> i = i'.
  Proof.
    intros Hn Hb Hlt Hi Hi' E1 E2. destruct (corner_ok n b i Hn Hb Hi) as (c1 & F1 & _ & G1). destruct (corner_ok n b i' Hn Hb Hi') as (c2 & F2 & _ & G2). rewrite E1 in F1. rewrite E2 in F2. injection F1 as <-. injection F2 as <-.
    apply (bits_ext n); [exact Hi|exact Hi'|]. intros j Hj. specialize (G1 j Hj). specialize (G2 j Hj). rewrite G1 in G2. specialize (Hlt j Hj).
    assert (NE : nth j (snd b) NaN <> nth j (fst b) NaN).
    { intros E. rewrite E in Hlt. pose proof (xltb_num _ _ Hlt) as [N _]. rewrite xltb_leb, xleb_refl in Hlt by assumption. discriminate. }
    destruct (Nat.testbit i j), (Nat.testbit i' j); try reflexivity; [contradiction|symmetry in G2; contradiction].
  Qed.
  Lemma bits_exist n (f : nat -> bool) : exists i, (i < 2 ^ n)%nat /\ forall j, (j < n)%nat -> Nat.testbit i j = f j.
  Proof.
    induction n as [|n (i & Hi & Hb)]; [exists 0%nat; split; [cbn; lia|intros; lia]|]. cbn [Nat.pow]. exists (i + (if f n then 1 else 0) * 2 ^ n)%nat. split; [destruct (f n); lia|]. intros j Hj. destruct (Nat.eq_dec j n) as [E|E].
    - rewrite E. destruct (f n) eqn:Ef.
      + apply Nat.testbit_true. rewrite Nat.div_add by (apply Nat.pow_nonzero; discriminate). rewrite Nat.div_small by exact Hi. reflexivity.
      + apply Nat.testbit_false. rewrite Nat.div_add by (apply Nat.pow_nonzero; discriminate). rewrite Nat.div_small by exact Hi. reflexivity.
    - rewrite <- (Nat.mod_pow2_bits_low _ n j) by lia. rewrite Nat.mod_add by (apply Nat.pow_nonzero; discriminate). rewrite Nat.mod_small by exact Hi. apply Hb. lia.
  Qed.
  Theorem corners_all n b (c : list xn) : n <> 0%nat -> box n b -> length c = n -> (forall j, (j < n)%nat -> nth j c NaN = nth j (fst b) NaN \/ nth j c NaN = nth j (snd b) NaN) -> exists i, (i < 2 ^ n)%nat /\ corner b i = Ok c.
  Proof.
    intros Hn Hb Lc HC. assert (D : forall x y : xn, {x = y} + {x <> y}) by (intros x y; decide equality; apply kdec).
    destruct (bits_exist n (fun j => if D (nth j c NaN) (nth j (fst b) NaN) then false else true)) as (i & Hi & Hbits). exists i. split; [exact Hi|]. destruct (corner_ok n b i Hn Hb Hi) as (c' & E & L' & G). rewrite E. f_equal. apply (nth_ext _ _ NaN NaN); [congruence|].
    intros j Hj. rewrite L' in Hj. rewrite (G j Hj), (Hbits j Hj). destruct (D (nth j c NaN) (nth j (fst b) NaN)) as [E1|E1]; [congruence|]. destruct (HC j Hj) as [H|H]; [contradiction|congruence].
  Qed.
  (** *** Midpoint, half diagonal and volume of finite boxes *)
  Definition fbox (lo hi : list Q) : aabb Q := (map Fin lo, map Fin hi).
  Lemma fbox_box n lo hi : length lo = n -> length hi = n -> box n (fbox lo hi).
  Proof. intros H1 H2. unfold fbox. repeat split; cbn [fst snd]; try (rewrite map_length; assumption); apply Forall_forall; intros x Hx; apply in_map_iff in Hx as (y & <- & _); discriminate. Qed.
  Lemma nth_fin (l : list Q) i : (i < length l)%nat -> nth i (map Fin l) NaN = Fin (nth i l 0).
  Proof. intros H. rewrite (nth_indep _ NaN (Fin 0)) by (rewrite map_length; exact H). apply map_nth. Qed.
  Lemma fbox_valid n lo hi : length lo = n -> length hi = n -> is_valid (fbox lo hi) = Ok true <-> forall i, (i < n)%nat -> kle (nth i lo 0) (nth i hi 0).
  Proof.
    intros H1 H2. destruct (is_valid_ok n _ (fbox_box n lo hi H1 H2)) as (t & E & Ht). rewrite E. cbn [fbox fst snd] in Ht. split.
    - intros H i Hi. injection H as ->. pose proof (proj1 Ht eq_refl i Hi) as G. rewrite !nth_fin in G by lia. apply kleb_spec, G.
    - intros H. f_equal. apply Ht. intros i Hi. rewrite !nth_fin by lia. apply kleb_spec, H, Hi.
  Qed.
  Theorem midpoint_ok n lo hi : length lo = n -> length hi = n -> (forall i, (i < n)%nat -> kle (nth i lo 0) (nth i hi 0)) ->
    exists m h, midpoint (fbox lo hi) = Ok (Some (map Fin m)) /\ half_diagonal (fbox lo hi) = Ok (Some (map Fin h)) /\ length m = n /\ length h = n /\
      point_inside (fbox lo hi) (map Fin m) = Ok true /\ forall i, (i < n)%nat -> nth i m 0 - nth i h 0 = nth i lo 0 /\ nth i m 0 + nth i h 0 = nth i hi 0.
  Proof.
    intros H1 H2 HV. pose proof (proj2 (fbox_valid n lo hi H1 H2) HV) as V. assert (T : (1 + 1 : Q) <> 0).
    { intros E. apply (kofnat_neq (F := Q) 2); [discriminate|]. rewrite <- E. unfold kofnat. cbn [nat_in]. ring. }
    exists (map (fun i => 1 / (1 + 1) * (nth i lo 0 + nth i hi 0)) (seq 0 n)), (map (fun i => 1 / (1 + 1) * (nth i hi 0 - nth i lo 0)) (seq 0 n)).
    unfold midpoint, half_diagonal. rewrite V. cbn [bind negb]. unfold dimension. cbn [fbox fst snd]. rewrite map_length, H1.
    rewrite (mapM_ok _ (fun i => Fin (1 / (1 + 1) * (nth i lo 0 + nth i hi 0)))) by (intros i Hi; apply in_seq in Hi; rewrite !(PermFacts.get_ok _ _ NaN) by (rewrite map_length; lia); cbn [bind]; rewrite !nth_fin by lia; reflexivity). cbn [bind].
    rewrite (mapM_ok _ (fun i => Fin (1 / (1 + 1) * (nth i hi 0 - nth i lo 0)))) by (intros i Hi; apply in_seq in Hi; rewrite !(PermFacts.get_ok _ _ NaN) by (rewrite map_length; lia); cbn [bind]; rewrite !nth_fin by lia; cbn [xsub xopp xadd xmul]; do 2 f_equal; ring). cbn [bind].
    rewrite !map_map. split; [reflexivity|]. split; [reflexivity|]. rewrite !map_length, seq_length. split; [reflexivity|]. split; [reflexivity|]. split.
    - apply (inside_iff n); [apply fbox_box; assumption|rewrite map_length, seq_length; reflexivity|]. intros i Hi. unfold within. cbn [fbox fst snd]. rewrite nth_map_seq by exact Hi. rewrite !nth_fin by lia. cbn [xleb]. rewrite !kleb_spec. specialize (HV i Hi). apply kle_sub in HV.
      assert (HH : kle 0 (1 / (1 + 1) * (nth i hi 0 - nth i lo 0))) by (apply kle_mul; [|exact HV]; apply klt_le, klt_inv; apply (klt_trans _ _ 1); [apply k01|]; replace (1 : Q) with (0 + 1 : Q) at 1 by ring; apply klt_add, k01).
      split; apply kle_sub; [replace (1 / (1 + 1) * (nth i lo 0 + nth i hi 0) - nth i lo 0) with (1 / (1 + 1) * (nth i hi 0 - nth i lo 0)) by (field; exact T)|replace (nth i hi 0 - 1 / (1 + 1) * (nth i lo 0 + nth i hi 0)) with (1 / (1 + 1) * (nth i hi 0 - nth i lo 0)) by (field; exact T)]; exact HH.
    - intros i Hi. rewrite !nth_map_seq by exact Hi. split; field; exact T.
  Qed.
  Theorem volume_ok n lo hi : length lo = n -> length hi = n -> (forall i, (i < n)%nat -> kle (nth i lo 0) (nth i hi 0)) ->
    volume (fbox lo hi) = Ok (Some (Fin (fold_right kmul 1 (map (fun lh => snd lh - fst lh) (combine lo hi))))).
  Proof.
    intros H1 H2 HV. pose proof (proj2 (fbox_valid n lo hi H1 H2) HV) as V. unfold volume. rewrite V. cbn [bind negb]. unfold dimension. cbn [fbox fst snd]. rewrite map_length.
    assert (G : forall (pl ph lo' hi' : list Q) (acc : Q), length pl = length ph -> length lo' = length hi' -> foldM (fun vol i => let* hi0 := get (map Fin (ph ++ hi')) i in let* lo0 := get (map Fin (pl ++ lo')) i in Ok (xmul vol (xsub hi0 lo0))) (Fin acc) (seq (length pl) (length lo')) =
      Ok (Fin (acc * fold_right kmul 1 (map (fun lh => snd lh - fst lh) (combine lo' hi'))))).
    { intros pl ph lo' hi'. revert pl ph hi'. induction lo' as [|a lo' IH]; intros pl ph [|b hi'] acc E1 E2; try discriminate; cbn [length seq foldM combine map fold_right].
      - f_equal. f_equal. ring.
      - rewrite !(PermFacts.get_ok _ _ NaN) by (rewrite map_length, app_length; cbn [length]; lia). cbn [bind]. rewrite !nth_fin by (rewrite app_length; cbn [length]; lia). rewrite E1 at 1. rewrite !nth_middle. cbn [xsub xopp xadd xmul].
        specialize (IH (pl ++ [a]) (ph ++ [b]) hi' (acc * (b + - a)) ltac:(rewrite !app_length, E1; reflexivity) ltac:(cbn in E2; lia)). rewrite <- !app_assoc in IH. cbn [app] in IH. rewrite app_length, Nat.add_1_r in IH. rewrite IH. cbn [fst snd]. f_equal. f_equal. ring. }
    pose proof (G [] [] lo hi 1 eq_refl ltac:(congruence)) as G1. cbn [app length] in G1. rewrite G1. cbn [bind]. f_equal. f_equal. f_equal. ring.
  Qed.
End AabbFacts.
