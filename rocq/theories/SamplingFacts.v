(** Rejection sampling as filtering of the list of random numbers, and counting
    of the lists of random numbers with a given result. *)
From Coq Require Import Reals Lra Lia.
From Verif Require Import Base MultiIndex RVec Angle Sampling.
Local Open Scope nat_scope.

(** ** All lists of a given length *)
Fixpoint tuples {A} (l : list A) (t : nat) : list (list A) :=
  match t with O => [[]] | S t => flat_map (fun x => map (cons x) (tuples l t)) l end.
Lemma in_tuples {A} (l : list A) t v : In v (tuples l t) <-> length v = t /\ forall x, In x v -> In x l.
Proof.
  revert v. induction t as [|t IH]; intros v; cbn [tuples].
  - split; [intros [<-|[]]; split; [reflexivity|intros x []]|intros [H _]; destruct v; [left; reflexivity|discriminate]].
  - rewrite in_flat_map. split.
    + intros (x & Hx & Hv). apply in_map_iff in Hv. destruct Hv as (w & <- & Hw). apply IH in Hw. destruct Hw as [L H]. split; [cbn; lia|]. intros y [<-|Hy]; [exact Hx|apply H, Hy].
    + intros [L H]. destruct v as [|x v]; [discriminate|]. exists x. split; [apply H; left; reflexivity|]. apply in_map, IH. split; [cbn in L; lia|intros y Hy; apply H; right; exact Hy].
Qed.
Lemma tuples_nodup {A} (l : list A) t : NoDup l -> NoDup (tuples l t).
Proof.
  intros N. induction t as [|t IH]; cbn [tuples]; [constructor; [intros []|constructor]|]. apply NoDup_flat_map; [exact N| |].
  - intros x _. apply NoDup_map_inj; [intros u v _ _ E; injection E; auto|exact IH].
  - intros x y b _ _ Hx Hy. apply in_map_iff in Hx, Hy. destruct Hx as (u & <- & _), Hy as (v & E & _). injection E. auto.
Qed.
Lemma flat_map_app_map {A B C} (f : A -> list B) (g : B -> list C) l : flat_map g (flat_map f l) = flat_map (fun x => flat_map g (f x)) l.
Proof. induction l as [|a l IH]; cbn [flat_map]; [reflexivity|]. rewrite flat_map_app, IH. reflexivity. Qed.
Lemma flat_map_map {A B C} (f : A -> B) (g : B -> list C) l : flat_map g (map f l) = flat_map (fun x => g (f x)) l.
Proof. induction l as [|a l IH]; cbn; [reflexivity|]. rewrite IH. reflexivity. Qed.
Lemma map_flat_map {A B C} (f : A -> list B) (g : B -> C) l : map g (flat_map f l) = flat_map (fun x => map g (f x)) l.
Proof. induction l as [|a l IH]; cbn; [reflexivity|]. rewrite map_app, IH. reflexivity. Qed.
Lemma tuples_app {A} (l : list A) n m : tuples l (n + m) = flat_map (fun c => map (app c) (tuples l m)) (tuples l n).
Proof.
  induction n as [|n IH]; cbn [tuples Nat.add flat_map]; [rewrite app_nil_r; symmetry; apply map_id|]. rewrite IH. rewrite flat_map_app_map. apply flat_map_ext. intros x. rewrite map_flat_map, flat_map_map. apply flat_map_ext. intros c. rewrite map_map. reflexivity.
Qed.
Lemma tuples_concat {A} (l : list A) n t : tuples l (t * n) = map (@concat A) (tuples (tuples l n) t).
Proof.
  induction t as [|t IH]; cbn [tuples Nat.mul]; [reflexivity|]. rewrite tuples_app, IH, map_flat_map. apply flat_map_ext. intros c. rewrite !map_map. reflexivity.
Qed.

(** ** Counting *)
Definition count {A} (p : A -> bool) (l : list A) : nat := length (filter p l).
Lemma count_app {A} (p : A -> bool) l m : count p (l ++ m) = count p l + count p m.
Proof. unfold count. rewrite filter_app, app_length. reflexivity. Qed.
Lemma count_map {A B} (f : A -> B) p l : count p (map f l) = count (fun x => p (f x)) l.
Proof. unfold count. induction l as [|a l IH]; cbn [map filter]; [reflexivity|]. destruct (p (f a)); cbn [length]; rewrite IH; reflexivity. Qed.
Lemma count_ext {A} (p q : A -> bool) l : (forall x, In x l -> p x = q x) -> count p l = count q l.
Proof. unfold count. intros H. rewrite (filter_ext_in _ _ _ H). reflexivity. Qed.
Lemma count_false {A} (p : A -> bool) l : (forall x, In x l -> p x = false) -> count p l = 0.
Proof. unfold count. induction l as [|a l IH]; intros H; [reflexivity|]. cbn [filter]. rewrite (H a) by (left; reflexivity). apply IH. intros. apply H. right. assumption. Qed.
Lemma count_flat_map {A B} (p : B -> bool) (f : A -> list B) l : count p (flat_map f l) = fold_right Nat.add 0 (map (fun x => count p (f x)) l).
Proof. induction l as [|a l IH]; cbn [flat_map map fold_right]; [reflexivity|]. rewrite count_app, IH. reflexivity. Qed.

(** The first [k] accepted elements are [ps] *)
Section Rejection.
  Context {A : Type} (dec : forall x y : A, {x = y} + {x <> y}) (acc : A -> bool).
  Fixpoint starts (ps cs : list A) : bool :=
    match ps, cs with
    | [], _ => true
    | _ :: _, [] => false
    | p :: ps', c :: cs => if acc c then (if dec c p then starts ps' cs else false) else starts ps cs
    end.
  Lemma starts_spec ps cs : starts ps cs = true <-> length ps <= length (filter acc cs) /\ ps = firstn (length ps) (filter acc cs).
  Proof.
    revert ps. induction cs as [|c cs IH]; intros [|p ps]; cbn [starts filter length firstn].
    - split; [intros _; split; [lia|reflexivity]|reflexivity].
    - split; [discriminate|intros [H _]; lia].
    - split; [intros _; split; [lia|reflexivity]|reflexivity].
    - destruct (acc c); cbn [length firstn].
      + destruct (dec c p) as [->|N]; [rewrite IH; split; intros [H E]; split; [lia|f_equal; exact E|lia|injection E; auto]|split; [discriminate|intros [_ E]; injection E; congruence]].
      + rewrite IH. reflexivity.
  Qed.
  Variable C : list A.
  (** the number of lists of length [t] with a given start of length [k] *)
  Fixpoint ways (t k : nat) : nat :=
    match t, k with
    | O, O => 1
    | O, S _ => 0
    | S t, O => length C * ways t 0
    | S t, S k' => count (fun c => negb (acc c)) C * ways t k + ways t k'
    end.
  Lemma sum_cases (f : A -> nat) p a b l : NoDup l -> In p l -> acc p = true -> (forall c, In c l -> f c = if acc c then (if dec c p then b else 0) else a) ->
    fold_right Nat.add 0 (map f l) = count (fun c => negb (acc c)) l * a + b.
  Proof.
    intros N Hp Ha. assert (Z : forall l', ~ In p l' -> (forall c, In c l' -> f c = if acc c then (if dec c p then b else 0) else a) -> fold_right Nat.add 0 (map f l') = count (fun c => negb (acc c)) l' * a).
    { induction l' as [|c l' IH]; intros Hn H; [reflexivity|]. cbn [map fold_right]. rewrite IH; [|intros Hi; apply Hn; right; exact Hi|intros; apply H; right; assumption]. rewrite (H c) by (left; reflexivity). unfold count. cbn [filter]. destruct (acc c); cbn [negb length]; [destruct (dec c p) as [->|_]; [exfalso; apply Hn; left; reflexivity|lia]|lia]. }
    induction l as [|c l IH]; intros H; [destruct Hp|]. inversion N as [|? ? Nc Nl]; subst. cbn [map fold_right]. rewrite (H c) by (left; reflexivity). unfold count. cbn [filter]. destruct (dec c p) as [->|Nq].
    - rewrite Ha. cbn [negb]. destruct (dec p p) as [_|]; [|congruence]. rewrite Z; [unfold count; lia|exact Nc|intros; apply H; right; assumption].
    - destruct Hp as [->|Hp]; [congruence|]. rewrite IH; [|exact Nl|exact Hp|intros; apply H; right; assumption]. unfold count. destruct (acc c); cbn [negb length]; [destruct (dec c p); [congruence|lia]|lia].
  Qed.
  Lemma starts_count : NoDup C -> forall t ps, (forall p, In p ps -> In p C /\ acc p = true) -> count (starts ps) (tuples C t) = ways t (length ps).
  Proof.
    intros N. induction t as [|t IH]; intros ps H.
    - destruct ps; reflexivity.
    - cbn [tuples]. rewrite count_flat_map. destruct ps as [|p ps].
      + cbn [length ways]. pose proof (IH [] ltac:(intros ? [])) as E. cbn [length] in E. rewrite <- E. set (T := tuples C t). generalize C at 1 2. intros l. induction l as [|c l IHl]; [reflexivity|]. cbn [map fold_right length Nat.mul]. rewrite IHl, count_map. f_equal. apply count_ext. intros x _. destruct x; reflexivity.
      + cbn [length ways]. destruct (H p (or_introl eq_refl)) as [Hp Ha]. apply (sum_cases _ p); [exact N|exact Hp|exact Ha|]. intros c Hc. rewrite count_map. destruct (acc c) eqn:E; [destruct (dec c p) as [->|Nq]|].
        * rewrite <- IH by (intros; apply H; right; assumption). apply count_ext. intros x _. cbn [starts]. rewrite E. destruct (dec p p); [reflexivity|congruence].
        * apply count_false. intros x _. cbn [starts]. rewrite E. destruct (dec c p); [congruence|reflexivity].
        * change (S (length ps)) with (length (p :: ps)). rewrite <- IH by exact H. apply count_ext. intros x _. cbn [starts]. rewrite E. reflexivity.
  Qed.
  Lemma ways_pos t k : (exists p, In p C /\ acc p = true) -> k <= t -> 0 < ways t k.
  Proof.
    intros (p & Hp & _). assert (L : 0 < length C) by (destruct C; [destruct Hp|cbn; lia]). revert k. induction t as [|t IH]; intros [|k] Hk; cbn [ways]; [lia|lia| |specialize (IH k ltac:(lia)); lia]. specialize (IH 0 ltac:(lia)). nia.
  Qed.
End Rejection.

(** ** Reading numbers *)
Lemma rand_array_ok n c d : length c = n -> rand_array n (c ++ d) = Ok (c, d).
Proof. revert n. induction c as [|x c IH]; intros n L; cbn [length] in L; subst n; [reflexivity|]. cbn [rand_array rand app bind fst snd]. rewrite IH by reflexivity. reflexivity. Qed.
Lemma rand_array_inv n d v d' : rand_array n d = Ok (v, d') -> d = v ++ d' /\ length v = n.
Proof.
  revert d v d'. induction n as [|n IH]; intros d v d'; cbn [rand_array]; [intros E; injection E as <- <-; split; reflexivity|]. destruct d as [|x d]; [discriminate|]. cbn [rand bind fst snd]. destruct (rand_array n d) as [[v' d'']|] eqn:E; [|discriminate]. cbn [bind fst snd]. intros H. injection H as <- <-. apply IH in E. destruct E as [-> L]. split; [reflexivity|cbn; lia].
Qed.
Lemma rand_array_err n d : length d < n -> rand_array n d = Err OutOfFuel.
Proof. revert d. induction n as [|n IH]; intros d H; [lia|]. destruct d as [|x d]; [reflexivity|]. cbn [rand_array rand bind fst snd]. rewrite IH by (cbn in H; lia). reflexivity. Qed.

(** ** Samplers that skip rejected groups of [n] numbers *)
Definition groups (n : nat) (cs : list vec) : Prop := forall c, In c cs -> length c = n.
Definition skips {A} (sample : list R -> result (A * list R)) (n : nat) (acc : vec -> bool) (f : vec -> A) : Prop :=
  (forall cs p d, groups n cs -> (forall c, In c cs -> acc c = false) -> length p = n -> acc p = true -> sample (concat cs ++ p ++ d) = Ok (f p, d)) /\
  (forall d y d', sample d = Ok (y, d') -> exists cs p, groups n cs /\ (forall c, In c cs -> acc c = false) /\ length p = n /\ acc p = true /\ y = f p /\ d = concat cs ++ p ++ d').
Lemma filter_none {A} (f : A -> bool) l : (forall x, In x l -> f x = false) -> filter f l = [].
Proof. induction l as [|a l IH]; intros H; [reflexivity|]. cbn [filter]. rewrite (H a) by (left; reflexivity). apply IH. intros. apply H. right. assumption. Qed.
Lemma groups_app n a b : groups n (a ++ b) <-> groups n a /\ groups n b.
Proof. unfold groups. split; [intros H; split; intros c Hc; apply H, in_or_app; auto|intros [H1 H2] c Hc; apply in_app_or in Hc; destruct Hc; auto]. Qed.
(** the first accepted element *)
Lemma filter_split {A} (f : A -> bool) l p r : filter f l = p :: r -> exists a b, l = a ++ p :: b /\ (forall x, In x a -> f x = false) /\ f p = true /\ filter f b = r.
Proof.
  induction l as [|x l IH]; [discriminate|]. cbn [filter]. destruct (f x) eqn:E.
  - intros H. injection H as -> <-. exists [], l. repeat split; [intros ? []|exact E].
  - intros H. destruct (IH H) as (a & b & -> & Ha & Hp & Hb). exists (x :: a), b. split; [reflexivity|]. split; [|auto]. intros y [<-|Hy]; auto.
Qed.
Section Skips.
  Context {A : Type} {sample : list R -> result (A * list R)} {n : nat} {acc : vec -> bool} {f : vec -> A}.
  Hypothesis HS : skips sample n acc f.
  Lemma sampling_ok num : forall cs d, groups n cs -> num <= length (filter acc cs) -> exists rest, sampling sample num (concat cs ++ d) = Ok (map f (firstn num (filter acc cs)), rest ++ d).
  Proof.
    induction num as [|num IH]; intros cs d G H; cbn [sampling firstn map]; [exists (concat cs); reflexivity|].
    destruct (filter acc cs) as [|p r] eqn:E; [cbn in H; lia|]. destruct (filter_split _ _ _ _ E) as (a & b & -> & Ha & Hp & Hb). apply groups_app in G. destruct G as [Ga Gb].
    rewrite concat_app. cbn [concat]. rewrite <- !app_assoc. rewrite (proj1 HS a p (concat b ++ d) Ga Ha (Gb p (or_introl eq_refl)) Hp). cbn [bind fst snd].
    destruct (IH b d) as (rest & ->); [intros c Hc; apply Gb; right; exact Hc|rewrite Hb; cbn in H; lia|]. rewrite Hb. exists rest. reflexivity.
  Qed.
  Lemma sampling_inv num : forall d ys d', sampling sample num d = Ok (ys, d') -> exists cs, groups n cs /\ d = concat cs ++ d' /\ ys = map f (filter acc cs) /\ length ys = num.
  Proof.
    induction num as [|num IH]; intros d ys d'; cbn [sampling].
    - intros E. injection E as <- <-. exists []. repeat split. intros ? [].
    - destruct (sample d) as [[y d1]|] eqn:E; [|discriminate]. cbn [bind fst snd]. destruct (sampling sample num d1) as [[ys1 d2]|] eqn:E1; [|discriminate]. cbn [bind fst snd]. intros H. injection H as <- <-.
      destruct (proj2 HS _ _ _ E) as (cs & p & G & Hr & Lp & Hp & -> & ->). destruct (IH _ _ _ E1) as (cs' & G' & -> & -> & L). exists (cs ++ p :: cs'). split; [|split; [|split]].
      + apply groups_app. split; [exact G|]. intros c [<-|Hc]; [exact Lp|apply G', Hc].
      + rewrite concat_app. cbn [concat]. rewrite <- !app_assoc. reflexivity.
      + rewrite filter_app, (filter_none _ _ Hr). cbn [filter app]. rewrite Hp. reflexivity.
      + cbn [length]. lia.
  Qed.
End Skips.

(** ** The samplers *)
Definition first (v : vec) : R := nth 0 v 0%R.
Lemma groups_one cs : groups 1 cs -> cs = map (fun x => [x]) (concat cs).
Proof.
  induction cs as [|c cs IH]; intros G; [reflexivity|]. pose proof (G c (or_introl eq_refl)) as L. destruct c as [|x [|? ?]]; try discriminate L. cbn [concat app map]. f_equal. apply IH. intros c Hc. apply G. right. exact Hc.
Qed.
Lemma closed_skips : skips closed_unit_interval_sample 1 (fun v => negb (rltb (7 / 8) (first v))) (fun v => first v / (7 / 8))%R.
Proof.
  split.
  - intros cs p d G Hr Lp Hp. induction cs as [|c cs IH]; cbn [concat app].
    + destruct p as [|x [|? ?]]; try discriminate Lp. cbn [app closed_unit_interval_sample]. unfold first in *. cbn [nth] in *. destruct (rltb (7 / 8) x); [discriminate|reflexivity].
    + pose proof (G c (or_introl eq_refl)) as Lc. pose proof (Hr c (or_introl eq_refl)) as Rc. destruct c as [|x [|? ?]]; try discriminate Lc. cbn [app closed_unit_interval_sample]. unfold first in Rc. cbn [nth] in Rc. destruct (rltb (7 / 8) x); [|discriminate]. apply IH; [intros c Hc; apply G; right; exact Hc|intros c Hc; apply Hr; right; exact Hc].
  - induction d as [|x d IH]; intros y d'; cbn [closed_unit_interval_sample]; [discriminate|]. destruct (rltb (7 / 8) x) eqn:E; intros H.
    + destruct (IH _ _ H) as (cs & p & G & Hr & Lp & Hp & -> & ->). exists ([x] :: cs), p. split; [intros c [<-|Hc]; [reflexivity|apply G, Hc]|]. split; [intros c [<-|Hc]; [unfold first; cbn [nth]; rewrite E; reflexivity|apply Hr, Hc]|]. auto.
    + injection H as <- <-. exists [], [x]. split; [intros ? []|]. split; [intros ? []|]. split; [reflexivity|]. unfold first. cbn [nth]. rewrite E. auto.
Qed.
Lemma open_skips : skips open_unit_interval_sample 1 (fun v => negb (rleb (first v) (1 / 8))) (fun v => (first v - 1 / 8) / (7 / 8))%R.
Proof.
  split.
  - intros cs p d G Hr Lp Hp. induction cs as [|c cs IH]; cbn [concat app].
    + destruct p as [|x [|? ?]]; try discriminate Lp. cbn [app open_unit_interval_sample]. unfold first in *. cbn [nth] in *. destruct (rleb x (1 / 8)); [discriminate|reflexivity].
    + pose proof (G c (or_introl eq_refl)) as Lc. pose proof (Hr c (or_introl eq_refl)) as Rc. destruct c as [|x [|? ?]]; try discriminate Lc. cbn [app open_unit_interval_sample]. unfold first in Rc. cbn [nth] in Rc. destruct (rleb x (1 / 8)); [|discriminate]. apply IH; [intros c Hc; apply G; right; exact Hc|intros c Hc; apply Hr; right; exact Hc].
  - induction d as [|x d IH]; intros y d'; cbn [open_unit_interval_sample]; [discriminate|]. destruct (rleb x (1 / 8)) eqn:E; intros H.
    + destruct (IH _ _ H) as (cs & p & G & Hr & Lp & Hp & -> & ->). exists ([x] :: cs), p. split; [intros c [<-|Hc]; [reflexivity|apply G, Hc]|]. split; [intros c [<-|Hc]; [unfold first; cbn [nth]; rewrite E; reflexivity|apply Hr, Hc]|]. auto.
    + injection H as <- <-. exists [], [x]. split; [intros ? []|]. split; [intros ? []|]. split; [reflexivity|]. unfold first. cbn [nth]. rewrite E. auto.
Qed.
Lemma right_skips : skips right_closed_interval_sample 1 (fun _ => true) (fun v => first v * -1 + 1)%R.
Proof.
  split.
  - intros cs p d G Hr Lp _. destruct cs as [|c cs]; [|discriminate (Hr c (or_introl eq_refl))]. destruct p as [|x [|? ?]]; try discriminate Lp. reflexivity.
  - intros [|x d] y d' H; [discriminate|]. injection H as <- <-. exists [], [x]. split; [intros ? []|]. split; [intros ? []|]. auto.
Qed.
Lemma rand_skips : skips rand 1 (fun _ => true) first.
Proof.
  split.
  - intros cs p d G Hr Lp _. destruct cs as [|c cs]; [|discriminate (Hr c (or_introl eq_refl))]. destruct p as [|x [|? ?]]; try discriminate Lp. reflexivity.
  - intros [|x d] y d' H; [discriminate|]. injection H as <- <-. exists [], [x]. split; [intros ? []|]. split; [intros ? []|]. auto.
Qed.
(** Simplices *)
Lemma ncube_one n c d : length c = n -> ncube_sampling n 1 (c ++ d) = Ok ([c], d).
Proof. intros L. unfold ncube_sampling. rewrite Nat.mul_1_r, rand_array_ok by exact L. cbn [bind fst snd reshape]. rewrite <- L, firstn_all. reflexivity. Qed.
Lemma ncube_one_inv n d ps d' : ncube_sampling n 1 d = Ok (ps, d') -> exists c, ps = [c] /\ length c = n /\ d = c ++ d'.
Proof. unfold ncube_sampling. rewrite Nat.mul_1_r. destruct (rand_array n d) as [[v d1]|] eqn:E; [|discriminate]. cbn [bind fst snd reshape]. intros H. injection H as <- <-. apply rand_array_inv in E. destruct E as [-> L]. exists v. rewrite <- L, firstn_all. auto. Qed.
Definition small (v : vec) : bool := negb (rltb 1 (rsum v)).
Lemma rejected_nonempty v : small v = false -> v <> [].
Proof. unfold small. intros H ->. cbn in H. unfold rltb in H. destruct (Rlt_dec 1 0); [lra|discriminate]. Qed.
Lemma rejected_length cs (acc : vec -> bool) : (forall v, acc v = false -> v <> []) -> (forall c, In c cs -> acc c = false) -> length cs <= length (concat cs).
Proof. intros H Hr. induction cs as [|c cs IH]; [cbn; lia|]. cbn [concat length]. rewrite app_length. specialize (IH (fun c Hc => Hr c (or_intror Hc))). pose proof (H c (Hr c (or_introl eq_refl))). destruct c; [congruence|cbn; lia]. Qed.
Lemma simplex_loop_ok n p d : length p = n -> small p = true -> forall cs q fuel, length cs < fuel -> groups n cs -> (forall c, In c cs -> small c = false) -> small q = false -> simplex_loop (S fuel) n q (concat cs ++ p ++ d) = Ok (p, d).
Proof.
  intros Lp Hp. induction cs as [|c cs IH]; intros q fuel Hf G Hr Hq; cbn [simplex_loop]; unfold small in Hq; destruct (rltb 1 (rsum q)); try discriminate Hq; cbn [concat app].
  - rewrite ncube_one by exact Lp. cbn [bind fst snd nth]. destruct fuel as [|fuel]; [cbn in Hf; lia|]. cbn [simplex_loop]. unfold small in Hp. destruct (rltb 1 (rsum p)); [discriminate|reflexivity].
  - rewrite <- app_assoc. rewrite ncube_one by (apply G; left; reflexivity). cbn [bind fst snd nth]. destruct fuel as [|fuel]; [cbn in Hf; lia|]. apply IH; [cbn in Hf; lia|intros c' Hc; apply G; right; exact Hc|intros c' Hc; apply Hr; right; exact Hc|apply Hr; left; reflexivity].
Qed.
Lemma simplex_loop_inv n : forall fuel q d y d', simplex_loop fuel n q d = Ok (y, d') -> length q = n -> (small q = true /\ y = q /\ d' = d) \/ exists cs, small q = false /\ groups n cs /\ (forall c, In c cs -> small c = false) /\ length y = n /\ small y = true /\ d = concat cs ++ y ++ d'.
Proof.
  induction fuel as [|fuel IH]; intros q d y d' H Lq; [discriminate|]. cbn [simplex_loop] in H. unfold small at 1 2. destruct (rltb 1 (rsum q)).
  - right. destruct (ncube_sampling n 1 d) as [[ps d1]|] eqn:E; [|discriminate]. cbn [bind fst snd] in H. destruct (ncube_one_inv _ _ _ _ E) as (c & -> & Lc & ->). cbn [nth] in H. destruct (IH _ _ _ _ H Lc) as [(Hc & -> & ->)|(cs & Hc & G & Hr & Ly & Hy & ->)].
    + exists []. split; [reflexivity|]. split; [intros ? []|]. split; [intros ? []|]. auto.
    + exists (c :: cs). split; [reflexivity|]. split; [intros c' [<-|Hc']; [exact Lc|apply G, Hc']|]. split; [intros c' [<-|Hc']; [exact Hc|apply Hr, Hc']|]. split; [exact Ly|]. split; [exact Hy|]. cbn [concat]. rewrite <- app_assoc. reflexivity.
  - left. injection H as <- <-. auto.
Qed.
Lemma simplex_skips n : skips (nsimplex_sample n) n small (fun v => v).
Proof.
  split.
  - intros cs p d G Hr Lp Hp. unfold nsimplex_sample. destruct cs as [|c cs]; cbn [concat app].
    + rewrite ncube_one by exact Lp. cbn [bind fst snd nth simplex_loop]. unfold small in Hp. destruct (rltb 1 (rsum p)); [discriminate|reflexivity].
    + rewrite <- app_assoc. rewrite ncube_one by (apply G; left; reflexivity). cbn [bind fst snd nth]. apply simplex_loop_ok; [exact Lp|exact Hp| |intros c' Hc; apply G; right; exact Hc|intros c' Hc; apply Hr; right; exact Hc|apply Hr; left; reflexivity].
      pose proof (rejected_length cs small rejected_nonempty (fun c' Hc => Hr c' (or_intror Hc))). pose proof (rejected_nonempty c (Hr c (or_introl eq_refl))). destruct c; [congruence|]. rewrite !app_length. cbn [length]. lia.
  - intros d y d' H. unfold nsimplex_sample in H. destruct (ncube_sampling n 1 d) as [[ps d1]|] eqn:E; [|discriminate]. cbn [bind fst snd] in H. destruct (ncube_one_inv _ _ _ _ E) as (c & -> & Lc & ->). change (nth 0 [c] []) with c in H. destruct (simplex_loop_inv _ _ _ _ _ _ H Lc) as [(Hc & -> & ->)|(cs & Hc & G & Hr & Ly & Hy & ->)].
    + exists [], c. split; [intros ? []|]. split; [intros ? []|]. auto.
    + exists (c :: cs), y. split; [intros c' [<-|Hc']; [exact Lc|apply G, Hc']|]. split; [intros c' [<-|Hc']; [exact Hc|apply Hr, Hc']|]. cbn [concat]. rewrite <- app_assoc. auto.
Qed.
(** Balls *)
Definition inball (v : vec) : bool := negb (rltb 1 (vdot (centered v) (centered v))).
Lemma inball_nonempty v : inball v = false -> v <> [].
Proof. unfold inball. intros H ->. cbn in H. unfold rltb in H. destruct (Rlt_dec 1 _) as [L|]; [|discriminate]. unfold vdot in L. cbn in L. lra. Qed.
Lemma ball_loop_ok n num : forall cs fuel pts d, groups n cs -> length pts <= num -> num - length pts <= length (filter inball cs) -> num - length pts + count (fun c => negb (inball c)) cs < fuel ->
  exists rest, ball_loop fuel n num pts (concat cs ++ d) = Ok (pts ++ map centered (firstn (num - length pts) (filter inball cs)), rest ++ d).
Proof.
  induction cs as [|c cs IH]; intros fuel pts d G L H Hf; (destruct fuel as [|fuel]; [lia|]); cbn [ball_loop].
  - cbn in H. destruct (Nat.ltb_spec (length pts) num); [lia|]. exists []. replace (num - length pts) with 0 by lia. cbn. rewrite app_nil_r. reflexivity.
  - destruct (Nat.ltb_spec (length pts) num) as [Hl|Hl].
    + cbn [concat]. rewrite <- app_assoc, rand_array_ok by (apply G; left; reflexivity). cbn [bind fst snd]. cbn zeta. change (negb (rltb 1 (vdot (centered c) (centered c)))) with (inball c). cbn [filter] in *. unfold count in *. cbn [filter] in *. destruct (inball c) eqn:E; cbn [negb length] in *.
      * destruct (IH fuel (pts ++ [centered c]) d) as (rest & ->); try (rewrite app_length; cbn [length]); try lia; [intros c' Hc; apply G; right; exact Hc|]. rewrite <- app_assoc. exists rest. replace (num - length pts) with (S (num - (length pts + 1))) by lia. reflexivity.
      * apply IH; try lia. intros c' Hc. apply G. right. exact Hc.
    + exists (concat (c :: cs)). replace (num - length pts) with 0 by lia. cbn [firstn map]. rewrite app_nil_r. reflexivity.
Qed.
Lemma ball_loop_inv n num : forall fuel pts d ps d', ball_loop fuel n num pts d = Ok (ps, d') -> length pts <= num -> exists cs, groups n cs /\ d = concat cs ++ d' /\ ps = pts ++ map centered (filter inball cs) /\ length ps = num.
Proof.
  induction fuel as [|fuel IH]; intros pts d ps d' H L; [discriminate|]. cbn [ball_loop] in H. destruct (Nat.ltb_spec (length pts) num) as [Hl|Hl].
  - destruct (rand_array n d) as [[v d1]|] eqn:E; [|discriminate]. cbn [bind fst snd] in H. cbn zeta in H. change (negb (rltb 1 (vdot (centered v) (centered v)))) with (inball v) in H. apply rand_array_inv in E. destruct E as [-> Lv]. destruct (inball v) eqn:E.
    + destruct (IH _ _ _ _ H) as (cs & G & -> & -> & Lp); [rewrite app_length; cbn; lia|]. exists (v :: cs). split; [intros c [<-|Hc]; [exact Lv|apply G, Hc]|]. split; [cbn [concat]; rewrite <- app_assoc; reflexivity|]. cbn [filter]. rewrite E. cbn [map]. rewrite <- app_assoc in *. split; [reflexivity|exact Lp].
    + destruct (IH _ _ _ _ H L) as (cs & G & -> & -> & Lp). exists (v :: cs). split; [intros c [<-|Hc]; [exact Lv|apply G, Hc]|]. split; [cbn [concat]; rewrite <- app_assoc; reflexivity|]. cbn [filter]. rewrite E. split; [reflexivity|exact Lp].
  - injection H as <- <-. exists []. split; [intros ? []|]. cbn. rewrite app_nil_r. repeat split. lia.
Qed.
Lemma rejected_count cs : count (fun c => negb (inball c)) cs <= length (concat cs).
Proof. induction cs as [|c cs IH]; [cbn; lia|]. unfold count in *. cbn [filter concat]. rewrite app_length. destruct (inball c) eqn:E; cbn [negb length]; [lia|]. pose proof (inball_nonempty c E). destruct c; [congruence|cbn; lia]. Qed.
Lemma nsphere_ok n num cs d : groups n cs -> num <= length (filter inball cs) -> exists rest, nsphere_sampling n num (concat cs ++ d) = Ok (map centered (firstn num (filter inball cs)), rest ++ d).
Proof.
  intros G H. unfold nsphere_sampling. destruct (ball_loop_ok n num cs (S (num + length (concat cs ++ d))) [] d G) as (rest & E); cbn [length]; rewrite ?Nat.sub_0_r; [lia|exact H| |].
  - pose proof (rejected_count cs). rewrite app_length. lia.
  - cbn [length] in E. rewrite Nat.sub_0_r in E. exists rest. exact E.
Qed.
