(** Model of the MultiIndex objects of
    polynomials_on_simplices/algebra/multiindex.py (class MultiIndex, lines
    11-218) as a heap of Python list objects, because the constructor keeps a
    reference to a list argument (lines 40-41) instead of copying it. *)
From Verif Require Import Base.
Local Open Scope Z_scope.

(** Heap of list objects; a MultiIndex is the address of its [_components]
    list; [w_mis] holds the addresses of all live MultiIndex objects. *)
Record world : Type := mkW { w_heap : list (list Z); w_mis : list nat }.

Definition w_init : world := mkW [] [].

(** Components of the [m]-th MultiIndex object. *)
Definition components (w : world) (m : nat) : option (list Z) :=
  match nth_error (w_mis w) m with
  | Some a => nth_error (w_heap w) a
  | None => None
  end.

(** lines 47-49: the check of the constructor *)
Definition nonneg (l : list Z) : bool := forallb (fun v => negb (v <? 0)) l.

(** [map(add, a, b)] / [map(sub, a, b)]: stops at the shorter operand. *)
Fixpoint map2 (f : Z -> Z -> Z) (a b : list Z) : list Z :=
  match a, b with
  | x :: a', y :: b' => f x y :: map2 f a' b'
  | _, _ => []
  end.

Inductive op : Type :=
| ONewList (l : list Z)               (* the caller creates a Python list *)
| OListSet (a : nat) (i v : Z)        (* the caller executes lst[i] = v *)
| OFromList (a : nat)                 (* MultiIndex(lst) *)
| OFromIter (l : list Z)              (* MultiIndex(1, 2), MultiIndex((1, 2)), MultiIndex(array) *)
| OSetItem (m : nat) (i v : Z)        (* mi[i] = v *)
| OAdd (m1 m2 : nat)                  (* mi1 + mi2 *)
| OAddSeq (m : nat) (l : list Z)      (* mi + l and l + mi *)
| OSub (m1 m2 : nat)                  (* mi1 - mi2 *)
| OSubSeq (m : nat) (l : list Z)      (* mi - l *)
| ORSubSeq (l : list Z) (m : nat).    (* l - mi *)

(** Lines 32-49 for an argument that is copied into a fresh list. *)
Definition new_copied (w : world) (l : list Z) : world * result unit :=
  if nonneg l then (mkW (w_heap w ++ [l]) (w_mis w ++ [length (w_heap w)]), Ok tt)
  else (w, Err ValueError).

(** One operation; a reference to an object that does not exist is reported
    as TypeError (it cannot be written in Python). *)
Definition step (w : world) (o : op) : world * result unit :=
  match o with
  | ONewList l => (mkW (w_heap w ++ [l]) (w_mis w), Ok tt)
  | OListSet a i v =>
      match nth_error (w_heap w) a with
      | None => (w, Err TypeError)
      | Some l => match pyidx (length l) i with
                  | None => (w, Err IndexError)
                  | Some k => (mkW (upd (w_heap w) a (upd l k v)) (w_mis w), Ok tt)
                  end
      end
  | OFromList a =>   (* lines 40-41, 47-49 *)
      match nth_error (w_heap w) a with
      | None => (w, Err TypeError)
      | Some l => if nonneg l then (mkW (w_heap w) (w_mis w ++ [a]), Ok tt) else (w, Err ValueError)
      end
  | OFromIter l => new_copied w l
  | OSetItem m i v =>   (* lines 87-96: the sign is checked first *)
      match nth_error (w_mis w) m with
      | None => (w, Err TypeError)
      | Some a =>
        if v <? 0 then (w, Err ValueError) else
        match nth_error (w_heap w) a with
        | None => (w, Err TypeError)
        | Some l => match pyidx (length l) i with
                    | None => (w, Err IndexError)
                    | Some k => (mkW (upd (w_heap w) a (upd l k v)) (w_mis w), Ok tt)
                    end
        end
      end
  | OAdd m1 m2 =>   (* lines 134-148 *)
      match components w m1, components w m2 with
      | Some a, Some b => new_copied w (map2 Z.add a b)
      | _, _ => (w, Err TypeError)
      end
  | OAddSeq m l =>   (* lines 134-148 and 150-161 *)
      match components w m with
      | Some a => new_copied w (map2 Z.add a l)
      | None => (w, Err TypeError)
      end
  | OSub m1 m2 =>   (* lines 163-177 *)
      match components w m1, components w m2 with
      | Some a, Some b => new_copied w (map2 Z.sub a b)
      | _, _ => (w, Err TypeError)
      end
  | OSubSeq m l =>   (* lines 163-177 *)
      match components w m with
      | Some a => new_copied w (map2 Z.sub a l)
      | None => (w, Err TypeError)
      end
  | ORSubSeq l m =>   (* lines 179-190 *)
      match components w m with
      | Some a => new_copied w (map2 Z.sub l a)
      | None => (w, Err TypeError)
      end
  end.

(** Any program: a sequence of operations, where exceptions are caught by the
    caller and the program goes on. *)
Fixpoint run (w : world) (ops : list op) : world :=
  match ops with [] => w | o :: t => run (fst (step w o)) t end.

(** The caller writes into a list only while no MultiIndex shares it. *)
Fixpoint no_shared_write (w : world) (ops : list op) : Prop :=
  match ops with
  | [] => True
  | o :: t => match o with OListSet a _ _ => ~ In a (w_mis w) | _ => True end
              /\ no_shared_write (fst (step w o)) t
  end.

(** ** Proofs *)
Lemma nonneg_spec l : nonneg l = true <-> Forall (fun v => 0 <= v) l.
Proof.
  unfold nonneg. rewrite forallb_forall, Forall_forall.
  split; intros H x Hx; specialize (H x Hx); destruct (Z.ltb_spec x 0); cbn in *; try lia; discriminate.
Qed.

Definition inv (w : world) : Prop :=
  forall a, In a (w_mis w) -> exists l, nth_error (w_heap w) a = Some l /\ Forall (fun v => 0 <= v) l.

Lemma Forall_upd {A} (P : A -> Prop) l k v : Forall P l -> P v -> Forall P (upd l k v).
Proof.
  intros HF Hv. revert k; induction HF as [|x l Hx HF IH]; intros [|k]; cbn [upd]; constructor; auto.
Qed.

Lemma inv_alloc w l : inv w -> Forall (fun v => 0 <= v) l ->
  inv (mkW (w_heap w ++ [l]) (w_mis w ++ [length (w_heap w)])).
Proof.
  intros Hi Hl a Ha. cbn [w_heap w_mis] in *. apply in_app_iff in Ha as [Ha|[<-|[]]].
  - destruct (Hi a Ha) as (l' & H1 & H2). exists l'. split; [|exact H2].
    rewrite nth_error_app1; [exact H1|]. apply nth_error_Some. congruence.
  - exists l. split; [|exact Hl]. rewrite nth_error_app2, Nat.sub_diag by lia. reflexivity.
Qed.

Lemma inv_new_copied w l : inv w -> inv (fst (new_copied w l)).
Proof.
  intros Hi. unfold new_copied. destruct (nonneg l) eqn:E; [|exact Hi].
  apply nonneg_spec in E. apply inv_alloc; assumption.
Qed.

Lemma inv_upd w a l k v : inv w -> nth_error (w_heap w) a = Some l ->
  (In a (w_mis w) -> 0 <= v) -> inv (mkW (upd (w_heap w) a (upd l k v)) (w_mis w)).
Proof.
  intros Hi Hl Hv b Hb. cbn [w_heap w_mis] in *. destruct (Hi b Hb) as (l' & H1 & H2).
  destruct (Nat.eq_dec a b) as [->|Hne].
  - rewrite nth_error_upd_same by (apply nth_error_Some; congruence).
    eexists; split; [reflexivity|]. apply Forall_upd; [congruence|auto].
  - rewrite nth_error_upd_other by exact Hne. eauto.
Qed.

Lemma step_inv w o : inv w -> match o with OListSet a _ _ => ~ In a (w_mis w) | _ => True end ->
  inv (fst (step w o)).
Proof.
  intros Hi Ho. destruct o as [l|a i v|a|l|m i v|m1 m2|m l|m1 m2|m l|l m]; cbn [step].
  - intros b Hb. cbn [w_heap w_mis fst] in *. destruct (Hi b Hb) as (l' & H1 & H2).
    exists l'. split; [|exact H2]. rewrite nth_error_app1; [exact H1|]. apply nth_error_Some; congruence.
  - destruct (nth_error (w_heap w) a) as [l|] eqn:E; [|exact Hi].
    destruct (pyidx (length l) i) as [k|]; [|exact Hi].
    apply inv_upd; auto. intros; contradiction.
  - destruct (nth_error (w_heap w) a) as [l|] eqn:E; [|exact Hi].
    destruct (nonneg l) eqn:En; [|exact Hi]. apply nonneg_spec in En.
    intros b Hb. cbn [w_heap w_mis fst] in *. apply in_app_iff in Hb as [Hb|[<-|[]]]; eauto.
  - apply inv_new_copied; exact Hi.
  - destruct (nth_error (w_mis w) m) as [a|]; [|exact Hi].
    destruct (Z.ltb_spec v 0) as [Hv|Hv]; [exact Hi|].
    destruct (nth_error (w_heap w) a) as [l|] eqn:E; [|exact Hi].
    destruct (pyidx (length l) i) as [k|]; [|exact Hi]. apply inv_upd; auto.
  - destruct (components w m1), (components w m2); try exact Hi. apply inv_new_copied; exact Hi.
  - destruct (components w m); [|exact Hi]. apply inv_new_copied; exact Hi.
  - destruct (components w m1), (components w m2); try exact Hi. apply inv_new_copied; exact Hi.
  - destruct (components w m); [|exact Hi]. apply inv_new_copied; exact Hi.
  - destruct (components w m); [|exact Hi]. apply inv_new_copied; exact Hi.
Qed.

Lemma run_inv ops : forall w, inv w -> no_shared_write w ops -> inv (run w ops).
Proof.
  induction ops as [|o ops IH]; intros w Hi Hn; cbn [run no_shared_write] in *; [exact Hi|].
  destruct Hn as [H1 H2]. apply IH; [apply step_inv; assumption|exact H2].
Qed.

Lemma reachable_nonneg ops m l :
  no_shared_write w_init ops -> components (run w_init ops) m = Some l -> Forall (fun v => 0 <= v) l.
Proof.
  intros Hn Hc. assert (Hi : inv (run w_init ops)).
  { apply run_inv; [|exact Hn]. intros a []. }
  unfold components in Hc. destruct (nth_error (w_mis (run w_init ops)) m) as [a|] eqn:E; [|discriminate].
  apply nth_error_In in E. destruct (Hi a E) as (l' & H1 & H2). congruence.
Qed.

(** A failing operation changes nothing. *)
Lemma step_err w o e : snd (step w o) = Err e -> fst (step w o) = w.
Proof.
  destruct o as [l|a i v|a|l|m i v|m1 m2|m l|m1 m2|m l|l m]; cbn [step]; unfold new_copied;
    repeat match goal with
           | |- context[match ?x with _ => _ end] => destruct x
           end; cbn; intros; try discriminate; reflexivity.
Qed.

Lemma map2_sub_nonneg a b :
  length a = length b ->
  (nonneg (map2 Z.sub a b) = true <-> Forall2 (fun x y => y <= x) a b).
Proof.
  intros HL. rewrite nonneg_spec. revert b HL; induction a as [|x a IH]; intros [|y b] HL; try discriminate.
  - split; constructor.
  - cbn [map2]. cbn in HL. injection HL as HL. split; intros H; inversion H; subst; constructor; try lia;
      apply (IH b HL); assumption.
Qed.

Lemma map2_sub_add a b : length a = length b -> map2 Z.add (map2 Z.sub a b) b = a.
Proof.
  revert b; induction a as [|x a IH]; intros [|y b] H; try discriminate; [reflexivity|].
  cbn [map2]. f_equal; [lia|]. apply IH. cbn in H. lia.
Qed.

Lemma map2_add_nth a b k :
  nth_error (map2 Z.add a b) k =
  match nth_error a k, nth_error b k with Some x, Some y => Some (x + y) | _, _ => None end.
Proof.
  revert b k; induction a as [|x a IH]; intros [|y b] [|k]; cbn [map2 nth_error]; try reflexivity.
  - destruct (nth_error a k); reflexivity.
  - apply IH.
Qed.

Lemma map2_sub_nth a b k :
  nth_error (map2 Z.sub a b) k =
  match nth_error a k, nth_error b k with Some x, Some y => Some (x - y) | _, _ => None end.
Proof.
  revert b k; induction a as [|x a IH]; intros [|y b] [|k]; cbn [map2 nth_error]; try reflexivity.
  - destruct (nth_error a k); reflexivity.
  - apply IH.
Qed.

Lemma map2_length f a b : length (map2 f a b) = Nat.min (length a) (length b).
Proof. revert b; induction a as [|x a IH]; intros [|y b]; cbn; auto. Qed.

Lemma new_copied_components w l :
  nonneg l = true ->
  components (fst (new_copied w l)) (length (w_mis w)) = Some l.
Proof.
  intros H. unfold new_copied. rewrite H. unfold components; cbn [fst w_heap w_mis].
  rewrite nth_error_app2, Nat.sub_diag by lia. cbn [nth_error].
  rewrite nth_error_app2, Nat.sub_diag by lia. reflexivity.
Qed.

Lemma new_copied_others w l m :
  inv w -> (m < length (w_mis w))%nat ->
  components (fst (new_copied w l)) m = components w m.
Proof.
  intros Hi Hm. unfold new_copied. destruct (nonneg l); [|reflexivity].
  unfold components; cbn [fst w_heap w_mis]. rewrite nth_error_app1 by exact Hm.
  destruct (nth_error (w_mis w) m) as [a|] eqn:E; [|reflexivity].
  apply nth_error_In in E. destruct (Hi a E) as (l' & H1 & _).
  rewrite nth_error_app1; [reflexivity|]. apply nth_error_Some. congruence.
Qed.

Lemma sub_ok_iff w m1 m2 a b :
  components w m1 = Some a -> components w m2 = Some b -> length a = length b ->
  (snd (step w (OSub m1 m2)) = Ok tt <-> Forall2 (fun x y => y <= x) a b).
Proof.
  intros Ha Hb HL. cbn [step]. rewrite Ha, Hb. rewrite <- (map2_sub_nonneg a b HL).
  unfold new_copied. destruct (nonneg (map2 Z.sub a b)); cbn [snd]; split; intros; try discriminate; reflexivity.
Qed.

Lemma sub_value w m1 m2 a b :
  components w m1 = Some a -> components w m2 = Some b ->
  snd (step w (OSub m1 m2)) = Ok tt ->
  exists c, components (fst (step w (OSub m1 m2))) (length (w_mis w)) = Some c /\
            length c = Nat.min (length a) (length b) /\
            forall k x y, nth_error a k = Some x -> nth_error b k = Some y -> nth_error c k = Some (x - y).
Proof.
  intros Ha Hb. cbn [step]. rewrite Ha, Hb. intros H. exists (map2 Z.sub a b).
  split; [|split; [apply map2_length|]].
  - apply new_copied_components. unfold new_copied in H. destruct (nonneg _); [reflexivity|discriminate].
  - intros k x y Hx Hy. rewrite map2_sub_nth, Hx, Hy. reflexivity.
Qed.

Lemma add_value w m1 m2 a b :
  inv w -> components w m1 = Some a -> components w m2 = Some b ->
  snd (step w (OAdd m1 m2)) = Ok tt /\
  exists c, components (fst (step w (OAdd m1 m2))) (length (w_mis w)) = Some c /\
            length c = Nat.min (length a) (length b) /\
            forall k x y, nth_error a k = Some x -> nth_error b k = Some y -> nth_error c k = Some (x + y).
Proof.
  intros Hi Ha Hb. cbn [step]. rewrite Ha, Hb.
  assert (Hpos : forall m l, components w m = Some l -> Forall (fun v => 0 <= v) l).
  { intros m l H. unfold components in H. destruct (nth_error (w_mis w) m) as [ad|] eqn:E; [|discriminate].
    apply nth_error_In in E. destruct (Hi ad E) as (l' & H1 & H2). congruence. }
  assert (HN : nonneg (map2 Z.add a b) = true).
  { apply nonneg_spec. apply Hpos in Ha. apply Hpos in Hb. clear - Ha Hb.
    revert b Hb; induction Ha as [|x a Hx Ha IH]; intros b Hb; [constructor|].
    destruct Hb as [|y b Hy Hb]; cbn [map2]; constructor; [lia|auto]. }
  split; [unfold new_copied; rewrite HN; reflexivity|].
  exists (map2 Z.add a b). split; [apply new_copied_components; exact HN|]. split; [apply map2_length|].
  intros k x y Hx Hy. rewrite map2_add_nth, Hx, Hy. reflexivity.
Qed.

(** Sharing of the caller's list: after these three operations the first
    MultiIndex holds -5. *)
Definition alias_program : list op := [ONewList [1; 2]; OFromList 0; OListSet 0 0 (-5)].

Lemma alias_program_negative : components (run w_init alias_program) 0 = Some [-5; 2].
Proof. reflexivity. Qed.
