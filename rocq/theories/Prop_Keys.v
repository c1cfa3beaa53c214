(** Property C122: multi-indices and integers modulo n as keys of dictionaries. *)
From Coq Require Import ZArith Lia.
From Verif Require Import Base ModArith Keys.

(** the value last stored under a key that is the same as [k] *)
Definition last_value {K V} (same : K -> K -> bool) (items : list (K * V)) (k : K) : option V :=
  fold_left (fun found kv => if same (fst kv) k then Some (snd kv) else found) items None.
Definition found {V} (o : option V) : result V := match o with Some v => Ok v | None => Err KeyError end.

(** ** Dictionaries *)
Section DictFacts.
  Context {K V : Type} (hash : K -> Z) (eq : K -> K -> result bool) (P : K -> Prop) (same : K -> K -> bool).
  Hypothesis Heq : forall a b, P a -> P b -> eq a b = Ok (same a b).
  Hypothesis Hrefl : forall a, P a -> same a a = true.
  Hypothesis Hsym : forall a b, P a -> P b -> same a b = same b a.
  Hypothesis Htrans : forall a b c, P a -> P b -> P c -> same a b = true -> same b c = true -> same a c = true.
  Hypothesis Hhash : forall a b, P a -> P b -> same a b = true -> hash a = hash b.
  Definition good (d : dict (K := K) (V := V)) : Prop := forall h k v, In (h, k, v) d -> h = hash k /\ P k.
  Lemma same_left a b c : P a -> P b -> P c -> same a b = true -> same a c = same b c.
  Proof.
    intros Ha Hb Hc E. destruct (same b c) eqn:B; [exact (Htrans a b c Ha Hb Hc E B)|]. destruct (same a c) eqn:A; [|reflexivity]. rewrite <- B. symmetry. apply (Htrans b a c Hb Ha Hc); [rewrite Hsym; assumption|exact A].
  Qed.
  Lemma get_cons h k' (v : V) d k : h = hash k' -> P k' -> P k -> dict_get hash eq ((h, k', v) :: d) k = if same k' k then Ok v else dict_get hash eq d k.
  Proof.
    intros -> Pk' Pk. cbn [dict_get]. rewrite (Heq k' k Pk' Pk). cbn [bind]. destruct (same k' k) eqn:S; [rewrite (Hhash k' k Pk' Pk S), Z.eqb_refl; reflexivity|]. destruct (hash k' =? hash k)%Z; reflexivity.
  Qed.
  Lemma set_cons h k' (v' : V) d k v : h = hash k' -> P k' -> P k -> dict_set hash eq ((h, k', v') :: d) k v = if same k' k then Ok ((h, k', v) :: d) else let* d := dict_set hash eq d k v in Ok ((h, k', v') :: d).
  Proof.
    intros -> Pk' Pk. cbn [dict_set]. rewrite (Heq k' k Pk' Pk). cbn [bind]. destruct (same k' k) eqn:S; [rewrite (Hhash k' k Pk' Pk S), Z.eqb_refl; reflexivity|]. destruct (hash k' =? hash k)%Z; reflexivity.
  Qed.
  Lemma set_get d : good d -> forall k v, P k -> exists d', dict_set hash eq d k v = Ok d' /\ good d' /\ forall k2, P k2 -> dict_get hash eq d' k2 = if same k k2 then Ok v else dict_get hash eq d k2.
  Proof.
    induction d as [|[[h k'] v'] d IH]; intros G k v Pk.
    - exists [(hash k, k, v)]. split; [reflexivity|]. assert (G' : good [(hash k, k, v)]) by (intros h0 k0 v0 [E|[]]; injection E as <- <- _; auto). split; [exact G'|]. intros k2 P2. rewrite get_cons by auto. reflexivity.
    - destruct (G h k' v' (or_introl eq_refl)) as [Hh Pk']. rewrite set_cons by assumption. assert (Gd : good d) by (intros h0 k0 v0 H; apply (G h0 k0 v0); right; exact H). destruct (same k' k) eqn:S.
      + eexists. split; [reflexivity|]. split; [intros h0 k0 v0 [E|H]; [injection E as <- <- _; auto|apply (Gd h0 k0 v0 H)]|]. intros k2 P2. rewrite !get_cons by assumption. rewrite (same_left k' k k2 Pk' Pk P2 S). destruct (same k k2); reflexivity.
      + destruct (IH Gd k v Pk) as (d' & E & G' & H). rewrite E. cbn [bind]. eexists. split; [reflexivity|]. split; [intros h0 k0 v0 [Q|Q]; [injection Q as <- <- _; auto|apply (G' h0 k0 v0 Q)]|]. intros k2 P2. rewrite !get_cons by assumption. rewrite (H k2 P2). destruct (same k' k2) eqn:S2; [|reflexivity]. destruct (same k k2) eqn:S3; [|reflexivity]. exfalso.
        assert (C : same k' k = true) by (apply (Htrans k' k2 k Pk' P2 Pk S2); rewrite Hsym; assumption). congruence.
  Qed.
  Theorem dict_ok (items : list (K * V)) : (forall kv, In kv items -> P (fst kv)) -> exists d, dict_of hash eq items = Ok d /\ forall k, P k -> dict_get hash eq d k = found (last_value same items k).
  Proof.
    intros HP. unfold dict_of, last_value. assert (G : forall d, good d -> forall o, (forall k, P k -> dict_get hash eq d k = found (o k)) ->
      exists d', foldM (fun d kv => dict_set hash eq d (fst kv) (snd kv)) d items = Ok d' /\ forall k, P k -> dict_get hash eq d' k = found (fold_left (fun found kv => if same (fst kv) k then Some (snd kv) else found) items (o k))).
    { induction items as [|[k0 v0] items IH]; intros d G o H; [exists d; split; [reflexivity|exact H]|]. cbn [foldM fst snd]. destruct (set_get d G k0 v0 (HP (k0, v0) (or_introl eq_refl))) as (d1 & E & G1 & H1). rewrite E. cbn [bind].
      destruct (IH ltac:(intros; apply HP; right; assumption) d1 G1 (fun k => if same k0 k then Some v0 else o k)) as (d' & E' & H'); [intros k Pk; rewrite (H1 k Pk), (H k Pk); destruct (same k0 k); reflexivity|]. exists d'. split; [exact E'|]. intros k Pk. rewrite (H' k Pk). reflexivity. }
    destruct (G [] ltac:(intros ? ? ? []) (fun _ => None) ltac:(reflexivity)) as (d & E & H). exists d. split; assumption.
  Qed.
End DictFacts.

(** ** Integers modulo n *)
(** the number a key stands for *)
Definition number (k : operand) : Z := match k with OMod a => im_i a | OInt z => z end.
Lemma congruent_eqb n x y : n <> 0%Z -> ((x - y) mod n =? 0)%Z = (y mod n =? x mod n)%Z.
Proof.
  intros Hn. destruct (Z.eqb_spec (y mod n) (x mod n)) as [E|E].
  - apply Z.eqb_eq. rewrite Zminus_mod, E, Z.sub_diag. apply Z.mod_0_l. exact Hn.
  - apply Z.eqb_neq. intros C. apply E. replace x with (y + (x - y) / n * n)%Z; [rewrite Z.mod_add by exact Hn; reflexivity|]. pose proof (Z.div_mod (x - y) n Hn). lia.
Qed.
(** Keys that are integers modulo the same [n] (any non-zero [n], also negative): IntegerModuloN(x, n) finds what was stored last under an
    IntegerModuloN(y, n) with x and y congruent modulo n, and raises KeyError if there is none. *)
Theorem C122_modulo : forall V n (items : list (Z * V)), n <> 0%Z ->
  exists d, dict_of key_hash key_eq (map (fun xv => (OMod (mkIM (fst xv mod n) n), snd xv)) items) = Ok d /\
    forall x a, im_new x n = Ok a -> dict_get key_hash key_eq d (OMod a) = found (last_value (fun y x => ((x - y) mod n =? 0)%Z) items x).
Proof.
  intros V n items Hn. set (P := fun k => exists x, k = OMod (mkIM (x mod n) n)). set (same := fun a b => (number a =? number b)%Z).
  destruct (dict_ok (V := V) key_hash key_eq P same) with (items := map (fun xv : Z * V => (OMod (mkIM (fst xv mod n) n), snd xv)) items) as (d & E & H).
  - intros ? ? (x & ->) (y & ->). cbn. rewrite Z.eqb_refl. reflexivity.
  - intros a _. apply Z.eqb_refl.
  - intros a b _ _. apply Z.eqb_sym.
  - intros a b c _ _ _ A B. apply Z.eqb_eq in A, B. apply Z.eqb_eq. congruence.
  - intros ? ? (x & ->) (y & ->) S. apply Z.eqb_eq in S. cbn in S. cbn. unfold im_hash. cbn. rewrite S. reflexivity.
  - intros kv Hkv. apply in_map_iff in Hkv as (xv & <- & _). exists (fst xv). reflexivity.
  - exists d. split; [exact E|]. intros x a Ea. unfold im_new in Ea. destruct (Z.eqb_spec n 0); [contradiction|]. injection Ea as <-. rewrite H by (exists x; reflexivity). f_equal. unfold last_value. clear E H.
    generalize (@None V). induction items as [|[y v] items IH]; intros o; [reflexivity|]. cbn [map fold_left fst snd]. rewrite IH. f_equal. unfold same. cbn [number im_i].
    rewrite congruent_eqb by assumption. reflexivity.
Qed.
Print Assumptions C122_modulo.
(** With ints among the keys, for moduli up to 2^61 - 1: a key is found by every key with the same number, where the number of an
    IntegerModuloN is its representative. *)
Definition small_key (n : Z) (k : operand) : Prop := match k with OMod a => im_n a = n /\ (0 <= im_i a < n)%Z | OInt _ => True end.
Lemma small_hash z : (0 <= z < 2 ^ 61 - 1)%Z -> slot_hash z = int_hash z.
Proof.
  intros H. unfold slot_hash, int_hash. replace ((- 2 ^ 63 <=? z) && (z <? 2 ^ 63))%Z with true by (symmetry; apply andb_true_iff; split; [apply Z.leb_le|apply Z.ltb_lt]; lia). rewrite (Z.abs_eq z), (Z.mod_small z) by lia. destruct (Z.eq_dec z 0) as [->|N]; [reflexivity|]. rewrite (Z.sgn_pos z) by lia. rewrite Z.mul_1_l. reflexivity.
Qed.
Theorem C122_ints : forall V n (items : list (operand * V)), (0 < n <= 2 ^ 61 - 1)%Z -> (forall kv, In kv items -> small_key n (fst kv)) ->
  exists d, dict_of key_hash key_eq items = Ok d /\ forall k, small_key n k -> dict_get key_hash key_eq d k = found (last_value (fun a b => (number a =? number b)%Z) items k).
Proof.
  intros V n items Hn HI. apply (dict_ok key_hash key_eq (small_key n)); [| | | | |exact HI].
  - intros [a|a] [b|b] A B; cbn in *; try reflexivity; [|f_equal; apply Z.eqb_sym]. destruct A as [-> _], B as [-> _]. rewrite Z.eqb_refl. reflexivity.
  - intros a _. apply Z.eqb_refl.
  - intros a b _ _. apply Z.eqb_sym.
  - intros a b c _ _ _ A B. apply Z.eqb_eq in A, B. apply Z.eqb_eq. congruence.
  - assert (G : forall k, small_key n k -> key_hash k = int_hash (number k)) by (intros [a|a] A; cbn in *; [apply small_hash; lia|reflexivity]). intros a b A B S. apply Z.eqb_eq in S. rewrite (G a A), (G b B), S. reflexivity.
Qed.
Print Assumptions C122_ints.
(** For larger moduli equal keys have different hash values: an IntegerModuloN and the int it is equal to. *)
Theorem C122_ints_refuted : exists x n a, im_new x n = Ok a /\ im_eq a (OInt x) = Ok true /\ key_hash (OMod a) <> key_hash (OInt x) /\
  forall V (v : V), exists d, dict_of key_hash key_eq [(OMod a, v)] = Ok d /\ dict_get key_hash key_eq d (OInt x) = Err KeyError.
Proof.
  exists (2 ^ 61)%Z, (2 ^ 62)%Z, (mkIM (2 ^ 61) (2 ^ 62)). split; [reflexivity|]. split; [reflexivity|]. split; [vm_compute; discriminate|]. intros V v. eexists. split; [reflexivity|]. reflexivity.
Qed.
Print Assumptions C122_ints_refuted.
(** Two moduli in one dictionary: when the representatives agree, storing and looking up raise ValueError. *)
Theorem C122_moduli_refuted : forall V n m i (v w : V), n <> m -> let a := OMod (mkIM i n) in let b := OMod (mkIM i m) in
  exists d, dict_of key_hash key_eq [(a, v)] = Ok d /\ dict_get key_hash key_eq d b = Err ValueError /\ dict_set key_hash key_eq d b w = Err ValueError.
Proof.
  intros V n m i v w H a b. eexists. split; [reflexivity|]. unfold a, b. cbn [dict_get dict_set key_hash key_eq fst snd]. unfold im_hash, im_eq. cbn [im_i im_n]. rewrite Z.eqb_refl. destruct (Z.eqb_spec n m); [contradiction|]. split; reflexivity.
Qed.
Print Assumptions C122_moduli_refuted.

(** ** Multi-indices *)
Lemma list_eqb_spec a : forall b, list_eqb a b = true <-> a = b.
Proof.
  induction a as [|x a IH]; intros [|y b]; cbn [list_eqb]; try (split; congruence). rewrite andb_true_iff, Z.eqb_eq, IH. split; [intros [-> ->]; reflexivity|intros E; injection E; auto].
Qed.
Lemma zip_eqb a : forall b, length a = length b -> forallb (fun xy : Z * Z => (fst xy =? snd xy)%Z) (combine a b) = list_eqb a b.
Proof. induction a as [|x a IH]; intros [|y b] L; try discriminate; [reflexivity|]. cbn. rewrite IH by (injection L; auto). reflexivity. Qed.
Lemma list_eqb_sym a b : list_eqb a b = list_eqb b a.
Proof.
  destruct (list_eqb a b) eqn:E; symmetry; [apply list_eqb_spec in E; apply list_eqb_spec; congruence|]. destruct (list_eqb b a) eqn:E'; [|reflexivity]. apply list_eqb_spec in E'. subst. assert (X : list_eqb a a = true) by (apply list_eqb_spec; reflexivity). congruence.
Qed.
(** Multi-indices and tuples of the same length are interchangeable as keys: a key is found by every key with the same components. This holds
    whatever hash function is used for tuples. *)
Theorem C122_multiindex : forall V (th : list Z -> Z) h n (items : list (mikey * V)), (forall kv, In kv items -> length (contents h (fst kv)) = n) ->
  exists d, dict_of (mikey_hash th h) (mikey_eq h) items = Ok d /\
    forall k, length (contents h k) = n -> dict_get (mikey_hash th h) (mikey_eq h) d k = found (last_value (fun a b => list_eqb (contents h a) (contents h b)) items k).
Proof.
  intros V th h n items HI. apply (dict_ok (mikey_hash th h) (mikey_eq h) (fun k => length (contents h k) = n)); [| | | | |exact HI].
  - intros [a|a] [b|b] A B; cbn [mikey_eq contents] in *; unfold mi_eq; [| | |reflexivity]; rewrite A, B, Nat.eqb_refl, zip_eqb by congruence; [reflexivity|reflexivity|f_equal; apply list_eqb_sym].
  - intros a _. apply list_eqb_spec. reflexivity.
  - intros a b _ _. apply list_eqb_sym.
  - intros a b c _ _ _ A B. apply list_eqb_spec in A, B. apply list_eqb_spec. congruence.
  - intros a b _ _ S. apply list_eqb_spec in S. unfold mikey_hash. rewrite S. reflexivity.
Qed.
Print Assumptions C122_multiindex.
(** Multi-indices of different lengths whose tuples happen to have the same hash value raise ValueError. *)
Theorem C122_lengths_refuted : forall V (th : list Z -> Z) h a b (v : V), length (components h a) <> length (components h b) -> th (components h a) = th (components h b) ->
  exists d, dict_of (mikey_hash th h) (mikey_eq h) [(KMulti a, v)] = Ok d /\ dict_get (mikey_hash th h) (mikey_eq h) d (KMulti b) = Err ValueError.
Proof.
  intros V th h a b v L E. eexists. split; [reflexivity|]. cbn [dict_get fst]. unfold mikey_hash. cbn [contents mikey_eq]. rewrite E, Z.eqb_refl. unfold mi_eq. cbn [contents]. destruct (Nat.eqb_spec (length (components h a)) (length (components h b))); [contradiction|reflexivity].
Qed.
Print Assumptions C122_lengths_refuted.
(** A multi-index changed by [a[i] = v] after it was used as a key: neither the tuple of its old components nor that of the new ones (if the two
    have different hash values) finds the entry any more. *)
Theorem C122_changed_refuted : forall V (th : list Z -> Z) h a i v h' (w : V), a < length h -> mi_setitem h a i v = Ok h' -> th (components h' a) <> th (components h a) ->
  exists d, dict_of (mikey_hash th h) (mikey_eq h) [(KMulti a, w)] = Ok d /\
    dict_get (mikey_hash th h') (mikey_eq h') d (KTuple (components h a)) = Err KeyError /\ dict_get (mikey_hash th h') (mikey_eq h') d (KTuple (components h' a)) = Err KeyError.
Proof.
  intros V th h a i v h' w Ha E N. eexists. split; [reflexivity|]. cbn [dict_get fst]. unfold mikey_hash. cbn [contents]. rewrite Z.eqb_refl. split.
  - unfold mikey_eq, mi_eq. cbn [contents].
    assert (L : length (components h' a) = length (components h a)).
    { unfold mi_setitem, list_setitem in E. destruct (v <? 0)%Z; [discriminate|]. destruct (pyidx _ i); [|discriminate]. injection E as <-. unfold components. rewrite nth_upd_same by exact Ha. apply upd_length. }
    rewrite L, Nat.eqb_refl, zip_eqb by exact L. cbn [bind]. destruct (list_eqb (components h' a) (components h a)) eqn:Q; [|reflexivity]. apply list_eqb_spec in Q. rewrite Q in N. contradiction.
  - destruct (Z.eqb_spec (th (components h a)) (th (components h' a))) as [Q|Q]; [|reflexivity]. symmetry in Q. contradiction.
Qed.
Print Assumptions C122_changed_refuted.

(** ** Components of multi-indices and the lists they are made from *)
(** what a program does; a statement that raises an exception has no effect *)
Inductive statement : Type :=
| MakeList (values : list Z)
| Construct (a : argument)
| SetComponent (multi : nat) (i v : Z)
| SetItem (address : nat) (i v : Z).
(** the heap and the addresses of the multi-indices made so far *)
Definition step (s : heap * list nat) (c : statement) : heap * list nat :=
  let '(h, ms) := s in
  match c with
  | MakeList l => (h ++ [l], ms)
  | Construct (AList p) => if p <? length h then match mi_new h (AList p) with Ok (h', q) => (h', q :: ms) | Err _ => s end else s
  | Construct a => match mi_new h a with Ok (h', q) => (h', q :: ms) | Err _ => s end
  | SetComponent m i v => if existsb (Nat.eqb m) ms then match mi_setitem h m i v with Ok h' => (h', ms) | Err _ => s end else s
  | SetItem p i v => if p <? length h then match list_setitem h p i v with Ok h' => (h', ms) | Err _ => s end else s
  end.
Definition natural (l : list Z) : Prop := forall z, In z l -> (0 <= z)%Z.
Definition valid (s : heap * list nat) : Prop := forall m, In m (snd s) -> m < length (fst s) /\ natural (components (fst s) m).
(** the statement does not write to the list of a multi-index *)
Definition harmless (s : heap * list nat) (c : statement) : Prop := match c with SetItem p _ _ => ~ In p (snd s) | _ => True end.
Inductive runs : heap * list nat -> list statement -> heap * list nat -> Prop :=
| runs_nil s : runs s [] s
| runs_cons s c l s' : harmless s c -> runs (step s c) l s' -> runs s (c :: l) s'.
Lemma in_upd {A} (l : list A) k v z : In z (upd l k v) -> z = v \/ In z l.
Proof. revert k. induction l as [|x l IH]; intros [|k] H; cbn in *; [contradiction|contradiction|destruct H; auto|]. destruct H as [H|H]; [auto|]. destruct (IH k H); auto. Qed.
Lemma checked l : existsb (fun z => (z <? 0)%Z) l = false -> natural l.
Proof.
  intros H z Hz. destruct (Z.ltb_spec z 0) as [L|L]; [|exact L]. exfalso. assert (X : existsb (fun z => (z <? 0)%Z) l = true) by (apply existsb_exists; exists z; split; [exact Hz|apply Z.ltb_lt; exact L]). congruence.
Qed.
Lemma valid_app h ms l : valid (h, ms) -> valid (h ++ [l], ms).
Proof. intros V m Hm. destruct (V m Hm) as [L N]. cbn [fst snd] in *. split; [rewrite app_length; lia|]. unfold components. rewrite app_nth1 by exact L. exact N. Qed.
Lemma set_valid h ms p i v h' : valid (h, ms) -> list_setitem h p i v = Ok h' -> (In p ms -> (0 <= v)%Z) -> valid (h', ms).
Proof.
  intros V E Hv m Hm. destruct (V m Hm) as [L N]. cbn [fst snd] in *. unfold list_setitem in E. destruct (pyidx _ i) as [k|]; [|discriminate]. injection E as <-. split; [rewrite upd_length; exact L|]. unfold components. destruct (Nat.eq_dec p m) as [->|Q]; [rewrite nth_upd_same by exact L|rewrite nth_upd_other by exact Q; exact N].
  intros z Hz. apply in_upd in Hz as [->|Hz]; [apply Hv, Hm|apply N, Hz].
Qed.
Lemma step_valid s c : valid s -> harmless s c -> valid (step s c).
Proof.
  destruct s as [h ms]. intros V H. destruct c as [l|[p|l]|m i v|p i v]; cbn [step].
  - apply valid_app, V.
  - destruct (Nat.ltb_spec p (length h)) as [L|L]; [|exact V]. unfold mi_new. destruct (existsb _ (nth p h [])) eqn:C; [exact V|]. intros m [<-|Hm]; [split; [exact L|apply checked, C]|apply V, Hm].
  - unfold mi_new. destruct (existsb _ (nth (length h) (h ++ [l]) [])) eqn:C; [exact V|]. intros m [<-|Hm]; [split; [cbn; rewrite app_length; cbn; lia|apply checked, C]|exact (valid_app h ms l V m Hm)].
  - destruct (existsb (Nat.eqb m) ms); [|exact V]. unfold mi_setitem. destruct (Z.ltb_spec v 0) as [Q|Q]; [exact V|]. destruct (list_setitem h m i v) as [h'|] eqn:E; [|exact V]. apply (set_valid h ms m i v h' V E). intros _. exact Q.
  - destruct (p <? length h); [|exact V]. destruct (list_setitem h p i v) as [h'|] eqn:E; [|exact V]. apply (set_valid h ms p i v h' V E). intros C. contradiction (H C).
Qed.
(** In every program that does not write to the list of a multi-index other than through the multi-index, all components of all multi-indices
    are natural numbers at all times. *)
Theorem C122_components : forall program s, runs ([], []) program s -> forall m, In m (snd s) -> forall z, In z (components (fst s) m) -> (0 <= z)%Z.
Proof.
  intros program s R. assert (G : forall s0, valid s0 -> runs s0 program s -> valid s).
  { clear R. induction program as [|c l IH]; intros s0 V R; inversion R; subst; [exact V|]. apply (IH (step s0 c)); [apply step_valid; assumption|assumption]. }
  intros m Hm. exact (proj2 (G ([], []) ltac:(intros m0 []) R m Hm)).
Qed.
Print Assumptions C122_components.
(** The list given to the constructor is not copied: writing to it later changes the multi-index, even to a negative component. *)
Theorem C122_list_refuted : exists program m z, let s := fold_left step program ([], []) in In m (snd s) /\ In z (components (fst s) m) /\ (z < 0)%Z.
Proof. exists [MakeList [1; 2]%Z; Construct (AList 0); SetItem 0 1 (-3)], 0, (-3)%Z. split; [left; reflexivity|]. split; [right; left; reflexivity|reflexivity]. Qed.
Print Assumptions C122_list_refuted.
(** Two multi-indices made from one list change together; made from another iterable, a multi-index is changed by no statement on another one. *)
Theorem C122_shared_refuted : exists h a b h', mi_new h (AList 0) = Ok (h, a) /\ mi_new h (AList 0) = Ok (h, b) /\ mi_setitem h a 0 7 = Ok h' /\ components h b = [1; 2]%Z /\ components h' b = [7; 2]%Z.
Proof. exists [[1; 2]%Z], 0, 0, [[7; 2]%Z]. repeat split. Qed.
Print Assumptions C122_shared_refuted.
Theorem C122_separate : forall h values h1 a, mi_new h (AIter values) = Ok (h1, a) ->
  components h1 a = values /\ (forall b, b < length h -> b <> a /\ components h1 b = components h b) /\
  forall i v h2, mi_setitem h1 a i v = Ok h2 -> forall b, b <> a -> components h2 b = components h1 b.
Proof.
  intros h values h1 a E. unfold mi_new in E. destruct (existsb _ _); [discriminate|]. injection E as <- <-. split; [unfold components; rewrite app_nth2, Nat.sub_diag by lia; reflexivity|]. split.
  - intros b Hb. split; [lia|]. unfold components. apply app_nth1. exact Hb.
  - intros i v h2 E b Hb. unfold mi_setitem, list_setitem in E. destruct (v <? 0)%Z; [discriminate|]. destruct (pyidx _ i); [|discriminate]. injection E as <-. unfold components. apply nth_upd_other. congruence.
Qed.
Print Assumptions C122_separate.

(** ** Examples *)
Example C122_ex_modulo : exists d, dict_of key_hash key_eq [(OMod (mkIM (4 mod 3) 3), 10); (OMod (mkIM (7 mod 3) 3), 20); (OMod (mkIM (2 mod 3) 3), 30)] = Ok d /\ dict_get key_hash key_eq d (OMod (mkIM 1 3)) = Ok 20 /\ dict_get key_hash key_eq d (OInt 2) = Ok 30 /\ dict_get key_hash key_eq d (OInt 4) = Err KeyError.
Proof. eexists. split; [reflexivity|]. repeat split. Qed.
Example C122_ex_changed : exists h', mi_setitem [[1; 2]%Z] 0 0 5 = Ok h' /\ (fun l => nth 0 l 0%Z) (components h' 0) <> (fun l => nth 0 l 0%Z) (components [[1; 2]%Z] 0).
Proof. eexists. split; [reflexivity|]. discriminate. Qed.
Example C122_ex_runs : runs ([], []) [MakeList [1; 2]%Z; Construct (AList 0); Construct (AIter [0; 3]%Z); SetComponent 1 0 4; SetComponent 0 (-1) (-2)] ([[1; 2]; [4; 3]]%Z, [1; 0]).
Proof. repeat (apply runs_cons; [exact I|]). apply runs_nil. Qed.
