(** Links between the classes used in the proofs and the vocabulary of the
    property theorems; inverse and preimage maps. *)
From Verif Require Import Base MultiIndex MultiIndexFacts Permutations PermFacts Simplicial Orient ChainFacts SimplicialFacts SimplicialFacts2.
From Verif Require Import LocalToGlobal LocalToGlobalFacts LocalToGlobalSim LocalToGlobalCont.

(** ** Attached functions *)
(** The local function [nu] of the simplex [tri] is attached to one of the
    simplices [bs]: every vertex with positive weight is a vertex of it (for
    degree 0, every vertex of [tri]). *)
Definition attached (bs : list (list nat)) (r : nat) (tri nu : list nat) : Prop :=
  exists b, In b bs /\ forall v, (r = 0 /\ In v tri) \/ vertex_weight tri r nu v <> 0 -> In v b.
Lemma SS_le_lt l : StronglySorted le l -> NoDup l -> StronglySorted lt l.
Proof.
  induction 1 as [|x l Hs IH Hf]; intros HN; [constructor|]. apply NoDup_cons_iff in HN as [H1 H2].
  constructor; [auto|]. rewrite Forall_forall in *. intros y Hy. specialize (Hf y Hy). assert (x <> y) by (intros ->; contradiction). lia.
Qed.
Lemma spairs_lt tri r nu : NoDup tri -> length tri = length nu + 1 -> StronglySorted lt (map fst (spairs tri r nu)).
Proof.
  intros HN HL. apply SS_le_lt.
  - assert (H : StronglySorted (fun a b => pair_leb a b = true) (spairs tri r nu)) by (apply sort_sorted; [apply pair_leb_total|apply pair_leb_trans]).
    induction H as [|x l Hs IH Hf]; cbn [map]; constructor; auto. rewrite Forall_map. eapply Forall_impl; [|exact Hf]. intros y Hy. apply pair_leb_fst. exact Hy.
  - eapply Permutation_NoDup; [apply Permutation_map, spairs_perm|]. apply wpairs_keys; assumption.
Qed.
Lemma in_fst_spairs tri r nu v : NoDup tri -> length tri = length nu + 1 ->
  (In v (map fst (spairs tri r nu)) <-> vertex_weight tri r nu v <> 0).
Proof.
  intros HN HL. rewrite <- in_fst_wpairs by assumption. split; apply Permutation_in; [symmetry|]; apply Permutation_map, spairs_perm.
Qed.
Definition bsub_ok (bs : list (list nat)) (bsub : list (list nat)) : Prop :=
  forall t, In t bsub <-> exists b, In b bs /\ StronglySorted lt t /\ t <> [] /\ incl t b.
Lemma spairs_bsub bs bsub tri r nu : bsub_ok bs bsub -> NoDup tri -> length tri = length nu + 1 -> 1 <= r ->
  (tuple_mem (map fst (spairs tri r nu)) bsub = true <-> attached bs r tri nu).
Proof.
  intros HB HN HL Hr. rewrite tuple_mem_in, (HB _). split.
  - intros (b & Hb & _ & _ & Hi). exists b. split; [exact Hb|]. intros v [[E _]|Hv]; [lia|]. apply Hi, in_fst_spairs; assumption.
  - intros (b & Hb & Hi). exists b. split; [exact Hb|]. split; [apply spairs_lt; assumption|]. split.
    + intros E. apply (wpairs_nonempty tri r nu Hr HL). apply map_eq_nil in E. apply Permutation_nil. rewrite <- E. symmetry. apply spairs_perm.
    + intros v Hv. apply Hi. right. apply in_fst_spairs in Hv; assumption.
Qed.
Lemma dcls_attached bs bsub keep n r triangles x : bsub_ok bs bsub -> mesh n triangles -> dom (length triangles) n r x ->
  (attached bs r (nth (fst x) triangles []) (snd x) /\ dcls bsub keep r triangles x = (if keep then Bnd else Skip)) \/
  (~ attached bs r (nth (fst x) triangles []) (snd x) /\ dcls bsub keep r triangles x = Int).
Proof.
  intros HB HM (Hj & HL & Hn). destruct (mesh_nth n triangles _ HM Hj) as [HT HN].
  assert (E : tuple_mem (dkey r triangles x) bsub = true <-> attached bs r (nth (fst x) triangles []) (snd x)).
  { unfold dkey. destruct (Nat.ltb_spec 0 r) as [Hr|Hr]; [apply spairs_bsub; auto; lia|].
    rewrite tuple_mem_in, (HB _). set (tri := nth (fst x) triangles []) in *. split.
    - intros (b & Hb & _ & _ & Hi). exists b. split; [exact Hb|]. intros v Hv. apply Hi. apply (Permutation_in _ (sorted_perm tri)).
      destruct Hv as [[_ Hv]|Hv]; [exact Hv|]. exfalso. apply Hv. unfold vertex_weight. replace r with 0 by lia. cbn [Nat.sub].
      assert (H0 : forall l, In l (0 :: snd x) -> l = 0).
      { intros l [<-|Hl]; [reflexivity|]. assert (nsum (snd x) = 0) by lia. clear -Hl H. induction (snd x) as [|a s IH]; [destruct Hl|].
        rewrite nsum_cons in H. destruct Hl as [<-|Hl]; [lia|apply IH; [exact Hl|lia]]. }
      assert (G : forall l : list (nat * nat), (forall p, In p l -> snd p = 0) -> nsum (map snd l) = 0).
      { clear. induction l as [|p l IH]; intros H; [reflexivity|]. cbn [map]. rewrite nsum_cons, (H p (or_introl eq_refl)), IH; [reflexivity|].
        intros q Hq. apply H. right. exact Hq. }
      apply G. intros [a b'] Hp. apply filter_In in Hp as [Hp _]. apply in_combine_r in Hp. cbn [snd]. auto.
    - intros (b & Hb & Hi). exists b. split; [exact Hb|]. split.
      + apply SS_le_lt; [apply sorted_SS|]. eapply Permutation_NoDup; [apply sorted_perm|exact HN].
      + split.
        * intros E. pose proof (Permutation_length (sorted_perm tri)) as EL. rewrite E in EL. cbn in EL. lia.
        * intros v Hv. apply Hi. left. split; [lia|]. apply (Permutation_in _ (Permutation_sym (sorted_perm tri))). exact Hv. }
  unfold dcls. destruct (tuple_mem (dkey r triangles x) bsub).
  - left. split; [apply E; reflexivity|reflexivity].
  - right. split; [|reflexivity]. intros HA. apply E in HA. discriminate.
Qed.

(** ** Interior functions *)
Definition interior (r : nat) (tri nu : list nat) : Prop := forall v, In v tri -> vertex_weight tri r nu v <> 0.
Lemma cfull_interior n r triangles x : mesh n triangles -> dom (length triangles) n r x ->
  (cfull n r triangles x = true <-> interior r (nth (fst x) triangles []) (snd x)).
Proof.
  intros HM (Hj & HL & Hn). destruct (mesh_nth n triangles _ HM Hj) as [HT HN]. set (tri := nth (fst x) triangles []) in *.
  unfold cfull. fold tri. rewrite Nat.eqb_eq.
  assert (Hincl : incl (map fst (wpairs tri r (snd x))) tri).
  { intros v Hv. apply in_map_iff in Hv as ([a b] & <- & H). apply filter_In in H as [H _]. apply in_combine_l in H. exact H. }
  assert (HND : NoDup (map fst (wpairs tri r (snd x)))) by (apply wpairs_keys; [exact HN|lia]).
  split.
  - intros E v Hv. apply in_fst_wpairs; [exact HN|lia|]. assert (HI : incl tri (map fst (wpairs tri r (snd x)))) by (apply (NoDup_length_incl HND); [rewrite map_length; lia|exact Hincl]). apply HI, Hv.
  - intros H. assert (length (map fst (wpairs tri r (snd x))) = length tri).
    { apply Nat.le_antisymm; [apply NoDup_incl_length; assumption|]. apply NoDup_incl_length; [exact HN|].
      intros v Hv. apply in_fst_wpairs; [exact HN|lia|auto]. }
    rewrite map_length in H0. lia.
Qed.
Definition same_weights (r : nat) (tri nu tri' nu' : list nat) : Prop :=
  forall v, vertex_weight tri r nu v = vertex_weight tri' r nu' v.
Lemma ckey_same n r triangles x y : mesh n triangles -> dom (length triangles) n r x -> dom (length triangles) n r y ->
  (ckey n r triangles x = ckey n r triangles y <->
   x = y \/ (~ interior r (nth (fst x) triangles []) (snd x) /\ ~ interior r (nth (fst y) triangles []) (snd y) /\
             same_weights r (nth (fst x) triangles []) (snd x) (nth (fst y) triangles []) (snd y))).
Proof.
  intros HM Hx Hy. pose proof (cfull_interior n r triangles x HM Hx) as Fx. pose proof (cfull_interior n r triangles y HM Hy) as Fy.
  destruct Hx as (Hjx & HLx & Hnx), Hy as (Hjy & HLy & Hny).
  destruct (mesh_nth n triangles _ HM Hjx) as [HTx HNx], (mesh_nth n triangles _ HM Hjy) as [HTy HNy].
  unfold ckey. destruct (cfull n r triangles x) eqn:Ex, (cfull n r triangles y) eqn:Ey.
  - split; [intros [= ->]; auto|]. intros [->|(H & _)]; [reflexivity|]. exfalso. apply H, Fx. reflexivity.
  - split; [discriminate|]. intros [->|(H & _)]; [congruence|]. exfalso. apply H, Fx. reflexivity.
  - split; [discriminate|]. intros [->|(_ & H & _)]; [congruence|]. exfalso. apply H, Fy. reflexivity.
  - split.
    + intros E. injection E as E1 E2. right. split; [rewrite <- Fx; discriminate|]. split; [rewrite <- Fy; discriminate|].
      unfold same_weights. rewrite <- same_weights_perm by (assumption || lia). rewrite <- spairs_eq. apply map_pair_inj; assumption.
    + intros [->|(_ & _ & H)]; [reflexivity|]. assert (E : csp r triangles x = csp r triangles y).
      { apply spairs_eq. apply same_weights_perm; [assumption|assumption|lia|lia|exact H]. }
      rewrite E. reflexivity.
Qed.
Lemma vertex_weight_nth tri r nu i : NoDup tri -> length tri = length nu + 1 -> i < length tri ->
  vertex_weight tri r nu (nth i tri 0) = nth i (weights r nu) 0.
Proof.
  intros HN HL Hi. unfold vertex_weight. fold (weights r nu).
  assert (HK : NoDup (map fst (combine tri (weights r nu)))) by (rewrite map_fst_combine; [exact HN|cbn [weights length]; lia]).
  assert (HIn : In (nth i tri 0, nth i (weights r nu) 0) (combine tri (weights r nu))).
  { rewrite <- combine_nth by (cbn [weights length]; lia). apply nth_In. rewrite combine_length. cbn [weights length]. lia. }
  revert HK HIn. generalize (combine tri (weights r nu)). generalize (nth i tri 0) (nth i (weights r nu) 0). clear.
  intros v w l HK. induction l as [|[a b] l IH]; [intros []|]. cbn [map fst] in HK. apply NoDup_cons_iff in HK as [H1 H2].
  cbn [filter fst]. intros [[= -> ->]|H].
  - rewrite Nat.eqb_refl. cbn [map snd]. rewrite nsum_cons. replace (filter _ l) with (@nil (nat * nat)); [cbn; lia|].
    symmetry. clear -H1. induction l as [|[c d] l IH]; cbn [filter map fst In] in *; [reflexivity|].
    destruct (Nat.eqb_spec c v); [exfalso; apply H1; left; assumption|]. apply IH. tauto.
  - destruct (Nat.eqb_spec a v) as [->|]; [|auto]. exfalso. apply H1. apply (in_map fst) in H. exact H.
Qed.
Lemma same_weights_nu tri r nu nu' : NoDup tri -> length tri = length nu + 1 -> length nu' = length nu ->
  same_weights r tri nu tri nu' -> nu = nu'.
Proof.
  intros HN HL HL' H. apply (list_eq_nth 0); [lia|]. intros i Hi. specialize (H (nth (i + 1) tri 0)).
  rewrite !vertex_weight_nth in H by (auto; lia). rewrite Nat.add_1_r in H. exact H.
Qed.
Lemma vertex_weight_out tri r nu v : ~ In v tri -> vertex_weight tri r nu v = 0.
Proof.
  intros H. unfold vertex_weight. assert (E : filter (fun p : nat * nat => fst p =? v) (combine tri ((r - nsum nu) :: nu)) = []); [|rewrite E; reflexivity].
  assert (G : forall p, In p (combine tri ((r - nsum nu) :: nu)) -> fst p <> v) by (intros [a b] Hp E0; cbn [fst] in E0; rewrite E0 in Hp; apply in_combine_l in Hp; contradiction).
  revert G. generalize (combine tri ((r - nsum nu) :: nu)). induction l as [|p l IH]; intros G; [reflexivity|]. cbn [filter].
  destruct (Nat.eqb_spec (fst p) v) as [E|_]; [exfalso; exact (G p (or_introl eq_refl) E)|]. apply IH. intros q Hq. apply G. right. exact Hq.
Qed.

(** ** Counting *)
Lemma numbered_count (key : local -> local) cls n r ntri f nn N : (forall x, key x = x) ->
  numbered key cls (dom ntri n r) f nn N ->
  (forall L, NoDup L -> (forall x, In x L <-> dom ntri n r x /\ cls x = Int) -> nn = Z.of_nat (length L)) /\
  (forall L, NoDup L -> (forall x, In x L <-> dom ntri n r x /\ cls x <> Skip) -> N = Z.of_nat (length L)).
Proof.
  intros Hkey HN. destruct (n_le _ _ _ _ _ _ HN) as [Hnn HnN].
  assert (G : forall L b, NoDup L -> (0 <= b)%Z -> (forall x, In x L -> dom ntri n r x /\ cls x <> Skip) ->
     (forall x, In x L -> (0 <= f x < b)%Z) -> (forall v, (0 <= v < b)%Z -> exists x, In x L /\ f x = v) -> b = Z.of_nat (length L)).
  { intros L b HL Hb HD HR HO.
    assert (ND : NoDup (map f L)).
    { apply NoDup_map_inj; [|exact HL]. intros x y Hx Hy E. apply (n_key _ _ _ _ _ _ HN) in E; try (apply HD; assumption). rewrite !Hkey in E. exact E. }
    assert (P : Permutation (map f L) (map Z.of_nat (seq 0 (Z.to_nat b)))).
    { apply NoDup_Permutation; [exact ND|apply NoDup_map_inj; [intros; lia|apply seq_NoDup]|].
      intros v. rewrite !in_map_iff. split.
      - intros (x & <- & Hx). exists (Z.to_nat (f x)). specialize (HR x Hx). split; [lia|]. apply in_seq. lia.
      - intros (k & <- & Hk). apply in_seq in Hk. destruct (HO (Z.of_nat k) ltac:(lia)) as (x & Hx & E). exists x. auto. }
    apply Permutation_length in P. rewrite !map_length, seq_length in P. lia. }
  split; intros L HL HI.
  - apply G; auto.
    + intros x Hx. apply HI in Hx as [? E]. rewrite E. split; [assumption|discriminate].
    + intros x Hx. apply HI in Hx as [? E]. apply (n_int _ _ _ _ _ _ HN); assumption.
    + intros v Hv. destruct (n_onto _ _ _ _ _ _ HN v ltac:(lia)) as (x & Hx & Cx & Ex). exists x. split; [|exact Ex]. apply HI. split; [exact Hx|].
      destruct (cls x) eqn:C; [congruence| |reflexivity]. pose proof (n_bnd _ _ _ _ _ _ HN x Hx C). lia.
  - apply G; auto; [lia|apply HI| |].
    + intros x Hx. apply HI in Hx as [Hd C]. destruct (cls x) eqn:E; [congruence| |].
      * pose proof (n_bnd _ _ _ _ _ _ HN x Hd E). lia.
      * pose proof (n_int _ _ _ _ _ _ HN x Hd E). lia.
    + intros v Hv. destruct (n_onto _ _ _ _ _ _ HN v Hv) as (x & Hx & Cx & Ex). exists x. split; [|exact Ex]. apply HI. auto.
Qed.

(** ** Dictionaries with integer keys; inverse maps *)
Lemma zfind_zset {V} k (v : V) d u : zfind u (zset k v d) = if (u =? k)%Z then Some v else zfind u d.
Proof.
  induction d as [|[x w] d IH]; cbn [zset zfind].
  - reflexivity.
  - destruct (Z.eqb_spec k x) as [->|Hk]; cbn [zfind].
    + destruct (u =? x)%Z; reflexivity.
    + rewrite IH. destruct (Z.eqb_spec u x) as [->|]; [|reflexivity]. destruct (Z.eqb_spec x k); [congruence|reflexivity].
Qed.
Section Inverse.
  Context {X : Type} (f : X -> Z) (tau : X -> result Z).
  Definition istep (d : list (Z * X)) (x : X) : result (list (Z * X)) :=
    let* dof := tau x in if (dof =? -1)%Z then Ok d else Ok (zset dof x d).
  Lemma inverse_fold l : (forall x, In x l -> tau x = Ok (f x)) -> forall d, exists d', foldM istep d l = Ok d' /\
    (forall i x, zfind i d' = Some x -> (In x l /\ f x = i /\ i <> (-1)%Z) \/ zfind i d = Some x) /\
    (forall x, In x l -> f x <> (-1)%Z -> exists y, zfind (f x) d' = Some y) /\
    (forall i x, zfind i d = Some x -> exists y, zfind i d' = Some y).
  Proof.
    induction l as [|x l IH]; intros HT d; cbn [foldM].
    - exists d. split; [reflexivity|]. split; [auto|]. split; [intros ? []|eauto].
    - unfold istep at 1. rewrite HT by (left; reflexivity). cbn [bind].
      destruct (Z.eqb_spec (f x) (-1)) as [E|E]; cbn [bind].
      + destruct (IH (fun y Hy => HT y (or_intror Hy)) d) as (d' & E' & A & B & C). exists d'. split; [exact E'|]. split; [|split; [|exact C]].
        * intros i y H. destruct (A i y H) as [(? & ? & ?)|?]; [left; split; [right; assumption|auto]|auto].
        * intros y [<-|Hy] Hne; [congruence|auto].
      + destruct (IH (fun y Hy => HT y (or_intror Hy)) (zset (f x) x d)) as (d' & E' & A & B & C). exists d'. split; [exact E'|]. split; [|split].
        * intros i y H. destruct (A i y H) as [(? & ? & ?)|H']; [left; split; [right; assumption|auto]|].
          rewrite zfind_zset in H'. destruct (Z.eqb_spec i (f x)) as [->|]; [|auto]. injection H' as <-. left. split; [left; reflexivity|auto].
        * intros y [<-|Hy] Hne; [|auto]. apply (C _ x). rewrite zfind_zset, Z.eqb_refl. reflexivity.
        * intros i y H. destruct (Z.eq_dec i (f x)) as [->|Hi].
          -- apply (C _ x). rewrite zfind_zset, Z.eqb_refl. reflexivity.
          -- apply (C _ y). rewrite zfind_zset. destruct (Z.eqb_spec i (f x)); [contradiction|exact H].
  Qed.
  Lemma inverse_dict l : (forall x, In x l -> tau x = Ok (f x)) ->
    (forall x y, In x l -> In y l -> f x <> (-1)%Z -> f x = f y -> x = y) ->
    exists d, foldM istep [] l = Ok d /\ (forall x, In x l -> f x <> (-1)%Z -> zfind (f x) d = Some x) /\
      forall i x, zfind i d = Some x -> In x l /\ f x = i.
  Proof.
    intros HT HI. destruct (inverse_fold l HT []) as (d & E & A & B & _). exists d. split; [exact E|]. split.
    - intros x Hx Hne. destruct (B x Hx Hne) as (y & Hy). destruct (A _ _ Hy) as [(Hy1 & Hy2 & _)|H]; [|discriminate].
      rewrite Hy. f_equal. symmetry. apply HI; auto.
    - intros i x H. destruct (A i x H) as [(? & ? & _)|H']; [auto|discriminate].
  Qed.
End Inverse.

Section PreimageFacts.
  Context {X : Type} (eq_dec : forall x y : X, {x = y} + {x <> y}) (f : X -> Z) (tau : X -> result Z).
  Lemma in_padd x s y : In y (padd eq_dec x s) <-> y = x \/ In y s.
  Proof. unfold padd. destruct (in_dec eq_dec x s); [split; [tauto|intros [->|]; auto]|]. rewrite in_app_iff. cbn [In]. intuition. Qed.
  Lemma NoDup_padd x s : NoDup s -> NoDup (padd eq_dec x s).
  Proof.
    intros H. unfold padd. destruct (in_dec eq_dec x s); [exact H|]. apply NoDup_app_intro; [exact H|repeat constructor; auto|].
    intros y Hy [<-|[]]. contradiction.
  Qed.
  Lemma in_punion u : forall s y, In y (punion eq_dec s u) <-> In y s \/ In y u.
  Proof. unfold punion. induction u as [|x u IH]; intros s y; cbn [fold_left In]; [tauto|]. rewrite IH, in_padd. intuition. Qed.
  Lemma NoDup_punion u : forall s, NoDup s -> NoDup (punion eq_dec s u).
  Proof. unfold punion. induction u as [|x u IH]; intros s H; cbn [fold_left]; [exact H|]. apply IH, NoDup_padd, H. Qed.
  Definition pre_ok (d : list (Z * list X)) (P : list X) : Prop :=
    forall i, match zfind i d with
              | Some s => forall x, In x s <-> In x P /\ f x = i /\ i <> (-1)%Z
              | None => forall x, In x P -> f x = i -> i = (-1)%Z
              end.
  Lemma preimage_fold l : (forall x, In x l -> tau x = Ok (f x)) -> forall d P, pre_ok d P ->
    exists d', foldM (preimage_step eq_dec tau) d l = Ok d' /\ pre_ok d' (P ++ l).
  Proof.
    induction l as [|x l IH]; intros HT d P HP; cbn [foldM].
    - exists d. rewrite app_nil_r. auto.
    - unfold preimage_step at 1. rewrite HT by (left; reflexivity). cbn [bind].
      assert (HX : exists d1, (if (f x =? -1)%Z then Ok d else match zfind (f x) d with
         | Some s => Ok (zset (f x) (padd eq_dec x s) d) | None => Ok (zset (f x) [x] d) end) = Ok d1 /\ pre_ok d1 (P ++ [x])).
      { destruct (Z.eqb_spec (f x) (-1)) as [E|E].
        - exists d. split; [reflexivity|]. intros i. specialize (HP i). destruct (zfind i d).
          + intros y. rewrite HP, in_app_iff. cbn [In]. split; [intuition|]. intros ([H|[<-|[]]] & H2 & H3); [auto|congruence].
          + intros y Hy Ey. apply in_app_iff in Hy as [Hy|[<-|[]]]; [eauto|congruence].
        - pose proof (HP (f x)) as HPx. destruct (zfind (f x) d) as [s|] eqn:Ef.
          + eexists. split; [reflexivity|]. intros i. rewrite zfind_zset. destruct (Z.eqb_spec i (f x)) as [->|Hi].
            * intros y. rewrite in_padd, HPx, in_app_iff. cbn [In]. split; [intros [->|]; intuition|]. intros ([H|[<-|[]]] & H2 & H3); auto.
            * specialize (HP i). destruct (zfind i d).
              -- intros y. rewrite HP, in_app_iff. cbn [In]. split; [intuition|]. intros ([H|[<-|[]]] & H2 & H3); [auto|congruence].
              -- intros y Hy Ey. apply in_app_iff in Hy as [Hy|[<-|[]]]; [eauto|congruence].
          + eexists. split; [reflexivity|]. intros i. rewrite zfind_zset. destruct (Z.eqb_spec i (f x)) as [->|Hi].
            * intros y. rewrite in_app_iff. cbn [In]. split; [intros [<-|[]]; intuition|]. intros ([H|[<-|[]]] & H2 & H3); [|auto].
              exfalso. apply E. exact (HPx y H H2).
            * specialize (HP i). destruct (zfind i d).
              -- intros y. rewrite HP, in_app_iff. cbn [In]. split; [intuition|]. intros ([H|[<-|[]]] & H2 & H3); [auto|congruence].
              -- intros y Hy Ey. apply in_app_iff in Hy as [Hy|[<-|[]]]; [eauto|congruence]. }
      destruct HX as (d1 & E1 & H1). rewrite E1. cbn [bind].
      destruct (IH (fun y Hy => HT y (or_intror Hy)) d1 _ H1) as (d' & E' & H'). exists d'. split; [exact E'|].
      rewrite <- app_assoc in H'. exact H'.
  Qed.
  Lemma preimage_map_spec N d P si : pre_ok d P -> (forall i, In i si -> (0 <= i < N)%Z) ->
    (forall i, (0 <= i < N)%Z -> exists x, In x P /\ f x = i) ->
    exists s, preimage_map eq_dec N d si = Ok s /\ NoDup s /\ forall x, In x s <-> In x P /\ In (f x) si.
  Proof.
    intros HP HS HO. unfold preimage_map.
    assert (G : forall si, (forall i, In i si -> (0 <= i < N)%Z) -> forall acc, NoDup acc -> exists s,
      foldM (fun value i => let* _ := assert_ (0 <=? i)%Z in let* _ := assert_ (i <? N)%Z in
         match zfind i d with Some s => Ok (punion eq_dec value s) | None => Err KeyError end) acc si = Ok s /\ NoDup s /\
      forall x, In x s <-> In x acc \/ (In x P /\ In (f x) si)).
    { clear si HS. induction si as [|i si IH]; intros HS acc HN; cbn [foldM].
      - exists acc. split; [reflexivity|]. split; [exact HN|]. intros x. cbn [In]. tauto.
      - pose proof (HS i (or_introl eq_refl)) as Hi. replace (0 <=? i)%Z with true by (symmetry; apply Z.leb_le; lia).
        replace (i <? N)%Z with true by (symmetry; apply Z.ltb_lt; lia). cbn [assert_ bind]. pose proof (HP i) as HPi.
        destruct (zfind i d) as [s|].
        + cbn [bind]. destruct (IH (fun j Hj => HS j (or_intror Hj)) (punion eq_dec acc s) (NoDup_punion s acc HN)) as (s' & E & HN' & Hs).
          exists s'. split; [exact E|]. split; [exact HN'|]. intros x. rewrite Hs, in_punion, HPi. cbn [In]. split.
          * intros [[H|(H1 & H2 & _)]|[H1 H2]]; auto.
          * intros [H|(H1 & [H2|H2])]; auto. left. right. split; [exact H1|]. split; [auto|lia].
        + exfalso. destruct (HO i Hi) as (x & Hx & E). specialize (HPi x Hx E). lia. }
    destruct (G si HS [] (NoDup_nil _)) as (s & E & HN & Hs). exists s. split; [exact E|]. split; [exact HN|]. intros x. rewrite Hs. cbn [In]. tauto.
  Qed.
End PreimageFacts.
