(** The loops of the local-to-global map generators establish the abstract
    numbering invariant of LocalToGlobalFacts.v. *)
From Verif Require Import Base MultiIndex MultiIndexFacts Permutations PermFacts Simplicial Orient ChainFacts SimplicialFacts SimplicialFacts2.
From Verif Require Import LocalToGlobal LocalToGlobalFacts.

Definition local := (nat * list nat)%type.
Definition valof (maps : list (list (list nat * Z))) (x : local) : option Z := dict_find (snd x) (nth (fst x) maps []).

Lemma valof_snoc_nil maps x : valof (maps ++ [[]]) x = valof maps x.
Proof.
  unfold valof. destruct (Nat.ltb_spec (fst x) (length maps)).
  - rewrite app_nth1 by assumption. reflexivity.
  - rewrite app_nth2, (nth_overflow maps) by assumption. destruct (fst x - length maps) as [|[|k]]; reflexivity.
Qed.
Lemma valof_set maps mi v d : ext_at (valof (maps ++ [d])) (valof (maps ++ [dict_set mi v d])) (length maps, mi) v.
Proof.
  split.
  - unfold valof. cbn [fst snd]. rewrite app_nth2, Nat.sub_diag by lia. cbn [nth]. rewrite dict_find_set, leqb_refl. reflexivity.
  - intros [j nu] Hne. unfold valof. cbn [fst snd]. destruct (Nat.ltb_spec j (length maps)).
    + rewrite !app_nth1 by assumption. reflexivity.
    + rewrite !app_nth2 by assumption. destruct (j - length maps) as [|k] eqn:E; [|destruct k; reflexivity]. cbn [nth].
      rewrite dict_find_set. destruct (leqb nu mi) eqn:El; [|reflexivity]. apply leqb_eq in El as ->. exfalso. apply Hne. f_equal. lia.
Qed.

Section Sim.
  Context {K : Type} (key : local -> K) (cls : local -> cl).
  Hypothesis key_cls : forall x y, key x = key y -> cls x = cls y.
  Variable triangles : list (list nat).
  Variable mis : list (list nat).
  Variable step : list nat -> lstate -> list nat -> result lstate.
  Variable extra : list (list nat * list (list nat * Z)) -> list local -> (local -> option Z) -> Prop.
  Hypothesis extra_ext : forall s P val val', (forall x, val x = val' x) -> extra s P val -> extra s P val'.
  Hypothesis extra_init : extra [] [] (fun _ => None).
  Definition SI (maps : list (list (list nat * Z))) (st : lstate) (P : list local) : Prop :=
    inv key cls (valof (maps ++ [l_dict st])) P (l_glob st) (l_bnd st) /\
    Forall (fun d => NoDup (map fst d)) (maps ++ [l_dict st]) /\
    extra (l_sub st) P (valof (maps ++ [l_dict st])).
  Hypothesis step_ok : forall maps st P mi, length maps < length triangles -> In mi mis ->
    SI maps st P -> ~ In (length maps, mi) P ->
    exists st', step (nth (length maps) triangles []) st mi = Ok st' /\ SI maps st' (P ++ [(length maps, mi)]).

  Lemma mis_fold maps l : length maps < length triangles -> incl l mis -> NoDup l -> forall st P, SI maps st P ->
    (forall mi, In mi l -> ~ In (length maps, mi) P) ->
    exists st', foldM (step (nth (length maps) triangles [])) st l = Ok st' /\
      SI maps st' (P ++ map (fun mi => (length maps, mi)) l).
  Proof.
    intros Hj. induction l as [|mi l IH]; intros Hl HN st P HS HP; cbn [foldM map].
    - exists st. rewrite app_nil_r. split; [reflexivity|exact HS].
    - apply NoDup_cons_iff in HN as [HN1 HN2].
      destruct (step_ok maps st P mi Hj (Hl _ (or_introl eq_refl)) HS (HP _ (or_introl eq_refl))) as (st1 & E1 & HS1).
      rewrite E1. cbn [bind].
      destruct (IH (fun m Hm => Hl m (or_intror Hm)) HN2 st1 _ HS1) as (st2 & E2 & HS2).
      + intros m Hm H. apply in_app_iff in H as [H|[[= ->]|[]]]; [|contradiction]. exact (HP m (or_intror Hm) H).
      + exists st2. split; [exact E2|]. rewrite <- app_assoc in HS2. exact HS2.
  Qed.

  Lemma SI_next maps st P : SI maps st P -> SI (maps ++ [l_dict st]) (mkL [] (l_glob st) (l_bnd st) (l_sub st)) P.
  Proof.
    intros (H1 & H2 & H3). unfold SI. cbn [l_dict l_glob l_bnd l_sub].
    assert (E : forall x, valof (maps ++ [l_dict st]) x = valof ((maps ++ [l_dict st]) ++ [[]]) x) by (intros x; rewrite valof_snoc_nil; reflexivity).
    split; [|split].
    - eapply inv_ext; [exact E|exact H1].
    - apply Forall_app. split; [exact H2|]. constructor; [constructor|constructor].
    - eapply extra_ext; [exact E|exact H3].
  Qed.

  Hypothesis mis_nodup : NoDup mis.
  Lemma tri_fold ts : forall maps st P, triangles = firstn (length maps) triangles ++ ts -> length maps <= length triangles ->
    (inv key cls (valof maps) P (l_glob st) (l_bnd st) /\ Forall (fun d => NoDup (map fst d)) maps /\ extra (l_sub st) P (valof maps)) ->
    P = local_indices (length maps) mis ->
    exists maps' st', foldM (tri_step step mis) (maps, st) ts = Ok (maps', st') /\
      length maps' = length triangles /\
      inv key cls (valof maps') (local_indices (length triangles) mis) (l_glob st') (l_bnd st') /\
      Forall (fun d => NoDup (map fst d)) maps'.
  Proof.
    induction ts as [|t ts IH]; intros maps st P Et HL HS HP.
    - rewrite app_nil_r in Et. assert (length maps = length triangles) by (rewrite Et, firstn_length; lia).
      exists maps, st. split; [reflexivity|]. split; [assumption|]. rewrite <- H, <- HP. tauto.
    - assert (Hlen : length maps < length triangles).
      { apply (f_equal (@length _)) in Et. rewrite app_length, firstn_length in Et. cbn [length] in Et. lia. }
      assert (Ht : nth (length maps) triangles [] = t).
      { rewrite Et. rewrite app_nth2 by (rewrite firstn_length; lia). rewrite firstn_length, Nat.min_l, Nat.sub_diag by lia. reflexivity. }
      cbn [foldM]. unfold tri_step at 1. cbn [fst snd].
      set (st0 := mkL [] (l_glob st) (l_bnd st) (l_sub st)).
      assert (HS0 : SI maps st0 P).
      { destruct HS as (A & B & C). unfold SI, st0. cbn [l_dict l_glob l_bnd l_sub]. split; [|split].
        - eapply inv_ext; [|exact A]. intros x. symmetry. apply valof_snoc_nil.
        - apply Forall_app. split; [exact B|]. constructor; [constructor|constructor].
        - eapply extra_ext; [|exact C]. intros x. symmetry. apply valof_snoc_nil. }
      destruct (mis_fold maps mis Hlen (incl_refl _) mis_nodup st0 P HS0) as (st1 & E1 & HS1).
      { intros mi Hmi H. rewrite HP in H. unfold local_indices in H. apply in_flat_map in H as (j & Hj & H).
        apply in_map_iff in H as (nu & [= -> _] & _). apply in_seq in Hj. lia. }
      rewrite Ht in E1. rewrite E1. cbn [bind].
      destruct (IH (maps ++ [l_dict st1]) st1 (P ++ map (fun mi => (length maps, mi)) mis)) as (maps' & st' & E & R).
      + rewrite app_length. cbn [length]. rewrite Et at 1. rewrite <- (firstn_skipn 1 (t :: ts)), app_assoc. f_equal.
        cbn [firstn]. rewrite Nat.add_1_r.
        assert (Hf : firstn (S (length maps)) triangles = firstn (length maps) triangles ++ [t]).
        { clear -Ht Hlen. revert Ht Hlen. generalize (length maps). intros k. revert k.
          induction triangles as [|a l IHl]; intros [|k] Ht Hlen; cbn [length nth firstn app] in *; try lia.
          - destruct l; cbn [firstn]; congruence.
          - f_equal. apply IHl; [exact Ht|lia]. }
        rewrite Hf. reflexivity.
      + rewrite app_length. cbn [length]. lia.
      + exact HS1.
      + rewrite app_length. cbn [length]. unfold local_indices. rewrite seq_app, flat_map_app. cbn [seq flat_map].
        rewrite app_nil_r, HP. reflexivity.
      + exists maps', st'. split; [exact E|exact R].
  Qed.
  Lemma sim : exists maps st, foldM (tri_step step mis) ([], mkL [] 0 (-1) []) triangles = Ok (maps, st) /\
    length maps = length triangles /\
    inv key cls (valof maps) (local_indices (length triangles) mis) (l_glob st) (l_bnd st) /\
    Forall (fun d => NoDup (map fst d)) maps.
  Proof.
    apply (tri_fold triangles [] (mkL [] 0 (-1) []) []); [reflexivity|cbn; lia| |reflexivity].
    assert (E : forall x, (fun _ : local => @None Z) x = valof [] x) by (intros [[|j] nu]; reflexivity).
    split; [|split].
    - eapply inv_ext; [exact E|]. cbn [l_glob l_bnd]. constructor; [lia|lia|intros x []|intros x []|intros x []|reflexivity|intros x y []|intros v Hv; lia].
    - constructor.
    - eapply extra_ext; [exact E|exact extra_init].
  Qed.
End Sim.

(** ** The final step *)
Definition dom (ntri n r : nat) (x : local) : Prop := fst x < ntri /\ length (snd x) = n /\ nsum (snd x) <= r.
Lemma in_local_indices ntri n r x : In x (local_indices ntri (all_mi n r)) <-> dom ntri n r x.
Proof.
  unfold local_indices, dom. rewrite in_flat_map. split.
  - intros (j & Hj & H). apply in_map_iff in H as (nu & <- & H). apply in_seq in Hj. apply in_all_mi in H. cbn [fst snd]. split; [lia|exact H].
  - intros (H1 & H2). exists (fst x). split; [apply in_seq; lia|]. apply in_map_iff. exists (snd x). split; [destruct x; reflexivity|].
    apply in_all_mi. exact H2.
Qed.
Lemma NoDup_local_indices ntri mis : NoDup mis -> NoDup (local_indices ntri mis).
Proof.
  intros HN. apply NoDup_flat_map; [apply seq_NoDup| |].
  - intros j _. apply NoDup_map_inj; [congruence|exact HN].
  - intros i j b _ _ Hi Hj. apply in_map_iff in Hi as (? & <- & _). apply in_map_iff in Hj as (? & E & _). congruence.
Qed.
Lemma length_local_indices ntri mis : length (local_indices ntri mis) = ntri * length mis.
Proof.
  unfold local_indices. rewrite <- (seq_length ntri 0) at 2. induction (seq 0 ntri) as [|j l IH]; cbn; [reflexivity|].
  rewrite app_length, map_length, IH. reflexivity.
Qed.

Definition maxneg (m : Z) (d : list (list nat * Z)) : Z :=
  fold_left (fun m kv => if (snd kv <? 0)%Z then Z.max m (- snd kv) else m) d m.
Lemma maxneg_spec d : forall m, (m <= maxneg m d)%Z /\ (forall kv, In kv d -> (- snd kv <= maxneg m d)%Z \/ (0 <= snd kv)%Z) /\
  (maxneg m d = m \/ exists kv, In kv d /\ (snd kv < 0)%Z /\ maxneg m d = (- snd kv)%Z).
Proof.
  induction d as [|kv d IH]; intros m; unfold maxneg in *; cbn [fold_left].
  - split; [lia|]. split; [intros kv []|auto].
  - set (m' := if (snd kv <? 0)%Z then Z.max m (- snd kv) else m). destruct (IH m') as (H1 & H2 & H3).
    assert (Hm : (m <= m')%Z) by (unfold m'; destruct (snd kv <? 0)%Z; lia). split; [lia|]. split.
    + intros kv' [<-|H]; [|auto]. unfold m' in *. destruct (Z.ltb_spec (snd kv) 0); [left; lia|right; lia].
    + destruct H3 as [H3|(kv' & ? & ? & ?)]; [|right; exists kv'; cbn [In]; auto]. unfold m' in H3 at 2.
      destruct (Z.ltb_spec (snd kv) 0); [|left; exact H3]. destruct (Z.max_spec m (- snd kv)) as [[_ E]|[_ E]]; rewrite E in H3; [|left; exact H3].
      right. exists kv. cbn [In]. auto.
Qed.
Lemma num_boundary_spec maps : (0 <= num_boundary maps)%Z /\
  (forall d kv, In d maps -> In kv d -> (- snd kv <= num_boundary maps)%Z \/ (0 <= snd kv)%Z) /\
  (num_boundary maps = 0%Z \/ exists d kv, In d maps /\ In kv d /\ (snd kv < 0)%Z /\ num_boundary maps = (- snd kv)%Z).
Proof.
  assert (G : forall maps m, let nb := fold_left maxneg maps m in (m <= nb)%Z /\
    (forall d kv, In d maps -> In kv d -> (- snd kv <= nb)%Z \/ (0 <= snd kv)%Z) /\
    (nb = m \/ exists d kv, In d maps /\ In kv d /\ (snd kv < 0)%Z /\ nb = (- snd kv)%Z)).
  { clear. induction maps as [|d maps IH]; intros m; cbn [fold_left].
    - split; [lia|]. split; [intros ? ? []|auto].
    - destruct (maxneg_spec d m) as (A & B & C). destruct (IH (maxneg m d)) as (H1 & H2 & H3). cbn zeta in *. split; [lia|]. split.
      + intros d' kv [<-|Hd] Hkv; [destruct (B kv Hkv); lia|eauto].
      + destruct H3 as [H3|(d' & kv & ? & ? & ? & ?)]; [|right; exists d', kv; cbn [In]; auto].
        destruct C as [C|(kv & ? & ? & ?)]; [left; congruence|]. right. exists d, kv. cbn [In]. split; [auto|]. split; [auto|]. split; [auto|congruence]. }
  exact (G maps 0%Z).
Qed.
Lemma find_renumber nn nu d : dict_find nu (renumber nn d) =
  option_map (fun v => if (v <? 0)%Z then (nn + (- v) - 1)%Z else v) (dict_find nu d).
Proof.
  unfold renumber. induction d as [|[k v] d IH]; cbn [map dict_find option_map]; [reflexivity|].
  cbn [snd fst]. destruct (v <? 0)%Z eqn:E; cbn [dict_find]; destruct (leqb nu k); cbn [option_map]; rewrite ?E; auto.
Qed.

(** Final numbering: [nn] functions of class [Int] come first, then those of
    class [Bnd]; a skipped function has value -1. *)
Record numbered {K} (key : local -> K) (cls : local -> cl) (D : local -> Prop) (f : local -> Z) (nn N : Z) : Prop := mkNum {
  n_le : (0 <= nn <= N)%Z;
  n_skip : forall x, D x -> cls x = Skip -> f x = (-1)%Z;
  n_int : forall x, D x -> cls x = Int -> (0 <= f x < nn)%Z;
  n_bnd : forall x, D x -> cls x = Bnd -> (nn <= f x < N)%Z;
  n_onto : forall v, (0 <= v < N)%Z -> exists x, D x /\ cls x <> Skip /\ f x = v;
  n_key : forall x y, D x -> D y -> cls x <> Skip -> cls y <> Skip -> (f x = f y <-> key x = key y) }.
Definition tval (maps : list (list (list nat * Z))) (x : local) : Z := match valof maps x with Some v => v | None => (-1)%Z end.

Lemma finish_spec {K} (key : local -> K) cls keep ntri n r maps st :
  inv key cls (valof maps) (local_indices ntri (all_mi n r)) (l_glob st) (l_bnd st) ->
  Forall (fun d => NoDup (map fst d)) maps -> length maps = ntri ->
  (keep = true -> forall x, cls x <> Skip) -> (keep = false -> forall x, cls x <> Bnd) ->
  exists maps' N nonb, finish keep (maps, st) = (maps', N, nonb) /\ length maps' = ntri /\
    numbered key cls (dom ntri n r) (tval maps') (match nonb with Some c => c | None => N end) N /\
    (nonb = None <-> keep = false).
Proof.
  intros HI HK HL Hk1 Hk2. unfold finish. pose proof (i_g _ _ _ _ _ _ HI) as Hg. pose proof (i_b _ _ _ _ _ _ HI) as Hb.
  assert (D : forall x, dom ntri n r x <-> In x (local_indices ntri (all_mi n r))) by (intros x; symmetry; apply in_local_indices).
  destruct keep.
  - specialize (Hk1 eq_refl). eexists _, _, _. split; [reflexivity|]. split; [rewrite map_length; exact HL|]. split; [|split; discriminate].
    assert (NB : num_boundary maps = (- l_bnd st - 1)%Z).
    { destruct (num_boundary_spec maps) as (H0 & H1 & H2).
      assert (Hin : forall x v, valof maps x = Some v -> exists d kv, In d maps /\ In kv d /\ snd kv = v).
      { intros [j nu] v E. unfold valof in E. cbn [fst snd] in E. exists (nth j maps []), (nu, v).
        apply dict_find_in in E. split; [|split; [exact E|reflexivity]]. apply nth_In. destruct (Nat.ltb_spec j (length maps)); [assumption|].
        rewrite nth_overflow in E by assumption. destruct E. }
      assert (Hout : forall d kv, In d maps -> In kv d -> (l_bnd st < snd kv < l_glob st)%Z).
      { intros d [nu v] Hd Hkv. apply (In_nth _ _ []) in Hd as (j & Hj & Ej). rewrite Forall_forall in HK.
        assert (E : valof maps (j, nu) = Some v).
        { unfold valof. cbn [fst snd]. rewrite Ej. apply dict_in_find; [|exact Hkv]. apply HK. rewrite <- Ej. apply nth_In. exact Hj. }
        destruct (in_dec local_dec (j, nu) (local_indices ntri (all_mi n r))) as [Hx|Hx].
        - destruct (inv_nonskip _ _ _ _ _ _ _ HI Hx (Hk1 _)) as (v' & E' & Hv). rewrite E in E'. injection E' as <-. exact Hv.
        - rewrite (i_out _ _ _ _ _ _ HI _ Hx) in E. discriminate. }
      destruct (Z.eq_dec (l_bnd st) (-1)) as [Eb|Eb].
      - destruct H2 as [->|(d & kv & Hd & Hkv & Hneg & _)]; [lia|]. specialize (Hout d kv Hd Hkv). lia.
      - destruct (i_onto _ _ _ _ _ _ HI (l_bnd st + 1)%Z ltac:(lia)) as (x & _ & E). destruct (Hin x _ E) as (d & kv & Hd & Hkv & Ekv).
        specialize (H1 d kv Hd Hkv). destruct H2 as [H2|(d' & kv' & Hd' & Hkv' & Hneg & H2)]; [lia|].
        specialize (Hout d' kv' Hd' Hkv'). lia. }
    rewrite NB. assert (EV : forall x, dom ntri n r x -> exists v, valof maps x = Some v /\ (l_bnd st < v < l_glob st)%Z /\
       tval (map (renumber (l_glob st)) maps) x = (if (v <? 0)%Z then (l_glob st + (- v) - 1)%Z else v)).
    { intros x Hx. destruct (inv_nonskip _ _ _ _ _ _ x HI (proj1 (D x) Hx) (Hk1 x)) as (v & E & Hv). exists v. split; [exact E|]. split; [exact Hv|].
      unfold tval, valof in *. destruct Hx as [Hx _]. rewrite (nth_map_in _ _ _ []) by lia. rewrite find_renumber, E. reflexivity. }
    constructor.
    + lia.
    + intros x _ E. exfalso. exact (Hk1 x E).
    + intros x Hx E. destruct (EV x Hx) as (v & E1 & Hv & ->). destruct (i_int _ _ _ _ _ _ HI x (proj1 (D x) Hx) E) as (v' & E2 & Hv').
      rewrite E1 in E2. injection E2 as <-. destruct (Z.ltb_spec v 0); lia.
    + intros x Hx E. destruct (EV x Hx) as (v & E1 & Hv & ->). destruct (i_bnd _ _ _ _ _ _ HI x (proj1 (D x) Hx) E) as (v' & E2 & Hv').
      rewrite E1 in E2. injection E2 as <-. destruct (Z.ltb_spec v 0); lia.
    + intros v Hv. destruct (Z.ltb_spec v (l_glob st)).
      * destruct (i_onto _ _ _ _ _ _ HI v ltac:(lia)) as (x & Hx & E). exists x. rewrite D. split; [exact Hx|]. split; [apply Hk1|].
        destruct (EV x) as (v' & E1 & Hv' & ->); [apply D; exact Hx|]. rewrite E in E1. injection E1 as <-. destruct (Z.ltb_spec v 0); lia.
      * destruct (i_onto _ _ _ _ _ _ HI (l_glob st - v - 1)%Z ltac:(lia)) as (x & Hx & E). exists x. rewrite D. split; [exact Hx|]. split; [apply Hk1|].
        destruct (EV x) as (v' & E1 & Hv' & ->); [apply D; exact Hx|]. rewrite E in E1. injection E1 as <-. destruct (Z.ltb_spec (l_glob st - v - 1) 0); lia.
    + intros x y Hx Hy Cx Cy. rewrite <- (i_key _ _ _ _ _ _ HI x y (proj1 (D x) Hx) (proj1 (D y) Hy) Cx Cy).
      destruct (EV x Hx) as (v & E1 & Hv & ->), (EV y Hy) as (w & E2 & Hw & ->). rewrite E1, E2.
      destruct (Z.ltb_spec v 0), (Z.ltb_spec w 0); split; intros E; try (injection E as E); f_equal; try lia.
  - specialize (Hk2 eq_refl). eexists _, _, _. split; [reflexivity|]. split; [exact HL|]. split; [|split; reflexivity].
    assert (Eb : l_bnd st = (-1)%Z).
    { destruct (Z.eq_dec (l_bnd st) (-1)) as [Eb|Eb]; [exact Eb|exfalso].
      destruct (i_onto _ _ _ _ _ _ HI (l_bnd st + 1)%Z ltac:(lia)) as (x & Hx & E). destruct (cls x) eqn:C.
      - rewrite (i_skip _ _ _ _ _ _ HI x Hx C) in E. discriminate.
      - exact (Hk2 x C).
      - destruct (i_int _ _ _ _ _ _ HI x Hx C) as (v & E' & Hv). rewrite E in E'. injection E' as <-. lia. }
    assert (EV : forall x v, valof maps x = Some v -> tval maps x = v) by (intros x v E; unfold tval; rewrite E; reflexivity).
    constructor.
    + lia.
    + intros x Hx E. unfold tval. rewrite (i_skip _ _ _ _ _ _ HI x (proj1 (D x) Hx) E). reflexivity.
    + intros x Hx E. destruct (i_int _ _ _ _ _ _ HI x (proj1 (D x) Hx) E) as (v & E' & Hv). rewrite (EV x v E'). exact Hv.
    + intros x _ E. exfalso. exact (Hk2 x E).
    + intros v Hv. destruct (i_onto _ _ _ _ _ _ HI v ltac:(lia)) as (x & Hx & E). exists x. rewrite D. split; [exact Hx|]. split; [|apply EV; exact E].
      intros C. rewrite (i_skip _ _ _ _ _ _ HI x Hx C) in E. discriminate.
    + intros x y Hx Hy Cx Cy. rewrite <- (i_key _ _ _ _ _ _ HI x y (proj1 (D x) Hx) (proj1 (D y) Hy) Cx Cy).
      destruct (inv_nonskip _ _ _ _ _ _ x HI (proj1 (D x) Hx) Cx) as (v & E1 & _).
      destruct (inv_nonskip _ _ _ _ _ _ y HI (proj1 (D y) Hy) Cy) as (w & E2 & _).
      rewrite (EV x v E1), (EV y w E2), E1, E2. split; congruence.
Qed.

(** ** The discontinuous map *)
Definition mesh (n : nat) (triangles : list (list nat)) : Prop :=
  triangles <> [] /\ forall t, In t triangles -> length t = n + 1 /\ NoDup t.
Definition dkey (r : nat) (triangles : list (list nat)) (x : local) : list nat :=
  let tri := nth (fst x) triangles [] in if 0 <? r then map fst (spairs tri r (snd x)) else sorted tri.
Definition dcls (bsub : list (list nat)) (keep : bool) (r : nat) (triangles : list (list nat)) (x : local) : cl :=
  if tuple_mem (dkey r triangles x) bsub then (if keep then Bnd else Skip) else Int.
Lemma mesh_nth n triangles j : mesh n triangles -> j < length triangles ->
  length (nth j triangles []) = n + 1 /\ NoDup (nth j triangles []).
Proof. intros [_ H] Hj. apply H, nth_In, Hj. Qed.

Lemma disc_key_eq n r triangles x : mesh n triangles -> dom (length triangles) n r x ->
  disc_key r (nth (fst x) triangles []) (snd x) = Ok (dkey r triangles x).
Proof.
  intros HM (Hj & HL & Hn). destruct (mesh_nth n triangles (fst x) HM Hj) as [HT _]. unfold disc_key, dkey.
  destruct (Nat.ltb_spec 0 r); [|reflexivity].
  rewrite associated_eq by lia. cbn [bind]. rewrite sort_zip_eq by lia. reflexivity.
Qed.
Lemma disc_sim n r bsub keep triangles : mesh n triangles ->
  exists maps st, foldM (tri_step (disc_step bsub keep r) (all_mi n r)) ([], mkL [] 0 (-1) []) triangles = Ok (maps, st) /\
    length maps = length triangles /\
    inv (fun x => x) (dcls bsub keep r triangles) (valof maps) (local_indices (length triangles) (all_mi n r)) (l_glob st) (l_bnd st) /\
    Forall (fun d => NoDup (map fst d)) maps.
Proof.
  intros HM. apply (sim (fun x => x) (dcls bsub keep r triangles) triangles (all_mi n r) (disc_step bsub keep r) (fun _ _ _ => True)); auto.
  - intros maps st P mi HL Hmi (H1 & H2 & _) HP.
    assert (HD : dom (length triangles) n r (length maps, mi)) by (apply in_all_mi in Hmi; split; [exact HL|exact Hmi]).
    pose proof (disc_key_eq n r triangles (length maps, mi) HM HD) as EK. cbn [fst snd] in EK.
    unfold disc_step. rewrite EK. cbn [bind].
    assert (HC : dcls bsub keep r triangles (length maps, mi) = if tuple_mem (dkey r triangles (length maps, mi)) bsub then (if keep then Bnd else Skip) else Int) by reflexivity.
    assert (HF : forall v, Forall (fun d : list (list nat * Z) => NoDup (map fst d)) (maps ++ [dict_set mi v (l_dict st)])).
    { intros v. apply Forall_app in H2 as [H2 H3]. apply Forall_app. split; [exact H2|]. constructor; [|constructor].
      apply dict_set_keys. apply Forall_cons_iff in H3. apply H3. }
    assert (HN : forall y, In y P -> dcls bsub keep r triangles y <> Skip -> y <> (length maps, mi)) by (intros y Hy _ ->; contradiction).
    destruct (tuple_mem _ bsub).
    + destruct keep; cbn [negb].
      * eexists. split; [reflexivity|]. split; [|split; [apply HF|exact I]]. cbn [l_dict l_glob l_bnd].
        apply (inv_new _ _ _ _ _ _ _ _ _ _ _ H1 HP (valof_set maps mi _ _) HN). right. auto.
      * eexists. split; [reflexivity|]. split; [|split; [exact H2|exact I]]. apply inv_skip; auto.
    + eexists. split; [reflexivity|]. split; [|split; [apply HF|exact I]]. cbn [l_dict l_glob l_bnd].
      apply (inv_new _ _ _ _ _ _ _ _ _ _ _ H1 HP (valof_set maps mi _ _) HN). left. auto.
  - apply NoDup_all_mi.
Qed.
Lemma make_tau_eq ntri maps x : fst x < ntri -> make_tau ntri maps (Z.of_nat (fst x)) (snd x) = Ok (tval maps x).
Proof.
  intros H. unfold make_tau, tval, valof. replace (0 <=? Z.of_nat (fst x))%Z with true by (symmetry; apply Z.leb_le; lia).
  replace (Z.of_nat (fst x) <? Z.of_nat ntri)%Z with true by (symmetry; apply Z.ltb_lt; lia). cbn [assert_ bind]. rewrite Nat2Z.id.
  destruct (dict_find _ _); reflexivity.
Qed.
Lemma make_tau_range ntri maps j nu : ~ (0 <= j < Z.of_nat ntri)%Z -> make_tau ntri maps j nu = Err AssertionError.
Proof. intros H. unfold make_tau. destruct (Z.leb_spec 0 j); [|reflexivity]. destruct (Z.ltb_spec j (Z.of_nat ntri)); [lia|reflexivity]. Qed.
Lemma get_first n triangles : mesh n triangles -> exists t0, get triangles 0 = Ok t0 /\ length t0 - 1 = n.
Proof.
  intros [H1 H2]. destruct triangles as [|t ts]; [congruence|]. exists t. split; [reflexivity|].
  destruct (H2 t (or_introl eq_refl)) as [H _]. lia.
Qed.
(** [tau_val tau x]: the value of the callable at an index where it does not raise. *)
Definition tau_at (tau : tau_fn) (x : local) : Z := match tau (Z.of_nat (fst x)) (snd x) with Ok v => v | Err _ => (-7)%Z end.

Lemma numbered_ext {K} (key key' : local -> K) cls cls' (D : local -> Prop) (f f' : local -> Z) nn N :
  (forall x, D x -> f x = f' x) -> (forall x, D x -> cls x = cls' x) -> (forall x, D x -> key x = key' x) ->
  numbered key cls D f nn N -> numbered key' cls' D f' nn N.
Proof.
  intros Ef Ec Ek [A B C E F G]. constructor; auto; intros.
  - rewrite <- Ef by assumption. apply B; [assumption|]. rewrite Ec; assumption.
  - rewrite <- Ef by assumption. apply C; [assumption|]. rewrite Ec; assumption.
  - rewrite <- Ef by assumption. apply E; [assumption|]. rewrite Ec; assumption.
  - destruct (F v H) as (x & Hx & Cx & Ex). exists x. rewrite <- Ef, <- Ec by assumption. auto.
  - rewrite <- !Ef, <- !Ek by assumption. apply G; try rewrite Ec; assumption.
Qed.
Theorem disc_map_spec n r bs bsub keep triangles : mesh n triangles -> boundary_subs bs = Ok bsub ->
  exists tau N nonb, generate_local_to_global_map false triangles r bs keep = Ok (tau, N, nonb) /\
    (forall x, fst x < length triangles -> exists v, tau (Z.of_nat (fst x)) (snd x) = Ok v) /\
    (forall j nu, ~ (0 <= j < Z.of_nat (length triangles))%Z -> tau j nu = Err AssertionError) /\
    (nonb = None <-> keep = false) /\
    numbered (fun x => x) (dcls bsub keep r triangles) (dom (length triangles) n r) (tau_at tau)
      (match nonb with Some c => c | None => N end) N.
Proof.
  intros HM Hb. unfold generate_local_to_global_map, disc_dictionaries. destruct (get_first n triangles HM) as (t0 & E0 & En).
  rewrite E0. cbn [bind]. rewrite Hb. cbn [bind]. rewrite En, generate_all_eq. cbn [bind].
  destruct (disc_sim n r bsub keep triangles HM) as (maps & st & E & HL & HI & HF). rewrite E. cbn [bind].
  destruct (finish_spec (fun x => x) (dcls bsub keep r triangles) keep (length triangles) n r maps st HI HF HL) as (maps' & N & nonb & EF & HL' & HN & Hk).
  - intros -> x. unfold dcls. destruct (tuple_mem _ _); discriminate.
  - intros -> x. unfold dcls. destruct (tuple_mem _ _); discriminate.
  - rewrite EF. eexists _, _, _. split; [reflexivity|]. split; [intros x Hx; eexists; apply make_tau_eq; exact Hx|]. split; [apply make_tau_range|]. split; [exact Hk|].
    eapply numbered_ext; [..|exact HN]; auto. intros x [Hx _]. unfold tau_at. rewrite make_tau_eq by exact Hx. reflexivity.
Qed.
