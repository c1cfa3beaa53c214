(** The continuous local-to-global map. *)
From Verif Require Import Base MultiIndex MultiIndexFacts Permutations PermFacts Simplicial Orient ChainFacts SimplicialFacts SimplicialFacts2.
From Verif Require Import LocalToGlobal LocalToGlobalFacts LocalToGlobalSim.

Definition cfull (n r : nat) (triangles : list (list nat)) (x : local) : bool :=
  length (wpairs (nth (fst x) triangles []) r (snd x)) =? n + 1.
Definition csp (r : nat) (triangles : list (list nat)) (x : local) := spairs (nth (fst x) triangles []) r (snd x).
Definition ckey (n r : nat) (triangles : list (list nat)) (x : local) : local + list nat * list nat :=
  if cfull n r triangles x then inl x else inr (map fst (csp r triangles x), map snd (csp r triangles x)).
Definition cinb (bsub : list (list nat)) (r : nat) (triangles : list (list nat)) (x : local) : bool :=
  tuple_mem (map fst (csp r triangles x)) bsub.
Definition ccls (bsub : list (list nat)) (keep : bool) (n r : nat) (triangles : list (list nat)) (x : local) : cl :=
  if cinb bsub r triangles x && negb keep then Skip
  else if cfull n r triangles x then Int else if cinb bsub r triangles x then Bnd else Int.
Lemma ckey_cls bsub keep n r triangles x y : ckey n r triangles x = ckey n r triangles y ->
  ccls bsub keep n r triangles x = ccls bsub keep n r triangles y.
Proof.
  unfold ckey, ccls, cinb. destruct (cfull n r triangles x) eqn:Ex, (cfull n r triangles y) eqn:Ey; intros E; try discriminate.
  - injection E as ->. reflexivity.
  - injection E as -> _. reflexivity.
Qed.
Definition find2 (ss ms : list nat) (sub : list (list nat * list (list nat * Z))) : option Z :=
  match dict_find ss sub with None => None | Some d => dict_find ms d end.
Lemma find2_default ss sub s m : find2 s m (match dict_find ss sub with None => dict_set ss [] sub | Some _ => sub end) = find2 s m sub.
Proof.
  destruct (dict_find ss sub) eqn:E; [reflexivity|]. unfold find2. rewrite dict_find_set. destruct (leqb s ss) eqn:El; [|reflexivity].
  apply leqb_eq in El as ->. rewrite E. reflexivity.
Qed.
Lemma find2_set ss ms v sub s m :
  find2 s m (dict_set ss (dict_set ms v (match dict_find ss sub with None => [] | Some d => d end)) sub) =
  if leqb s ss && leqb m ms then Some v else find2 s m sub.
Proof.
  unfold find2. rewrite dict_find_set. destruct (leqb s ss) eqn:E; cbn [andb]; [|reflexivity]. apply leqb_eq in E as ->.
  rewrite dict_find_set. destruct (leqb m ms); [reflexivity|]. destruct (dict_find ss sub); reflexivity.
Qed.
Definition cextra bsub keep n r triangles (sub : list (list nat * list (list nat * Z))) (P : list local) (val : local -> option Z) : Prop :=
  forall ss ms v, find2 ss ms sub = Some v <->
    exists y, In y P /\ ccls bsub keep n r triangles y <> Skip /\ ckey n r triangles y = inr (ss, ms) /\ val y = Some v.

Lemma cextra_skip bsub keep n r triangles sub P val x : ccls bsub keep n r triangles x = Skip ->
  cextra bsub keep n r triangles sub P val -> cextra bsub keep n r triangles sub (P ++ [x]) val.
Proof.
  intros Hx H ss ms v. rewrite (H ss ms v). split; intros (y & Hy & R); exists y.
  - rewrite in_app_iff. auto.
  - apply in_app_iff in Hy as [Hy|[<-|[]]]; [auto|]. destruct R as [R _]. contradiction.
Qed.
Lemma cextra_full bsub keep n r triangles sub P val val' x w : cfull n r triangles x = true -> ~ In x P -> ext_at val val' x w ->
  cextra bsub keep n r triangles sub P val -> cextra bsub keep n r triangles sub (P ++ [x]) val'.
Proof.
  intros Hx HP [E1 E2] H ss ms v. rewrite (H ss ms v). split; intros (y & Hy & R1 & R2 & R3); exists y.
  - rewrite in_app_iff, E2 by (intros ->; contradiction). auto.
  - apply in_app_iff in Hy as [Hy|[<-|[]]].
    + rewrite E2 in R3 by (intros ->; contradiction). auto.
    + unfold ckey in R2. rewrite Hx in R2. discriminate.
Qed.

Section Step.
  Variables (bsub : list (list nat)) (keep : bool) (n r : nat) (triangles : list (list nat)).
  Hypothesis HM : mesh n triangles.
  Hypothesis Hr : 1 <= r.
  Let key := ckey n r triangles.
  Let cls := ccls bsub keep n r triangles.
  Lemma cont_step_ok maps st P mi : length maps < length triangles -> In mi (all_mi n r) ->
    SI key cls (cextra bsub keep n r triangles) maps st P -> ~ In (length maps, mi) P ->
    exists st', cont_step bsub keep r n (nth (length maps) triangles []) st mi = Ok st' /\
      SI key cls (cextra bsub keep n r triangles) maps st' (P ++ [(length maps, mi)]).
  Proof.
    intros HL Hmi (H1 & H2 & H3) HP. apply in_all_mi in Hmi as [Hm1 Hm2].
    destruct (mesh_nth n triangles _ HM HL) as [HT HN].
    set (x := (length maps, mi)) in *. set (tri := nth (length maps) triangles []) in *.
    unfold cont_step. rewrite associated_eq by lia. cbn [bind]. rewrite sort_zip_eq by lia. cbn [bind fst snd].
    assert (Esp : spairs tri r mi = csp r triangles x) by reflexivity. rewrite Esp.
    set (ss := map fst (csp r triangles x)). set (ms := map snd (csp r triangles x)).
    assert (Einb : tuple_mem ss bsub = cinb bsub r triangles x) by reflexivity. rewrite Einb.
    assert (Efull : (length (map fst (wpairs tri r mi)) =? n + 1) = cfull n r triangles x) by (rewrite map_length; reflexivity). rewrite Efull.
    assert (HF : forall v, Forall (fun d : list (list nat * Z) => NoDup (map fst d)) (maps ++ [dict_set mi v (l_dict st)])).
    { intros v. apply Forall_app in H2 as [H2 H2']. apply Forall_app. split; [exact H2|]. constructor; [|constructor].
      apply dict_set_keys. apply Forall_cons_iff in H2'. apply H2'. }
    assert (Hcls : cls x = if cinb bsub r triangles x && negb keep then Skip else if cfull n r triangles x then Int else if cinb bsub r triangles x then Bnd else Int) by reflexivity.
    destruct (cinb bsub r triangles x && negb keep) eqn:Esk.
    { eexists. split; [reflexivity|]. split; [apply inv_skip; auto|]. split; [exact H2|]. apply cextra_skip; auto. }
    destruct (cfull n r triangles x) eqn:Ef.
    { eexists. split; [reflexivity|]. split; [|split; [apply HF|]]; cbn [l_dict l_glob l_bnd l_sub].
      - apply (inv_new _ _ _ _ _ _ _ _ _ _ _ H1 HP (valof_set maps mi _ _)); [|left; auto].
        intros y Hy _ E. unfold key, ckey in E. fold x in E. rewrite Ef in E. destruct (cfull n r triangles y); [|discriminate].
        injection E as ->. contradiction.
      - eapply (cextra_full _ _ _ _ _ _ _ _ _ x); [exact Ef|exact HP|apply valof_set|exact H3]. }
    assert (Hk : key x = inr (ss, ms)) by (unfold key, ckey; rewrite Ef; reflexivity).
    assert (Hns : cls x <> Skip) by (rewrite Hcls; destruct (cinb bsub r triangles x); discriminate).
    set (fns := match dict_find ss (l_sub st) with None => dict_set ss [] (l_sub st) | Some _ => l_sub st end).
    assert (HE : cextra bsub keep n r triangles fns P (valof (maps ++ [l_dict st]))).
    { intros s m v. unfold fns. rewrite find2_default. apply H3. }
    clearbody fns.
    replace (dict_find ms match dict_find ss fns with Some d => d | None => [] end) with (find2 ss ms fns).
    2:{ unfold find2. destruct (dict_find ss fns); reflexivity. }
    destruct (find2 ss ms fns) as [w|] eqn:Ew.
    - destruct (proj1 (HE ss ms w) Ew) as (y & Hy & Cy & Ky & Vy).
      eexists. split; [reflexivity|]. split; [|split; [apply HF|]]; cbn [l_dict l_glob l_bnd l_sub].
      + apply (inv_old key cls (ckey_cls bsub keep n r triangles) _ _ _ _ _ x y w H1 HP Hy Cy); [unfold key in *; congruence|exact Vy|apply valof_set].
      + intros s m v. rewrite (HE s m v). destruct (valof_set maps mi w (l_dict st)) as [V1 V2]. split; intros (z & Hz & R1 & R2 & R3).
        * exists z. rewrite in_app_iff, V2 by (intros ->; contradiction). auto.
        * apply in_app_iff in Hz as [Hz|[<-|[]]].
          -- exists z. rewrite V2 in R3 by (intros ->; contradiction). auto.
          -- fold x in V1. rewrite V1 in R3. injection R3 as <-. exists y. unfold key in Hk. split; [exact Hy|]. split; [exact Cy|]. split; [congruence|exact Vy].
    - assert (Hnew : forall y, In y P -> cls y <> Skip -> key y <> key x).
      { intros y Hy Cy E. destruct (inv_nonskip _ _ _ _ _ _ y H1 Hy Cy) as (v & Ev & _).
        assert (find2 ss ms fns = Some v) by (apply HE; exists y; unfold key in *; split; [auto|]; split; [auto|]; split; [congruence|auto]). congruence. }
      assert (HX : forall w, cextra bsub keep n r triangles (dict_set ss (dict_set ms w match dict_find ss fns with Some d => d | None => [] end) fns)
                  (P ++ [x]) (valof (maps ++ [dict_set mi w (l_dict st)]))).
      { intros w s m v. rewrite find2_set. destruct (valof_set maps mi w (l_dict st)) as [V1 V2]. fold x in V1, V2.
        destruct (leqb s ss && leqb m ms) eqn:Eq.
        - apply andb_true_iff in Eq as [E1 E2]. apply leqb_eq in E1 as ->. apply leqb_eq in E2 as ->. split.
          + intros [= <-]. exists x. split; [apply in_app_iff; right; left; reflexivity|]. auto.
          + intros (z & Hz & R1 & R2 & R3). apply in_app_iff in Hz as [Hz|[<-|[]]]; [|congruence].
            exfalso. apply (Hnew z Hz R1). unfold key in *. congruence.
        - rewrite (HE s m v). split; intros (z & Hz & R1 & R2 & R3).
          + exists z. rewrite in_app_iff, V2 by (intros ->; contradiction). auto.
          + apply in_app_iff in Hz as [Hz|[<-|[]]].
            * exists z. rewrite V2 in R3 by (intros ->; contradiction). auto.
            * exfalso. unfold key in Hk. rewrite Hk in R2. injection R2 as <- <-. rewrite !leqb_refl in Eq. discriminate. }
      destruct (cinb bsub r triangles x) eqn:Ei; cbn [negb].
      + eexists. split; [reflexivity|]. split; [|split; [apply HF|apply HX]]; cbn [l_dict l_glob l_bnd l_sub].
        apply (inv_new _ _ _ _ _ _ _ _ _ _ _ H1 HP (valof_set maps mi _ _) Hnew). right. fold x. auto.
      + eexists. split; [reflexivity|]. split; [|split; [apply HF|apply HX]]; cbn [l_dict l_glob l_bnd l_sub].
        apply (inv_new _ _ _ _ _ _ _ _ _ _ _ H1 HP (valof_set maps mi _ _) Hnew). left. fold x. auto.
  Qed.
End Step.

Theorem cont_map_spec n r bs bsub keep triangles : mesh n triangles -> 1 <= r -> boundary_subs bs = Ok bsub ->
  exists tau N nonb, generate_local_to_global_map true triangles r bs keep = Ok (tau, N, nonb) /\
    (forall x, fst x < length triangles -> exists v, tau (Z.of_nat (fst x)) (snd x) = Ok v) /\
    (forall j nu, ~ (0 <= j < Z.of_nat (length triangles))%Z -> tau j nu = Err AssertionError) /\
    (nonb = None <-> keep = false) /\
    numbered (ckey n r triangles) (ccls bsub keep n r triangles) (dom (length triangles) n r) (tau_at tau)
      (match nonb with Some c => c | None => N end) N.
Proof.
  intros HM Hr Hb. unfold generate_local_to_global_map, cont_dictionaries. destruct (get_first n triangles HM) as (t0 & E0 & En).
  replace (1 <=? r) with true by (symmetry; apply Nat.leb_le; lia). cbn [assert_ bind].
  rewrite E0. cbn [bind]. rewrite Hb. cbn [bind]. rewrite En, generate_all_eq. cbn [bind].
  destruct (sim (ckey n r triangles) (ccls bsub keep n r triangles) triangles (all_mi n r) (cont_step bsub keep r n)
    (cextra bsub keep n r triangles)) as (maps & st & E & HL & HI & HF).
  - intros s P val val' Ev H ss ms v. rewrite (H ss ms v). split; intros (y & R1 & R2 & R3 & R4); exists y; rewrite ?Ev in *; auto.
  - intros ss ms v. split; [discriminate|]. intros (y & [] & _).
  - intros. apply cont_step_ok; auto.
  - apply NoDup_all_mi.
  - rewrite E. cbn [bind].
    destruct (finish_spec (ckey n r triangles) (ccls bsub keep n r triangles) keep (length triangles) n r maps st HI HF HL) as (maps' & N & nonb & EF & HL' & HN & Hk).
    + intros -> x. unfold ccls. rewrite andb_false_r. destruct (cfull n r triangles x), (cinb bsub r triangles x); discriminate.
    + intros -> x. unfold ccls. cbn [negb]. rewrite andb_true_r. destruct (cfull n r triangles x), (cinb bsub r triangles x); discriminate.
    + rewrite EF. eexists _, _, _. split; [reflexivity|]. split; [intros x Hx; eexists; apply make_tau_eq; exact Hx|]. split; [apply make_tau_range|]. split; [exact Hk|].
      eapply numbered_ext; [..|exact HN]; auto. intros x [Hx _]. unfold tau_at. rewrite make_tau_eq by exact Hx. reflexivity.
Qed.
