(** Values and coefficients on the common face of two simplices. *)
From Verif Require Import Base MultiIndex MultiIndexFacts MultiCapFacts Fld FldInst CodeGen CodeGenFacts LinSolve MultiCoef MultiCoefFacts LagrangeCache Poly PolyFacts LagFacts PolyEval PolyOps PolyOpsB PolyObj SubstFacts AffineFacts LocalToGlobalFacts LocalToGlobalProps FaceFacts.
From Verif Require Unisolv.
From Coq Require Import Field_theory Field Permutation.

Section FaceV.
  Context {F : fld}.
  Add Field Kfield61 : (kth F).
  Local Open Scope fld_scope.

  Lemma kprod_snd {A B} (g : B -> F) (l : list A) (m : list B) : length l = length m -> kprod (combine l m) (fun p => g (snd p)) = kprod m g.
  Proof. revert m. induction l as [|a l IH]; intros [|b m] L; try discriminate; [reflexivity|]. cbn [combine]. rewrite !kprod_cons, IH by (cbn in L; lia). reflexivity. Qed.
  Lemma kprod_map {A B} (g : B -> F) (h : A -> B) l : kprod (map h l) g = kprod l (fun a => g (h a)).
  Proof. induction l as [|a l IH]; [reflexivity|]. cbn [map]. rewrite !kprod_cons, IH. reflexivity. Qed.
  Lemma pf_map {B} (phi : nat -> F -> F) (w : B -> F) l (m : list B) : kprod (combine l (map w m)) (fun p => phi (fst p) (snd p)) = kprod (combine l m) (fun p => phi (fst p) (w (snd p))).
  Proof. revert m. induction l as [|a l IH]; intros [|b m]; try reflexivity. cbn [map combine]. rewrite !kprod_cons, IH. reflexivity. Qed.
  Lemma kprod_perm {A} (f : A -> F) l m : Permutation l m -> kprod l f = kprod m f.
  Proof. induction 1; rewrite ?kprod_cons; try congruence. ring. Qed.

  (** The product over the vertices *)
  Definition vprod (b : basis) (r : nat) (tri nu : list nat) (w : nat -> F) : F :=
    kprod tri (fun v => bphi b r (vertex_weight tri r nu v) (w v)).
  Lemma pf_vertex b r tri nu w : NoDup tri -> length tri = (length nu + 1)%nat ->
    pf (bphi b r) ((r - nsum nu)%nat :: nu) (map w tri) = vprod b r tri nu w.
  Proof.
    intros HN L. unfold pf, vprod. rewrite <- (kprod_snd (fun v => bphi b r (vertex_weight tri r nu v) (w v)) ((r - nsum nu)%nat :: nu) tri) by (cbn [length]; lia).
    rewrite pf_map. apply kprod_ext. intros [k v] Hp. cbn [fst snd]. f_equal.
    destruct (In_nth _ _ (0, 0)%nat Hp) as (i & Hi & E). rewrite combine_length in Hi. rewrite combine_nth in E by (cbn [length]; lia). injection E as E1 E2.
    rewrite <- E1, <- E2. symmetry. apply vertex_weight_nth; [assumption|lia|cbn [length] in Hi; lia].
  Qed.
  Lemma vprod_zero b r tri nu w v : In v tri -> vertex_weight tri r nu v <> 0%nat -> w v = 0 -> vprod b r tri nu w = 0.
  Proof. intros H1 H2 H3. apply (kprod_zero _ _ v H1). rewrite H3. apply bphi_zero, H2. Qed.

  Definition supported (r : nat) (tri nu : list nat) (I : nat -> bool) : bool := forallb (fun v => I v || (vertex_weight tri r nu v =? 0)%nat) tri.
  Lemma supported_spec r tri nu I : supported r tri nu I = true <-> forall v, I v = false -> vertex_weight tri r nu v = 0%nat.
  Proof.
    unfold supported. rewrite forallb_forall. split.
    - intros H v Hv. destruct (in_dec Nat.eq_dec v tri) as [Hi|Hi]; [|apply vertex_weight_out, Hi]. specialize (H v Hi). rewrite Hv in H. apply Nat.eqb_eq, H.
    - intros H v _. destruct (I v) eqn:E; [reflexivity|]. cbn. apply Nat.eqb_eq, H, E.
  Qed.
  Lemma vprod_unsupported b r tri nu w I : supported r tri nu I = false -> (forall v, In v tri -> I v = false -> w v = 0) -> vprod b r tri nu w = 0.
  Proof.
    intros H HW. unfold supported in H. rewrite <- negb_true_iff in H.
    assert (E : exists v, In v tri /\ I v = false /\ vertex_weight tri r nu v <> 0%nat).
    { revert H. generalize (vertex_weight tri r nu). clear HW. induction tri as [|a l IH]; intros g H; [discriminate|]. cbn [forallb] in H.
      destruct (I a || (g a =? 0)%nat)%bool eqn:E; [|exists a; apply orb_false_iff in E as [E1 E2]; apply Nat.eqb_neq in E2; split; [left; reflexivity|auto]].
      destruct (IH _ H) as (v & H1 & H2). exists v. split; [right; exact H1|exact H2]. }
    destruct E as (v & H1 & H2 & H3). apply (vprod_zero _ _ _ _ _ v); auto.
  Qed.

  (** Moving an index from one simplex to another *)
  Definition move (r : nat) (tri tri' nu : list nat) : list nat := map (vertex_weight tri r nu) (tl tri').
  Lemma weights_sum r tri nu : NoDup tri -> length tri = (length nu + 1)%nat -> (nsum nu <= r)%nat -> nsum (map (vertex_weight tri r nu) tri) = r.
  Proof.
    intros HN L Hr. replace (map (vertex_weight tri r nu) tri) with (weights r nu); [unfold weights; rewrite nsum_cons; lia|].
    apply (nth_ext _ _ 0%nat (vertex_weight tri r nu 0%nat)); [unfold weights; rewrite map_length; cbn [length]; lia|].
    intros i Hi. rewrite map_nth. symmetry. apply vertex_weight_nth; auto. unfold weights in Hi. cbn [length] in Hi. lia.
  Qed.
  Lemma nsum_filter (g : nat -> nat) p l : (forall v, In v l -> p v = false -> g v = 0%nat) -> nsum (map g (filter p l)) = nsum (map g l).
  Proof.
    induction l as [|a l IH]; intros H; [reflexivity|]. cbn [filter map]. destruct (p a) eqn:E.
    - cbn [map]. rewrite !nsum_cons, IH; [reflexivity|]. intros v Hv. apply H. right. exact Hv.
    - rewrite nsum_cons, (H a (or_introl eq_refl) E), IH; [reflexivity|]. intros v Hv. apply H. right. exact Hv.
  Qed.
  Definition shared (tri tri' : list nat) (v : nat) : bool := (if in_dec Nat.eq_dec v tri then true else false) && (if in_dec Nat.eq_dec v tri' then true else false).
  Lemma shared_spec tri tri' v : shared tri tri' v = true <-> In v tri /\ In v tri'.
  Proof. unfold shared. destruct (in_dec _ v tri), (in_dec _ v tri'); cbn; split; try tauto; discriminate. Qed.
  Lemma shared_sum r tri tri' (g : nat -> nat) : NoDup tri -> NoDup tri' -> (forall v, shared tri tri' v = false -> g v = 0%nat) ->
    nsum (map g tri) = r -> nsum (map g tri') = r.
  Proof.
    intros H1 H2 HZ E. rewrite <- E. rewrite <- (nsum_filter g (shared tri tri') tri), <- (nsum_filter g (shared tri tri') tri') by auto.
    assert (P : Permutation (filter (shared tri tri') tri') (filter (shared tri tri') tri)).
    { apply NoDup_Permutation; [apply NoDup_filter, H2|apply NoDup_filter, H1|]. intros v. rewrite !filter_In, shared_spec. tauto. }
    apply (Permutation_map g) in P. clear -P. induction P; rewrite ?nsum_cons; lia.
  Qed.
  Lemma move_ok m r tri tri' nu : NoDup tri -> NoDup tri' -> length tri = (m + 1)%nat -> length tri' = (m + 1)%nat -> length nu = m -> (nsum nu <= r)%nat ->
    supported r tri nu (shared tri tri') = true ->
    length (move r tri tri' nu) = m /\ (nsum (move r tri tri' nu) <= r)%nat /\ same_weights r tri nu tri' (move r tri tri' nu).
  Proof.
    intros N1 N2 L1 L2 Ln Hn HS. pose proof (proj1 (supported_spec _ _ _ _) HS) as HZ.
    pose proof (shared_sum r tri tri' _ N1 N2 HZ (weights_sum r tri nu N1 ltac:(lia) Hn)) as E.
    assert (Lm : length (move r tri tri' nu) = m) by (unfold move; rewrite map_length; destruct tri'; cbn [length tl] in *; lia).
    destruct tri' as [|a t]; [cbn in L2; lia|]. unfold move in *. cbn [tl] in *. cbn [map] in E. rewrite nsum_cons in E.
    split; [exact Lm|]. split; [lia|]. intros v.
    destruct (in_dec Nat.eq_dec v (a :: t)) as [Hi|Hi].
    - destruct (In_nth _ _ 0%nat Hi) as (i & Hi1 & <-). rewrite vertex_weight_nth by (auto; lia). unfold weights. destruct i as [|i]; cbn [nth].
      + lia.
      + rewrite (nth_indep (map (vertex_weight tri r nu) t) 0%nat (vertex_weight tri r nu 0%nat)) by (rewrite map_length; cbn [length] in Hi1; lia). rewrite map_nth. reflexivity.
    - rewrite (vertex_weight_out (a :: t)) by exact Hi. apply HZ. destruct (shared tri (a :: t) v) eqn:Es; [|reflexivity]. apply shared_spec in Es as [_ Es]. contradiction.
  Qed.
  Lemma same_supported r tri nu tri' nu' : same_weights r tri nu tri' nu' -> supported r tri nu (shared tri tri') = true.
  Proof.
    intros H. apply supported_spec. intros v Hv. destruct (in_dec Nat.eq_dec v tri') as [H1|H1]; [|rewrite H; apply vertex_weight_out, H1].
    apply vertex_weight_out. intros H2. rewrite (proj2 (shared_spec tri tri' v)) in Hv by auto. discriminate.
  Qed.
  Lemma move_same m r tri tri' nu nu' : NoDup tri -> NoDup tri' -> length tri = (m + 1)%nat -> length tri' = (m + 1)%nat -> length nu = m -> (nsum nu <= r)%nat -> length nu' = m ->
    same_weights r tri nu tri' nu' -> move r tri tri' nu = nu'.
  Proof.
    intros N1 N2 L1 L2 Ln Hn Ln' HS. destruct (move_ok m r tri tri' nu) as (H1 & H2 & H3); auto; [apply (same_supported _ _ _ _ nu'), HS|].
    apply (same_weights_nu tri' r); auto; [lia|lia|]. intros v. rewrite <- H3. apply HS.
  Qed.
  Lemma shared_sym tri tri' v : shared tri tri' v = shared tri' tri v.
  Proof. unfold shared. apply andb_comm. Qed.

  Lemma vprod_same b r tri nu tri' nu' w : NoDup tri -> NoDup tri' -> same_weights r tri nu tri' nu' -> vprod b r tri nu w = vprod b r tri' nu' w.
  Proof.
    intros N1 N2 HS.
    assert (G : forall tri tri' nu, NoDup tri -> NoDup tri' -> (forall v, shared tri tri' v = false -> vertex_weight tri r nu v = 0%nat) -> vprod b r tri nu w = kprod (filter (shared tri tri') tri) (fun v => bphi b r (vertex_weight tri r nu v) (w v))).
    { clear. intros tri tri' nu N1 N2 HZ. unfold vprod. enough (X : forall l, kprod l (fun v => bphi b r (vertex_weight tri r nu v) (w v)) = kprod (filter (shared tri tri') l) (fun v => bphi b r (vertex_weight tri r nu v) (w v))) by apply X. induction l as [|a l IH]; [reflexivity|]. cbn [filter]. rewrite kprod_cons, IH. destruct (shared tri tri' a) eqn:E; [rewrite kprod_cons; reflexivity|]. rewrite (HZ a E), bphi_0. ring. }
    assert (Z : forall v, shared tri tri' v = false -> vertex_weight tri r nu v = 0%nat) by (apply supported_spec, (same_supported _ _ _ _ nu'), HS).
    rewrite (G tri tri' nu N1 N2 Z). rewrite (G tri' tri nu' N2 N1) by (intros v Hv; rewrite <- HS; apply Z; rewrite shared_sym; exact Hv).
    rewrite (kprod_ext _ (fun v => bphi b r (vertex_weight tri' r nu' v) (w v))) by (intros v _; rewrite HS; reflexivity).
    apply kprod_perm. apply NoDup_Permutation; [apply NoDup_filter, N1|apply NoDup_filter, N2|]. intros v. rewrite !filter_In, !shared_spec. tauto.
  Qed.

  (** Coefficients agree on the common face => values agree there *)
  Theorem face_values b m r tri tri' (a a' : list nat -> F) w : NoDup tri -> NoDup tri' -> length tri = (m + 1)%nat -> length tri' = (m + 1)%nat ->
    (forall nu nu', length nu = m -> (nsum nu <= r)%nat -> length nu' = m -> (nsum nu' <= r)%nat -> same_weights r tri nu tri' nu' -> a nu = a' nu') ->
    (forall v, shared tri tri' v = false -> w v = 0) ->
    ksum (all_mi m r) (fun nu => a nu * vprod b r tri nu w) = ksum (all_mi m r) (fun nu => a' nu * vprod b r tri' nu w).
  Proof.
    intros N1 N2 L1 L2 HA HW.
    assert (G : forall tri (a : list nat -> F) I, (forall v, I v = false -> w v = 0) -> ksum (all_mi m r) (fun nu => a nu * vprod b r tri nu w) = ksum (filter (fun nu => supported r tri nu I) (all_mi m r)) (fun nu => a nu * vprod b r tri nu w)).
    { clear. intros tri a I HW. rewrite ksum_filter. apply ksum_ext. intros nu _. destruct (supported r tri nu I) eqn:E; [reflexivity|]. rewrite (vprod_unsupported b r tri nu w I E) by auto. ring. }
    rewrite (G tri a (shared tri tri') HW), (G tri' a' (shared tri' tri)) by (intros v Hv; apply HW; rewrite shared_sym; exact Hv).
    assert (MV : forall nu, In nu (filter (fun nu => supported r tri nu (shared tri tri')) (all_mi m r)) -> length nu = m /\ (nsum nu <= r)%nat /\ length (move r tri tri' nu) = m /\ (nsum (move r tri tri' nu) <= r)%nat /\ same_weights r tri nu tri' (move r tri tri' nu)).
    { intros nu H. apply filter_In in H as [H1 H2]. apply in_all_mi in H1 as [H3 H4]. split; [exact H3|]. split; [exact H4|]. apply (move_ok m); auto. }
    apply (ksum_bij _ _ (move r tri tri')).
    - apply NoDup_filter, NoDup_all_mi.
    - apply NoDup_filter, NoDup_all_mi.
    - intros nu H. destruct (MV nu H) as (H1 & H2 & H3 & H4 & H5). apply filter_In. split; [apply in_all_mi; auto|]. apply (same_supported _ _ _ _ nu). intros v. symmetry. apply H5.
    - intros nu nu2 H H' E. destruct (MV nu H) as (H1 & H2 & H3 & H4 & H5). destruct (MV nu2 H') as (H1' & H2' & H3' & H4' & H5').
      apply (same_weights_nu tri r); auto; try lia. intros v. rewrite H5, H5', E. reflexivity.
    - intros nu' H. apply filter_In in H as [H1 H2]. apply in_all_mi in H1 as [H3 H4]. destruct (move_ok m r tri' tri nu') as (H5 & H6 & H7); auto.
      exists (move r tri' tri nu'). assert (HS : same_weights r tri (move r tri' tri nu') tri' nu') by (intros v; symmetry; apply H7).
      split; [|apply (move_same m); auto]. apply filter_In. split; [apply in_all_mi; auto|]. apply (same_supported _ _ _ _ nu'), HS.
    - intros nu H. destruct (MV nu H) as (H1 & H2 & H3 & H4 & H5). f_equal; [apply HA; auto|apply vprod_same; auto].
  Qed.

  (** ** Values on a face determine the coefficients of the face *)
  Lemma ksum_kofnat {A} (g : A -> nat) l : ksum l (fun v => kofnat (F := F) (g v)) = kofnat (nsum (map g l)).
  Proof. induction l as [|a l IH]; [rewrite ksum_nil; cbn [map]; change (nsum []) with 0%nat; rewrite kofnat_0; reflexivity|]. cbn [map]. rewrite ksum_cons, IH, nsum_cons, kofnat_add. reflexivity. Qed.
  Lemma weights_map r tri nu : NoDup tri -> length tri = (length nu + 1)%nat -> map (vertex_weight tri r nu) tri = (r - nsum nu)%nat :: nu.
  Proof.
    intros HN L. symmetry. apply (nth_ext _ _ 0%nat (vertex_weight tri r nu 0%nat)); [rewrite map_length; cbn [length]; lia|].
    intros i Hi. rewrite map_nth. symmetry. apply vertex_weight_nth; auto. cbn [length] in Hi. lia.
  Qed.
  Lemma face_coeffs_lagrange m r tri (a : list nat -> F) I : r <> 0%nat -> NoDup tri -> length tri = (m + 1)%nat ->
    (forall w, (forall v, I v = false -> w v = 0) -> ksum tri w = 1 -> ksum (all_mi m r) (fun nu => a nu * vprod Lagrange r tri nu w) = 0) ->
    forall nu, length nu = m -> (nsum nu <= r)%nat -> supported r tri nu I = true -> a nu = 0.
  Proof.
    intros Hr HN L H nu Ln Hn HS. pose proof (kofnat_neq (F := F) r Hr) as Hk.
    rewrite <- (H (fun v => kofnat (vertex_weight tri r nu v) / kofnat r)).
    - rewrite (ksum_ext _ (fun mu => if mi_dec mu nu then a mu else 0)); [symmetry; apply (ksum_delta mi_dec a); [apply NoDup_all_mi|apply in_all_mi; auto]|].
      intros mu Hm. apply in_all_mi in Hm as [H1 H2]. rewrite <- pf_vertex by (auto; lia). rewrite <- (map_map (vertex_weight tri r nu) (fun k => kofnat (F := F) k / kofnat r)), weights_map by (auto; lia).
      rewrite pf_node by (auto; try (cbn [length]; lia); rewrite !nsum_cons; lia). destruct (mi_dec mu nu) as [->|N]; destruct (mi_dec _ _) as [E|E]; try congruence; try ring. 
    - intros v Hv. rewrite (proj1 (supported_spec _ _ _ _) HS v Hv), kofnat_0. field. exact Hk.
    - rewrite (ksum_ext _ (fun v => (1 / kofnat r) * kofnat (vertex_weight tri r nu v))) by (intros; field; exact Hk). rewrite ksum_scale_l, ksum_kofnat, weights_sum by (auto; lia). field. exact Hk.
  Qed.

  Fixpoint look (tri c : list nat) (v : nat) : nat :=
    match tri, c with t :: tri', x :: c' => if (t =? v)%nat then x else look tri' c' v | _, _ => 0%nat end.
  Lemma look_map tri c : NoDup tri -> length tri = length c -> map (look tri c) tri = c.
  Proof.
    revert c. induction tri as [|t tri IH]; intros [|x c] HN L; try discriminate; [reflexivity|]. apply NoDup_cons_iff in HN as [H1 H2]. cbn [map look]. rewrite Nat.eqb_refl. f_equal.
    transitivity (map (look tri c) tri); [|apply IH; auto; cbn in L; lia]. apply map_ext_in. intros v Hv. destruct (Nat.eqb_spec t v) as [->|]; [contradiction|reflexivity].
  Qed.
  Lemma look_pos tri c v : In v tri -> length tri = length c -> (forall x, In x c -> x <> 0%nat) -> look tri c v <> 0%nat.
  Proof.
    revert c. induction tri as [|t tri IH]; intros [|x c] HI L HP; try discriminate; [destruct HI|]. cbn [look]. destruct (Nat.eqb_spec t v) as [E|E]; [apply HP; left; reflexivity|].
    destruct HI as [->|HI]; [congruence|]. apply IH; [exact HI|cbn in L; lia|]. intros y Hy. apply HP. right. exact Hy.
  Qed.
  Lemma kpow_mul_base (x y : F) n : kpow (x * y) n = kpow x n * kpow y n.
  Proof. induction n as [|n IH]; cbn [kpow]; [ring|rewrite IH; ring]. Qed.
  Lemma bern_scale r tri nu s w : NoDup tri -> length tri = (length nu + 1)%nat -> (nsum nu <= r)%nat ->
    vprod Bernstein r tri nu (fun v => s * w v) = kpow s r * vprod Bernstein r tri nu w.
  Proof.
    intros HN L Hn. replace (kpow s r) with (kpow s (nsum (map (vertex_weight tri r nu) tri))) by (rewrite weights_sum; auto). unfold vprod. generalize (vertex_weight tri r nu). intros g. clear.
    induction tri as [|t tri IH]; [cbn [map]; change (nsum []) with 0%nat; cbn [kprod fold_right kpow]; unfold kprod; cbn [fold_right]; ring|]. cbn [map]. rewrite !kprod_cons, IH, nsum_cons, kpow_add. cbn [bphi]. rewrite kpow_mul_base. rewrite !(Fdiv_def (kth F)). ring.
  Qed.
  Lemma face_coeffs_bernstein m r tri (a : list nat -> F) I : r <> 0%nat -> NoDup tri -> length tri = (m + 1)%nat ->
    (forall w, (forall v, I v = false -> w v = 0) -> ksum tri w = 1 -> ksum (all_mi m r) (fun nu => a nu * vprod Bernstein r tri nu w) = 0) ->
    forall nu, length nu = m -> (nsum nu <= r)%nat -> supported r tri nu I = true -> a nu = 0.
  Proof.
    intros Hr HN L H nu Ln Hn HS.
    assert (V : exists v0, In v0 tri /\ I v0 = true).
    { destruct (existsb I tri) eqn:E; [apply existsb_exists in E; exact E|]. exfalso. apply Hr. rewrite <- (weights_sum r tri nu HN ltac:(lia) Hn).
      assert (X : forall v, In v tri -> vertex_weight tri r nu v = 0%nat).
      { intros v Hv. apply (proj1 (supported_spec _ _ _ _) HS). destruct (I v) eqn:Ei; [|reflexivity]. rewrite <- E. symmetry. apply existsb_exists. eauto. }
      revert X. generalize (vertex_weight tri r nu). intros g. clear. induction tri as [|t tri IH]; intros X; [reflexivity|]. cbn [map]. rewrite nsum_cons, IH, X; [reflexivity|left; reflexivity|]. intros v Hv. apply X. right. exact Hv. }
    destruct V as (v0 & Hv0 & Iv0).
    set (g := fun mu : list nat => if ((nsum mu =? r)%nat && supported r tri (tl mu) I)%bool then a (tl mu) / kofnat (mi_factorial mu) else 0).
    assert (Hg : g ((r - nsum nu)%nat :: nu) = 0).
    { apply (Unisolv.unisolvence (F := F) (m + 1) r (repeat (fun k => kofnat (S k)) (m + 1))).
      - apply repeat_length.
      - intros f Hf. apply repeat_spec in Hf as ->. intros i j E. apply (kofnat_inj (F := F)) in E. lia.
      - intros la Lla _.
        assert (P : Unisolv.pt (repeat (fun k => kofnat (F := F) (S k)) (m + 1)) la = map (kofnat (F := F)) (map S la)).
        { rewrite <- Lla. clear. unfold Unisolv.pt. induction la as [|x la IH]; [reflexivity|]. cbn [length repeat combine map fst snd]. rewrite IH. reflexivity. }
        rewrite P. set (c := map S la). assert (Lc : length tri = length c) by (unfold c; rewrite map_length; lia).
        set (u := look tri c). assert (Eu : map u tri = c) by (apply look_map; assumption).
        set (w := fun v => if I v then u v else 0%nat).
        assert (Hw : nsum (map w tri) <> 0%nat).
        { assert (X : w v0 <> 0%nat) by (unfold w; rewrite Iv0; apply look_pos; auto; unfold c; intros x Hx; apply in_map_iff in Hx as (y & <- & _); discriminate).
          clearbody w. clear -X Hv0. induction tri as [|t tri IH]; [destruct Hv0|]. cbn [map]. rewrite nsum_cons. destruct Hv0 as [->|Hv0]; [lia|]. specialize (IH Hv0). lia. }
        set (N := nsum (map w tri)) in *. pose proof (kofnat_neq (F := F) N Hw) as HNk.
        rewrite (ksum_ext _ (fun mu => if (nsum mu =? r)%nat then g mu * mpow (map (kofnat (F := F)) c) mu else 0)) by (intros mu _; unfold g; destruct (nsum mu =? r)%nat; cbn [andb]; [reflexivity|ring]).
        rewrite <- ksum_filter.
        transitivity (ksum (all_mi m r) (fun nu => kpow (kofnat N) r * (a nu * vprod Bernstein r tri nu (fun v => kofnat (w v) / kofnat N)))).
        + symmetry. apply (ksum_bij _ _ (fun nu => (r - nsum nu)%nat :: nu)).
          * apply NoDup_all_mi.
          * apply NoDup_filter, NoDup_all_mi.
          * intros ka Hka. apply in_all_mi in Hka as [K1 K2]. apply filter_In. rewrite in_all_mi, nsum_cons. cbn [length]. split; [lia|apply Nat.eqb_eq; lia].
          * intros ka ka' _ _ E. injection E. auto.
          * intros mu Hmu. apply filter_In in Hmu as [M1 M2]. apply in_all_mi in M1 as [M1 M3]. apply Nat.eqb_eq in M2. destruct mu as [|x mu]; [cbn in M1; lia|]. cbn [length] in M1. rewrite nsum_cons in M2.
            exists mu. split; [apply in_all_mi; lia|]. f_equal. lia.
          * intros ka Hka. apply in_all_mi in Hka as [K1 K2].
            transitivity (a ka * (kpow (kofnat N) r * vprod Bernstein r tri ka (fun v => kofnat (w v) / kofnat N))); [ring|]. rewrite <- bern_scale by (auto; lia).
            unfold g. rewrite nsum_cons. cbn [tl]. replace (r - nsum ka + nsum ka)%nat with r by lia. rewrite Nat.eqb_refl. cbn [andb].
            destruct (supported r tri ka I) eqn:Es.
            -- transitivity (a ka * vprod Bernstein r tri ka (fun v => kofnat (u v))).
               ++ f_equal. apply kprod_ext. intros v Hv. destruct (I v) eqn:Ei.
                  ** f_equal. unfold w. rewrite Ei. field. exact HNk.
                  ** rewrite (proj1 (supported_spec _ _ _ _) Es v Ei), !bphi_0. reflexivity.
               ++ rewrite <- pf_vertex by (auto; lia). rewrite <- (map_map u (kofnat (F := F))), Eu. change (bphi Bernstein r) with (bphi (F := F) Bernstein 0). rewrite pf_pow by (rewrite map_length; cbn [length]; lia).
                  field. apply kofnat_neq, mi_factorial_pos.
            -- rewrite (vprod_unsupported _ _ _ _ _ I Es); [ring|]. intros v _ Ei. unfold w. rewrite Ei, kofnat_0. field. exact HNk.
        + rewrite ksum_scale_l. rewrite H; [ring| |].
          * intros v Ei. unfold w. rewrite Ei, kofnat_0. field. exact HNk.
          * rewrite (ksum_ext _ (fun v => (1 / kofnat N) * kofnat (w v))) by (intros; field; exact HNk). rewrite ksum_scale_l, ksum_kofnat. fold N. field. exact HNk.
      - apply in_all_mi. cbn [length]. rewrite nsum_cons. lia. }
    unfold g in Hg. rewrite nsum_cons in Hg. cbn [tl] in Hg. replace (r - nsum nu + nsum nu)%nat with r in Hg by lia. rewrite Nat.eqb_refl, HS in Hg. cbn [andb] in Hg.
    pose proof (kofnat_neq (F := F) _ (mi_factorial_pos ((r - nsum nu)%nat :: nu))) as Hf.
    replace (a nu) with (a nu / kofnat (mi_factorial ((r - nsum nu)%nat :: nu)) * kofnat (mi_factorial ((r - nsum nu)%nat :: nu))) by (field; exact Hf). rewrite Hg. ring.
  Qed.
  Theorem face_coeffs_zero b m r tri (a : list nat -> F) I : b <> Monomial -> r <> 0%nat -> NoDup tri -> length tri = (m + 1)%nat ->
    (forall w, (forall v, I v = false -> w v = 0) -> ksum tri w = 1 -> ksum (all_mi m r) (fun nu => a nu * vprod b r tri nu w) = 0) ->
    forall nu, length nu = m -> (nsum nu <= r)%nat -> supported r tri nu I = true -> a nu = 0.
  Proof. intros Hb. destruct b; [contradiction|apply face_coeffs_bernstein|apply face_coeffs_lagrange]. Qed.

  (** Values agree on the common face => coefficients agree there *)
  Theorem face_coeffs b m r tri tri' (a a' : list nat -> F) : b <> Monomial -> r <> 0%nat -> NoDup tri -> NoDup tri' -> length tri = (m + 1)%nat -> length tri' = (m + 1)%nat ->
    (forall w, (forall v, shared tri tri' v = false -> w v = 0) -> ksum tri w = 1 ->
       ksum (all_mi m r) (fun nu => a nu * vprod b r tri nu w) = ksum (all_mi m r) (fun nu => a' nu * vprod b r tri' nu w)) ->
    forall nu nu', length nu = m -> (nsum nu <= r)%nat -> length nu' = m -> (nsum nu' <= r)%nat -> same_weights r tri nu tri' nu' -> a nu = a' nu'.
  Proof.
    intros Hb Hr N1 N2 L1 L2 H nu nu' Ln Hn Ln' Hn' HS.
    set (c := fun mu => if supported r tri mu (shared tri tri') then a' (move r tri tri' mu) else 0).
    assert (Z : a nu - c nu = 0).
    { apply (face_coeffs_zero b m r tri (fun mu => a mu - c mu) (shared tri tri')); auto; [|apply (same_supported _ _ _ _ nu'), HS].
      intros w HW HW1. rewrite (ksum_ext _ (fun mu => a mu * vprod b r tri mu w - c mu * vprod b r tri mu w)) by (intros; ring). rewrite ksum_minus, (H w HW HW1).
      rewrite (face_values b m r tri tri' c a' w); auto; [ring|].
      intros ka ka' K1 K2 K3 K4 KS. unfold c. rewrite (same_supported _ _ _ _ ka' KS), (move_same m r tri tri' ka ka'); auto. }
    unfold c in Z. rewrite (same_supported _ _ _ _ nu' HS), (move_same m r tri tri' nu nu') in Z by auto.
    replace (a nu) with (a nu - a' nu' + a' nu') by ring. rewrite Z. ring.
  Qed.
End FaceV.
