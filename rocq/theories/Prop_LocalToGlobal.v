(** Property theorems for the local-to-global maps (C34-C38, C53, C54).

    [mesh n triangles]: at least one simplex, each with [n + 1] different
    vertices.  [dom ntri n r (j, nu)]: [j < ntri], [nu] has [n] components and
    norm at most [r].  [attached], [interior] and [same_weights]
    (LocalToGlobalProps.v) are defined from [vertex_weight], the exponent that
    a local basis function has at a given vertex of the mesh. *)
From Verif Require Import Base MultiIndex MultiIndexFacts Permutations PermFacts Simplicial Orient ChainFacts SimplicialFacts SimplicialFacts2.
From Verif Require Import LocalToGlobal LocalToGlobalFacts LocalToGlobalSim LocalToGlobalCont LocalToGlobalProps.

Definition tau_eq (tau : tau_fn) (x : local) (v : Z) : Prop := tau (Z.of_nat (fst x)) (snd x) = Ok v.
Lemma tau_at_eq tau x v : tau_eq tau x v -> tau_at tau x = v.
Proof. unfold tau_eq, tau_at. intros ->. reflexivity. Qed.
Lemma tau_eq_at tau x v : (exists w, tau (Z.of_nat (fst x)) (snd x) = Ok w) -> tau_at tau x = v -> tau_eq tau x v.
Proof. unfold tau_eq, tau_at. intros (w & ->) <-. reflexivity. Qed.

(** ** C34 *)
Theorem C34_no_boundary : forall n r triangles, mesh n triangles ->
  exists tau N, generate_local_to_global_map false triangles r None false = Ok (tau, N, None) /\
    N = Z.of_nat (length triangles * binomial (n + r) r) /\
    (forall x, dom (length triangles) n r x -> exists v, tau_eq tau x v /\ (0 <= v < N)%Z) /\
    (forall v, (0 <= v < N)%Z -> exists! x, dom (length triangles) n r x /\ tau_eq tau x v).
Proof.
  intros n r triangles HM. destruct (disc_map_spec n r None [] false triangles HM eq_refl) as (tau & N & nonb & E & HT & HR & Hk & HN).
  destruct nonb as [c|]; [destruct Hk as [_ Hk]; discriminate (Hk eq_refl)|]. exists tau, N. split; [exact E|].
  assert (HC : forall x, dcls [] false r triangles x = Int) by (intros x; unfold dcls; destruct (tuple_mem _ []) eqn:F; [apply tuple_mem_in in F; destruct F|reflexivity]).
  split; [|split].
  - destruct (numbered_count (fun x => x) _ n r (length triangles) _ _ _ (fun x => eq_refl) HN) as [_ H].
    rewrite (H (local_indices (length triangles) (all_mi n r))).
    + rewrite length_local_indices. rewrite all_mi_length. reflexivity.
    + apply NoDup_local_indices, NoDup_all_mi.
    + intros x. rewrite in_local_indices, HC. split; [intros Hx; split; [exact Hx|discriminate]|tauto].
  - intros x Hx. exists (tau_at tau x). split; [apply tau_eq_at; [apply HT, Hx|reflexivity]|]. apply (n_int _ _ _ _ _ _ HN); auto.
  - intros v Hv. destruct (n_onto _ _ _ _ _ _ HN v Hv) as (x & Hx & _ & Ex). exists x. split.
    + split; [exact Hx|apply tau_eq_at; [apply HT, Hx|exact Ex]].
    + intros y [Hy Ey]. apply tau_at_eq in Ey. apply (n_key _ _ _ _ _ _ HN); auto; try (rewrite HC; discriminate). congruence.
Qed.
Print Assumptions C34_no_boundary.

Theorem C34_boundary_dropped : forall n r triangles bs, mesh n triangles -> proper_simplices bs ->
  exists tau N, generate_local_to_global_map false triangles r (Some bs) false = Ok (tau, N, None) /\
    (forall x, dom (length triangles) n r x -> exists v, tau_eq tau x v /\
       (v = (-1)%Z <-> attached bs r (nth (fst x) triangles []) (snd x)) /\ (v <> (-1)%Z -> (0 <= v < N)%Z)) /\
    (forall v, (0 <= v < N)%Z -> exists! x, dom (length triangles) n r x /\ tau_eq tau x v).
Proof.
  intros n r triangles bs HM HB. destruct (boundary_subs_spec (Some bs) HB) as (bsub & Eb & Hb).
  destruct (disc_map_spec n r (Some bs) bsub false triangles HM Eb) as (tau & N & nonb & E & HT & HR & Hk & HN).
  destruct nonb as [c|]; [destruct Hk as [_ Hk]; discriminate (Hk eq_refl)|]. exists tau, N. split; [exact E|].
  pose proof (fun x => dcls_attached bs bsub false n r triangles x Hb HM) as HC.
  split.
  - intros x Hx. exists (tau_at tau x). split; [apply tau_eq_at; [apply HT, Hx|reflexivity]|]. destruct (HC x Hx) as [[HA Ec]|[HA Ec]].
    + rewrite (n_skip _ _ _ _ _ _ HN x Hx Ec). tauto.
    + pose proof (n_int _ _ _ _ _ _ HN x Hx Ec). split; [|lia]. split; [lia|contradiction].
  - intros v Hv. destruct (n_onto _ _ _ _ _ _ HN v Hv) as (x & Hx & Cx & Ex). exists x. split.
    + split; [exact Hx|apply tau_eq_at; [apply HT, Hx|exact Ex]].
    + intros y [Hy Ey]. apply tau_at_eq in Ey. apply (n_key _ _ _ _ _ _ HN); auto; [|congruence].
      intros Cy. rewrite (n_skip _ _ _ _ _ _ HN y Hy Cy) in Ey. lia.
Qed.
Print Assumptions C34_boundary_dropped.

Theorem C34_boundary_last : forall n r triangles bs, mesh n triangles -> proper_simplices bs ->
  exists tau N nn, generate_local_to_global_map false triangles r (Some bs) true = Ok (tau, N, Some nn) /\
    N = Z.of_nat (length triangles * binomial (n + r) r) /\
    (forall x, dom (length triangles) n r x -> exists v, tau_eq tau x v /\ (0 <= v < N)%Z /\
       ((nn <= v)%Z <-> attached bs r (nth (fst x) triangles []) (snd x))) /\
    (forall v, (0 <= v < N)%Z -> exists! x, dom (length triangles) n r x /\ tau_eq tau x v) /\
    (forall L, NoDup L ->
       (forall x, In x L <-> dom (length triangles) n r x /\ ~ attached bs r (nth (fst x) triangles []) (snd x)) ->
       nn = Z.of_nat (length L)).
Proof.
  intros n r triangles bs HM HB. destruct (boundary_subs_spec (Some bs) HB) as (bsub & Eb & Hb).
  destruct (disc_map_spec n r (Some bs) bsub true triangles HM Eb) as (tau & N & nonb & E & HT & HR & Hk & HN).
  destruct nonb as [c|]; [|destruct Hk as [Hk _]; discriminate (Hk eq_refl)]. exists tau, N, c. split; [exact E|].
  pose proof (fun x => dcls_attached bs bsub true n r triangles x Hb HM) as HC.
  assert (HS : forall x, dcls bsub true r triangles x <> Skip) by (intros x; unfold dcls; destruct (tuple_mem _ _); discriminate).
  destruct (numbered_count (fun x => x) _ n r (length triangles) _ _ _ (fun x => eq_refl) HN) as [HL1 HL2].
  pose proof (n_le _ _ _ _ _ _ HN) as Hle.
  split; [|split; [|split]].
  - rewrite (HL2 (local_indices (length triangles) (all_mi n r))).
    + rewrite length_local_indices. rewrite all_mi_length. reflexivity.
    + apply NoDup_local_indices, NoDup_all_mi.
    + intros x. rewrite in_local_indices. split; [intros Hx; split; [exact Hx|apply HS]|tauto].
  - intros x Hx. exists (tau_at tau x). split; [apply tau_eq_at; [apply HT, Hx|reflexivity]|]. destruct (HC x Hx) as [[HA Ec]|[HA Ec]].
    + pose proof (n_bnd _ _ _ _ _ _ HN x Hx Ec). split; [lia|]. split; [auto|lia].
    + pose proof (n_int _ _ _ _ _ _ HN x Hx Ec). split; [lia|]. split; [lia|contradiction].
  - intros v Hv. destruct (n_onto _ _ _ _ _ _ HN v Hv) as (x & Hx & Cx & Ex). exists x. split.
    + split; [exact Hx|apply tau_eq_at; [apply HT, Hx|exact Ex]].
    + intros y [Hy Ey]. apply tau_at_eq in Ey. apply (n_key _ _ _ _ _ _ HN); auto. congruence.
  - intros L HND HL. apply HL1; [exact HND|]. intros x. rewrite HL. split; intros [Hx H]; (split; [exact Hx|]); destruct (HC x Hx) as [[HA Ec]|[HA Ec]]; try tauto; congruence.
Qed.
Print Assumptions C34_boundary_last.

Definition tau_table (ntri n r : nat) (m : result (tau_fn * Z * option Z)) : result (list (result Z) * Z * option Z) :=
  let* m := m in let '(tau, N, nonb) := m in
  Ok (map (fun x => tau (Z.of_nat (fst x)) (snd x)) (local_indices ntri (all_mi n r)), N, nonb).
Definition two_tri : list (list nat) := [[0; 1; 2]; [1; 3; 2]].
Example C34_mesh : mesh 2 two_tri /\ proper_simplices [[1; 2]].
Proof.
  split; [split; [discriminate|]; intros t [<-|[<-|[]]]|intros b [<-|[]]]; (split; [reflexivity || (repeat constructor; cbn; intuition lia)|]); try discriminate; repeat constructor; cbn; intuition lia.
Qed.
Example C34_ex1 : tau_table 2 2 1 (generate_local_to_global_map false two_tri 1 (Some [[1; 2]]) false)
  = Ok ([Ok 0; Ok (-1); Ok (-1); Ok (-1); Ok 1; Ok (-1)]%Z, 2%Z, None).
Proof. reflexivity. Qed.
Example C34_ex2 : tau_table 2 2 1 (generate_local_to_global_map false two_tri 1 (Some [[1; 2]]) true)
  = Ok ([Ok 0; Ok 2; Ok 3; Ok 4; Ok 1; Ok 5]%Z, 6%Z, Some 2%Z).
Proof. reflexivity. Qed.

(** ** C37 *)
Theorem C37_identification : forall n r triangles, mesh n triangles -> 1 <= r ->
  exists tau N, generate_local_to_global_map true triangles r None false = Ok (tau, N, None) /\
    (forall x, dom (length triangles) n r x -> exists v, tau_eq tau x v /\ (0 <= v < N)%Z) /\
    (forall v, (0 <= v < N)%Z -> exists x, dom (length triangles) n r x /\ tau_eq tau x v) /\
    (forall x y, dom (length triangles) n r x -> dom (length triangles) n r y ->
       ((exists v, tau_eq tau x v /\ tau_eq tau y v) <->
        x = y \/ (~ interior r (nth (fst x) triangles []) (snd x) /\ ~ interior r (nth (fst y) triangles []) (snd y) /\
                  same_weights r (nth (fst x) triangles []) (snd x) (nth (fst y) triangles []) (snd y)))).
Proof.
  intros n r triangles HM Hr. destruct (cont_map_spec n r None [] false triangles HM Hr eq_refl) as (tau & N & nonb & E & HT & HR & Hk & HN).
  destruct nonb as [c|]; [destruct Hk as [_ Hk]; discriminate (Hk eq_refl)|]. exists tau, N. split; [exact E|].
  assert (HC : forall x, ccls [] false n r triangles x = Int).
  { intros x. unfold ccls, cinb. destruct (tuple_mem _ []) eqn:F; [apply tuple_mem_in in F; destruct F|]. cbn [andb]. destruct (cfull _ _ _ _); reflexivity. }
  split; [|split].
  - intros x Hx. exists (tau_at tau x). split; [apply tau_eq_at; [apply HT, Hx|reflexivity]|]. apply (n_int _ _ _ _ _ _ HN); auto.
  - intros v Hv. destruct (n_onto _ _ _ _ _ _ HN v Hv) as (x & Hx & _ & Ex). exists x. split; [exact Hx|apply tau_eq_at; [apply HT, Hx|exact Ex]].
  - intros x y Hx Hy. rewrite <- (ckey_same n r triangles x y HM Hx Hy).
    rewrite <- (n_key _ _ _ _ _ _ HN x y Hx Hy) by (rewrite HC; discriminate). split.
    + intros (v & E1 & E2). apply tau_at_eq in E1, E2. congruence.
    + intros Ev. exists (tau_at tau x). split; apply tau_eq_at; try (apply HT; apply Hx || apply Hy); auto.
Qed.
Print Assumptions C37_identification.

(** With no repeated simplices: equal index means equal weights at every
    vertex of the mesh, and the map is injective on every simplex. *)
Definition no_repeated (triangles : list (list nat)) : Prop :=
  forall i j, i < length triangles -> j < length triangles ->
    (forall v, In v (nth i triangles []) <-> In v (nth j triangles [])) -> i = j.
Theorem C37_same_weights : forall n r triangles, mesh n triangles -> no_repeated triangles -> 1 <= r ->
  exists tau N, generate_local_to_global_map true triangles r None false = Ok (tau, N, None) /\
    (forall x y, dom (length triangles) n r x -> dom (length triangles) n r y ->
       ((exists v, tau_eq tau x v /\ tau_eq tau y v) <->
        same_weights r (nth (fst x) triangles []) (snd x) (nth (fst y) triangles []) (snd y))) /\
    (forall j nu mu v, dom (length triangles) n r (j, nu) -> dom (length triangles) n r (j, mu) ->
       tau_eq tau (j, nu) v -> tau_eq tau (j, mu) v -> nu = mu).
Proof.
  intros n r triangles HM HNR Hr. destruct (C37_identification n r triangles HM Hr) as (tau & N & E & H1 & _ & H3). exists tau, N. split; [exact E|].
  assert (HJ : forall x y, dom (length triangles) n r x -> dom (length triangles) n r y -> fst x = fst y ->
     same_weights r (nth (fst x) triangles []) (snd x) (nth (fst y) triangles []) (snd y) -> x = y).
  { intros [j nu] [k mu] (Hj & HL & _) (_ & HL' & _). cbn [fst snd] in *. intros <- H. destruct (mesh_nth n triangles j HM Hj) as [HT HN].
    f_equal. eapply same_weights_nu; [exact HN| |  |exact H]; lia. }
  split.
  - intros x y Hx Hy. rewrite (H3 x y Hx Hy). split.
    + intros [->|(_ & _ & H)]; [intros v; reflexivity|exact H].
    + intros H. destruct (mesh_nth n triangles (fst x) HM ltac:(apply Hx)) as [HTx HNx]. destruct (mesh_nth n triangles (fst y) HM ltac:(apply Hy)) as [HTy HNy].
      assert (HI : forall tri nu tri' nu', length tri = n + 1 -> length tri' = n + 1 -> NoDup tri -> NoDup tri' ->
         interior r tri nu -> same_weights r tri nu tri' nu' -> forall v, In v tri <-> In v tri').
      { clear -Hr. intros tri nu tri' nu' HT HT' HN HN' HI HS.
        assert (Hin : incl tri tri').
        { intros v Hv. destruct (in_dec Nat.eq_dec v tri') as [Hv'|Hv']; [exact Hv'|]. exfalso. apply (HI v Hv). rewrite (HS v). apply vertex_weight_out. exact Hv'. }
        intros v. split; [apply Hin|]. apply (NoDup_length_incl HN); [lia|exact Hin]. }
      destruct (cfull n r triangles x) eqn:Ex.
      { left. apply (cfull_interior n r triangles x HM Hx) in Ex. apply HJ; auto. apply HNR; [apply Hx|apply Hy|]. eapply HI; eauto. }
      destruct (cfull n r triangles y) eqn:Ey.
      { left. apply (cfull_interior n r triangles y HM Hy) in Ey. apply HJ; auto. apply HNR; [apply Hx|apply Hy|].
        intros v. symmetry. eapply HI with (nu := snd y) (nu' := snd x); eauto. intros w. symmetry. apply H. }
      right. rewrite <- (cfull_interior n r triangles x HM Hx), <- (cfull_interior n r triangles y HM Hy), Ex, Ey. split; [discriminate|]. split; [discriminate|exact H].
  - intros j nu mu v Hx Hy E1 E2. destruct (proj1 (H3 (j, nu) (j, mu) Hx Hy)) as [H|(_ & _ & H)]; [exists v; auto|congruence|].
    apply HJ in H; auto. congruence.
Qed.
Print Assumptions C37_same_weights.
Example C37_ex1 : no_repeated two_tri.
Proof. intros [|[|i]] [|[|j]] Hi Hj H; cbn in Hi, Hj; try lia; exfalso.
  - destruct (proj1 (H 0) (or_introl eq_refl)) as [|[|[|[]]]]; discriminate.
  - destruct (proj2 (H 0) (or_introl eq_refl)) as [|[|[|[]]]]; discriminate.
Qed.
Example C37_ex2 : tau_table 2 2 2 (generate_local_to_global_map true two_tri 2 None false)
  = Ok ([Ok 0; Ok 1; Ok 2; Ok 3; Ok 4; Ok 5; Ok 2; Ok 6; Ok 7; Ok 4; Ok 8; Ok 5]%Z, 9%Z, None).
Proof. reflexivity. Qed.

(** ** C38 *)
Theorem C38_boundary_dropped : forall n r triangles bs, mesh n triangles -> proper_simplices bs -> 1 <= r ->
  exists tau N, generate_local_to_global_map true triangles r (Some bs) false = Ok (tau, N, None) /\
    (forall x, dom (length triangles) n r x -> exists v, tau_eq tau x v /\
       (v = (-1)%Z <-> attached bs r (nth (fst x) triangles []) (snd x)) /\ (v <> (-1)%Z -> (0 <= v < N)%Z)) /\
    (forall v, (0 <= v < N)%Z -> exists x, dom (length triangles) n r x /\ tau_eq tau x v) /\
    (forall x y, dom (length triangles) n r x -> dom (length triangles) n r y ->
       ~ attached bs r (nth (fst x) triangles []) (snd x) -> ~ attached bs r (nth (fst y) triangles []) (snd y) ->
       ((exists v, tau_eq tau x v /\ tau_eq tau y v) <->
        x = y \/ (~ interior r (nth (fst x) triangles []) (snd x) /\ ~ interior r (nth (fst y) triangles []) (snd y) /\
                  same_weights r (nth (fst x) triangles []) (snd x) (nth (fst y) triangles []) (snd y)))).
Proof.
  intros n r triangles bs HM HB Hr. destruct (boundary_subs_spec (Some bs) HB) as (bsub & Eb & Hb).
  destruct (cont_map_spec n r (Some bs) bsub false triangles HM Hr Eb) as (tau & N & nonb & E & HT & HR & Hk & HN).
  destruct nonb as [c|]; [destruct Hk as [_ Hk]; discriminate (Hk eq_refl)|]. exists tau, N. split; [exact E|].
  assert (HC : forall x, dom (length triangles) n r x ->
    (attached bs r (nth (fst x) triangles []) (snd x) /\ ccls bsub false n r triangles x = Skip) \/
    (~ attached bs r (nth (fst x) triangles []) (snd x) /\ ccls bsub false n r triangles x = Int)).
  { intros x (Hj & HL & Hn). destruct (mesh_nth n triangles (fst x) HM Hj) as [HT' HN'].
    pose proof (spairs_bsub bs bsub (nth (fst x) triangles []) r (snd x) Hb HN' ltac:(lia) Hr) as HA.
    unfold ccls. fold (cinb bsub r triangles x) in HA. unfold cinb, csp. destruct (tuple_mem _ bsub); cbn [andb negb].
    - left. split; [apply HA; reflexivity|reflexivity].
    - right. split; [intros H; apply HA in H; discriminate|]. destruct (cfull n r triangles x); reflexivity. }
  split; [|split].
  - intros x Hx. exists (tau_at tau x). split; [apply tau_eq_at; [apply HT, Hx|reflexivity]|]. destruct (HC x Hx) as [[HA Ec]|[HA Ec]].
    + rewrite (n_skip _ _ _ _ _ _ HN x Hx Ec). tauto.
    + pose proof (n_int _ _ _ _ _ _ HN x Hx Ec). split; [|lia]. split; [lia|contradiction].
  - intros v Hv. destruct (n_onto _ _ _ _ _ _ HN v Hv) as (x & Hx & _ & Ex). exists x. split; [exact Hx|apply tau_eq_at; [apply HT, Hx|exact Ex]].
  - intros x y Hx Hy Ax Ay. rewrite <- (ckey_same n r triangles x y HM Hx Hy).
    destruct (HC x Hx) as [[? _]|[_ Cx]]; [contradiction|]. destruct (HC y Hy) as [[? _]|[_ Cy]]; [contradiction|].
    rewrite <- (n_key _ _ _ _ _ _ HN x y Hx Hy) by (rewrite ?Cx, ?Cy; discriminate). split.
    + intros (v & E1 & E2). apply tau_at_eq in E1, E2. congruence.
    + intros Ev. exists (tau_at tau x). split; apply tau_eq_at; try (apply HT; apply Hx || apply Hy); auto.
Qed.
Print Assumptions C38_boundary_dropped.

(** Attached functions come last, unless they are interior functions of a mesh
    simplex contained in a boundary simplex. *)
Theorem C38_boundary_last : forall n r triangles bs, mesh n triangles -> proper_simplices bs -> 1 <= r ->
  exists tau N nn, generate_local_to_global_map true triangles r (Some bs) true = Ok (tau, N, Some nn) /\
    (forall x, dom (length triangles) n r x -> exists v, tau_eq tau x v /\ (0 <= v < N)%Z /\
       ((nn <= v)%Z <-> attached bs r (nth (fst x) triangles []) (snd x) /\ ~ interior r (nth (fst x) triangles []) (snd x))) /\
    (forall v, (0 <= v < N)%Z -> exists x, dom (length triangles) n r x /\ tau_eq tau x v) /\
    (forall x y, dom (length triangles) n r x -> dom (length triangles) n r y ->
       ((exists v, tau_eq tau x v /\ tau_eq tau y v) <->
        x = y \/ (~ interior r (nth (fst x) triangles []) (snd x) /\ ~ interior r (nth (fst y) triangles []) (snd y) /\
                  same_weights r (nth (fst x) triangles []) (snd x) (nth (fst y) triangles []) (snd y)))).
Proof.
  intros n r triangles bs HM HB Hr. destruct (boundary_subs_spec (Some bs) HB) as (bsub & Eb & Hb).
  destruct (cont_map_spec n r (Some bs) bsub true triangles HM Hr Eb) as (tau & N & nonb & E & HT & HR & Hk & HN).
  destruct nonb as [c|]; [|destruct Hk as [Hk _]; discriminate (Hk eq_refl)]. exists tau, N, c. split; [exact E|].
  pose proof (n_le _ _ _ _ _ _ HN) as Hle.
  assert (HS : forall x, ccls bsub true n r triangles x <> Skip).
  { intros x. unfold ccls. rewrite andb_false_r. destruct (cfull n r triangles x), (cinb bsub r triangles x); discriminate. }
  assert (HC : forall x, dom (length triangles) n r x ->
    ((attached bs r (nth (fst x) triangles []) (snd x) /\ ~ interior r (nth (fst x) triangles []) (snd x)) /\ ccls bsub true n r triangles x = Bnd) \/
    (~ (attached bs r (nth (fst x) triangles []) (snd x) /\ ~ interior r (nth (fst x) triangles []) (snd x)) /\ ccls bsub true n r triangles x = Int)).
  { intros x Hx. pose proof (cfull_interior n r triangles x HM Hx) as HF. destruct Hx as (Hj & HL & Hn). destruct (mesh_nth n triangles (fst x) HM Hj) as [HT' HN'].
    pose proof (spairs_bsub bs bsub (nth (fst x) triangles []) r (snd x) Hb HN' ltac:(lia) Hr) as HA.
    unfold ccls. unfold cinb, csp. destruct (tuple_mem _ bsub); cbn [andb negb]; destruct (cfull n r triangles x).
    - right. split; [|reflexivity]. intros [_ H]. apply H, HF. reflexivity.
    - left. split; [|reflexivity]. split; [apply HA; reflexivity|]. rewrite <- HF. discriminate.
    - right. split; [|reflexivity]. intros [_ H]. apply H, HF. reflexivity.
    - right. split; [|reflexivity]. intros [H _]. apply HA in H. discriminate. }
  split; [|split].
  - intros x Hx. exists (tau_at tau x). split; [apply tau_eq_at; [apply HT, Hx|reflexivity]|]. destruct (HC x Hx) as [[HA Ec]|[HA Ec]].
    + pose proof (n_bnd _ _ _ _ _ _ HN x Hx Ec). split; [lia|]. split; [auto|lia].
    + pose proof (n_int _ _ _ _ _ _ HN x Hx Ec). split; [lia|]. split; [lia|contradiction].
  - intros v Hv. destruct (n_onto _ _ _ _ _ _ HN v Hv) as (x & Hx & _ & Ex). exists x. split; [exact Hx|apply tau_eq_at; [apply HT, Hx|exact Ex]].
  - intros x y Hx Hy. rewrite <- (ckey_same n r triangles x y HM Hx Hy).
    rewrite <- (n_key _ _ _ _ _ _ HN x y Hx Hy) by apply HS. split.
    + intros (v & E1 & E2). apply tau_at_eq in E1, E2. congruence.
    + intros Ev. exists (tau_at tau x). split; apply tau_eq_at; try (apply HT; apply Hx || apply Hy); auto.
Qed.
Print Assumptions C38_boundary_last.
Example C38_ex1 : tau_table 2 2 2 (generate_local_to_global_map true two_tri 2 (Some [[1; 2]]) false)
  = Ok ([Ok 0; Ok 1; Ok (-1); Ok 2; Ok (-1); Ok (-1); Ok (-1); Ok 3; Ok 4; Ok (-1); Ok 5; Ok (-1)]%Z, 6%Z, None).
Proof. reflexivity. Qed.
Example C38_ex2 : tau_table 2 2 2 (generate_local_to_global_map true two_tri 2 (Some [[1; 2]]) true)
  = Ok ([Ok 0; Ok 1; Ok 6; Ok 2; Ok 7; Ok 8; Ok 6; Ok 3; Ok 4; Ok 7; Ok 5; Ok 8]%Z, 9%Z, Some 6%Z).
Proof. reflexivity. Qed.

(** A boundary simplex that is a whole mesh simplex: its interior function is
    attached, yet numbered before a function that is not attached. *)
Theorem C38_boundary_last_refuted : exists n r triangles bs tau N nn x v y w,
  mesh n triangles /\ proper_simplices bs /\ 1 <= r /\
  generate_local_to_global_map true triangles r (Some bs) true = Ok (tau, N, Some nn) /\
  dom (length triangles) n r x /\ tau_eq tau x v /\ attached bs r (nth (fst x) triangles []) (snd x) /\
  dom (length triangles) n r y /\ tau_eq tau y w /\ ~ attached bs r (nth (fst y) triangles []) (snd y) /\
  (v < w)%Z /\ (v < nn)%Z.
Proof.
  exists 1, 2, [[0; 1]; [1; 2]], [[0; 1]].
  exists (make_tau 2 [[([0], 3%Z); ([1], 0%Z); ([2], 4%Z)]; [([0], 4%Z); ([1], 1%Z); ([2], 2%Z)]]), 5%Z, 3%Z. exists (0, [1]), 0%Z, (1, [1]), 1%Z.
  split; [split; [discriminate|]; intros t [<-|[<-|[]]]; (split; [reflexivity|]; repeat constructor; cbn; intuition lia)|].
  split; [intros b [<-|[]]; split; [repeat constructor; cbn; intuition lia|discriminate]|]. split; [lia|].
  split; [vm_compute; reflexivity|]. split; [unfold dom; cbn; lia|]. split; [reflexivity|].
  split; [|split; [unfold dom; cbn; lia|split; [reflexivity|split]]].
  - exists [0; 1]. split; [left; reflexivity|]. intros v [[E _]|H]; [discriminate|]. cbn [fst nth].
    destruct v as [|[|v]]; cbn; [auto|auto|]. exfalso. apply H. reflexivity.
  - intros (b & [<-|[]] & H). assert (W : vertex_weight [1; 2] 2 [1] 2 <> 0) by (intros W; discriminate W).
    destruct (H 2 (or_intror W)) as [W'|[W'|[]]]; discriminate W'.
  - lia.
Qed.
Print Assumptions C38_boundary_last_refuted.

(** ** C35 *)
Theorem C35_inverse : forall n r triangles bs keep, mesh n triangles -> proper_simplices (bs_list bs) ->
  exists tau N nonb inv, generate_local_to_global_map false triangles r bs keep = Ok (tau, N, nonb) /\
    generate_inverse_local_to_global_map tau (length triangles) N r n = Ok inv /\
    (forall x v, dom (length triangles) n r x -> tau_eq tau x v -> v <> (-1)%Z -> inv v = Ok x) /\
    (forall i, (0 <= i < N)%Z -> exists x, inv i = Ok x /\ dom (length triangles) n r x /\ tau_eq tau x i) /\
    (forall i, ~ (0 <= i < N)%Z -> inv i = Err AssertionError).
Proof.
  intros n r triangles bs keep HM HB. destruct (boundary_subs_spec bs HB) as (bsub & Eb & Hb).
  destruct (disc_map_spec n r bs bsub keep triangles HM Eb) as (tau & N & nonb & E & HT & HR & Hk & HN). pose proof (n_le _ _ _ _ _ _ HN) as Hle.
  unfold generate_inverse_local_to_global_map. rewrite generate_all_eq. cbn [bind].
  assert (HA : forall x, dom (length triangles) n r x -> tau_at tau x <> (-1)%Z -> dcls bsub keep r triangles x <> Skip /\ (0 <= tau_at tau x < N)%Z).
  { intros x Hx Hne. destruct (dcls bsub keep r triangles x) eqn:C.
    - exfalso. apply Hne. apply (n_skip _ _ _ _ _ _ HN); assumption.
    - split; [discriminate|]. pose proof (n_bnd _ _ _ _ _ _ HN x Hx C). lia.
    - split; [discriminate|]. pose proof (n_int _ _ _ _ _ _ HN x Hx C). lia. }
  destruct (inverse_dict (tau_at tau) (fun x => tau (Z.of_nat (fst x)) (snd x)) (local_indices (length triangles) (all_mi n r))) as (d & Ed & D1 & D2).
  - intros x Hx. apply in_local_indices in Hx. apply tau_eq_at; [apply HT, Hx|reflexivity].
  - intros x y Hx Hy Hne Exy. apply in_local_indices in Hx, Hy. destruct (HA x Hx Hne) as [Cx _].
    assert (Hne' : tau_at tau y <> (-1)%Z) by congruence. destruct (HA y Hy Hne') as [Cy _]. apply (n_key _ _ _ _ _ _ HN); assumption.
  - exists tau, N, nonb. eexists. split; [exact E|]. change (foldM (inverse_step tau) [] (local_indices (length triangles) (all_mi n r)) = Ok d) in Ed. rewrite Ed. cbn [bind]. split; [reflexivity|]. split; [|split].
    + intros x v Hx Ev Hne. apply tau_at_eq in Ev. subst v. destruct (HA x Hx Hne) as [_ Hr].
      replace (0 <=? tau_at tau x)%Z with true by (symmetry; apply Z.leb_le; lia).
      replace (tau_at tau x <? N)%Z with true by (symmetry; apply Z.ltb_lt; lia). cbn [assert_ bind]. rewrite D1; [reflexivity| |exact Hne].
      apply in_local_indices. exact Hx.
    + intros i Hi. destruct (n_onto _ _ _ _ _ _ HN i Hi) as (x & Hx & Cx & Ex). exists x.
      replace (0 <=? i)%Z with true by (symmetry; apply Z.leb_le; lia).
      replace (i <? N)%Z with true by (symmetry; apply Z.ltb_lt; lia). cbn [assert_ bind]. rewrite <- Ex, D1; [|apply in_local_indices; exact Hx|lia].
      split; [reflexivity|]. split; [exact Hx|]. apply tau_eq_at; [apply HT, Hx|reflexivity].
    + intros i Hi. destruct (Z.leb_spec 0 i); [|reflexivity]. destruct (Z.ltb_spec i N); [lia|reflexivity].
Qed.
Print Assumptions C35_inverse.
Example C35_ex1 :
  (let* m := generate_local_to_global_map false two_tri 1 (Some [[1; 2]]) true in
   let '(tau, N, _) := m in
   let* inv := generate_inverse_local_to_global_map tau 2 N 1 2 in mapM inv [0; 1; 2; 3; 4; 5]%Z)
  = Ok [(0, [0; 0]); (1, [1; 0]); (0, [1; 0]); (0, [0; 1]); (1, [0; 0]); (1, [0; 1])].
Proof. reflexivity. Qed.

(** ** C36 *)
(** What is needed of a scalar map, whichever of the two generators made it. *)
Record scalar_map (ntri n r : nat) (tau : tau_fn) (N : Z) : Prop := mkSM {
  s_pos : (0 <= N)%Z;
  s_val : forall x, dom ntri n r x -> exists v, tau_eq tau x v /\ (v = (-1)%Z \/ (0 <= v < N)%Z);
  s_onto : forall v, (0 <= v < N)%Z -> exists x, dom ntri n r x /\ tau_eq tau x v }.
Lemma generated_scalar c n r triangles bs keep : mesh n triangles -> proper_simplices (bs_list bs) -> (c = true -> 1 <= r) ->
  exists tau N nonb, generate_local_to_global_map c triangles r bs keep = Ok (tau, N, nonb) /\
    scalar_map (length triangles) n r tau N /\
    (c = false -> forall x y v, dom (length triangles) n r x -> dom (length triangles) n r y -> v <> (-1)%Z -> tau_eq tau x v -> tau_eq tau y v -> x = y).
Proof.
  intros HM HB Hc. destruct (boundary_subs_spec bs HB) as (bsub & Eb & Hb).
  assert (G : forall K (key : local -> K) cls tau N nn, (forall x, fst x < length triangles -> exists v, tau (Z.of_nat (fst x)) (snd x) = Ok v) ->
    numbered key cls (dom (length triangles) n r) (tau_at tau) nn N -> scalar_map (length triangles) n r tau N).
  { intros K key cls tau N nn HT HN. pose proof (n_le _ _ _ _ _ _ HN). constructor; [lia| |].
    - intros x Hx. exists (tau_at tau x). split; [apply tau_eq_at; [apply HT, Hx|reflexivity]|]. destruct (cls x) eqn:C.
      + left. apply (n_skip _ _ _ _ _ _ HN); assumption.
      + right. pose proof (n_bnd _ _ _ _ _ _ HN x Hx C). lia.
      + right. pose proof (n_int _ _ _ _ _ _ HN x Hx C). lia.
    - intros v Hv. destruct (n_onto _ _ _ _ _ _ HN v Hv) as (x & Hx & _ & Ex). exists x. split; [exact Hx|apply tau_eq_at; [apply HT, Hx|exact Ex]]. }
  destruct c.
  - destruct (cont_map_spec n r bs bsub keep triangles HM (Hc eq_refl) Eb) as (tau & N & nonb & E & HT & HR & Hk & HN).
    exists tau, N, nonb. split; [exact E|]. split; [eapply G; eassumption|discriminate].
  - destruct (disc_map_spec n r bs bsub keep triangles HM Eb) as (tau & N & nonb & E & HT & HR & Hk & HN).
    exists tau, N, nonb. split; [exact E|]. split; [eapply G; eassumption|]. intros _ x y v Hx Hy Hne Ex Ey. apply tau_at_eq in Ex, Ey.
    apply (n_key _ _ _ _ _ _ HN); auto; [| |congruence]; intros C.
    + rewrite (n_skip _ _ _ _ _ _ HN x Hx C) in Ex. congruence.
    + rewrite (n_skip _ _ _ _ _ _ HN y Hy C) in Ey. congruence.
Qed.
Lemma make_vector_tau_eq ntri d N o tau x k v : fst x < ntri -> k < d -> tau_eq tau x v ->
  make_vector_tau ntri d N o tau (Z.of_nat (fst x)) (snd x) (Z.of_nat k) =
  Ok (if (v =? -1)%Z then (-1)%Z else match o with interleaved => (Z.of_nat d * v + Z.of_nat k)%Z | sequential => (Z.of_nat k * N + v)%Z end).
Proof.
  intros Hx Hk E. unfold make_vector_tau.
  replace (0 <=? Z.of_nat (fst x))%Z with true by (symmetry; apply Z.leb_le; lia).
  replace (Z.of_nat (fst x) <? Z.of_nat ntri)%Z with true by (symmetry; apply Z.ltb_lt; lia).
  replace (0 <=? Z.of_nat k)%Z with true by (symmetry; apply Z.leb_le; lia).
  replace (Z.of_nat k <? Z.of_nat d)%Z with true by (symmetry; apply Z.ltb_lt; lia). cbn [assert_ bind]. rewrite E. cbn [bind].
  destruct (v =? -1)%Z; [reflexivity|]. destruct o; reflexivity.
Qed.
Definition vtau_eq (tau : vtau_fn) (x : local) (k : nat) (v : Z) : Prop := tau (Z.of_nat (fst x)) (snd x) (Z.of_nat k) = Ok v.
(** Consistency with the scalar map generated from the same arguments. *)
Theorem C36_vector_values : forall c n r d triangles bs keep o, mesh n triangles -> proper_simplices (bs_list bs) ->
  (c = true -> 1 <= r) -> 2 <= d ->
  exists tau N nonb vtau vnonb, generate_local_to_global_map c triangles r bs keep = Ok (tau, N, nonb) /\
    generate_vector_valued_local_to_global_map c triangles r d bs keep o = Ok (vtau, (Z.of_nat d * N)%Z, vnonb) /\
    vnonb = option_map (Z.mul (Z.of_nat d)) nonb /\
    (forall x k v, dom (length triangles) n r x -> k < d -> tau_eq tau x v ->
       vtau_eq vtau x k (if (v =? -1)%Z then (-1)%Z else match o with interleaved => (Z.of_nat d * v + Z.of_nat k)%Z | sequential => (Z.of_nat k * N + v)%Z end)).
Proof.
  intros c n r d triangles bs keep o HM HB Hc Hd. destruct (generated_scalar c n r triangles bs keep HM HB Hc) as (tau & N & nonb & E & HS & _).
  unfold generate_vector_valued_local_to_global_map. replace (1 <? d) with true by (symmetry; apply Nat.ltb_lt; lia). cbn [assert_ bind].
  rewrite E. cbn [bind]. exists tau, N, nonb. eexists. eexists. split; [reflexivity|]. split; [reflexivity|]. split; [destruct nonb; reflexivity|].
  intros x k v [Hx _] Hk Ex. apply make_vector_tau_eq; assumption.
Qed.
Print Assumptions C36_vector_values.
(** The vector map takes every index in range; two local functions share an
    index exactly when they have the same component and the same scalar index;
    -1 means that the scalar map gives -1. *)
Theorem C36_vector_bijection : forall c n r d triangles bs keep o, mesh n triangles -> proper_simplices (bs_list bs) ->
  (c = true -> 1 <= r) -> 2 <= d ->
  exists tau N nonb vtau VN vnonb, generate_local_to_global_map c triangles r bs keep = Ok (tau, N, nonb) /\
    generate_vector_valued_local_to_global_map c triangles r d bs keep o = Ok (vtau, VN, vnonb) /\
    VN = (Z.of_nat d * N)%Z /\
    (forall x k, dom (length triangles) n r x -> k < d -> exists v, vtau_eq vtau x k v /\
    (v = (-1)%Z /\ tau_eq tau x (-1)%Z \/ (0 <= v < VN)%Z /\ ~ tau_eq tau x (-1)%Z)) /\
    (forall i, (0 <= i < VN)%Z -> exists x k, dom (length triangles) n r x /\ k < d /\ vtau_eq vtau x k i) /\
    (forall x y k l i, dom (length triangles) n r x -> dom (length triangles) n r y -> k < d -> l < d -> i <> (-1)%Z ->
       vtau_eq vtau x k i -> (vtau_eq vtau y l i <-> k = l /\ exists s, tau_eq tau x s /\ tau_eq tau y s)).
Proof.
  intros c n r d triangles bs keep o HM HB Hc Hd. destruct (C36_vector_values c n r d triangles bs keep o HM HB Hc Hd) as (tau & N & nonb & vtau & vnonb & E & EV & _ & HV).
  destruct (generated_scalar c n r triangles bs keep HM HB Hc) as (tau' & N' & nonb' & E' & HS & _). rewrite E in E'. injection E' as <- <- <-.
  exists tau, N, nonb, vtau. eexists. exists vnonb. split; [exact E|]. split; [exact EV|]. split; [reflexivity|].
  assert (HF : forall x v w, tau_eq tau x v -> tau_eq tau x w -> v = w) by (unfold tau_eq; intros; congruence).
  assert (HVF : forall x k v w, vtau_eq vtau x k v -> vtau_eq vtau x k w -> v = w) by (unfold vtau_eq; intros; congruence).
  split; [|split].
  - intros x k Hx Hk. destruct (s_val _ _ _ _ _ HS x Hx) as (v & Ev & Hv). eexists. split; [apply (HV x k v Hx Hk Ev)|].
    destruct (Z.eqb_spec v (-1)) as [->|Hne]; [left; auto|]. right. split.
    + destruct Hv as [Hv|Hv]; [congruence|]. destruct o; nia.
    + intros Ew. apply Hne. apply (HF x); assumption.
  - intros i Hi. pose proof (s_pos _ _ _ _ _ HS) as HN. assert (0 < N)%Z by nia. destruct o.
    + destruct (s_onto _ _ _ _ _ HS (i / Z.of_nat d)%Z) as (x & Hx & Ex).
      { split; [apply Z.div_pos; lia|]. apply Z.div_lt_upper_bound; lia. }
      exists x, (Z.to_nat (i mod Z.of_nat d)). pose proof (Z.mod_pos_bound i (Z.of_nat d) ltac:(lia)) as Hm.
      split; [exact Hx|]. assert (Hk : Z.to_nat (i mod Z.of_nat d) < d) by lia. split; [exact Hk|].
      pose proof (HV x _ _ Hx Hk Ex) as H1. assert (0 <= i / Z.of_nat d)%Z by (apply Z.div_pos; lia).
      destruct (Z.eqb_spec (i / Z.of_nat d) (-1)); [lia|]. rewrite Z2Nat.id in H1 by lia. rewrite <- Z.div_mod in H1 by lia. exact H1.
    + pose proof (Z.mod_pos_bound i N ltac:(lia)) as Hm. destruct (s_onto _ _ _ _ _ HS (i mod N)%Z Hm) as (x & Hx & Ex).
      assert (H0 : (0 <= i / N < Z.of_nat d)%Z) by (split; [apply Z.div_pos; lia|apply Z.div_lt_upper_bound; lia]).
      exists x, (Z.to_nat (i / N)). split; [exact Hx|]. assert (Hk : Z.to_nat (i / N) < d) by lia. split; [exact Hk|].
      pose proof (HV x _ _ Hx Hk Ex) as H1. destruct (Z.eqb_spec (i mod N) (-1)); [lia|]. rewrite Z2Nat.id in H1 by lia.
      rewrite Z.mul_comm, <- Z.div_mod in H1 by lia. exact H1.
  - intros x y k l i Hx Hy Hk Hl Hne Ex. destruct (s_val _ _ _ _ _ HS x Hx) as (v & Ev & Hv), (s_val _ _ _ _ _ HS y Hy) as (w & Ew & Hw).
    pose proof (HV x k v Hx Hk Ev) as H1. pose proof (HV y l w Hy Hl Ew) as H2. pose proof (HVF _ _ _ _ Ex H1) as Ei.
    destruct (Z.eqb_spec v (-1)) as [Hv1|Hv1]; [congruence|]. destruct Hv as [Hv|Hv]; [contradiction|]. split.
    + intros Ey. pose proof (HVF _ _ _ _ Ey H2) as Ei2. destruct (Z.eqb_spec w (-1)) as [Hw1|Hw1]; [congruence|]. destruct Hw as [Hw|Hw]; [contradiction|].
      assert (k = l /\ v = w) as [-> ->]; [|split; [reflexivity|exists w; auto]]. destruct o.
      * assert (v = w) by nia. subst w. split; [lia|reflexivity].
      * assert (Z.of_nat k = Z.of_nat l) by nia. assert (k = l) by lia. subst l. split; [reflexivity|lia].
    + intros [-> (s & Es1 & Es2)]. rewrite <- (HF x s v Es1 Ev) in *. rewrite (HF y w s Ew Es2) in H2.
      destruct (Z.eqb_spec s (-1)); [contradiction|]. rewrite Ei. exact H2.
Qed.
Print Assumptions C36_vector_bijection.

Lemma in_vlocal ntri d n r x k : In (x, k) (vlocal_indices ntri d (all_mi n r)) <-> dom ntri n r x /\ k < d.
Proof.
  unfold vlocal_indices. rewrite in_flat_map. split.
  - intros (y & Hy & H). apply in_map_iff in H as (k' & [= -> ->] & H). apply in_seq in H. apply in_local_indices in Hy. split; [exact Hy|lia].
  - intros [Hx Hk]. exists x. split; [apply in_local_indices; exact Hx|]. apply in_map_iff. exists k. split; [reflexivity|]. apply in_seq. lia.
Qed.
Definition vtau_at (vtau : vtau_fn) (x : local * nat) : Z :=
  match vtau (Z.of_nat (fst (fst x))) (snd (fst x)) (Z.of_nat (snd x)) with Ok v => v | Err _ => (-7)%Z end.
(** The inverse of a discontinuous vector map inverts it. *)
Theorem C36_vector_inverse : forall n r d triangles bs keep o, mesh n triangles -> proper_simplices (bs_list bs) -> 2 <= d ->
  exists vtau VN vnonb inv, generate_vector_valued_local_to_global_map false triangles r d bs keep o = Ok (vtau, VN, vnonb) /\
    generate_inverse_vector_valued_local_to_global_map vtau (length triangles) VN r n d = Ok inv /\
    (forall x k v, dom (length triangles) n r x -> k < d -> vtau_eq vtau x k v -> v <> (-1)%Z -> inv v = Ok (x, k)) /\
    (forall i, (0 <= i < VN)%Z -> exists x k, inv i = Ok (x, k) /\ dom (length triangles) n r x /\ k < d /\ vtau_eq vtau x k i) /\
    (forall i, ~ (0 <= i < VN)%Z -> inv i = Err AssertionError).
Proof.
  intros n r d triangles bs keep o HM HB Hd.
  destruct (C36_vector_bijection false n r d triangles bs keep o HM HB ltac:(discriminate) Hd) as (tau & N & nonb & vtau & VN & vnonb & E & EV & _ & H1 & H2 & H3).
  destruct (generated_scalar false n r triangles bs keep HM HB ltac:(discriminate)) as (tau' & N' & nonb' & E' & HS & HI). rewrite E in E'. injection E' as <- <- <-.
  specialize (HI eq_refl).
  unfold generate_inverse_vector_valued_local_to_global_map. rewrite generate_all_eq. cbn [bind].
  assert (HT : forall x k, dom (length triangles) n r x -> k < d -> vtau_eq vtau x k (vtau_at vtau (x, k))).
  { intros x k Hx Hk. destruct (H1 x k Hx Hk) as (v & Ev & _). unfold vtau_eq, vtau_at in *. cbn [fst snd]. rewrite Ev. reflexivity. }
  destruct (inverse_dict (vtau_at vtau) (fun x => vtau (Z.of_nat (fst (fst x))) (snd (fst x)) (Z.of_nat (snd x)))
    (vlocal_indices (length triangles) d (all_mi n r))) as (dd & Ed & D1 & D2).
  - intros [x k] Hx. apply in_vlocal in Hx as [Hx Hk]. apply HT; assumption.
  - intros [x k] [y l] Hx Hy Hne Exy. apply in_vlocal in Hx as [Hx Hk]. apply in_vlocal in Hy as [Hy Hl].
    pose proof (HT x k Hx Hk) as E1. pose proof (HT y l Hy Hl) as E2. rewrite <- Exy in E2.
    destruct (proj1 (H3 x y k l _ Hx Hy Hk Hl Hne E1) E2) as [-> (s & Es1 & Es2)]. f_equal.
    apply (HI x y s Hx Hy); auto. intros ->. destruct (H1 x l Hx Hk) as (v & Ev & [[-> _]|[_ Hv]]); [|contradiction].
    unfold vtau_eq in *. congruence.
  - exists vtau, VN, vnonb. eexists. split; [exact EV|].
    change (foldM (vinverse_step vtau) [] (vlocal_indices (length triangles) d (all_mi n r)) = Ok dd) in Ed. rewrite Ed. cbn [bind]. split; [reflexivity|]. split; [|split].
    + intros x k v Hx Hk Ev Hne. destruct (H1 x k Hx Hk) as (v' & Ev' & Hv'). assert (v' = v) by (unfold vtau_eq in *; congruence). subst v'.
      destruct Hv' as [[Hv' _]|[Hv' _]]; [contradiction|].
      replace (0 <=? v)%Z with true by (symmetry; apply Z.leb_le; lia). replace (v <? VN)%Z with true by (symmetry; apply Z.ltb_lt; lia). cbn [assert_ bind].
      assert (Ea : vtau_at vtau (x, k) = v) by (pose proof (HT x k Hx Hk); unfold vtau_eq in *; congruence).
      rewrite <- Ea, D1; [reflexivity|apply in_vlocal; auto|congruence].
    + intros i Hi. destruct (H2 i Hi) as (x & k & Hx & Hk & Ei). exists x, k.
      replace (0 <=? i)%Z with true by (symmetry; apply Z.leb_le; lia). replace (i <? VN)%Z with true by (symmetry; apply Z.ltb_lt; lia). cbn [assert_ bind].
      assert (Ea : vtau_at vtau (x, k) = i) by (pose proof (HT x k Hx Hk); unfold vtau_eq in *; congruence).
      rewrite <- Ea, D1; [|apply in_vlocal; auto|lia]. split; [reflexivity|]. split; [exact Hx|]. split; [exact Hk|]. rewrite Ea. exact Ei.
    + intros i Hi. destruct (Z.leb_spec 0 i); [|reflexivity]. destruct (Z.ltb_spec i VN); [lia|reflexivity].
Qed.
Print Assumptions C36_vector_inverse.
Definition vtau_table (ntri n r d : nat) (m : result (vtau_fn * Z * option Z)) : result (list (result Z) * Z * option Z) :=
  let* m := m in let '(tau, N, nonb) := m in
  Ok (map (fun x => tau (Z.of_nat (fst (fst x))) (snd (fst x)) (Z.of_nat (snd x))) (vlocal_indices ntri d (all_mi n r)), N, nonb).
Example C36_ex1 : vtau_table 2 1 1 2 (generate_vector_valued_local_to_global_map true [[0; 1]; [1; 2]] 1 2 None false interleaved)
  = Ok ([Ok 0; Ok 1; Ok 2; Ok 3; Ok 2; Ok 3; Ok 4; Ok 5]%Z, 6%Z, None).
Proof. reflexivity. Qed.
Example C36_ex2 : vtau_table 2 1 1 2 (generate_vector_valued_local_to_global_map false [[0; 1]; [1; 2]] 1 2 None false sequential)
  = Ok ([Ok 0; Ok 4; Ok 1; Ok 5; Ok 2; Ok 6; Ok 3; Ok 7]%Z, 8%Z, None).
Proof. reflexivity. Qed.

(** ** C53 *)
Theorem C53_preimage : forall c n r triangles bs keep, mesh n triangles -> proper_simplices (bs_list bs) -> (c = true -> 1 <= r) ->
  exists tau N nonb pre, generate_local_to_global_map c triangles r bs keep = Ok (tau, N, nonb) /\
    generate_local_to_global_preimage_map tau (length triangles) N r n = Ok pre /\
    forall si, (forall i, In i si -> (0 <= i < N)%Z) -> exists s, pre si = Ok s /\ NoDup s /\
    forall x, In x s <-> dom (length triangles) n r x /\ exists i, In i si /\ tau_eq tau x i.
Proof.
  intros c n r triangles bs keep HM HB Hc. destruct (generated_scalar c n r triangles bs keep HM HB Hc) as (tau & N & nonb & E & HS & _).
  unfold generate_local_to_global_preimage_map. rewrite generate_all_eq. cbn [bind].
  assert (HT : forall x, dom (length triangles) n r x -> tau_eq tau x (tau_at tau x)).
  { intros x Hx. destruct (s_val _ _ _ _ _ HS x Hx) as (v & Ev & _). rewrite (tau_at_eq tau x v Ev). exact Ev. }
  destruct (preimage_fold local_dec (tau_at tau) (fun x => tau (Z.of_nat (fst x)) (snd x)) (local_indices (length triangles) (all_mi n r))) with (d := @nil (Z * list local)) (P := @nil local) as (d & Ed & Hd).
  - intros x Hx. apply in_local_indices in Hx. apply HT. exact Hx.
  - intros i. cbn [zfind]. intros x [].
  - change (foldM (preimage_step local_dec (fun x => tau (Z.of_nat (fst x)) (snd x))) [] (local_indices (length triangles) (all_mi n r)) = Ok d) in Ed.
    exists tau, N, nonb. rewrite Ed. eexists. cbn [bind app] in *. split; [exact E|]. split; [reflexivity|]. intros si Hsi.
    destruct (preimage_map_spec local_dec (tau_at tau) (fun x => tau (Z.of_nat (fst x)) (snd x)) N d _ si Hd Hsi) as (s & Es & HN & Hs).
    + intros i Hi. destruct (s_onto _ _ _ _ _ HS i Hi) as (x & Hx & Ex). exists x. split; [apply in_local_indices; exact Hx|apply tau_at_eq; exact Ex].
    + exists s. split; [exact Es|]. split; [exact HN|]. intros x. rewrite Hs, in_local_indices. split.
      * intros [Hx Hi]. split; [exact Hx|]. exists (tau_at tau x). split; [exact Hi|apply HT; exact Hx].
      * intros [Hx (i & Hi & Ei)]. split; [exact Hx|]. rewrite (tau_at_eq tau x i Ei). exact Hi.
Qed.
Print Assumptions C53_preimage.
Theorem C53_vector_preimage : forall c n r d triangles bs keep o, mesh n triangles -> proper_simplices (bs_list bs) -> (c = true -> 1 <= r) -> 2 <= d ->
  exists vtau VN vnonb pre, generate_vector_valued_local_to_global_map c triangles r d bs keep o = Ok (vtau, VN, vnonb) /\
    generate_vector_valued_local_to_global_preimage_map vtau (length triangles) VN r n d = Ok pre /\
    forall si, (forall i, In i si -> (0 <= i < VN)%Z) -> exists s, pre si = Ok s /\ NoDup s /\
    forall x k, In (x, k) s <-> dom (length triangles) n r x /\ k < d /\ exists i, In i si /\ vtau_eq vtau x k i.
Proof.
  intros c n r d triangles bs keep o HM HB Hc Hd.
  destruct (C36_vector_bijection c n r d triangles bs keep o HM HB Hc Hd) as (tau & N & nonb & vtau & VN & vnonb & E & EV & _ & H1 & H2 & _).
  unfold generate_vector_valued_local_to_global_preimage_map. rewrite generate_all_eq. cbn [bind].
  assert (HT : forall x k, dom (length triangles) n r x -> k < d -> vtau_eq vtau x k (vtau_at vtau (x, k))).
  { intros x k Hx Hk. destruct (H1 x k Hx Hk) as (v & Ev & _). unfold vtau_eq, vtau_at in *. cbn [fst snd]. rewrite Ev. reflexivity. }
  assert (HF : forall x k i, vtau_eq vtau x k i -> vtau_at vtau (x, k) = i) by (intros x k i Ei; unfold vtau_eq, vtau_at in *; cbn [fst snd]; rewrite Ei; reflexivity).
  destruct (preimage_fold vlocal_dec (vtau_at vtau) (fun x => vtau (Z.of_nat (fst (fst x))) (snd (fst x)) (Z.of_nat (snd x)))
     (vlocal_indices (length triangles) d (all_mi n r))) with (d := @nil (Z * list (local * nat))) (P := @nil (local * nat)) as (dd & Ed & Hdd).
  - intros [x k] Hx. apply in_vlocal in Hx as [Hx Hk]. apply HT; assumption.
  - intros i. cbn [zfind]. intros x [].
  - change (foldM (preimage_step vlocal_dec (fun x => vtau (Z.of_nat (fst (fst x))) (snd (fst x)) (Z.of_nat (snd x)))) [] (vlocal_indices (length triangles) d (all_mi n r)) = Ok dd) in Ed.
    exists vtau, VN, vnonb. rewrite Ed. eexists. cbn [bind app] in *. split; [exact EV|]. split; [reflexivity|]. intros si Hsi.
    destruct (preimage_map_spec vlocal_dec (vtau_at vtau) (fun x => vtau (Z.of_nat (fst (fst x))) (snd (fst x)) (Z.of_nat (snd x))) VN dd _ si Hdd Hsi) as (s & Es & HN & Hs).
    + intros i Hi. destruct (H2 i Hi) as (x & k & Hx & Hk & Ex). exists (x, k). split; [apply in_vlocal; auto|apply HF; exact Ex].
    + exists s. split; [exact Es|]. split; [exact HN|]. intros x k. rewrite Hs, in_vlocal. split.
      * intros [[Hx Hk] Hi]. split; [exact Hx|]. split; [exact Hk|]. exists (vtau_at vtau (x, k)). split; [exact Hi|apply HT; assumption].
      * intros (Hx & Hk & (i & Hi & Ei)). split; [auto|]. exact (eq_ind_r (fun z => In z si) Hi (HF x k i Ei)).
Qed.
Print Assumptions C53_vector_preimage.
Example C53_ex1 :
  (let* m := generate_local_to_global_map true two_tri 1 None false in
   let '(tau, N, _) := m in
   let* pre := generate_local_to_global_preimage_map tau 2 N 1 2 in pre [1; 3]%Z)
  = Ok [(0, [1; 0]); (1, [0; 0]); (1, [1; 0])].
Proof. reflexivity. Qed.

(** ** C54 *)
Theorem C54_interleaved_boundary_last : forall c n r d triangles bs, mesh n triangles -> proper_simplices bs -> (c = true -> 1 <= r) -> 2 <= d ->
  exists tau N nn vtau vnn, generate_local_to_global_map c triangles r (Some bs) true = Ok (tau, N, Some nn) /\
    generate_vector_valued_local_to_global_map c triangles r d (Some bs) true interleaved = Ok (vtau, (Z.of_nat d * N)%Z, Some vnn) /\
    vnn = (Z.of_nat d * nn)%Z /\
    forall x k v w, dom (length triangles) n r x -> k < d -> tau_eq tau x v -> vtau_eq vtau x k w -> ((vnn <= w)%Z <-> (nn <= v)%Z).
Proof.
  intros c n r d triangles bs HM HB Hc Hd.
  destruct (C36_vector_values c n r d triangles (Some bs) true interleaved HM HB Hc Hd) as (tau & N & nonb & vtau & vnonb & E & EV & En & HV).
  assert (Hn : exists nn, nonb = Some nn /\ (0 <= nn)%Z /\ forall x v, dom (length triangles) n r x -> tau_eq tau x v -> (0 <= v)%Z).
  { destruct c.
    - destruct (C38_boundary_last n r triangles bs HM HB (Hc eq_refl)) as (tau' & N' & nn & E' & H1 & _). pose proof E as E0. rewrite E' in E. injection E as -> -> <-.
      destruct (boundary_subs_spec (Some bs) HB) as (bsub & Eb & Hb).
      destruct (cont_map_spec n r (Some bs) bsub true triangles HM (Hc eq_refl) Eb) as (tau2 & N2 & nonb2 & E2 & _ & _ & _ & HN). rewrite E0 in E2. injection E2 as <- <- <-.
      exists nn. split; [reflexivity|]. split; [apply (n_le _ _ _ _ _ _ HN)|]. intros x v Hx Ev. destruct (H1 x Hx) as (v' & Ev' & Hv' & _). unfold tau_eq in *. rewrite Ev in Ev'. injection Ev' as ->. lia.
    - destruct (C34_boundary_last n r triangles bs HM HB) as (tau' & N' & nn & E' & _ & H1 & _). pose proof E as E0. rewrite E' in E. injection E as -> -> <-.
      destruct (boundary_subs_spec (Some bs) HB) as (bsub & Eb & Hb).
      destruct (disc_map_spec n r (Some bs) bsub true triangles HM Eb) as (tau2 & N2 & nonb2 & E2 & _ & _ & _ & HN). rewrite E0 in E2. injection E2 as <- <- <-.
      exists nn. split; [reflexivity|]. split; [apply (n_le _ _ _ _ _ _ HN)|]. intros x v Hx Ev. destruct (H1 x Hx) as (v' & Ev' & Hv' & _). unfold tau_eq in *. rewrite Ev in Ev'. injection Ev' as ->. lia. }
  destruct Hn as (nn & -> & Hnn & Hpos). cbn [option_map] in En. subst vnonb. exists tau, N, nn, vtau, (Z.of_nat d * nn)%Z. split; [exact E|]. split; [exact EV|]. split; [reflexivity|].
  intros x k v w Hx Hk Ev Ew. pose proof (HV x k v Hx Hk Ev) as H. specialize (Hpos x v Hx Ev). destruct (Z.eqb_spec v (-1)); [lia|].
  assert (w = (Z.of_nat d * v + Z.of_nat k)%Z) by (unfold vtau_eq in *; congruence). subst w. nia.
Qed.
Print Assumptions C54_interleaved_boundary_last.
(** With sequential ordering the attached functions are not last: here an
    attached function has a smaller index than one that is not attached. *)
Theorem C54_sequential_boundary_last_refuted : exists n r d triangles bs vtau VN vnn x v y w,
  mesh n triangles /\ proper_simplices bs /\ 2 <= d /\
  generate_vector_valued_local_to_global_map false triangles r d (Some bs) true sequential = Ok (vtau, VN, Some vnn) /\
  dom (length triangles) n r x /\ vtau_eq vtau x 0 v /\ attached bs r (nth (fst x) triangles []) (snd x) /\
  dom (length triangles) n r y /\ vtau_eq vtau y 1 w /\ ~ attached bs r (nth (fst y) triangles []) (snd y) /\
  (v < w)%Z /\ (v < vnn)%Z.
Proof.
  exists 1, 1, 2, [[0; 1]; [1; 2]], [[0]].
  exists (make_vector_tau 2 2 4 sequential (make_tau 2 [[([0], 3%Z); ([1], 0%Z)]; [([0], 1%Z); ([1], 2%Z)]])), 8%Z, 6%Z.
  exists (0, [0]), 3%Z, (0, [1]), 4%Z.
  split; [split; [discriminate|]; intros t [<-|[<-|[]]]; (split; [reflexivity|]; repeat constructor; cbn; intuition lia)|].
  split; [intros b [<-|[]]; split; [repeat constructor; cbn; intuition lia|discriminate]|]. split; [lia|].
  split; [vm_compute; reflexivity|]. split; [unfold dom; cbn; lia|]. split; [reflexivity|].
  split; [|split; [unfold dom; cbn; lia|split; [reflexivity|split]]].
  - exists [0]. split; [left; reflexivity|]. intros v [[E _]|H]; [discriminate|]. cbn [fst nth].
    destruct v as [|[|v]]; cbn; [auto| |]; exfalso; apply H; reflexivity.
  - intros (b & [<-|[]] & H). assert (W : vertex_weight [0; 1] 1 [1] 1 <> 0) by (intros W; discriminate W).
    destruct (H 1 (or_intror W)) as [W'|[]]; discriminate W'.
  - lia.
Qed.
Print Assumptions C54_sequential_boundary_last_refuted.
