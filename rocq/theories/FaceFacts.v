(** The Bernstein and Lagrange basis functions as products over the vertices of
    a simplex, and what this says about the faces of the simplex. *)
From Verif Require Baldoni.
From Verif Require Import Base MultiIndex MultiIndexFacts MultiCapFacts Fld FldInst CodeGen CodeGenFacts LinSolve MultiCoef MultiCoefFacts LagrangeCache Unisolv Poly PolyFacts LagFacts PolyEval PolyOps PolyOpsB PolyObj SubstFacts AffineFacts.
From Coq Require Import Field_theory Field.

Section Face.
  Context {F : fld}.
  Add Field Kfield60 : (kth F).
  Local Open Scope fld_scope.

  (** The basis function with index [nu] *)
  Definition bfn (b : basis) (m r : nat) (nu : list nat) (x : list F) : F := val b m r (unit_column m r nu) x.
  Lemma val_bfn b m r (c x : list F) : length c = get_dimension r m -> val b m r c x = ksum (all_mi m r) (fun nu => cf m r c nu * bfn b m r nu x).
  Proof.
    intros Lc. destruct (val_basis b m r (F := F)) as (B & HB). rewrite (HB c x Lc). apply ksum_ext. intros nu Hn. f_equal. unfold bfn. rewrite HB by (unfold unit_column; apply map_all_mi_length).
    rewrite (ksum_ext _ (fun mu => if mi_dec mu nu then B mu x else 0)); [symmetry; exact (ksum_delta mi_dec (fun mu => B mu x) _ nu (NoDup_all_mi _ _) Hn)|].
    intros mu Hm. unfold unit_column. apply in_all_mi in Hm as [H1 H2]. rewrite cf_map by assumption. destruct (mi_dec mu nu); ring.
  Qed.

  (** The factor of a vertex of weight [k] with barycentric coordinate [t] *)
  Definition bphi (b : basis) (r k : nat) (t : F) : F :=
    match b with
    | Bernstein => kpow t k / kofnat (fact k)
    | Lagrange => kprod (seq 0 k) (fun l => (kofnat r * t - kofnat l) / (kofnat k - kofnat l))
    | Monomial => kpow t k
    end.
  Definition bconst (b : basis) (r : nat) : F := match b with Bernstein => kofnat (fact r) | _ => 1 end.
  Definition pf (phi : nat -> F -> F) (ws : list nat) (c : list F) : F := kprod (combine ws c) (fun p => phi (fst p) (snd p)).
  Lemma bphi_0 b r t : bphi b r 0 t = 1.
  Proof. destruct b; cbn [bphi kpow seq]; [reflexivity| |reflexivity]. cbn [fact]. rewrite kofnat_1. field. apply k1_neq_0. Qed.
  Lemma bphi_zero b r k : k <> 0%nat -> bphi b r k 0 = 0.
  Proof.
    intros Hk. destruct b; cbn [bphi].
    - apply kpow_0, Hk.
    - rewrite kpow_0 by exact Hk. field. apply kofnat_neq, fact_neq_0.
    - apply (kprod_zero _ _ 0%nat); [apply in_seq; lia|]. rewrite kofnat_0. field. intros E. apply (kofnat_neq (F := F) k Hk). rewrite <- E. ring.
  Qed.
  Lemma bconst_neq b r : bconst b r <> 0.
  Proof. destruct b; cbn; try apply k1_neq_0. apply kofnat_neq, fact_neq_0. Qed.

  Lemma pf_cons phi w ws t c : pf phi (w :: ws) (t :: c) = phi w t * pf phi ws c.
  Proof. reflexivity. Qed.
  Lemma pf_pow ws c : length ws = length c -> pf (bphi Bernstein 0) ws c = mpow c ws / kofnat (mi_factorial ws).
  Proof.
    revert c. induction ws as [|w ws IH]; intros [|t c] L; try discriminate.
    - unfold pf. cbn. rewrite kofnat_1. field. apply k1_neq_0.
    - rewrite pf_cons, IH by (cbn in L; lia). cbn [mpow bphi]. rewrite mi_factorial_cons. rewrite kofnat_mul. field. split; apply kofnat_neq; [apply mi_factorial_pos|apply fact_neq_0].
  Qed.
  Lemma bern_pf m r nu x : length nu = m -> (nsum nu <= r)%nat -> length x = m ->
    bfn Bernstein m r nu x = bconst Bernstein r * pf (bphi Bernstein r) ((r - nsum nu)%nat :: nu) (bary_of x).
  Proof.
    intros L1 L2 L3. unfold bfn, val, bval.
    rewrite (ksum_ext _ (fun mu => if mi_dec mu nu then bern r mu x else 0)).
    - rewrite ksum_delta; [|apply NoDup_all_mi|apply in_all_mi; auto]. change (bphi Bernstein r) with (bphi Bernstein 0). rewrite pf_pow by (unfold bary_of; cbn [length]; lia).
      unfold bern, M, bary_of. cbn [mpow bconst]. unfold bary0.
      pose proof (mnom_fact ((r - nsum nu)%nat :: nu)) as E. rewrite nsum_cons in E. replace (r - nsum nu + nsum nu)%nat with r in E by lia. apply (f_equal (kofnat (F := F))) in E. rewrite kofnat_mul in E. rewrite <- E. field. apply kofnat_neq, mi_factorial_pos.
    - intros mu Hm. apply in_all_mi in Hm as [H1 H2]. unfold unit_column. rewrite cf_map by assumption. destruct (mi_dec mu nu); ring.
  Qed.

  (** Lagrange *)
  Lemma polydeg_bphi m r k g : polydeg m 1 g -> polydeg m k (fun x => bphi Lagrange r k (g x)).
  Proof.
    intros G. cbn [bphi].
    assert (H : forall l s, polydeg m l (fun x => kprod (seq s l) (fun l => (kofnat r * g x - kofnat l) / (kofnat k - kofnat l)))).
    { induction l as [|l IH]; intros s; [exact (polydeg_const m 1)|]. cbn [seq]. change (S l) with (1 + l)%nat.
      apply (polydeg_ext _ _ (fun x => ((kofnat r * g x - kofnat s) / (kofnat k - kofnat s)) * kprod (seq (S s) l) (fun l => (kofnat r * g x - kofnat l) / (kofnat k - kofnat l)))); [reflexivity|].
      apply polydeg_mul; [|apply IH].
      apply (polydeg_ext _ _ (fun x => (1 / (kofnat k - kofnat s)) * (kofnat r * g x + (- kofnat s)))); [intros x _; rewrite !(Fdiv_def (kth F)); ring|].
      apply polydeg_scale, polydeg_add; [apply polydeg_scale, G|apply (polydeg_elevate _ 0); [lia|apply polydeg_const]]. }
    apply H.
  Qed.
  Lemma polydeg_pf m r (gs : list (list F -> F)) ws : (forall g, In g gs -> polydeg m 1 g) -> length ws = length gs ->
    polydeg m (nsum ws) (fun x => pf (bphi Lagrange r) ws (map (fun g => g x) gs)).
  Proof.
    revert ws. induction gs as [|g gs IH]; intros [|w ws] HG L; try discriminate; [exact (polydeg_const m 1)|]. rewrite nsum_cons.
    apply (polydeg_ext _ _ (fun x => bphi Lagrange r w (g x) * pf (bphi Lagrange r) ws (map (fun g => g x) gs))); [reflexivity|].
    apply polydeg_mul; [apply polydeg_bphi, HG; left; reflexivity|apply IH; [intros h Hh; apply HG; right; exact Hh|cbn in L; lia]].
  Qed.
  Lemma polydeg_bary m r nu : length nu = m -> (nsum nu <= r)%nat -> polydeg m r (fun x => pf (bphi Lagrange r) ((r - nsum nu)%nat :: nu) (bary_of x)).
  Proof.
    intros L1 L2. replace r with (nsum ((r - nsum nu)%nat :: nu)) at 1 by (rewrite nsum_cons; lia).
    apply (polydeg_ext _ _ (fun x => pf (bphi Lagrange r) ((r - nsum nu)%nat :: nu) (map (fun g => g x) ((fun x => 1 + ksum (seq 0 m) (fun i => (- (1)) * nth i x 0)) :: map (fun i x => nth i x 0) (seq 0 m))))).
    - intros x Lx. f_equal. unfold bary_of. cbn [map]. f_equal.
      + rewrite ksum_scale_l. replace (ksum x (fun t => t)) with (ksum (seq 0 m) (fun i => nth i x 0)); [ring|]. rewrite <- Lx. apply ksum_nth.
      + rewrite map_map. apply (nth_ext _ _ 0 0); [rewrite map_length, seq_length; auto|]. intros i Hi. rewrite map_length, seq_length in Hi. rewrite nth_mapseq by exact Hi. reflexivity.
    - apply polydeg_pf; [|cbn [length]; rewrite map_length, seq_length; lia]. intros g [<-|Hg]; [apply polydeg_affine|]. apply in_map_iff in Hg as (i & <- & Hi). apply in_seq in Hi. apply polydeg_coord. lia.
  Qed.
  (** Barycentric coordinates of the nodes *)
  Lemma bary_node m r nu : r <> 0%nat -> length nu = m -> (nsum nu <= r)%nat ->
    bary_of (generate_lagrange_point m r nu) = map (fun w => kofnat (F := F) w / kofnat r) ((r - nsum nu)%nat :: nu).
  Proof.
    intros Hr L1 L2. rewrite lagrange_point_pt by assumption. unfold bary_of. cbn [map].
    assert (E : forall l, Unisolv.pt (repeat (node (F := F) r) (length l)) l = map (fun w => kofnat (F := F) w / kofnat r) l).
    { induction l as [|a l IH]; [reflexivity|]. unfold Unisolv.pt in *. cbn [length repeat combine map fst snd]. rewrite IH. f_equal. unfold node. destruct r; [contradiction|reflexivity]. }
    rewrite <- L1, E. f_equal.
    assert (E2 : forall l, ksum (map (fun w => kofnat (F := F) w / kofnat r) l) (fun t => t) = kofnat (nsum l) / kofnat r).
    { induction l as [|a l IH]; cbn [map]; [rewrite ksum_nil; change (nsum []) with 0%nat; rewrite kofnat_0; field; apply kofnat_neq, Hr|]. rewrite ksum_cons, IH, nsum_cons, kofnat_add. field. apply kofnat_neq, Hr. }
    rewrite E2. assert (E3 : kofnat (F := F) r = kofnat (r - nsum nu) + kofnat (nsum nu)) by (rewrite <- kofnat_add; f_equal; lia).
    replace (kofnat (r - nsum nu)) with (kofnat (F := F) r - kofnat (nsum nu)) by (rewrite E3; ring). field. apply kofnat_neq, Hr.
  Qed.
  Lemma kofnat_sub_neq a b : a <> b -> kofnat (F := F) a - kofnat b <> 0.
  Proof. intros H E. apply H, (kofnat_inj (F := F)). replace (kofnat (F := F) a) with (kofnat (F := F) b + (kofnat a - kofnat b)) by ring. rewrite E. ring. Qed.
  Lemma lphi_node r k w : r <> 0%nat -> (w <= k)%nat -> bphi Lagrange r k (kofnat w / kofnat r) = if (w =? k)%nat then 1 else 0.
  Proof.
    intros Hr Hw. cbn [bphi]. destruct (Nat.eqb_spec w k) as [->|N].
    - apply Baldoni.kprod_one. intros l Hl. apply in_seq in Hl. field. split; [apply kofnat_neq, Hr|apply kofnat_sub_neq; lia].
    - apply (kprod_zero _ _ w); [apply in_seq; lia|]. field. split; [apply kofnat_neq, Hr|apply kofnat_sub_neq; lia].
  Qed.
  Lemma le_or_lt_entry (ws us : list nat) : length ws = length us ->
    (exists i, (i < length us)%nat /\ (nth i us 0 < nth i ws 0)%nat) \/ ((nsum ws <= nsum us)%nat /\ (nsum ws = nsum us -> us = ws)).
  Proof.
    revert us. induction ws as [|w ws IH]; intros [|u us] L; try discriminate; [right; split; [lia|reflexivity]|].
    destruct (IH us ltac:(cbn in L; lia)) as [(i & H1 & H2)|[H1 H2]]; [left; exists (S i); cbn [length nth]; split; [lia|exact H2]|].
    destruct (Nat.lt_ge_cases u w) as [H|H]; [left; exists 0%nat; cbn [length nth]; split; [lia|exact H]|].
    right. rewrite !nsum_cons. split; [lia|]. intros E. f_equal; [lia|apply H2; lia].
  Qed.
  Lemma pf_node r ws us : r <> 0%nat -> length ws = length us -> nsum ws = nsum us ->
    pf (bphi Lagrange r) ws (map (fun w => kofnat w / kofnat r) us) = if mi_dec us ws then 1 else 0.
  Proof.
    intros Hr L E. destruct (mi_dec us ws) as [->|N].
    - clear L E. induction ws as [|w ws IH]; [reflexivity|]. cbn [map]. rewrite pf_cons, IH, lphi_node, Nat.eqb_refl by (auto; lia). ring.
    - destruct (le_or_lt_entry ws us L) as [(i & Hi & Hlt)|[_ H]]; [|exfalso; apply N, H, E].
      clear N E. revert us L i Hi Hlt. induction ws as [|w ws IH]; intros [|u us] L i Hi Hlt; try discriminate; [destruct i; cbn in Hi; lia|].
      cbn [map]. rewrite pf_cons. destruct i as [|i]; cbn [nth length] in *.
      + rewrite lphi_node by (auto; lia). destruct (Nat.eqb_spec u w); [lia|]. ring.
      + rewrite (IH us ltac:(lia) i ltac:(lia) Hlt). ring.
  Qed.  Lemma pf_zeros b r c n : pf (bphi b r) (repeat 0%nat n) c = 1.
  Proof.
    revert c. induction n as [|n IH]; intros [|t c]; try reflexivity. cbn [repeat]. rewrite pf_cons, IH, bphi_0. ring.
  Qed.
  Theorem lag_pf m r nu x : length nu = m -> (nsum nu <= r)%nat -> length x = m ->
    bfn Lagrange m r nu x = pf (bphi Lagrange r) ((r - nsum nu)%nat :: nu) (bary_of x).
  Proof.
    intros L1 L2 L3. destruct (Nat.eq_dec r 0) as [->|Hr].
    - replace (0 - nsum nu)%nat with 0%nat by lia.
      rewrite <- (lval_interp m 0 (fun x => pf (bphi Lagrange 0) (0%nat :: nu) (bary_of x)) x) by (auto; exact (polydeg_bary m 0 nu L1 L2)).
      unfold bfn. cbn [val]. f_equal. unfold unit_column. apply map_ext_in. intros mu Hm. apply in_all_mi in Hm as [H1 H2].
      assert (E : forall l : list nat, (nsum l <= 0)%nat -> l = repeat 0%nat (length l)) by (induction l as [|a l IH]; intros H; [reflexivity|]; rewrite nsum_cons in H; cbn [length repeat]; f_equal; [lia|apply IH; lia]).
      rewrite (E mu H2), (E nu L2), H1, L1. destruct (mi_dec _ _); [|contradiction]. symmetry.
      exact (pf_zeros Lagrange 0 _ (S m)).
    - rewrite <- (lval_interp m r (fun x => pf (bphi Lagrange r) ((r - nsum nu)%nat :: nu) (bary_of x)) x) by (auto; apply polydeg_bary; auto).
      unfold bfn. cbn [val]. f_equal. unfold unit_column. apply map_ext_in. intros mu Hm. apply in_all_mi in Hm as [H1 H2].
      rewrite bary_node, pf_node by (auto; try (cbn [length]; lia); rewrite !nsum_cons; lia).
      destruct (mi_dec mu nu) as [->|N]; destruct (mi_dec _ _) as [E|E]; congruence.
  Qed.
  Lemma bfn_pf b m r nu x : b <> Monomial -> length nu = m -> (nsum nu <= r)%nat -> length x = m ->
    bfn b m r nu x = bconst b r * pf (bphi b r) ((r - nsum nu)%nat :: nu) (bary_of x).
  Proof. intros Hb L1 L2 L3. destruct b; [contradiction|apply bern_pf; assumption|]. rewrite lag_pf by assumption. cbn [bconst]. ring. Qed.
End Face.
