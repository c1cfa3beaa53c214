(** Proofs about the local-to-global maps. *)
From Verif Require Import Base MultiIndex MultiIndexFacts Permutations PermFacts Simplicial Orient ChainFacts SimplicialFacts SimplicialFacts2 LocalToGlobal.

(** ** Dictionaries *)
Lemma dict_find_set {V} t (v : V) d u : dict_find u (dict_set t v d) = if leqb u t then Some v else dict_find u d.
Proof.
  induction d as [|[x w] d IH]; cbn [dict_set dict_find].
  - destruct (leqb u t); reflexivity.
  - destruct (leqb t x) eqn:E; cbn [dict_find].
    + apply leqb_eq in E as ->. destruct (leqb u x); reflexivity.
    + rewrite IH. destruct (leqb u x) eqn:E2; [|reflexivity]. apply leqb_eq in E2 as ->.
      destruct (leqb x t) eqn:E3; [|reflexivity]. apply leqb_eq in E3 as ->. rewrite leqb_refl in E. discriminate.
Qed.
Lemma dict_find_in {V} t (v : V) d : dict_find t d = Some v -> In (t, v) d.
Proof.
  induction d as [|[x w] d IH]; cbn [dict_find]; [discriminate|]. destruct (leqb t x) eqn:E.
  - apply leqb_eq in E as ->. intros [= ->]. left. reflexivity.
  - intros H. right. apply IH. exact H.
Qed.
Lemma dict_find_none {V} t (d : list (list nat * V)) : dict_find t d = None <-> ~ In t (map fst d).
Proof.
  induction d as [|[x w] d IH]; cbn [dict_find map fst In]; [tauto|]. destruct (leqb t x) eqn:E.
  - apply leqb_eq in E as ->. split; [discriminate|]. intros H. exfalso. apply H. left. reflexivity.
  - apply leqb_neq in E. rewrite IH. split; [|tauto]. intros H [->|H']; [congruence|contradiction].
Qed.
Lemma dict_set_keys {V} t (v : V) d : NoDup (map fst d) -> NoDup (map fst (dict_set t v d)).
Proof.
  induction d as [|[x w] d IH]; cbn [dict_set map fst]; intros H; [repeat constructor; auto|].
  apply NoDup_cons_iff in H as [H1 H2]. destruct (leqb t x) eqn:E; cbn [map fst]; [constructor; auto|].
  constructor; [|auto]. apply dict_find_none. apply dict_find_none in H1. rewrite dict_find_set, H1.
  destruct (leqb x t) eqn:E2; [|reflexivity]. apply leqb_eq in E2 as ->. rewrite leqb_refl in E. discriminate.
Qed.
Lemma dict_in_find {V} t (v : V) d : NoDup (map fst d) -> In (t, v) d -> dict_find t d = Some v.
Proof.
  induction d as [|[x w] d IH]; cbn [map fst dict_find In]; [tauto|]. intros HN H.
  apply NoDup_cons_iff in HN as [H1 H2]. destruct H as [[= -> ->]|H]; [rewrite leqb_refl; reflexivity|].
  destruct (leqb t x) eqn:E; [|auto]. apply leqb_eq in E as ->. exfalso. apply H1.
  apply (in_map fst) in H. exact H.
Qed.

(** ** Abstract numbering: items get numbers by class and key *)
Inductive cl := Skip | Bnd | Int.
Section Numbering.
  Context {X K : Type} (key : X -> K) (cls : X -> cl).
  Hypothesis key_cls : forall x y, key x = key y -> cls x = cls y.
  Record inv (val : X -> option Z) (P : list X) (g b : Z) : Prop := mkInv {
    i_g : (0 <= g)%Z;
    i_b : (b <= -1)%Z;
    i_int : forall x, In x P -> cls x = Int -> exists v, val x = Some v /\ (0 <= v < g)%Z;
    i_bnd : forall x, In x P -> cls x = Bnd -> exists v, val x = Some v /\ (b < v < 0)%Z;
    i_skip : forall x, In x P -> cls x = Skip -> val x = None;
    i_out : forall x, ~ In x P -> val x = None;
    i_key : forall x y, In x P -> In y P -> cls x <> Skip -> cls y <> Skip -> (val x = val y <-> key x = key y);
    i_onto : forall v, (b < v < g)%Z -> exists x, In x P /\ val x = Some v }.

  Lemma inv_nonskip val P g b x : inv val P g b -> In x P -> cls x <> Skip -> exists v, val x = Some v /\ (b < v < g)%Z.
  Proof.
    intros H Hx Hc. pose proof (i_g _ _ _ _ H). pose proof (i_b _ _ _ _ H). destruct (cls x) eqn:E; [congruence| |].
    - destruct (i_bnd _ _ _ _ H x Hx E) as (v & Hv & ?). exists v. split; [exact Hv|lia].
    - destruct (i_int _ _ _ _ H x Hx E) as (v & Hv & ?). exists v. split; [exact Hv|lia].
  Qed.
  Lemma inv_ext val val' P g b : (forall x, val x = val' x) -> inv val P g b -> inv val' P g b.
  Proof.
    intros E [? ? ? ? ? ? ? HO]. constructor; auto; intros; rewrite <- ?E; auto.
    destruct (HO _ H) as (x & ? & ?). exists x. rewrite <- E. auto.
  Qed.
  Lemma inv_skip val P g b x : inv val P g b -> ~ In x P -> cls x = Skip -> inv val (P ++ [x]) g b.
  Proof.
    intros H Hx Hc. constructor; try apply H; auto.
    - intros y Hy E. apply in_app_iff in Hy as [Hy|[<-|[]]]; [|congruence]. apply (i_int _ _ _ _ H); auto.
    - intros y Hy E. apply in_app_iff in Hy as [Hy|[<-|[]]]; [|congruence]. apply (i_bnd _ _ _ _ H); auto.
    - intros y Hy E. apply in_app_iff in Hy as [Hy|[<-|[]]]; [apply (i_skip _ _ _ _ H); auto|]. apply (i_out _ _ _ _ H). exact Hx.
    - intros y Hy. apply (i_out _ _ _ _ H). intros Hy'. apply Hy, in_app_iff. auto.
    - intros y z Hy Hz Cy Cz. apply in_app_iff in Hy as [Hy|[<-|[]]]; [|congruence].
      apply in_app_iff in Hz as [Hz|[<-|[]]]; [|congruence]. apply (i_key _ _ _ _ H); auto.
    - intros v Hv. destruct (i_onto _ _ _ _ H v Hv) as (y & ? & ?). exists y. rewrite in_app_iff. auto.
  Qed.

  (** [val'] extends [val] at the new item [x] with value [w]. *)
  Definition ext_at (val val' : X -> option Z) (x : X) (w : Z) : Prop :=
    val' x = Some w /\ forall y, y <> x -> val' y = val y.
  Lemma inv_new val val' P g b x w g' b' : inv val P g b -> ~ In x P -> ext_at val val' x w ->
    (forall y, In y P -> cls y <> Skip -> key y <> key x) ->
    (cls x = Int /\ w = g /\ g' = (g + 1)%Z /\ b' = b \/ cls x = Bnd /\ w = b /\ g' = g /\ b' = (b - 1)%Z) ->
    inv val' (P ++ [x]) g' b'.
  Proof.
    intros H Hx [Ex Eo] Hk HD. pose proof (i_g _ _ _ _ H) as Hg. pose proof (i_b _ _ _ _ H) as Hb.
    assert (HP : forall y, In y P -> val' y = val y) by (intros y Hy; apply Eo; intros ->; contradiction).
    assert (Hr : (b < w < g)%Z -> False) by (destruct HD as [(_ & -> & _)|(_ & -> & _)]; lia).
    assert (Hn : forall y, In y P -> cls y <> Skip -> val y <> Some w).
    { intros y Hy Cy E. destruct (inv_nonskip _ _ _ _ y H Hy Cy) as (v & Ev & Hv). rewrite Ev in E. injection E as ->. exact (Hr Hv). }
    assert (Hx' : cls x <> Skip) by (destruct HD as [(-> & _)|(-> & _)]; discriminate).
    constructor.
    - lia.
    - lia.
    - intros y Hy E. apply in_app_iff in Hy as [Hy|[<-|[]]].
      + rewrite HP by exact Hy. destruct (i_int _ _ _ _ H y Hy E) as (v & ? & ?). exists v. split; [assumption|lia].
      + exists w. split; [exact Ex|]. destruct HD as [(_ & -> & -> & _)|(E' & _)]; [lia|congruence].
    - intros y Hy E. apply in_app_iff in Hy as [Hy|[<-|[]]].
      + rewrite HP by exact Hy. destruct (i_bnd _ _ _ _ H y Hy E) as (v & ? & ?). exists v. split; [assumption|lia].
      + exists w. split; [exact Ex|]. destruct HD as [(E' & _)|(_ & -> & _ & ->)]; [congruence|lia].
    - intros y Hy E. apply in_app_iff in Hy as [Hy|[<-|[]]]; [|congruence]. rewrite HP by exact Hy. apply (i_skip _ _ _ _ H); auto.
    - intros y Hy. rewrite in_app_iff in Hy. rewrite Eo.
      + apply (i_out _ _ _ _ H). tauto.
      + intros ->. apply Hy. right. left. reflexivity.
    - intros y z Hy Hz Cy Cz. apply in_app_iff in Hy as [Hy|[<-|[]]]; apply in_app_iff in Hz as [Hz|[<-|[]]].
      + rewrite !HP by assumption. apply (i_key _ _ _ _ H); auto.
      + rewrite Ex, HP by assumption. split; intros E; exfalso; [apply (Hn y Hy Cy E)|apply (Hk y Hy Cy E)].
      + rewrite Ex, HP by assumption. split; intros E; exfalso; [apply (Hn z Hz Cz); congruence|apply (Hk z Hz Cz); congruence].
      + tauto.
    - intros v Hv. destruct (Z.eq_dec v w) as [->|Hw].
      + exists x. split; [apply in_app_iff; right; left; reflexivity|exact Ex].
      + destruct (i_onto _ _ _ _ H v) as (y & Hy & E); [lia|]. exists y. split; [apply in_app_iff; auto|]. rewrite HP; auto.
  Qed.
  Lemma inv_old val val' P g b x y w : inv val P g b -> ~ In x P -> In y P -> cls y <> Skip -> key y = key x ->
    val y = Some w -> ext_at val val' x w -> inv val' (P ++ [x]) g b.
  Proof.
    intros H Hx Hy Cy Hk Ey [Ex Eo]. pose proof (key_cls _ _ Hk) as HC.
    assert (HP : forall y, In y P -> val' y = val y) by (intros z Hz; apply Eo; intros ->; contradiction).
    constructor; try apply H.
    - intros z Hz E. apply in_app_iff in Hz as [Hz|[<-|[]]]; [rewrite HP by exact Hz; apply (i_int _ _ _ _ H); auto|].
      rewrite Ex, <- Ey. apply (i_int _ _ _ _ H); [auto|congruence].
    - intros z Hz E. apply in_app_iff in Hz as [Hz|[<-|[]]]; [rewrite HP by exact Hz; apply (i_bnd _ _ _ _ H); auto|].
      rewrite Ex, <- Ey. apply (i_bnd _ _ _ _ H); [auto|congruence].
    - intros z Hz E. apply in_app_iff in Hz as [Hz|[<-|[]]]; [rewrite HP by exact Hz; apply (i_skip _ _ _ _ H); auto|congruence].
    - intros z Hz. rewrite in_app_iff in Hz. rewrite Eo.
      + apply (i_out _ _ _ _ H). tauto.
      + intros ->. apply Hz. right. left. reflexivity.
    - intros z u Hz Hu Cz Cu. apply in_app_iff in Hz as [Hz|[<-|[]]]; apply in_app_iff in Hu as [Hu|[<-|[]]]; [..|tauto].
      + rewrite !HP by assumption. apply (i_key _ _ _ _ H); auto.
      + rewrite Ex, HP, <- Ey, <- Hk by assumption. apply (i_key _ _ _ _ H); auto.
      + rewrite Ex, HP, <- Ey, <- Hk by assumption. apply (i_key _ _ _ _ H); auto.
    - intros v Hv. destruct (i_onto _ _ _ _ H v Hv) as (z & Hz & E). exists z. split; [apply in_app_iff; auto|]. rewrite HP; auto.
  Qed.
End Numbering.

(** ** The associated sub simplex *)
Definition weights (r : nat) (nu : list nat) : list nat := (r - nsum nu) :: nu.
Definition wpairs (tri : list nat) (r : nat) (nu : list nat) : list (nat * nat) :=
  filter (fun p => negb (snd p =? 0)) (combine tri (weights r nu)).

Lemma associated_fold s mi a : forall s' mi', s = map fst a ++ s' -> mi = map snd a ++ mi' -> length mi' <= length s' ->
  forall st, foldM (associated_step mi s) st (seq (length a) (length mi')) =
    Ok (fst st ++ map fst (filter (fun p => negb (snd p =? 0)) (combine s' mi')),
        snd st ++ map snd (filter (fun p => negb (snd p =? 0)) (combine s' mi'))).
Proof.
  intros s' mi'. revert a s'. induction mi' as [|w mi' IH]; intros a s' Es Em HL st.
  - cbn [length seq foldM]. destruct s'; cbn [combine filter map]; rewrite !app_nil_r; destruct st; reflexivity.
  - destruct s' as [|v s']; cbn [length] in HL; [lia|]. cbn [length seq foldM combine filter snd].
    unfold associated_step at 1.
    assert (E1 : nth (length a) mi 0 = w) by (rewrite Em, app_nth2, map_length, Nat.sub_diag by (rewrite map_length; lia); reflexivity).
    assert (E2 : get s (length a) = Ok v).
    { unfold get. rewrite Es, nth_error_app2, map_length, Nat.sub_diag by (rewrite map_length; lia). reflexivity. }
    rewrite E1, E2. specialize (IH (a ++ [(v, w)]) s'). rewrite !map_app, app_length in IH. cbn [map fst snd length] in IH.
    rewrite <- !app_assoc in IH. cbn [app] in IH. specialize (IH Es Em ltac:(lia)).
    replace (length a + 1) with (S (length a)) in IH by lia.
    destruct (w =? 0) eqn:Ew; cbn [negb bind].
    + apply IH.
    + rewrite IH. cbn [map fst snd]. rewrite <- !app_assoc. reflexivity.
Qed.
Lemma associated_eq tri r nu : 1 <= r -> nsum nu <= r -> length tri = length nu + 1 ->
  get_associated_sub_simplex nu r (Some tri) = Ok (map fst (wpairs tri r nu), map snd (wpairs tri r nu)).
Proof.
  intros Hr Hn HL. unfold get_associated_sub_simplex. replace (r =? 0) with false by (symmetry; apply Nat.eqb_neq; lia).
  unfold general_to_exact_norm, norm. replace (nsum nu <=? r) with true by (symmetry; apply Nat.leb_le; lia). cbn [bind].
  apply (associated_fold tri (weights r nu) [] tri (weights r nu) eq_refl eq_refl). cbn [weights length]. lia.
Qed.
Lemma combine_fst_snd {A B} (l : list (A * B)) : combine (map fst l) (map snd l) = l.
Proof. induction l as [|[a b] l IH]; cbn; [reflexivity|]. f_equal. exact IH. Qed.

Lemma weights_nonzero r nu : 1 <= r -> exists w, In w (weights r nu) /\ w <> 0.
Proof.
  intros Hr. unfold weights. destruct (Nat.eq_dec (r - nsum nu) 0) as [E|E]; [|exists (r - nsum nu); split; [left; reflexivity|exact E]].
  assert (H : 1 <= nsum nu) by lia. clear E. assert (HH : exists w, In w nu /\ w <> 0).
  { induction nu as [|w nu IH]; cbn in H; [lia|]. destruct w as [|w].
    - destruct IH as (u & ? & ?); [exact H|]. exists u. split; [right; assumption|assumption].
    - exists (S w). split; [left; reflexivity|lia]. }
  destruct HH as (w & ? & ?). exists w. split; [right; assumption|assumption].
Qed.
Lemma wpairs_nonempty tri r nu : 1 <= r -> length tri = length nu + 1 -> wpairs tri r nu <> [].
Proof.
  intros Hr HL E. destruct (weights_nonzero r nu Hr) as (w & Hw & Hw0). apply (In_nth _ _ 0) in Hw as (i & Hi & Ei).
  assert (H : In (nth i tri 0, w) (wpairs tri r nu)).
  { apply filter_In. split; [|cbn [snd]; apply negb_true_iff, Nat.eqb_neq; exact Hw0].
    rewrite <- Ei. rewrite <- combine_nth by (cbn [weights length]; lia). apply nth_In. rewrite combine_length.
    cbn [weights length] in *. lia. }
  rewrite E in H. destruct H.
Qed.
Definition spairs (tri : list nat) (r : nat) (nu : list nat) := sort pair_leb (wpairs tri r nu).
Lemma sort_zip_eq tri r nu : 1 <= r -> length tri = length nu + 1 ->
  sort_zip (map fst (wpairs tri r nu), map snd (wpairs tri r nu)) = Ok (map fst (spairs tri r nu), map snd (spairs tri r nu)).
Proof.
  intros Hr HL. unfold sort_zip. cbn [fst snd]. rewrite combine_fst_snd. fold (spairs tri r nu).
  destruct (spairs tri r nu) eqn:E; [|reflexivity]. exfalso. apply (wpairs_nonempty tri r nu Hr HL).
  apply length_zero_iff_nil. rewrite <- (sort_length pair_leb). fold (spairs tri r nu). rewrite E. reflexivity.
Qed.
Lemma filter_NoDup_fst {A B} (f : A * B -> bool) l : NoDup (map fst l) -> NoDup (map fst (filter f l)).
Proof.
  induction l as [|p l IH]; cbn [map filter]; intros H; [constructor|]. apply NoDup_cons_iff in H as [H1 H2].
  destruct (f p); [|auto]. cbn [map]. constructor; [|auto]. intros H. apply H1. apply in_map_iff in H as (q & E & Hq).
  apply filter_In in Hq as [Hq _]. rewrite <- E. apply in_map. exact Hq.
Qed.
Lemma map_fst_combine {A B} (l : list A) (m : list B) : length l = length m -> map fst (combine l m) = l.
Proof. revert m; induction l as [|a l IH]; intros [|b m] H; cbn in *; try discriminate; [reflexivity|]. f_equal. apply IH. lia. Qed.
Lemma wpairs_keys tri r nu : NoDup tri -> length tri = length nu + 1 -> NoDup (map fst (wpairs tri r nu)).
Proof. intros HN HL. apply filter_NoDup_fst. rewrite map_fst_combine; [exact HN|cbn [weights length]; lia]. Qed.
Lemma spairs_perm tri r nu : Permutation (wpairs tri r nu) (spairs tri r nu).
Proof. apply sort_perm. Qed.

Lemma pair_leb_antisym x y : pair_leb x y = true -> pair_leb y x = true -> x = y.
Proof.
  unfold pair_leb. destruct x as [a b], y as [c d]. cbn [fst snd].
  rewrite !orb_true_iff, !andb_true_iff, !Nat.ltb_lt, !Nat.eqb_eq, !Nat.leb_le. intros H1 H2. f_equal; lia.
Qed.
Lemma sort_unique_gen {A} (R : A -> A -> Prop) (l m : list A) : (forall x y, R x y -> R y x -> x = y) ->
  StronglySorted R l -> StronglySorted R m -> Permutation l m -> l = m.
Proof.
  intros Ha Hl. revert m. induction Hl as [|x l Hs IH Hf]; intros m Hm HP.
  - apply Permutation_nil in HP. congruence.
  - destruct Hm as [|y m Hm Hg]; [apply Permutation_sym, Permutation_nil in HP; discriminate|].
    assert (x = y).
    { pose proof (Permutation_in x HP (or_introl eq_refl)) as [->|Hx]; [reflexivity|].
      pose proof (Permutation_in y (Permutation_sym HP) (or_introl eq_refl)) as [->|Hy]; [reflexivity|].
      rewrite Forall_forall in Hf, Hg. apply Ha; [apply Hf|apply Hg]; assumption. }
    subst y. f_equal. apply IH; [exact Hm|]. apply Permutation_cons_inv in HP. exact HP.
Qed.
Lemma spairs_eq tri r nu tri' r' nu' :
  spairs tri r nu = spairs tri' r' nu' <-> Permutation (wpairs tri r nu) (wpairs tri' r' nu').
Proof.
  split; intros H.
  - rewrite (spairs_perm tri r nu), H. symmetry. apply spairs_perm.
  - apply (sort_unique_gen (fun a b => pair_leb a b = true)).
    + exact pair_leb_antisym.
    + apply sort_sorted; [apply pair_leb_total|apply pair_leb_trans].
    + apply sort_sorted; [apply pair_leb_total|apply pair_leb_trans].
    + rewrite <- !spairs_perm. exact H.
Qed.
Lemma map_pair_inj {A B} (l m : list (A * B)) : map fst l = map fst m -> map snd l = map snd m -> l = m.
Proof. intros E1 E2. rewrite <- (combine_fst_snd l), <- (combine_fst_snd m), E1, E2. reflexivity. Qed.

(** Weight of a vertex [v]: the exponent attached to [v], 0 when [v] is not a
    vertex of the simplex. *)
Definition vertex_weight (tri : list nat) (r : nat) (nu : list nat) (v : nat) : nat :=
  nsum (map snd (filter (fun p => fst p =? v) (combine tri ((r - nsum nu) :: nu)))).
Lemma sum_at_keys (l : list (nat * nat)) v w : NoDup (map fst l) -> w <> 0 ->
  (nsum (map snd (filter (fun p => fst p =? v) l)) = w <-> In (v, w) l).
Proof.
  induction l as [|[a b] l IH]; cbn [map fst filter In]; intros HN Hw; [cbn; split; [congruence|tauto]|].
  apply NoDup_cons_iff in HN as [H1 H2]. destruct (Nat.eqb_spec a v) as [->|Hv].
  - cbn [map snd]. rewrite nsum_cons. assert (E : filter (fun p : nat * nat => fst p =? v) l = []).
    { clear -H1. induction l as [|[c d] l IH]; cbn [filter map fst In] in *; [reflexivity|].
      destruct (Nat.eqb_spec c v); [exfalso; apply H1; left; assumption|]. apply IH. tauto. }
    rewrite E. cbn [map nsum fold_right]. rewrite Nat.add_0_r. split; [intros ->; left; reflexivity|].
    intros [[= ->]|H]; [reflexivity|]. exfalso. apply H1. apply (in_map fst) in H. exact H.
  - rewrite IH by assumption. split; [tauto|]. intros [[= ? ?]|H]; [congruence|exact H].
Qed.
Lemma vertex_weight_in tri r nu v w : NoDup tri -> length tri = length nu + 1 -> w <> 0 ->
  (vertex_weight tri r nu v = w <-> In (v, w) (wpairs tri r nu)).
Proof.
  intros HN HL Hw. unfold vertex_weight, wpairs, weights. rewrite sum_at_keys; [|rewrite map_fst_combine; [exact HN|cbn [length]; lia]|exact Hw].
  rewrite filter_In. cbn [snd]. split; [|tauto]. intros H. split; [exact H|]. apply negb_true_iff, Nat.eqb_neq. exact Hw.
Qed.
Lemma same_weights_perm tri r nu tri' nu' : NoDup tri -> NoDup tri' -> length tri = length nu + 1 -> length tri' = length nu' + 1 ->
  (Permutation (wpairs tri r nu) (wpairs tri' r nu') <-> forall v, vertex_weight tri r nu v = vertex_weight tri' r nu' v).
Proof.
  intros HN HN' HL HL'. split; intros H.
  - intros v. destruct (Nat.eq_dec (vertex_weight tri r nu v) 0) as [E|E].
    + destruct (Nat.eq_dec (vertex_weight tri' r nu' v) 0) as [E'|E']; [congruence|]. exfalso.
      pose proof (proj1 (vertex_weight_in tri' r nu' v _ HN' HL' E') eq_refl) as HI. apply (Permutation_in _ (Permutation_sym H)) in HI.
      apply vertex_weight_in in HI; auto. congruence.
    + symmetry. apply vertex_weight_in; auto. apply (Permutation_in _ H). apply vertex_weight_in; auto.
  - apply NoDup_Permutation.
    + apply (NoDup_map_inv fst), wpairs_keys; auto.
    + apply (NoDup_map_inv fst), wpairs_keys; auto.
    + intros [v w]. assert (W : forall t n, In (v, w) (wpairs t r n) -> w <> 0).
      { intros t n Hin. apply filter_In in Hin as [_ Hin]. apply negb_true_iff, Nat.eqb_neq in Hin. exact Hin. }
      split; intros Hin; pose proof (W _ _ Hin) as Hw; (apply vertex_weight_in in Hin; [|assumption..]; apply vertex_weight_in; [assumption..|]); congruence.
Qed.
Lemma in_fst_wpairs tri r nu v : NoDup tri -> length tri = length nu + 1 ->
  (In v (map fst (wpairs tri r nu)) <-> vertex_weight tri r nu v <> 0).
Proof.
  intros HN HL. split.
  - intros H. apply in_map_iff in H as ([v' w] & <- & H). cbn [fst]. assert (Hw : w <> 0).
    { apply filter_In in H as [_ H]. apply negb_true_iff, Nat.eqb_neq in H. exact H. }
    apply vertex_weight_in in H; auto. congruence.
  - intros H. apply in_map_iff. exists (v, vertex_weight tri r nu v). split; [reflexivity|]. apply vertex_weight_in; auto.
Qed.

(** ** The set of boundary sub simplices *)
Lemma tuple_mem_in t s : tuple_mem t s = true <-> In t s.
Proof.
  unfold tuple_mem. rewrite existsb_exists. split; [intros (x & H & E); apply leqb_eq in E as ->; exact H|].
  intros H. exists t. split; [exact H|apply leqb_refl].
Qed.
Lemma in_set_union s u t : In t (set_union s u) <-> In t s \/ In t u.
Proof.
  unfold set_union. revert s; induction u as [|x u IH]; intros s; cbn [fold_left In]; [tauto|].
  rewrite IH. unfold set_add. destruct (tuple_mem x s) eqn:E.
  - apply tuple_mem_in in E. split; [tauto|]. intros [H|[<-|H]]; auto.
  - rewrite in_app_iff. cbn [In]. tauto.
Qed.
Definition proper_simplices (bs : list (list nat)) : Prop := forall b, In b bs -> NoDup b /\ b <> [].
Lemma boundary_subs_fold l : proper_simplices l -> forall acc, exists U,
  foldM (fun acc b => let* u := simplex_sub_simplices b true in Ok (set_union acc u)) acc l = Ok U /\
  forall t, In t U <-> In t acc \/ exists b, In b l /\ sub_spec b true t.
Proof.
  intros HP. induction l as [|b l IH]; intros acc; cbn [foldM].
  - exists acc. split; [reflexivity|]. intros t. split; [auto|]. intros [H|(b & [] & _)]; exact H.
  - destruct (HP b (or_introl eq_refl)) as [Hb1 Hb2].
    destruct (sub_simplices_spec (S (length b)) b true Hb1 Hb2) as (V & EV & _ & HV); [lia|].
    unfold simplex_sub_simplices at 1. rewrite EV. cbn [bind].
    destruct (IH (fun b' H => HP b' (or_intror H)) (set_union acc V)) as (U & EU & HU). exists U. split; [exact EU|].
    intros t. rewrite HU, in_set_union, HV. split.
    + intros [[H|H]|(b' & H & H')]; [auto|right; exists b; split; [left; reflexivity|exact H]|right; exists b'; split; [right; exact H|exact H']].
    + intros [H|(b' & [<-|H] & H')]; [auto|auto|right; exists b'; auto].
Qed.
Definition bs_list (bs : option (list (list nat))) : list (list nat) := match bs with None => [] | Some l => l end.
Lemma boundary_subs_spec bs : proper_simplices (bs_list bs) -> exists U, boundary_subs bs = Ok U /\
  forall t, In t U <-> exists b, In b (bs_list bs) /\ StronglySorted lt t /\ t <> [] /\ incl t b.
Proof.
  intros HP. destruct bs as [l|]; cbn [bs_list] in *.
  - destruct (boundary_subs_fold l HP []) as (U & EU & HU). exists U. split; [exact EU|]. intros t. rewrite HU. cbn [In]. split.
    + intros [[]|(b & H & H1 & H2 & H3 & _)]. exists b. auto.
    + intros (b & H & H1 & H2 & H3). right. exists b. split; [exact H|]. split; [exact H1|]. split; [exact H2|]. split; [exact H3|discriminate].
  - exists []. split; [reflexivity|]. intros t. split; [intros []|]. intros (b & [] & _).
Qed.
