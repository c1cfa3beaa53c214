(** What piecewise polynomials need to know about the local-to-global maps, and
    storing coefficients through such a map. *)
From Verif Require Import Base MultiIndex MultiIndexFacts Permutations PermFacts Simplicial Orient ChainFacts SimplicialFacts SimplicialFacts2.
From Verif Require Import LocalToGlobal LocalToGlobalFacts LocalToGlobalSim LocalToGlobalCont LocalToGlobalProps Prop_LocalToGlobal.
From Verif Require Import Fld FldInst PiecewisePoly.

Record gmap (cont : bool) (m r : nat) (tris : list (list nat)) (bs : option (list (list nat))) (keep : bool) (tau : tau_fn) (N : nat) : Prop := mkGmap {
  g_gen : gen_map cont tris r bs keep = Ok (tau, Z.of_nat N);
  g_val : forall x, dom (length tris) m r x -> exists v, tau_eq tau x v /\ (v = (-1)%Z \/ (0 <= v < Z.of_nat N)%Z);
  g_onto : forall v, (0 <= v < Z.of_nat N)%Z -> exists x, dom (length tris) m r x /\ tau_eq tau x v;
  g_eq : forall x y v, dom (length tris) m r x -> dom (length tris) m r y -> v <> (-1)%Z -> tau_eq tau x v -> tau_eq tau y v ->
    x = y \/ (cont = true /\ same_weights r (nth (fst x) tris []) (snd x) (nth (fst y) tris []) (snd y));
  g_full : (bs = None \/ keep = true) -> forall x v, dom (length tris) m r x -> tau_eq tau x v -> v <> (-1)%Z;
  g_same : cont = true -> no_repeated tris -> forall x y v, dom (length tris) m r x -> dom (length tris) m r y ->
    same_weights r (nth (fst x) tris []) (snd x) (nth (fst y) tris []) (snd y) -> tau_eq tau x v -> tau_eq tau y v }.

Lemma tau_eq_fun tau x v w : tau_eq tau x v -> tau_eq tau x w -> v = w.
Proof. unfold tau_eq. intros -> H. congruence. Qed.

Lemma same_or n r tris : mesh n tris -> no_repeated tris -> 1 <= r -> forall x y, dom (length tris) n r x -> dom (length tris) n r y ->
  same_weights r (nth (fst x) tris []) (snd x) (nth (fst y) tris []) (snd y) ->
  x = y \/ (~ interior r (nth (fst x) tris []) (snd x) /\ ~ interior r (nth (fst y) tris []) (snd y) /\
                  same_weights r (nth (fst x) tris []) (snd x) (nth (fst y) tris []) (snd y)).
Proof.
  intros HM HNR Hr x y Hx Hy H. destruct (C37_same_weights n r tris HM HNR Hr) as (tau & N & E & H1 & _).
  destruct (C37_identification n r tris HM Hr) as (tau' & N' & E' & _ & _ & H3). rewrite E in E'. injection E' as <- <-.
  apply (H3 x y Hx Hy). apply (H1 x y Hx Hy). exact H.
Qed.
Lemma same_attached bs r tri nu tri' nu' : 1 <= r -> same_weights r tri nu tri' nu' -> attached bs r tri nu -> attached bs r tri' nu'.
Proof. intros Hr HS (b & Hb & H). exists b. split; [exact Hb|]. intros v [[Hr0 _]|Hv]; [lia|]. apply H. right. rewrite (HS v). exact Hv. Qed.

Theorem gmap_exists cont m r tris bs keep : mesh m tris -> proper_simplices (bs_list bs) -> (cont = true -> 1 <= r) ->
  exists tau N nonb, generate_local_to_global_map cont tris r bs keep = Ok (tau, Z.of_nat N, nonb) /\ gmap cont m r tris bs keep tau N /\ (nonb = None <-> keep = false).
Proof.
  intros HM HB Hr. destruct (boundary_subs_spec bs HB) as (bsub & Eb & Hb).
  destruct (generated_scalar cont m r tris bs keep HM HB Hr) as (tau & N & nonb & E & HS & HD).
  exists tau, (Z.to_nat N), nonb. rewrite Z2Nat.id by apply HS. split; [exact E|].
  assert (Hnb : nonb = None <-> keep = false).
  { destruct cont.
    - destruct (cont_map_spec m r bs bsub keep tris HM (Hr eq_refl) Eb) as (t & N' & nb & E' & _ & _ & Hk & _). rewrite E in E'. injection E' as _ _ <-. exact Hk.
    - destruct (disc_map_spec m r bs bsub keep tris HM Eb) as (t & N' & nb & E' & _ & _ & Hk & _). rewrite E in E'. injection E' as _ _ <-. exact Hk. }
  split; [|exact Hnb].
  assert (EG : gen_map cont tris r bs keep = Ok (tau, N)) by (unfold gen_map; rewrite E; reflexivity).
  destruct cont.
  2:{ constructor; rewrite ?Z2Nat.id by apply HS; auto.
      - apply HS.
      - apply HS.
      - intros x y v Hx Hy Hv E1 E2. left. eapply HD; eauto.
      - intros HF x v Hx Ev.
        destruct (disc_map_spec m r bs bsub keep tris HM Eb) as (t & N' & nb & E' & _ & _ & Hk & HN). rewrite E in E'. injection E' as <- <- <-. pose proof (tau_at_eq _ _ _ Ev) as Ea.
        assert (HC : dcls bsub keep r tris x <> Skip).
        { unfold dcls. destruct (tuple_mem _ bsub) eqn:T; [|discriminate]. destruct HF as [->| ->]; [|discriminate].
          cbn in Eb. injection Eb as <-. apply tuple_mem_in in T. destruct T. }
        pose proof (n_le _ _ _ _ _ _ HN). destruct (dcls bsub keep r tris x) eqn:Ec; try congruence.
        + pose proof (n_bnd _ _ _ _ _ _ HN x Hx Ec). lia.
        + pose proof (n_int _ _ _ _ _ _ HN x Hx Ec). lia.
      - discriminate. }
  specialize (Hr eq_refl).
  destruct bs as [bs|], keep.
  - destruct (C38_boundary_last m r tris bs HM HB Hr) as (tau' & N' & nn & E' & H1 & H2 & H3). rewrite E in E'. injection E' as <- <- ->.
    constructor; rewrite ?Z2Nat.id by apply HS; auto; try apply HS.
    + intros x y v Hx Hy Hv E1 E2. destruct (proj1 (H3 x y Hx Hy)) as [H|(_ & _ & H)]; [eauto|auto|auto].
    + intros _ x v Hx Ev. destruct (H1 x Hx) as (w & Ew & Hw & _). pose proof (tau_eq_fun _ _ _ _ Ev Ew). lia.
    + intros _ HNR x y v Hx Hy HW Ev. destruct (proj2 (H3 x y Hx Hy) (same_or m r tris HM HNR Hr x y Hx Hy HW)) as (w & E1 & E2). rewrite (tau_eq_fun _ _ _ _ Ev E1). exact E2.
  - destruct (C38_boundary_dropped m r tris bs HM HB Hr) as (tau' & N' & E' & H1 & H2 & H3). rewrite E in E'. injection E' as <- <- ->.
    constructor; rewrite ?Z2Nat.id by apply HS; auto; try apply HS.
    + intros x y v Hx Hy Hv E1 E2.
      assert (HA : forall z, dom (length tris) m r z -> tau_eq tau z v -> ~ attached bs r (nth (fst z) tris []) (snd z)).
      { intros z Hz Ez. destruct (H1 z Hz) as (w & Ew & Hw & _). rewrite <- Hw. rewrite <- (tau_eq_fun _ _ _ _ Ez Ew). exact Hv. }
      destruct (proj1 (H3 x y Hx Hy (HA x Hx E1) (HA y Hy E2))) as [H|(_ & _ & H)]; [eauto|auto|auto].
    + intros [H|H]; discriminate.
    + intros _ HNR x y v Hx Hy HW Ev. destruct (H1 x Hx) as (w & Ew & Hw & _). rewrite <- (tau_eq_fun _ _ _ _ Ev Ew) in Hw. destruct (H1 y Hy) as (w' & Ew' & Hw' & _).
      destruct (Z.eq_dec v (-1)) as [->|Hv].
      * assert (w' = (-1)%Z) as <- by (apply Hw', (same_attached bs r _ _ _ _ Hr HW), Hw; reflexivity). exact Ew'.
      * assert (Ax : ~ attached bs r (nth (fst x) tris []) (snd x)) by tauto.
        assert (Ay : ~ attached bs r (nth (fst y) tris []) (snd y)).
        { intros H. apply Ax. eapply same_attached; [exact Hr| |exact H]. intros u. symmetry. apply HW. }
        destruct (proj2 (H3 x y Hx Hy Ax Ay) (same_or m r tris HM HNR Hr x y Hx Hy HW)) as (u & E1 & E2). rewrite (tau_eq_fun _ _ _ _ Ev E1). exact E2.
  - (* keep without boundary: same as the plain map, up to renumbering nothing *)
    destruct (cont_map_spec m r None bsub true tris HM Hr Eb) as (t & N' & nb & E' & HT & _ & Hk & HN). rewrite E in E'. injection E' as <- <- <-.
    assert (HC : forall x, ccls bsub true m r tris x <> Skip) by (intros x; unfold ccls; rewrite andb_false_r; destruct (cfull m r tris x), (cinb bsub r tris x); discriminate).
    assert (Hkey : forall x y, dom (length tris) m r x -> dom (length tris) m r y ->
       ((exists v, tau_eq tau x v /\ tau_eq tau y v) <->
        x = y \/ (~ interior r (nth (fst x) tris []) (snd x) /\ ~ interior r (nth (fst y) tris []) (snd y) /\
                  same_weights r (nth (fst x) tris []) (snd x) (nth (fst y) tris []) (snd y)))).
    { intros x y Hx Hy. rewrite <- (ckey_same m r tris x y HM Hx Hy).
      rewrite <- (n_key _ _ _ _ _ _ HN x y Hx Hy) by apply HC. split.
      + intros (v & E1 & E2). apply tau_at_eq in E1, E2. congruence.
      + intros Ev. exists (tau_at tau x). split; apply tau_eq_at; try (apply HT; apply Hx || apply Hy); auto. }
    constructor; rewrite ?Z2Nat.id by apply HS; auto; try apply HS.
    + intros x y v Hx Hy Hv E1 E2. destruct (proj1 (Hkey x y Hx Hy)) as [H|(_ & _ & H)]; [eauto|auto|auto].
    + intros _ x v Hx Ev. pose proof (tau_at_eq _ _ _ Ev) as Ea. pose proof (n_le _ _ _ _ _ _ HN). specialize (HC x). destruct (ccls bsub true m r tris x) eqn:Ec; [congruence| |].
      * pose proof (n_bnd _ _ _ _ _ _ HN x Hx Ec). lia.
      * pose proof (n_int _ _ _ _ _ _ HN x Hx Ec). lia.
    + intros _ HNR x y v Hx Hy HW Ev. destruct (proj2 (Hkey x y Hx Hy) (same_or m r tris HM HNR Hr x y Hx Hy HW)) as (w & E1 & E2). rewrite (tau_eq_fun _ _ _ _ Ev E1). exact E2.
  - destruct (C37_identification m r tris HM Hr) as (tau' & N' & E' & H1 & H2 & H3). rewrite E in E'. injection E' as <- <- ->.
    constructor; rewrite ?Z2Nat.id by apply HS; auto; try apply HS.
    + intros x y v Hx Hy Hv E1 E2. destruct (proj1 (H3 x y Hx Hy)) as [H|(_ & _ & H)]; [eauto|auto|auto].
    + intros _ x v Hx Ev. destruct (H1 x Hx) as (w & Ew & Hw). pose proof (tau_eq_fun _ _ _ _ Ev Ew). lia.
    + intros _ HNR x y v Hx Hy HW Ev. destruct (proj2 (H3 x y Hx Hy) (same_or m r tris HM HNR Hr x y Hx Hy HW)) as (w & E1 & E2). rewrite (tau_eq_fun _ _ _ _ Ev E1). exact E2.
Qed.

(** ** Storing values *)
Section Rows.
  Context {Q : ofld}.
  Lemma np_index_ok len v : (0 <= v < Z.of_nat len)%Z -> np_index len v = Ok (Z.to_nat v).
  Proof. intros H. unfold np_index. replace (0 <=? v)%Z with true by (symmetry; apply Z.leb_le; lia). replace (v <? Z.of_nat len)%Z with true by (symmetry; apply Z.ltb_lt; lia). reflexivity. Qed.
  Lemma row_at_ok (rows : list (list Q)) v : (0 <= v < Z.of_nat (length rows))%Z -> row_at rows v = Ok (nth (Z.to_nat v) rows []).
  Proof. intros H. unfold row_at. rewrite np_index_ok by exact H. cbn [bind]. unfold get. rewrite (nth_error_nth' rows []) by lia. reflexivity. Qed.
  Lemma row_set_ok (rows : list (list Q)) v u : (0 <= v < Z.of_nat (length rows))%Z -> row_set rows v u = Ok (upd rows (Z.to_nat v) u).
  Proof. intros H. unfold row_set. rewrite np_index_ok by exact H. cbn [bind]. unfold set. replace (Z.to_nat v <? length rows) with true by (symmetry; apply Nat.ltb_lt; lia). reflexivity. Qed.
End Rows.
Section Store.
  Context {Q : ofld} (tau : tau_fn) (ntri m r N n : nat).
  Hypothesis TV : forall x, dom ntri m r x -> exists v, tau_eq tau x v /\ (0 <= v < Z.of_nat N)%Z.
  Variable vals : nat -> list nat -> list Q.
  Hypothesis VC : forall x y v, dom ntri m r x -> dom ntri m r y -> tau_eq tau x v -> tau_eq tau y v -> vals (fst x) (snd x) = vals (fst y) (snd y).

  Definition at_ (rows : list (list Q)) (x : local) : list Q := nth (Z.to_nat (tau_at tau x)) rows [].
  Definition zrow := repeat (0 : Q)%K n.
  Record sinv (done : local -> Prop) (rows : list (list Q)) : Prop := mkSinv {
    si_len : length rows = N;
    si_done : forall x, dom ntri m r x -> done x -> at_ rows x = vals (fst x) (snd x);
    si_any : forall x, dom ntri m r x -> at_ rows x = vals (fst x) (snd x) \/ at_ rows x = zrow;
    si_row : (forall x, dom ntri m r x -> length (vals (fst x) (snd x)) = n) -> forall row, In row rows -> length row = n }.

  Lemma sinv_start : sinv (fun _ => False) (repeat zrow N).
  Proof.
    constructor; [apply repeat_length|contradiction| |].
    - intros x Hx. right. unfold at_. destruct (TV x Hx) as (v & Ev & Hv). rewrite (tau_at_eq _ _ _ Ev). rewrite (nth_indep _ [] zrow) by (rewrite repeat_length; lia). apply nth_repeat.
    - intros _ row H. apply repeat_spec in H. subst row. apply repeat_length.
  Qed.
  Lemma sinv_store D rows j nu : sinv D rows -> dom ntri m r (j, nu) ->
    exists rows', store tau j rows (vals j nu, nu) = Ok rows' /\ sinv (fun x => D x \/ x = (j, nu)) rows'.
  Proof.
    intros I Hx. destruct (TV _ Hx) as (v & Ev & Hv). unfold store. cbn [snd fst]. unfold tau_eq in Ev. cbn [fst snd] in Ev. rewrite Ev. cbn [bind].
    rewrite row_set_ok by (rewrite (si_len _ _ I); exact Hv). eexists. split; [reflexivity|].
    assert (HA : forall x, dom ntri m r x -> at_ (upd rows (Z.to_nat v) (vals j nu)) x = if (tau_at tau x =? v)%Z then vals j nu else at_ rows x).
    { intros x Dx. unfold at_. destruct (TV x Dx) as (w & Ew & Hw). rewrite (tau_at_eq _ _ _ Ew). destruct (Z.eqb_spec w v) as [->|Hne].
      - apply nth_upd_same. rewrite (si_len _ _ I). lia.
      - apply nth_upd_other. lia. }
    constructor.
    - rewrite upd_length. apply I.
    - intros x Dx [HD| ->]; rewrite HA by assumption.
      + destruct (Z.eqb_spec (tau_at tau x) v) as [E|E]; [|apply (si_done _ _ I); assumption].
        symmetry. destruct (TV x Dx) as (w & Ew & _). rewrite (tau_at_eq _ _ _ Ew) in E. rewrite E in Ew. exact (VC x (j, nu) v Dx Hx Ew Ev).
      + cbn [fst snd]. rewrite (tau_at_eq tau (j, nu) v Ev), Z.eqb_refl. reflexivity.
    - intros x Dx. rewrite HA by assumption. destruct (Z.eqb_spec (tau_at tau x) v) as [E|E]; [|apply (si_any _ _ I); assumption].
      left. symmetry. destruct (TV x Dx) as (w & Ew & _). rewrite (tau_at_eq _ _ _ Ew) in E. rewrite E in Ew. exact (VC x (j, nu) v Dx Hx Ew Ev).
    - intros HV row Hin. apply In_nth with (d := []) in Hin. destruct Hin as (i & Hi & <-). rewrite upd_length in Hi.
      destruct (Nat.eq_dec i (Z.to_nat v)) as [->|Hne]; [rewrite nth_upd_same by (rewrite (si_len _ _ I); lia); apply (HV (j, nu) Hx)|].
      rewrite nth_upd_other by lia. apply (si_row _ _ I HV). apply nth_In. exact Hi.
  Qed.
  Lemma sinv_weak (D D' : local -> Prop) rows : (forall x, D' x -> D x) -> sinv D rows -> sinv D' rows.
  Proof. intros H I. constructor; try apply I. intros x Dx HD. apply (si_done _ _ I); auto. Qed.

  (** one simplex, the multi-indices in [l] *)
  Lemma sinv_inner {A} (f : list (list Q) -> A -> result (list (list Q))) (g : A -> list nat) j (l : list A) :
    (forall rows a, In a l -> length rows = N -> f rows a = store tau j rows (vals j (g a), g a)) -> (forall a, In a l -> dom ntri m r (j, g a)) ->
    forall D rows, sinv D rows -> exists rows', foldM f rows l = Ok rows' /\ sinv (fun x => D x \/ exists a, In a l /\ x = (j, g a)) rows'.
  Proof.
    induction l as [|a l IH]; intros Hf Hd D rows I.
    - exists rows. split; [reflexivity|]. eapply sinv_weak; [|exact I]. intros x [H|(a & [] & _)]. exact H.
    - cbn [foldM]. rewrite Hf by (try (left; reflexivity); apply I). destruct (sinv_store D rows j (g a) I (Hd a (or_introl eq_refl))) as (rows1 & E & I1). rewrite E. cbn [bind].
      destruct (IH (fun rows b Hb => Hf rows b (or_intror Hb)) (fun b Hb => Hd b (or_intror Hb)) _ rows1 I1) as (rows2 & E2 & I2). exists rows2. split; [exact E2|].
      eapply sinv_weak; [|exact I2]. intros x [H|(b & [->|Hb] & ->)]; [left; left; exact H|left; right; reflexivity|right; eauto].
  Qed.
  (** all simplices in [S] *)
  Lemma sinv_outer (f : list (list Q) -> nat -> result (list (list Q))) (S : list nat) :
    (forall D rows j, In j S -> sinv D rows -> exists rows', f rows j = Ok rows' /\ sinv (fun x => D x \/ (fst x = j /\ dom ntri m r x)) rows') ->
    forall D rows, sinv D rows -> exists rows', foldM f rows S = Ok rows' /\ sinv (fun x => D x \/ (In (fst x) S /\ dom ntri m r x)) rows'.
  Proof.
    induction S as [|j S IH]; intros Hf D rows I.
    - exists rows. split; [reflexivity|]. eapply sinv_weak; [|exact I]. intros x [H|[[] _]]. exact H.
    - cbn [foldM]. destruct (Hf D rows j (or_introl eq_refl) I) as (rows1 & E & I1). rewrite E. cbn [bind].
      destruct (IH (fun D rows i Hi => Hf D rows i (or_intror Hi)) _ rows1 I1) as (rows2 & E2 & I2). exists rows2. split; [exact E2|].
      eapply sinv_weak; [|exact I2]. intros x [H|[[->|H] Hd]]; [left; left; exact H|left; right; auto|right; auto].
  Qed.
  Theorem store_all (f : list (list Q) -> nat -> result (list (list Q))) (S : list nat) :
    (forall D rows j, In j S -> sinv D rows -> exists rows', f rows j = Ok rows' /\ sinv (fun x => D x \/ (fst x = j /\ dom ntri m r x)) rows') ->
    (forall x, dom ntri m r x -> length (vals (fst x) (snd x)) = n) ->
    (forall x, dom ntri m r x -> ~ In (fst x) S -> vals (fst x) (snd x) = zrow) ->
    exists rows, foldM f (repeat zrow N) S = Ok rows /\ length rows = N /\ (forall row, In row rows -> length row = n) /\
      forall x, dom ntri m r x -> at_ rows x = vals (fst x) (snd x).
  Proof.
    intros Hf HL HZ. destruct (sinv_outer f S Hf _ _ sinv_start) as (rows & E & I). exists rows. split; [exact E|]. split; [apply I|]. split; [apply (si_row _ _ I HL)|].
    intros x Hx. destruct (in_dec Nat.eq_dec (fst x) S) as [H|H].
    - apply (si_done _ _ I); [exact Hx|]. right. auto.
    - rewrite (HZ x Hx H). destruct (si_any _ _ I x Hx) as [E1|E1]; [|exact E1]. rewrite E1. apply HZ; assumption.
  Qed.
End Store.
Arguments g_gen {cont m r tris bs keep tau N} _.
Arguments g_val {cont m r tris bs keep tau N} _.
Arguments g_onto {cont m r tris bs keep tau N} _.
Arguments g_eq {cont m r tris bs keep tau N} _.
Arguments g_full {cont m r tris bs keep tau N} _.
Arguments g_same {cont m r tris bs keep tau N} _.
