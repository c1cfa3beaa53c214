(** The coefficients of the Lagrange basis functions of the unit simplex in the
    monomial basis are integers divided by a product of factorials. *)
From Coq Require Import Factorial Field_theory Field.
From Verif Require Import Base MultiIndex MultiIndexFacts Fld MultiCoef MultiCoefFacts LinSolve PolyFacts Unisolv Poly LagFacts PolyOps SubstFacts CodeGenFacts FaceValues QHom.
Local Open Scope nat_scope.

(** a polynomial with integer coefficients: a list of terms *)
Definition terms := list (Z * list nat).
Definition tmul (L L' : terms) : terms := flat_map (fun p => map (fun q => ((fst p * fst q)%Z, mi_add (snd p) (snd q))) L') L.
Definition tdeg (m k : nat) (L : terms) : Prop := Forall (fun p => length (snd p) = m /\ nsum (snd p) <= k) L.
Definition unit_index (m i : nat) : list nat := map (fun k => if (k =? i)%nat then 1 else 0) (seq 0 m).
(** r x_i - j and r (1 - x_1 - ... - x_m) - j *)
Definition lin (m r i j : nat) : terms := [(Z.of_nat r, unit_index m i); ((- Z.of_nat j)%Z, repeat 0 m)].
Definition lin0 (m r j : nat) : terms := ((Z.of_nat r - Z.of_nat j)%Z, repeat 0 m) :: map (fun i => ((- Z.of_nat r)%Z, unit_index m i)) (seq 0 m).
Fixpoint tfall (m : nat) (f : nat -> terms) (n : nat) : terms := match n with O => [(1%Z, repeat 0 m)] | S n => tmul (tfall m f n) (f n) end.
Fixpoint tvars (m r i : nat) (nu : list nat) : terms := match nu with [] => [(1%Z, repeat 0 m)] | e :: nu => tmul (tfall m (lin m r i) e) (tvars m r (S i) nu) end.
Definition lag_terms (r : nat) (nu : list nat) : terms := tmul (tvars (length nu) r 0 nu) (tfall (length nu) (lin0 (length nu) r) (r - nsum nu)).
Definition zcoef (L : terms) (mu : list nat) : Z := fold_right Z.add 0%Z (map fst (filter (fun p => if mi_dec (snd p) mu then true else false) L)).
Definition lag_den (r : nat) (nu : list nat) : nat := mi_factorial nu * fact (r - nsum nu).

Lemma tdeg_mul m k k' L L' : tdeg m k L -> tdeg m k' L' -> tdeg m (k + k') (tmul L L').
Proof.
  intros H H'. apply Forall_forall. intros p Hp. apply in_flat_map in Hp as (q & Hq & Hp). apply in_map_iff in Hp as (q' & <- & Hq'). cbn [snd].
  pose proof (proj1 (Forall_forall _ _) H q Hq) as [A1 A2]. pose proof (proj1 (Forall_forall _ _) H' q' Hq') as [B1 B2]. rewrite mi_add_length, mi_add_sum by congruence. split; [exact A1|lia].
Qed.
Lemma nsum_zero_map {A} (l : list A) : nsum (map (fun _ => 0) l) = 0.
Proof. induction l; [reflexivity|]. cbn [map]. rewrite nsum_cons. exact IHl. Qed.
Lemma unit_index_sum m i : nsum (unit_index m i) <= 1.
Proof.
  unfold unit_index. enough (G : forall s, nsum (map (fun k => if k =? i then 1 else 0) (seq s m)) <= 1) by apply G. induction m as [|m IH]; intros s; [cbn; lia|]. cbn [seq map]. rewrite nsum_cons. destruct (Nat.eqb_spec s i) as [->|]; [|specialize (IH (S s)); lia].
  assert (Z : forall l, (forall k, In k l -> i < k) -> nsum (map (fun k => if k =? i then 1 else 0) l) = 0).
  { clear. induction l as [|k l IH]; intros H; [reflexivity|]. cbn [map]. rewrite nsum_cons, IH by (intros; apply H; now right). pose proof (H k (or_introl eq_refl)). destruct (Nat.eqb_spec k i); lia. }
  rewrite Z; [lia|]. intros k Hk. apply in_seq in Hk. lia.
Qed.
Lemma unit_index_length m i : length (unit_index m i) = m.
Proof. unfold unit_index. now rewrite map_length, seq_length. Qed.
Lemma tdeg_lin m r i j : tdeg m 1 (lin m r i j).
Proof. constructor; [cbn [snd]; split; [apply unit_index_length|apply unit_index_sum]|]. constructor; [|constructor]. cbn [snd]. rewrite repeat_length, nsum_repeat0. lia. Qed.
Lemma tdeg_lin0 m r j : tdeg m 1 (lin0 m r j).
Proof. constructor; [cbn [snd]; rewrite repeat_length, nsum_repeat0; lia|]. apply Forall_forall. intros p Hp. apply in_map_iff in Hp as (i & <- & _). cbn [snd]. split; [apply unit_index_length|apply unit_index_sum]. Qed.
Lemma tdeg_one m : tdeg m 0 [(1%Z, repeat 0 m)].
Proof. constructor; [|constructor]. cbn [snd]. rewrite repeat_length, nsum_repeat0. lia. Qed.
Lemma tdeg_fall m f n : (forall j, tdeg m 1 (f j)) -> tdeg m n (tfall m f n).
Proof. intros H. induction n as [|n IH]; [apply tdeg_one|]. cbn [tfall]. replace (S n) with (n + 1) by lia. apply tdeg_mul; [exact IH|apply H]. Qed.
Lemma tdeg_vars m r nu : forall i, tdeg m (nsum nu) (tvars m r i nu).
Proof. induction nu as [|e nu IH]; intros i; [apply tdeg_one|]. cbn [tvars]. rewrite nsum_cons. apply tdeg_mul; [apply tdeg_fall; intros; apply tdeg_lin|apply IH]. Qed.
Lemma lag_terms_deg r nu : nsum nu <= r -> tdeg (length nu) r (lag_terms r nu).
Proof. intros H. unfold lag_terms. replace r with (nsum nu + (r - nsum nu)) at 1 by lia. apply tdeg_mul; [apply tdeg_vars|apply tdeg_fall; intros; apply tdeg_lin0]. Qed.
Lemma lag_den_pos r nu : lag_den r nu <> 0.
Proof. unfold lag_den. pose proof (mi_factorial_pos nu). pose proof (fact_neq_0 (r - nsum nu)). nia. Qed.
Lemma lag_den_le r nu : nsum nu <= r -> lag_den r nu <= fact r.
Proof. intros H. unfold lag_den. pose proof (mnom_fact ((r - nsum nu) :: nu)) as E. rewrite mi_factorial_cons, nsum_cons in E. replace (r - nsum nu + nsum nu) with r in E by lia. rewrite <- E. pose proof (fact_neq_0 r). destruct (mnom ((r - nsum nu) :: nu)); nia. Qed.

Section Values.
  Context {F : fld}.
  Add Field Kfield84 : (kth F).
  Local Open Scope fld_scope.
  Definition tv (L : terms) (x : list F) : F := ksum L (fun p => kofZ (fst p) * mpow x (snd p)).
  Lemma tv_mul m k k' L L' (x : list F) : length x = m -> tdeg m k L -> tdeg m k' L' -> tv (tmul L L') x = tv L x * tv L' x.
  Proof.
    intros Hx H H'. unfold tv, tmul. rewrite ksum_flat_map, ksum_mul. apply ksum_ext. intros p Hp. rewrite ksum_map. apply ksum_ext. intros q Hq. cbn [fst snd].
    pose proof (proj1 (Forall_forall _ _) H p Hp) as [A _]. pose proof (proj1 (Forall_forall _ _) H' q Hq) as [B _]. rewrite kofZ_mul, mpow_add by congruence. ring.
  Qed.
  Lemma mpow_unit_index (x : list F) m i : length x = m -> (i < m)%nat -> mpow x (unit_index m i) = nth i x 0.
  Proof. intros Hx Hi. exact (mpow_unit x m 0 i Hx Hi). Qed.
  Lemma tv_one m (x : list F) : tv [(1%Z, repeat 0%nat m)] x = 1.
  Proof. unfold tv. rewrite ksum_cons, ksum_nil. cbn [fst snd]. rewrite kofZ_1, mpow_zero. ring. Qed.
  Lemma tv_lin m r i j (x : list F) : length x = m -> (i < m)%nat -> tv (lin m r i j) x = kofnat r * nth i x 0 - kofnat j.
  Proof. intros Hx Hi. unfold tv, lin. rewrite !ksum_cons, ksum_nil. cbn [fst snd]. rewrite kofZ_opp, !kofZ_nat, mpow_zero, (mpow_unit_index x m i Hx Hi). ring. Qed.
  Lemma tv_lin0 m r j (x : list F) : length x = m -> tv (lin0 m r j) x = kofnat r * bary0 x - kofnat j.
  Proof.
    intros Hx. unfold tv, lin0. rewrite ksum_cons, ksum_map. cbn [fst snd]. rewrite mpow_zero, kofZ_sub. unfold bary0.
    rewrite (ksum_ext _ (fun i => - kofnat r * nth i x 0)); [|intros i Hi; apply in_seq in Hi; rewrite kofZ_opp, kofZ_nat, (mpow_unit_index x m i Hx) by lia; reflexivity].
    rewrite ksum_scale_l. rewrite <- Hx, ksum_nth. ring.
  Qed.
  (** falling product t (t - 1) ... (t - n + 1) *)
  Fixpoint ff (t : F) (n : nat) : F := match n with O => 1 | S n => ff t n * (t - kofnat n) end.
  Lemma tv_fall m f n t (x : list F) : length x = m -> (forall j, tdeg m 1 (f j)) -> (forall j, tv (f j) x = t - kofnat j) -> tv (tfall m f n) x = ff t n.
  Proof.
    intros Hx HD HV. induction n as [|n IH]; [apply tv_one|]. cbn [tfall ff]. rewrite (tv_mul m n 1); [rewrite IH, HV; reflexivity|exact Hx|now apply tdeg_fall|apply HD].
  Qed.
  Fixpoint fprod (r : nat) (nu : list nat) (x : list F) : F := match nu, x with e :: nu, v :: x => ff (kofnat r * v) e * fprod r nu x | _, _ => 1 end.
  Lemma tv_vars m r nu (x : list F) : length x = m -> forall i, (i + length nu <= m)%nat -> tv (tvars m r i nu) x = fprod r nu (skipn i x).
  Proof.
    intros Hx. induction nu as [|e nu IH]; intros i Hi; [cbn [tvars fprod]; apply tv_one|]. cbn [length] in Hi. cbn [tvars].
    rewrite (tv_mul m e (nsum nu)); [|exact Hx|apply tdeg_fall; intros; apply tdeg_lin|apply tdeg_vars]. rewrite (IH (S i)) by lia.
    rewrite (tv_fall m (lin m r i) e (kofnat r * nth i x 0) x Hx); [|intros; apply tdeg_lin|intros j; apply tv_lin; [exact Hx|lia]].
    assert (E : skipn i x = nth i x 0 :: skipn (S i) x). { clear -Hx Hi. revert i m Hx Hi. induction x as [|v x IH]; intros i m Hx Hi; [cbn in Hx; lia|]. destruct i as [|i]; [reflexivity|]. cbn [skipn nth]. apply (IH i (pred m)); [cbn in Hx; lia|lia]. }
    rewrite E. reflexivity.
  Qed.
  Lemma tv_lag r nu (x : list F) : length x = length nu -> (nsum nu <= r)%nat -> tv (lag_terms r nu) x = fprod r nu x * ff (kofnat r * bary0 x) (r - nsum nu).
  Proof.
    intros Hx Hr. unfold lag_terms. rewrite (tv_mul (length nu) (nsum nu) (r - nsum nu)); [|exact Hx|apply tdeg_vars|apply tdeg_fall; intros; apply tdeg_lin0].
    rewrite (tv_vars (length nu) r nu x Hx 0) by lia. cbn [skipn]. f_equal. apply tv_fall; [exact Hx|intros; apply tdeg_lin0|]. intros j. now apply tv_lin0.
  Qed.
  Lemma ff_zero a n : (a < n)%nat -> ff (kofnat a) n = 0.
  Proof. induction n as [|n IH]; intros H; [lia|]. cbn [ff]. destruct (Nat.eq_dec a n) as [->|N]; [ring|]. rewrite IH by lia. ring. Qed.
  Lemma ff_fact n : forall k, ff (kofnat (n + k)) n * kofnat (fact k) = kofnat (fact (n + k)).
  Proof.
    induction n as [|n IH]; intros k; [cbn [ff Nat.add]; ring|]. specialize (IH (S k)). replace (n + S k)%nat with (S n + k)%nat in IH by lia. rewrite <- IH. cbn [ff fact]. change (S k * fact k)%nat with (fact (S k)). 
    replace (kofnat (F := F) (S n + k)) with (kofnat (F := F) n + kofnat (S k)) by (rewrite <- kofnat_add; f_equal; lia). change (fact (S k)) with (S k * fact k)%nat. rewrite kofnat_mul. ring.
  Qed.
  Lemma ff_same n : ff (kofnat n) n = kofnat (fact n).
  Proof. pose proof (ff_fact n 0) as E. rewrite Nat.add_0_r in E. cbn [fact] in E. rewrite <- E, kofnat_1. ring. Qed.
  Lemma zcoef_tv m k L (x : list F) : tdeg m k L -> tv L x = ksum (all_mi m k) (fun mu => kofZ (zcoef L mu) * mpow x mu).
  Proof.
    intros H. induction L as [|[z nu] L IH].
    - unfold tv. rewrite ksum_nil. symmetry. apply ksum_zero. intros mu _. cbn. ring.
    - unfold tv. rewrite ksum_cons. fold (tv L x). rewrite (IH (Forall_inv_tail H)). pose proof (Forall_inv H) as [H1 H2]. cbn [fst snd] in *.
      rewrite <- (ksum_delta mi_dec (fun mu => kofZ z * mpow x mu) (all_mi m k) nu (NoDup_all_mi m k)) by (apply in_all_mi; split; assumption). rewrite <- ksum_plus. apply ksum_ext. intros mu _. unfold zcoef. cbn [filter snd].
      destruct (mi_dec nu mu) as [E|E]; destruct (mi_dec mu nu) as [E'|E']; try congruence; cbn [map fold_right fst]; rewrite ?kofZ_add; ring.
  Qed.
  Lemma fprod_node r mu : r <> 0%nat -> forall nu, fprod r nu (map (fun a => kofnat a / kofnat r) mu) = fprod 1 nu (map (fun a => kofnat a) mu).
  Proof.
    intros Hr. induction mu as [|a mu IH]; intros [|e nu]; try reflexivity. cbn [map fprod]. rewrite IH. f_equal. f_equal. rewrite kofnat_1. field. now apply kofnat_neq.
  Qed.
  Lemma fprod_less mu : forall nu, length mu = length nu -> (exists i, (i < length nu)%nat /\ (nth i mu 0 < nth i nu 0)%nat) -> fprod 1 nu (map (fun a => kofnat a) mu) = 0.
  Proof.
    induction mu as [|a mu IH]; intros [|e nu] HL (i & Hi & Hlt); cbn [length] in *; try lia. cbn [map fprod]. replace (kofnat 1 * kofnat a) with (kofnat a : F) by (rewrite kofnat_1; ring). destruct i as [|i]; cbn [nth] in Hlt.
    - rewrite ff_zero by exact Hlt. ring.
    - rewrite (IH nu); [ring|lia|]. exists i. split; [lia|exact Hlt].
  Qed.
  Lemma fprod_same nu : fprod 1 nu (map (fun a => kofnat a) nu) = kofnat (mi_factorial nu).
  Proof. induction nu as [|e nu IH]; [symmetry; exact kofnat_1|]. cbn [map fprod]. rewrite mi_factorial_cons, kofnat_mul, IH. f_equal. replace (kofnat 1 * kofnat e) with (kofnat e : F) by (rewrite kofnat_1; ring). apply ff_same. Qed.
  Lemma less_or_ge (mu nu : list nat) : length mu = length nu -> (exists i, (i < length nu)%nat /\ (nth i mu 0 < nth i nu 0)%nat) \/ mu = nu \/ (nsum nu < nsum mu)%nat.
  Proof.
    revert nu. induction mu as [|a mu IH]; intros [|e nu] HL; try discriminate; [right; left; reflexivity|]. cbn [length] in HL. rewrite !nsum_cons. destruct (le_lt_dec e a) as [H|H]; [|left; exists 0%nat; cbn; lia].
    destruct (IH nu) as [(i & Hi & Hlt)|[->|G]]; [lia|left; exists (S i); cbn; lia| |right; right; lia]. destruct (Nat.eq_dec a e) as [->|N]; [right; left; reflexivity|right; right; lia].
  Qed.
  Lemma nsum0_eq (l l' : list nat) : length l = length l' -> nsum l = 0%nat -> nsum l' = 0%nat -> l = l'.
  Proof. revert l'. induction l as [|a l IH]; intros [|b l'] HL H H'; try discriminate; [reflexivity|]. rewrite nsum_cons in H, H'. f_equal; [lia|apply IH; [cbn in HL; lia|lia|lia]]. Qed.
  Lemma mi_factorial_0 l : nsum l = 0%nat -> mi_factorial l = 1%nat.
  Proof. induction l as [|a l IH]; intros H; [reflexivity|]. rewrite nsum_cons in H. rewrite mi_factorial_cons, IH by lia. replace a with 0%nat by lia. reflexivity. Qed.
  Lemma fprod_0 nu (x : list F) r : nsum nu = 0%nat -> fprod r nu x = 1.
  Proof. revert x. induction nu as [|e nu IH]; intros [|v x] H; try reflexivity. rewrite nsum_cons in H. cbn [fprod]. rewrite IH by lia. replace e with 0%nat by lia. cbn [ff]. ring. Qed.
  Lemma tv_node r nu mu : length mu = length nu -> (nsum mu <= r)%nat -> (nsum nu <= r)%nat ->
    tv (lag_terms r nu) (generate_lagrange_point (length nu) r mu) = if mi_dec mu nu then kofnat (lag_den r nu) else 0.
  Proof.
    intros HL Hm Hn. rewrite tv_lag; [|now apply lagrange_point_length|exact Hn]. unfold generate_lagrange_point, lag_den. destruct r as [|r].
    - destruct (mi_dec mu nu) as [E|E]; [|exfalso; apply E, nsum0_eq; lia]. rewrite fprod_0 by lia. rewrite mi_factorial_0 by lia. cbn [Nat.sub fact ff Nat.mul]. rewrite kofnat_1. ring.
    - assert (N : kofnat (F := F) (S r) <> 0) by (apply kofnat_neq; discriminate). rewrite fprod_node by discriminate.
      replace (kofnat (S r) * bary0 (map (fun a => kofnat a / kofnat (S r)) mu)) with (kofnat (F := F) (S r - nsum mu)).
      2:{ assert (B : kofnat (F := F) (S r - nsum mu) + kofnat (nsum mu) = kofnat (S r)) by (rewrite <- kofnat_add; f_equal; lia). unfold bary0. rewrite ksum_map.
          rewrite (ksum_ext _ (fun a => kofnat a * kinv (kofnat (S r)))) by (intros; field; exact N). rewrite ksum_scale_r, ksum_kofnat, map_id. transitivity (kofnat (S r) - kofnat (F := F) (nsum mu)); [rewrite <- B; ring|field; exact N]. }
      destruct (mi_dec mu nu) as [->|E]; [rewrite fprod_same, ff_same, kofnat_mul; reflexivity|]. destruct (less_or_ge mu nu HL) as [G|[G|G]]; [rewrite fprod_less by assumption; ring|contradiction|]. rewrite ff_zero by lia. ring.
  Qed.

  (** the coefficients: the same integers and the same divisor in every field *)
  Definition lag_coeff (r : nat) (nu mu : list nat) : F := kofZ (zcoef (lag_terms r nu) mu) / kofnat (lag_den r nu).
  Theorem lagrange_coefficients_int nu r c : (nsum nu <= r)%nat -> get_lagrange_basis_fn_coefficients (F := F) nu r = Ok c -> c = map (lag_coeff r nu) (all_mi (length nu) r).
  Proof.
    intros Hn Hc. destruct (lagrange_basis_fn_coefficients_ok (F := F) nu r Hn) as (c' & Ec & Lc & HV). replace c' with c in * by congruence. apply (nodal_unique (length nu) r); [exact Lc|apply map_all_mi_length|].
    intros mu M1 M2. rewrite (HV mu M1 M2). rewrite (mval_ext _ _ _ _ _ eq_refl). assert (N : kofnat (F := F) (lag_den r nu) <> 0) by apply kofnat_neq, lag_den_pos.
    transitivity (tv (lag_terms r nu) (generate_lagrange_point (length nu) r mu) / kofnat (lag_den r nu)).
    - rewrite tv_node by assumption. destruct (mi_dec mu nu); field; exact N.
    - rewrite (zcoef_tv (length nu) r) by now apply lag_terms_deg. symmetry. rewrite (ksum_ext _ (fun nu0 => kofZ (zcoef (lag_terms r nu) nu0) * mpow (generate_lagrange_point (length nu) r mu) nu0 * kinv (kofnat (lag_den r nu)))); [rewrite ksum_scale_r; field; exact N|]. intros t _. unfold lag_coeff. field. exact N.
  Qed.
End Values.
