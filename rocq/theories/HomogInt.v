(** The integral of a monomial over a simplex
    (calculus/polynomial/polynomials_simplex_monomial_basis_calculus.py). *)
From Verif Require Import Base MultiIndex MultiIndexFacts MultiCapFacts Permutations Simplicial ChainFacts LocalToGlobalFacts Fld FldInst CodeGen CodeGenFacts LinSolve Det Linalg VecFacts SimplexGeo SimplexFacts AffineFacts SubstFacts MultiCoef MultiCoefFacts LagrangeCache IntegralCache Integrate PolyFacts PolyOps IntFacts HasInt Poly Bases PolySimplex Baldoni.
From Verif Require SetTheory.
From Coq Require Import Field_theory Field.

Section Homog.
  Context {Q : ofld} (ksqrt : Q -> Q).
  Add Field Kfield58 : (kth Q).
  Local Open Scope fld_scope.
  Notation cnt := (count_occ Nat.eq_dec).

  (** The point of the simplex with given coordinates on the unit simplex. *)
  Definition simplex_point (d : nat) (vs : list (list Q)) (x : list Q) : list Q :=
    map (fun j => ksum (seq 0 (length vs)) (fun v => nth v (bary_of x) 0 * ent vs v j)) (seq 0 d).
  Lemma simplex_point_comb d vs x : S (length x) = length vs -> affine_comb d (bary_of x) vs (simplex_point d vs x).
  Proof.
    intros L. split; [unfold bary_of; cbn [length]; exact L|]. split; [unfold simplex_point; rewrite map_length, seq_length; reflexivity|]. split; [apply bary_of_sum|]. intros j Hj. unfold simplex_point. rewrite nth_mapseq by exact Hj. reflexivity.
  Qed.

  (** ** Monomials as products over their letters *)
  Fixpoint letters (s : nat) (nu : list nat) : list nat := match nu with [] => [] | a :: nu' => repeat s a ++ letters (S s) nu' end.
  Lemma letters_length nu : forall s, length (letters s nu) = nsum nu.
  Proof. induction nu as [|a nu IH]; intros s; [reflexivity|]. cbn [letters nsum fold_right]. rewrite app_length, repeat_length, IH. reflexivity. Qed.
  Lemma letters_bound nu : forall s j, In j (letters s nu) -> (s <= j < s + length nu)%nat.
  Proof. induction nu as [|a nu IH]; intros s j H; [contradiction|]. cbn [letters length] in *. apply in_app_iff in H as [H|H]; [apply repeat_spec in H; lia|apply IH in H; lia]. Qed.
  Lemma kprod_repeat (h : nat -> Q) s a : kprod (repeat s a) h = kpow (h s) a.
  Proof. induction a as [|a IH]; [reflexivity|]. cbn [repeat kpow]. rewrite kprod_cons, IH. reflexivity. Qed.
  Lemma mpow_letters nu : forall (x : list Q) s, length x = length nu -> mpow x nu = kprod (letters s nu) (fun j => nth (j - s) x 0).
  Proof.
    induction nu as [|a nu IH]; intros [|t x] s L; try discriminate; [reflexivity|]. cbn [mpow letters]. rewrite kprod_app, kprod_repeat, Nat.sub_diag. cbn [nth]. f_equal. rewrite (IH x (S s)) by (cbn [length] in L; congruence). apply kprod_ext. intros j Hj. apply letters_bound in Hj. replace (j - s)%nat with (S (j - S s)) by lia. reflexivity.
  Qed.

  (** ** Words and barycentric coordinates *)
  Definition counts (n : nat) (f : list nat) : list nat := map (fun v => cnt f v) (seq 1 n).
  Lemma count_total V : NoDup V -> forall f, incl f V -> nsum (map (cnt f) V) = length f.
  Proof.
    intros HV. induction f as [|a f IH]; intros HI.
    - clear. induction V as [|v V IH]; [reflexivity|]. cbn [map nsum fold_right]. unfold nsum in IH. rewrite IH. reflexivity.
    - cbn [length]. rewrite <- IH by (intros y Hy; apply HI; right; exact Hy). assert (Ha : In a V) by (apply HI; left; reflexivity). clear IH HI. induction HV as [|b V Hb HV IH]; [contradiction|]. cbn [map nsum fold_right]. unfold nsum in IH. destruct (Nat.eq_dec a b) as [E|E].
      + rewrite (map_ext_in (cnt (a :: f)) (cnt f) V) by (intros k Hk; cbn [count_occ]; destruct (Nat.eq_dec a k) as [E'|]; [exfalso; apply Hb; rewrite <- E, E'; exact Hk|reflexivity]). cbn [count_occ]. destruct (Nat.eq_dec a b); [lia|contradiction].
      + destruct Ha as [E'|Ha]; [exfalso; apply E; symmetry; exact E'|]. rewrite (IH Ha). cbn [count_occ]. destruct (Nat.eq_dec a b); [contradiction|]. unfold nsum. lia.
  Qed.
  Lemma mpow_seq (x : list Q) (g : nat -> nat) : forall s, mpow x (map g (seq s (length x))) = kprod (seq s (length x)) (fun v => kpow (nth (v - s) x 0) (g v)).
  Proof.
    induction x as [|t x IH]; intros s; [reflexivity|]. cbn [length seq map mpow]. rewrite kprod_cons, Nat.sub_diag. cbn [nth]. f_equal. rewrite IH. apply kprod_ext. intros v Hv. apply in_seq in Hv. replace (v - s)%nat with (S (v - S s)) by lia. reflexivity.
  Qed.
  Lemma mifac_seq (g : nat -> nat) n : forall s, kofnat (F := Q) (mi_factorial (map g (seq s n))) = kprod (seq s n) (fun v => kofnat (fact (g v))).
  Proof. induction n as [|n IH]; intros s; [cbn; unfold kofnat; cbn; ring|]. cbn [seq map]. rewrite mi_factorial_cons, kofnat_mul, kprod_cons, IH. reflexivity. Qed.
  Lemma word_value n (x : list Q) f : length x = n -> incl f (seq 0 (S n)) -> kprod f (fun v => nth v (bary_of x) 0) = mpow x (counts n f) * kpow (bary0 x) (cnt f 0%nat).
  Proof.
    intros L HI. rewrite (kprod_count _ (seq 0 (S n)) (seq_NoDup _ _) f HI). cbn [seq]. rewrite kprod_cons. unfold counts. rewrite <- L, mpow_seq. change (nth 0 (bary_of x) 0) with (bary0 x). rewrite (kprod_ext _ (fun v => kpow (nth (v - 1) x 0) (cnt f v))); [ring|].
    intros v Hv. apply in_seq in Hv. destruct v as [|v]; [lia|]. replace (S v - 1)%nat with v by lia. reflexivity.
  Qed.
  Lemma word_int n f : incl f (seq 0 (S n)) -> has_int (F := Q) n (fun x : list Q => kprod (F := Q) f (fun v => nth v (bary_of x) 0)) (alpha (seq 0 (S n)) f / kofnat (fact (n + length f))).
  Proof.
    intros HI. pose proof (has_int_bary (F := Q) (cnt f 0%nat) (counts n f)) as H. assert (LC : length (counts n f) = n) by (unfold counts; rewrite map_length, seq_length; reflexivity). rewrite LC in H.
    pose proof (count_total (seq 0 (S n)) (seq_NoDup _ _) f HI) as CT. cbn [seq map nsum fold_right] in CT. change (fold_right Nat.add 0%nat (map (cnt f) (seq 1 n))) with (nsum (counts n f)) in CT.
    replace (n + nsum (counts n f) + cnt f 0%nat)%nat with (n + length f)%nat in H by lia. assert (EA : alpha (seq 0 (S n)) f = kofnat (F := Q) (mi_factorial (counts n f)) * kofnat (fact (cnt f 0%nat))).
    { unfold alpha. cbn [seq]. rewrite kprod_cons. unfold counts. rewrite mifac_seq. ring. }
    rewrite EA. eapply has_int_ext; [|exact H]. intros x Lx. symmetry. apply word_value; assumption.
  Qed.
  Theorem monomial_simplex_int n d vs nu : length vs = S n -> length nu = d ->
    has_int (F := Q) n (fun x : list Q => mpow (F := Q) (simplex_point d vs x) nu) (ksum (tuples (seq 0 (S n)) (nsum nu)) (fun f => alpha (seq 0 (S n)) f * wprod (fun j v => ent vs v j) (letters 0 nu) f) / kofnat (fact (n + nsum nu))).
  Proof.
    intros LV Ld. assert (LP : forall x, length (simplex_point d vs x) = length nu) by (intros x; unfold simplex_point; rewrite map_length, seq_length; symmetry; exact Ld).
    apply (has_int_ext _ (fun x => ksum (tuples (seq 0 (S n)) (nsum nu)) (fun f => wprod (fun j v => ent vs v j) (letters 0 nu) f * kprod f (fun v => nth v (bary_of x) 0)))).
    - intros x Lx. rewrite (mpow_letters nu _ 0 (LP x)). rewrite (kprod_ext _ (fun j => ksum (seq 0 (S n)) (fun v => ent vs v j * nth v (bary_of x) 0))).
      + rewrite prod_sums, letters_length. apply ksum_ext. intros f Hf. apply in_tuples in Hf as [Lf _]. rewrite wprod_mul, wprod_const by (rewrite letters_length; exact Lf). reflexivity.
      + intros j Hj. apply letters_bound in Hj. rewrite Nat.sub_0_r. unfold simplex_point. rewrite nth_mapseq by lia. rewrite LV. apply ksum_ext. intros v _. ring.
    - replace (ksum (tuples (seq 0 (S n)) (nsum nu)) (fun f => alpha (seq 0 (S n)) f * wprod (fun j v => ent vs v j) (letters 0 nu) f) / kofnat (fact (n + nsum nu))) with
        (ksum (tuples (seq 0 (S n)) (nsum nu)) (fun f => wprod (fun j v => ent vs v j) (letters 0 nu) f * (alpha (seq 0 (S n)) f / kofnat (fact (n + nsum nu))))).
      + apply has_int_sum. intros f Hf. apply in_tuples in Hf as [Lf If]. apply has_int_scal. rewrite <- Lf. apply word_int. exact If.
      + transitivity (ksum (tuples (seq 0 (S n)) (nsum nu)) (fun f => alpha (seq 0 (S n)) f * wprod (fun j v => ent vs v j) (letters 0 nu) f) * (1 / kofnat (fact (n + nsum nu)))); [|field; apply kfact_neq]. rewrite <- ksum_scale_r. apply ksum_ext. intros f _. field. apply kfact_neq.
  Qed.

  (** ** The code *)
  Lemma fold_signs (eps : list bool) : forall w, fold_left (fun w s => w * sign_of (Q := Q) s) eps w = w * kprod eps sg.
  Proof. induction eps as [|e eps IH]; intros w; [unfold kprod; cbn [fold_left fold_right]; ring|]. cbn [fold_left]. rewrite IH, kprod_cons. change (sign_of e) with (sg (F := Q) e). ring. Qed.
  Lemma fold_point d (vs : list (list Q)) (i : list nat) (eps : list bool) : (forall k, In k i -> (k < length vs)%nat) -> (forall r, In r vs -> length r = d) -> forall q p, (q <= length i)%nat -> length p = d ->
    let x := fold_left (fun x k => vadd x (vscale (sign_of (Q := Q) (nth k eps false)) (vtx vs (nth k i 0%nat)))) (seq 0 q) p in
    length x = d /\ forall j, (j < d)%nat -> nth j x 0 = nth j p 0 + ksum (seq 0 q) (fun k => sg (nth k eps false) * ent vs (nth k i 0%nat) j).
  Proof.
    intros Hi HV. induction q as [|q IH]; intros p Hq Hp.
    - cbn [seq fold_left]. split; [exact Hp|]. intros. rewrite ksum_nil. ring.
    - rewrite seq_S, fold_left_app. destruct (IH p ltac:(lia) Hp) as [I1 I2]. cbn [fold_left Nat.add]. set (x := fold_left _ (seq 0 q) p) in *.
      assert (Lv : length (vtx vs (nth q i 0%nat)) = d) by (apply HV, nth_In, Hi, nth_In; lia).
      assert (Ls : length (vscale (sign_of (Q := Q) (nth q eps false)) (vtx vs (nth q i 0%nat))) = d) by (unfold vscale; rewrite map_length; exact Lv). split; [unfold vadd; rewrite map_length, combine_length; lia|]. intros j Hj.
      rewrite nth_vadd by lia. rewrite I2 by exact Hj. rewrite ksum_app, ksum_cons, ksum_nil. rewrite nth_vscale. change (sign_of (Q := Q) (nth q eps false)) with (sg (F := Q) (nth q eps false)). unfold ent, vtx. ring.
  Qed.
  Lemma signed_term_ok d (vs : list (list Q)) nu i eps : (forall k, In k i -> (k < length vs)%nat) -> rows_of (length vs) d vs -> vs <> [] -> length nu = d -> length i = nsum nu -> length eps = nsum nu ->
    signed_term vs nu i eps = Ok (kprod eps sg * kprod (letters 0 nu) (fun j => ksum (seq 0 (nsum nu)) (fun k => sg (nth k eps false) * ent vs (nth k i 0%nat) j))).
  Proof.
    intros Hi [_ HV] Hne Ld Li Le. unfold signed_term. rewrite fold_signs, Le. assert (ED : embedding_dimension vs = d) by (unfold embedding_dimension; destruct vs as [|v0 ?]; [contradiction|]; apply HV; left; reflexivity). rewrite ED.
    destruct (fold_point d vs i eps Hi HV (nsum nu) (repeat 0 d) ltac:(lia) (repeat_length _ _)) as [I1 I2]. set (x := fold_left _ (seq 0 (nsum nu)) (repeat 0 d)) in *. rewrite power_mpow by congruence. cbn [bind]. f_equal. rewrite (mpow_letters nu x 0) by congruence. rewrite (kprod_ext _ (fun j => ksum (seq 0 (nsum nu)) (fun k => sg (nth k eps false) * ent vs (nth k i 0%nat) j)) (letters 0 nu)); [ring|].
    intros j Hj. apply letters_bound in Hj. rewrite Nat.sub_0_r, I2 by lia. rewrite nth_repeat. ring.
  Qed.
  Lemma sign_tuples q : q <> 0%nat -> exists E, SetTheory.nfold_cartesian_product Bool.bool_dec [true; false] q = Ok E /\ (forall e, In e E -> length (tuple_of e) = q) /\ forall f : list bool -> Q, ksum E (fun e => f (tuple_of e)) = ksum (tuples [true; false] q) f.
  Proof.
    intros Hq. destruct q as [|[|q]]; [contradiction| |].
    - eexists. split; [reflexivity|]. split; [intros e He; cbn in He; destruct He as [<-|[<-|[]]]; reflexivity|]. intros f. reflexivity.
    - destruct (SetTheory.nfold_spec Bool.bool_dec [true; false] q) as (p & Ep & Np & Hp). exists p. split; [exact Ep|]. split; [intros e He; apply Hp in He as (l & -> & Ll & _); exact Ll|]. intros f.
      apply (ksum_bij (fun e => f (tuple_of e)) f tuple_of); [exact Np|apply NoDup_tuples; repeat constructor; cbn; intuition discriminate| | | |reflexivity].
      + intros e He. apply Hp in He as (l & -> & Ll & Il). apply in_tuples. split; assumption.
      + intros e e' He He' E. apply Hp in He as (l & -> & _). apply Hp in He' as (l' & -> & _). cbn [tuple_of] in E. congruence.
      + intros l Hl. apply in_tuples in Hl as [Ll Il]. exists (SetTheory.Tp l). split; [|reflexivity]. apply Hp. exists l. auto.
  Qed.
  Theorem integrate_homogeneous_ok n d vs nu V : rows_of (S n) d vs -> length nu = d -> volume ksqrt vs = Ok V ->
    exists I w, integrate_homogeneous_polynomial_simplex ksqrt nu vs = Ok I /\ has_int (F := Q) n (fun x : list Q => mpow (F := Q) (simplex_point d vs x) nu) w /\ I = kofnat (fact n) * V * w.
  Proof.
    intros HV Ld EV. pose proof (monomial_simplex_int n d vs nu (proj1 HV) Ld) as HI. unfold integrate_homogeneous_polynomial_simplex. rewrite EV. cbn [bind]. change (norm nu) with (nsum nu). destruct (Nat.eqb_spec (nsum nu) 0) as [E0|E0].
    - eexists _, _. split; [reflexivity|]. split; [exact HI|]. rewrite E0 at 1. cbn [tuples]. rewrite ksum_cons, ksum_nil, E0, Nat.add_0_r. replace (letters 0 nu) with (@nil nat) by (symmetry; apply length_zero_iff_nil; rewrite letters_length; exact E0). cbn [wprod].
      unfold alpha. rewrite kprod_one by (intros; cbn; unfold kofnat; cbn; ring). field. apply kfact_neq.
    - rewrite (proj1 HV). replace (S n - 1)%nat with n by lia. destruct (generate_all_non_decreasing (nsum nu) n) as [L|e] eqn:EL; [|unfold generate_all_non_decreasing in EL; rewrite generate_all_multi_cap_eq in EL; discriminate EL]. cbn [bind].
      assert (HL : forall i, In i L -> length i = nsum nu /\ forall k, In k i -> (k < length vs)%nat).
      { intros i Hi. pose proof EL as EL'. unfold generate_all_non_decreasing in EL'. rewrite generate_all_multi_cap_eq in EL'. cbn [bind] in EL'. injection EL' as <-. apply in_generate_non_decreasing in Hi as (Li & _ & Fi). split; [exact Li|]. intros k Hk. rewrite Forall_forall in Fi. specialize (Fi k Hk). cbv beta in Fi. rewrite (proj1 HV). lia. }
      destruct (sign_tuples (nsum nu) E0) as (E & EE & LE & HE). rewrite EE. cbn [bind]. assert (Hne : vs <> []) by (intros H; destruct HV as [L0 _]; rewrite H in L0; discriminate).
      rewrite (foldM_sum _ (fun i => ksum (tuples [true; false] (nsum nu)) (fun e => kprod e sg * kprod (letters 0 nu) (fun j => ksum (seq 0 (nsum nu)) (fun k => sg (nth k e false) * ent vs (nth k i 0%nat) j))))).
      + cbn [bind]. eexists _, _. split; [reflexivity|]. split; [exact HI|].
        rewrite (ksum_ext _ (fun i => kpow (1 + 1) (nsum nu) * ksum (tuples (seq 0 (nsum nu)) (nsum nu)) (fun t => if perm_dec t (seq 0 (nsum nu)) then wprod (fun j v => ent vs v j) (letters 0 nu) (map (fun k => nth k i 0%nat) t) else 0))).
        * rewrite ksum_scale_l, (sorted_words (nsum nu) n L (fun f => wprod (fun j v => ent vs v j) (letters 0 nu) f) EL). set (W := ksum (tuples (seq 0 (S n)) (nsum nu)) _). pose proof (binomF_fact (F := Q) (nsum nu + n) (nsum nu) ltac:(lia)) as HB. replace (nsum nu + n - nsum nu)%nat with n in HB by lia. rewrite (Nat.add_comm n (nsum nu)), <- HB.
          pose proof (kfact_neq (F := Q) n). pose proof (kfact_neq (F := Q) (nsum nu)). pose proof (binomF_neq (F := Q) (nsum nu + n) (nsum nu) ltac:(lia)). assert (kpow (1 + 1 : Q) (nsum nu) <> 0) by (apply kpow_neq; intros E2; apply (kofnat_neq (F := Q) 2); [discriminate|]; rewrite <- E2; unfold kofnat; cbn [nat_in]; ring). field. repeat split; assumption.
        * intros i Hi. rewrite <- (letters_length nu 0). rewrite (polarization (fun k j => ent vs (nth k i 0%nat) j) (letters 0 nu)). f_equal. apply ksum_ext. intros t _. destruct (perm_dec t _); [|reflexivity]. generalize (letters 0 nu). clear. intros l. revert t. induction l as [|j l IH]; intros [|k t]; cbn [wprod map]; try reflexivity. rewrite IH. reflexivity.
      + intros s i Hi. destruct (HL i Hi) as [Li Bi]. rewrite <- HE. apply foldM_sum. intros s' e He. rewrite (signed_term_ok d) by (try assumption; try (rewrite (proj1 HV); exact HV); apply LE; exact He). reflexivity.
  Qed.
End Homog.
