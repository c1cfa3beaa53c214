(** Affine substitution in polynomial functions and the chain rule. *)
From Verif Require Import Base MultiIndex MultiIndexFacts MultiCapFacts MultiIndexCache Fld CodeGen CodeGenFacts LinSolve MultiCoef MultiCoefFacts LagrangeCache Unisolv Poly PolyFacts LagFacts PolyEval PolyOps PolyOpsB PolyDeriv PolyObj PolyPow DerivFacts.
From Coq Require Import Field_theory Field.

Section SubstFacts.
  Context {F : fld}.
  Add Field Kfield53 : (kth F).
  Local Open Scope fld_scope.

  Lemma nth_mapseq {A} (h : nat -> A) n d i : (i < n)%nat -> nth i (map h (seq 0 n)) d = h i.
  Proof. intros H. rewrite (nth_indep _ d (h 0%nat)) by (rewrite map_length, seq_length; exact H). rewrite (map_nth h), seq_nth by exact H. reflexivity. Qed.
  Lemma polydeg_add m r (f g : list F -> F) : polydeg m r f -> polydeg m r g -> polydeg m r (fun x => f x + g x).
  Proof.
    intros (d & Ld & Hd) (e & Le & He). exists (map (fun nu => cf m r d nu + cf m r e nu) (all_mi m r)). split; [apply map_all_mi_length|]. intros x Hx. rewrite (Hd x Hx), (He x Hx), (mval_ext _ _ _ _ _ eq_refl). unfold mval. rewrite <- ksum_plus. apply ksum_ext. intros. ring.
  Qed.
  Lemma polydeg_le m r s (f : list F -> F) : (r <= s)%nat -> polydeg m r f -> polydeg m s f.
  Proof. apply polydeg_elevate. Qed.
  Lemma polydeg_scale m r c (f : list F -> F) : polydeg m r f -> polydeg m r (fun x => c * f x).
  Proof. intros H. exact (polydeg_mul m 0 r (fun _ => c) f (polydeg_const m c) H). Qed.
  Lemma polydeg_sum {A} m r (l : list A) (f : A -> list F -> F) : (forall a, In a l -> polydeg m r (f a)) -> polydeg m r (fun x => ksum l (fun a => f a x)).
  Proof.
    induction l as [|a l IH]; intros H; [apply (polydeg_le m 0); [lia|exact (polydeg_const m 0)]|]. apply (polydeg_ext m r (fun x => f a x + ksum l (fun a => f a x))); [intros; reflexivity|]. apply polydeg_add; [apply H; left; reflexivity|apply IH; intros b Hb; apply H; right; exact Hb].
  Qed.
  Lemma polydeg_mono m nu : length nu = m -> polydeg m (nsum nu) (fun x : list F => mpow x nu).
  Proof.
    intros <-. exists (map (fun mu => if mi_dec mu nu then 1 else 0) (all_mi (length nu) (nsum nu))). split; [apply map_all_mi_length|]. intros x Hx. rewrite (mval_ext _ _ _ _ _ eq_refl).
    rewrite (ksum_ext _ (fun mu => if mi_dec mu nu then mpow x nu else 0)); [symmetry; apply (ksum_delta mi_dec (fun _ => mpow x nu)); [apply NoDup_all_mi|apply in_all_mi; split; [reflexivity|apply le_n]]|]. intros mu _. destruct (mi_dec mu nu) as [-> |]; ring.
  Qed.
  Lemma mpow_unit (x : list F) m s i : length x = m -> (i < m)%nat -> mpow x (map (fun k => if (k =? s + i)%nat then 1%nat else 0%nat) (seq s m)) = nth i x 0.
  Proof.
    revert m s i. induction x as [|v x IH]; intros m s i E Hi; cbn [length] in E; [lia|]. destruct m as [|m]; [lia|]. cbn [seq map mpow]. destruct i as [|i].
    - rewrite Nat.add_0_r, Nat.eqb_refl. cbn [kpow nth]. rewrite (map_ext_in _ (fun _ => 0%nat)).
      + assert (Z : forall t m, mpow (F := F) t (map (fun _ => 0%nat) (seq (S s) m)) = 1).
        { clear. intros t. assert (G : forall m s', mpow (F := F) t (map (fun _ => 0%nat) (seq s' m)) = 1); [|intros; apply G]. induction t as [|v t IH]; intros [|m] s'; try reflexivity. cbn [seq map mpow kpow]. rewrite IH. ring. }
        rewrite Z. ring.
      + intros k Hk. apply in_seq in Hk. destruct (Nat.eqb_spec k s); [lia|reflexivity].
    - destruct (Nat.eqb_spec s (s + S i)); [lia|]. cbn [kpow nth]. replace (s + S i)%nat with (S s + i)%nat by lia. rewrite IH by lia. ring.
  Qed.
  Lemma polydeg_coord m i : (i < m)%nat -> polydeg m 1 (fun x : list F => nth i x 0).
  Proof.
    intros Hi. apply (polydeg_ext m 1 (fun x => mpow x (map (fun k => if (k =? i)%nat then 1%nat else 0%nat) (seq 0 m)))).
    - intros x Hx. apply (mpow_unit x m 0 i Hx Hi).
    - replace 1%nat with (nsum (map (fun k => if (k =? i)%nat then 1%nat else 0%nat) (seq 0 m))) at 1; [apply polydeg_mono; rewrite map_length, seq_length; reflexivity|].
      clear F. assert (G : forall m s i, (s <= i < s + m)%nat -> nsum (map (fun k => if (k =? i)%nat then 1%nat else 0%nat) (seq s m)) = 1%nat).
      { clear. induction m as [|m IH]; intros s i Hi; [lia|]. cbn [seq map]. unfold nsum in *. cbn [list_sum fold_right]. destruct (Nat.eqb_spec s i).
        - assert (Z : forall m s, (i < s)%nat -> list_sum (map (fun k => if (k =? i)%nat then 1%nat else 0%nat) (seq s m)) = 0%nat); [|fold (list_sum (map (fun k => if (k =? i)%nat then 1%nat else 0%nat) (seq (S s) m))); rewrite Z by lia; reflexivity].
          clear. induction m as [|m IH]; intros s H; [reflexivity|]. cbn [seq map]. destruct (Nat.eqb_spec s i); [lia|]. change (list_sum (0%nat :: ?l)) with (list_sum l). apply IH. lia.
        - fold (list_sum (map (fun k => if (k =? i)%nat then 1%nat else 0%nat) (seq (S s) m))). rewrite IH by lia. reflexivity. }
      apply G. lia.
  Qed.
  Lemma polydeg_affine m (c : F) (a : nat -> F) : polydeg m 1 (fun x => c + ksum (seq 0 m) (fun i => a i * nth i x 0)).
  Proof.
    apply polydeg_add; [apply (polydeg_le m 0); [lia|apply polydeg_const]|]. apply polydeg_sum. intros i Hi. apply in_seq in Hi. apply polydeg_scale, polydeg_coord. lia.
  Qed.
  Theorem polydeg_subst m k r (f : list F -> F) gs : polydeg k r f -> Forall (polydeg m 1) gs -> length gs = k -> polydeg m r (fun x => f (map (fun g => g x) gs)).
  Proof.
    intros (d & Ld & Hd) Hg Lg. apply (polydeg_ext m r (fun x => mval k r d (map (fun g => g x) gs))); [intros x Hx; symmetry; apply Hd; rewrite map_length; exact Lg|]. unfold mval.
    apply (polydeg_sum m r (all_mi k r) (fun nu x => cf k r d nu * mpow (map (fun g => g x) gs) nu)). intros nu Hnu. apply in_all_mi in Hnu as [N1 N2]. apply polydeg_scale. apply (polydeg_le m (1 * nsum nu)); [lia|]. apply polydeg_mpow; [congruence|]. apply Forall_forall. exact Hg.
  Qed.

  (** ** Derivative along a line *)
  Definition line (m : nat) (x v : list F) (h : F) : list F := map (fun i => nth i x 0 + h * nth i v 0) (seq 0 m).
  Lemma dat_mpow (gs : list (F -> F)) (ds : list F) nu : Forall2 dat gs ds -> length nu = length gs ->
    dat (fun h => mpow (map (fun g => g h) gs) nu) (ksum (seq 0 (length gs)) (fun k => nth k ds 0 * (kofnat (nth k nu 0%nat) * mpow (map (fun g => g 0) gs) (down nu k)))).
  Proof.
    intros H. revert nu. induction H as [|g d gs ds Hg H IH]; intros nu E; cbn [length] in *; [apply (dat_ext (fun _ => 1) _ 0); [intros; destruct nu; reflexivity|reflexivity|apply dat_const]|]. destruct nu as [|a nu]; [discriminate E|]. injection E as E.
    refine (dat_ext (fun h => kpow (g h) a * mpow (map (fun g => g h) gs) nu) _ _ _ _ _ (dat_mul (fun h => kpow (g h) a) _ _ _ (dat_pow g d a Hg) (IH nu E))); [reflexivity|]. rewrite ksum_seq_S. change (down (a :: nu) 0) with ((a - 1)%nat :: nu). cbn [nth map mpow].
    rewrite <- ksum_scale_l. transitivity (kofnat a * kpow (g 0) (a - 1) * d * mpow (map (fun g0 : F -> F => g0 0) gs) nu + ksum (seq 0 (length gs)) (fun k => kpow (g 0) a * (nth k ds 0 * (kofnat (nth k nu 0%nat) * mpow (map (fun g0 : F -> F => g0 0) gs) (down nu k))))); [ring|]. f_equal; [ring|].
    apply ksum_ext. intros k _. unfold down. cbn [upd nth mpow]. ring.
  Qed.
  Lemma dat_line_mono m (x v : list F) nu : length nu = m -> length x = m -> dat (fun h => mpow (line m x v h) nu) (ksum (seq 0 m) (fun k => nth k v 0 * (kofnat (nth k nu 0%nat) * mpow x (down nu k)))).
  Proof.
    intros Ln Lx. set (gs := map (fun i => fun h => nth i x 0 + h * nth i v 0) (seq 0 m)). set (ds := map (fun i => nth i v 0) (seq 0 m)).
    assert (E0 : forall h, map (fun g => g h) gs = line m x v h) by (intros h; unfold gs, line; rewrite map_map; reflexivity). assert (Lg : length gs = m) by (unfold gs; rewrite map_length, seq_length; reflexivity).
    refine (dat_ext _ _ _ _ _ _ (dat_mpow gs ds nu _ _)).
    - intros h. rewrite E0. reflexivity.
    - rewrite Lg. apply ksum_ext. intros k Hk. apply in_seq in Hk. unfold ds. rewrite (nth_mapseq (fun i => nth i v 0)) by lia. cbn [Nat.add]. f_equal. f_equal. f_equal. rewrite E0. unfold line. transitivity (map (fun i => nth i x 0) (seq 0 m)); [apply map_ext; intros; ring|]. rewrite <- Lx. clear. apply (nth_ext _ _ 0 0); [rewrite map_length, seq_length; reflexivity|]. intros n Hn. rewrite map_length, seq_length in Hn. rewrite (nth_mapseq (fun i => nth i x 0)) by exact Hn. reflexivity.
    - unfold gs, ds. clear. induction (seq 0 m) as [|i l IH]; constructor; [|exact IH]. apply (dat_ext (fun h => (fun _ => nth i x 0) h + (fun h => nth i v 0 * (0 + h)) h) _ (0 + nth i v 0 * 1)); [intros; ring|ring|]. apply dat_add; [apply dat_const|]. apply (dat_scale (fun h => 0 + h)). apply dat_shift.
    - congruence.
  Qed.
  Theorem dat_line m r (f : list F -> F) x v (d : nat -> F) : polydeg m r f -> length x = m -> (forall k, (k < m)%nat -> is_pderiv f k x (d k)) -> dat (fun h => f (line m x v h)) (ksum (seq 0 m) (fun k => nth k v 0 * d k)).
  Proof.
    intros (c & Lc & Hc) Lx Hd. set (d' := fun k => ksum (all_mi m r) (fun nu => cf m r c nu * (kofnat (nth k nu 0%nat) * mpow x (down nu k)))).
    assert (E : forall k, (k < m)%nat -> d k = d' k).
    { intros k Hk. apply (DerivFacts.pderiv_unique f k x); [apply Hd, Hk|]. apply (pderiv_ext (mval m r c) _ k x (d' k) _ m Lx); [intros y Hy; symmetry; apply Hc, Hy|reflexivity|]. unfold is_pderiv, mval, d'. apply dat_sum. intros nu Hnu. apply in_all_mi in Hnu as [N1 N2]. apply dat_scale. apply pderiv_mpow; lia. }
    rewrite (ksum_ext _ (fun k => nth k v 0 * d' k)) by (intros k Hk; apply in_seq in Hk; rewrite E by lia; reflexivity).
    apply (dat_ext (fun h => mval m r c (line m x v h)) _ (ksum (all_mi m r) (fun nu => cf m r c nu * ksum (seq 0 m) (fun k => nth k v 0 * (kofnat (nth k nu 0%nat) * mpow x (down nu k)))))).
    - intros h. symmetry. apply Hc. unfold line. rewrite map_length, seq_length. reflexivity.
    - unfold d'. transitivity (ksum (seq 0 m) (fun k => ksum (all_mi m r) (fun nu => nth k v 0 * (cf m r c nu * (kofnat (nth k nu 0%nat) * mpow x (down nu k)))))); [rewrite ksum_swap; apply ksum_ext; intros nu _; rewrite <- ksum_scale_l; apply ksum_ext; intros; ring|]. apply ksum_ext. intros k _. rewrite <- ksum_scale_l. reflexivity.
    - unfold mval. apply dat_sum. intros nu Hnu. apply in_all_mi in Hnu as [N1 N2]. apply dat_scale. apply dat_line_mono; assumption.
  Qed.
End SubstFacts.
