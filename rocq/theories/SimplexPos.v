(** A non-negative polynomial whose integral over a corner simplex vanishes is
    zero there. *)
From Coq Require Import Reals Lra List Lia Arith Factorial.
From Coquelicot Require Import Coquelicot.
From Verif Require Import SimplexInt.
Import ListNotations.
Local Open Scope R_scope.

Lemma simplex_int_zero n : forall s, 0 <= s -> simplex_int n s (fun _ => 0) 0.
Proof.
  induction n as [|n IH]; intros s Hs; cbn [simplex_int]; [reflexivity|]. exists (fun _ => 0). split; [intros t Ht; apply IH; lra|].
  pose proof (is_RInt_const (V := R_NormedModule) 0 s 0) as H. unfold scal in H; cbn in H; unfold mult in H; cbn in H. rewrite Rmult_0_r in H. exact H.
Qed.
Lemma simplex_int_nonneg n : forall s f v, 0 <= s -> (forall x, length x = n -> (forall u, In u x -> 0 <= u) -> rsum x <= s -> 0 <= f x) -> simplex_int n s f v -> 0 <= v.
Proof.
  induction n as [|n IH]; intros s f v Hs Hf H; cbn [simplex_int] in H.
  - rewrite H. apply Hf; [reflexivity|intros u []|exact Hs].
  - destruct H as (g & H1 & H2). pose proof (is_RInt_const (V := R_NormedModule) 0 s 0) as H0. unfold scal in H0; cbn in H0; unfold mult in H0; cbn in H0. rewrite Rmult_0_r in H0.
    apply (is_RInt_le (fun _ => 0) g 0 s); [exact Hs|exact H0|exact H2|]. intros t Ht. apply (IH (s - t) (fun y => f (t :: y))); [lra| |apply H1; lra].
    intros x Hx Hp Hsum. apply Hf; [cbn; congruence| |unfold rsum in *; cbn [fold_right]; lra]. intros u [<-|Hu]; [lra|apply Hp, Hu].
Qed.

(** A polynomial given by a list of coefficients and exponents *)
Definition pl (L : list (R * list nat)) (x : list R) : R := fold_right (fun e v => fst e * rmpow x (snd e) + v) 0 L.
Definition mfac (nu : list nat) : R := fold_right Rmult 1 (map (fun a => INR (fact a)) nu).
(** its integral *)
Definition pl_int (n : nat) (s : R) (L : list (R * list nat)) : R :=
  fold_right (fun e v => fst e * (mfac (snd e) / INR (fact (n + list_sum (snd e))) * s ^ (n + list_sum (snd e))) + v) 0 L.
Lemma pl_integral n s L : 0 <= s -> (forall e, In e L -> length (snd e) = n) -> simplex_int n s (pl L) (pl_int n s L).
Proof.
  intros Hs. induction L as [|[c nu] L IH]; intros HL; [apply simplex_int_zero; exact Hs|].
  assert (Hn : length nu = n) by (apply (HL (c, nu)); left; reflexivity).
  apply (simplex_int_plus n s (fun x => c * rmpow x nu) (pl L)); [exact Hs| |apply IH; intros e He; apply HL; right; exact He].
  apply simplex_int_scal; [exact Hs|]. pose proof (monomial_int nu 0 s Hs) as H. rewrite Hn in H. cbn [fst snd]. rewrite Nat.add_0_r in H. change (INR (fact 0)) with 1 in H. fold (mfac nu) in H. rewrite Rmult_1_r in H.
  refine (simplex_int_ext _ _ _ _ _ Hs _ H). intros x _ _ _. cbn [pow]. ring.
Qed.

(** The inner integral, as a function of the first coordinate *)
Definition slice (t : R) (L : list (R * list nat)) : list (R * list nat) := map (fun e => (fst e * t ^ hd 0%nat (snd e), tl (snd e))) L.
Lemma pl_slice t y L : (forall e, In e L -> snd e <> []) -> pl L (t :: y) = pl (slice t L) y.
Proof.
  induction L as [|[c nu] L IH]; intros HL; [reflexivity|]. cbn [pl slice map fold_right]. fold (pl L (t :: y)) (slice t L) (pl (slice t L) y).
  rewrite IH by (intros e He; apply HL; right; exact He). cbn [fst snd]. destruct nu as [|a nu]; [exfalso; apply (HL (c, [])); [left|]; reflexivity|]. cbn [rmpow hd tl]. ring.
Qed.
Lemma slice_continuous n s L t : continuous (fun t => pl_int n (s - t) (slice t L)) t.
Proof.
  induction L as [|[c nu] L IH]; cbn [slice map pl_int fold_right]; [apply continuous_const|].
  apply (continuous_plus (V := R_NormedModule) (fun t => c * t ^ hd 0%nat nu * (mfac (tl nu) / INR (fact (n + list_sum (tl nu))) * (s - t) ^ (n + list_sum (tl nu)))) (fun t => pl_int n (s - t) (slice t L))); [|exact IH].
  apply (ex_derive_continuous (fun t => c * t ^ hd 0%nat nu * (mfac (tl nu) / INR (fact (n + list_sum (tl nu))) * (s - t) ^ (n + list_sum (tl nu))))). auto_derive. exact I.
Qed.

Lemma zero_integral (g : R -> R) s : 0 < s -> (forall t, continuous g t) -> (forall t, 0 <= t <= s -> 0 <= g t) -> is_RInt g 0 s 0 -> forall t, 0 <= t < s -> g t = 0.
Proof.
  intros Hs Hc Hg HI t Ht. destruct (Req_dec (g t) 0) as [|Hn]; [assumption|exfalso]. assert (Hp : 0 < g t) by (pose proof (Hg t); lra).
  assert (He : 0 < g t / 2) by lra. destruct (proj1 (filterlim_locally g (g t)) (Hc t) (mkposreal _ He)) as [d Hd]. cbn in Hd.
  set (e := Rmin (pos d / 2) (s - t)). assert (Hd0 : 0 < d) by apply cond_pos. assert (He1 : 0 < e) by (unfold e; apply Rmin_glb_lt; lra).
  assert (He2 : e < d) by (unfold e; pose proof (Rmin_l (d / 2) (s - t)); lra). assert (He3 : t + e <= s) by (unfold e; pose proof (Rmin_r (d / 2) (s - t)); lra).
  assert (EX : forall a b, ex_RInt g a b) by (intros a b; apply (ex_RInt_continuous (V := R_CompleteNormedModule)); intros z _; apply Hc).
  assert (E1 : RInt g 0 s = RInt g 0 t + RInt g t (t + e) + RInt g (t + e) s).
  { pose proof (RInt_Chasles (V := R_CompleteNormedModule) g 0 t (t + e) (EX _ _) (EX _ _)) as C1. pose proof (RInt_Chasles (V := R_CompleteNormedModule) g 0 (t + e) s (EX _ _) (EX _ _)) as C2. change (RInt g 0 t + RInt g t (t + e) = RInt g 0 (t + e)) in C1. change (RInt g 0 (t + e) + RInt g (t + e) s = RInt g 0 s) in C2. lra. }
  rewrite (is_RInt_unique _ _ _ _ HI) in E1.
  assert (P1 : 0 <= RInt g 0 t) by (apply RInt_ge_0; [lra|apply EX|intros z Hz; apply Hg; lra]).
  assert (P3 : 0 <= RInt g (t + e) s) by (apply RInt_ge_0; [lra|apply EX|intros z Hz; apply Hg; lra]).
  assert (P2 : e * (g t / 2) <= RInt g t (t + e)).
  { pose proof (RInt_le (fun _ => g t / 2) g t (t + e)) as P. rewrite RInt_const in P. unfold scal in P; cbn in P; unfold mult in P; cbn in P. replace (t + e - t) with e in P by ring. apply P; [lra|apply ex_RInt_const|apply EX|].
    intros z Hz. assert (Hb : ball t d z). { unfold ball; cbn. unfold AbsRing_ball, abs, minus, plus, opp; cbn. rewrite Rabs_right; lra. }
    specialize (Hd z Hb). unfold ball in Hd; cbn in Hd. unfold AbsRing_ball, abs, minus, plus, opp in Hd; cbn in Hd. apply Rabs_def2 in Hd. lra. }
  assert (0 < e * (g t / 2)) by (apply Rmult_lt_0_compat; lra). lra.
Qed.

Theorem pl_positive n : forall s L, 0 < s -> (forall e, In e L -> length (snd e) = n) ->
  (forall x, length x = n -> (forall u, In u x -> 0 <= u) -> rsum x <= s -> 0 <= pl L x) -> pl_int n s L = 0 ->
  forall x, length x = n -> (forall u, In u x -> 0 <= u) -> rsum x < s -> pl L x = 0.
Proof.
  induction n as [|n IH]; intros s L Hs HL Hpos HI x Hx Hx1 Hx2.
  - destruct x; [|discriminate]. rewrite <- HI. symmetry. exact (simplex_int_unique 0 s (pl L) _ _ (Rlt_le _ _ Hs) (pl_integral 0 s L (Rlt_le _ _ Hs) HL) eq_refl).
  - destruct x as [|t y]; [discriminate|]. injection Hx as Hy. unfold rsum in Hx2; cbn [fold_right] in Hx2. fold (rsum y) in Hx2.
    assert (Ht : 0 <= t) by (apply Hx1; left; reflexivity). assert (Hy1 : forall u, In u y -> 0 <= u) by (intros u Hu; apply Hx1; right; exact Hu).
    assert (Hys : 0 <= rsum y). { clear - Hy1. induction y as [|a y IHy]; [cbn; lra|]. unfold rsum; cbn [fold_right]. fold (rsum y). pose proof (Hy1 a (or_introl eq_refl)). assert (0 <= rsum y) by (apply IHy; intros u Hu; apply Hy1; right; exact Hu). lra. }
    assert (HN : forall e, In e L -> snd e <> []) by (intros e He E; specialize (HL e He); rewrite E in HL; discriminate).
    assert (HSL : forall t e, In e (slice t L) -> length (snd e) = n).
    { intros t0 e He. unfold slice in He. apply in_map_iff in He as (e' & <- & He'). cbn [snd]. specialize (HL e' He'). destruct (snd e'); [discriminate|]. injection HL as HL. exact HL. }
    assert (G : forall u, 0 <= u <= s -> 0 <= pl_int n (s - u) (slice u L)).
    { intros u Hu. apply (simplex_int_nonneg n (s - u) (pl (slice u L))); [lra| |apply pl_integral; [lra|apply HSL]].
      intros z Hz Hz1 Hz2. rewrite <- pl_slice by exact HN. apply Hpos; [cbn; congruence| |unfold rsum in *; cbn [fold_right]; lra]. intros w [<-|Hw]; [lra|apply Hz1, Hw]. }
    assert (HI' : is_RInt (fun u => pl_int n (s - u) (slice u L)) 0 s 0).
    { pose proof (pl_integral (S n) s L (Rlt_le _ _ Hs) HL) as HP. rewrite HI in HP. cbn [simplex_int] in HP. destruct HP as (g & G1 & G2). refine (is_RInt_ext _ _ _ _ _ _ G2). intros u Hu. rewrite Rmin_left, Rmax_right in Hu by lra.
      apply (simplex_int_unique n (s - u) (fun y => pl L (u :: y))); [lra|apply G1; lra|]. refine (simplex_int_ext _ _ _ _ _ _ _ (pl_integral n (s - u) (slice u L) _ (HSL u))); [lra| |lra]. intros z _ _ _. symmetry. apply pl_slice, HN. }
    pose proof (zero_integral _ s Hs (slice_continuous n s L) G HI' t) as Z. rewrite pl_slice by exact HN. apply (IH (s - t)); [lra|apply HSL| |apply Z; lra|exact Hy|exact Hy1|lra].
    intros z Hz Hz1 Hz2. rewrite <- pl_slice by exact HN. apply Hpos; [cbn; congruence| |unfold rsum in *; cbn [fold_right]; lra]. intros w [<-|Hw]; [lra|apply Hz1, Hw].
Qed.
