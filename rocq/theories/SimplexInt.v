(** The integral of a function over a corner simplex, as an iterated Riemann
    integral, and the integrals of monomials and Bernstein polynomials. *)
From Coq Require Import Reals Lra List Lia Arith Factorial.
From Coquelicot Require Import Coquelicot.
Import ListNotations.
Local Open Scope R_scope.

(** [simplex_int n s f v]: [v] is the integral of [f] over the points with [n]
    non-negative coordinates whose sum is at most [s]. *)
Fixpoint simplex_int (n : nat) (s : R) (f : list R -> R) (v : R) : Prop :=
  match n with
  | O => v = f []
  | S n' => exists g : R -> R, (forall t, 0 <= t <= s -> simplex_int n' (s - t) (fun y => f (t :: y)) (g t)) /\ is_RInt g 0 s v
  end.

Lemma simplex_int_ext n : forall s f g v, 0 <= s -> (forall x, length x = n -> (forall u, In u x -> 0 <= u) -> fold_right Rplus 0 x <= s -> f x = g x) -> simplex_int n s f v -> simplex_int n s g v.
Proof.
  induction n as [|n IH]; intros s f g v Hs E H; cbn [simplex_int] in *.
  - rewrite H. apply E; [reflexivity|intros u []|exact Hs].
  - destruct H as (h & H1 & H2). exists h. split; [|exact H2]. intros t Ht. apply (IH _ (fun y => f (t :: y))); [lra| |apply H1, Ht].
    intros x Hx Hx1 Hx2. apply E; [cbn; congruence| |cbn [fold_right]; lra]. intros u [<-|Hu]; [lra|apply Hx1, Hu].
Qed.
Lemma simplex_int_unique n : forall s f v w, 0 <= s -> simplex_int n s f v -> simplex_int n s f w -> v = w.
Proof.
  induction n as [|n IH]; intros s f v w Hs Hv Hw; cbn [simplex_int] in *; [congruence|].
  destruct Hv as (g & G1 & G2), Hw as (h & H1 & H2). assert (H3 : is_RInt g 0 s w).
  { apply (is_RInt_ext h); [|exact H2]. intros t Ht. rewrite Rmin_left, Rmax_right in Ht by exact Hs. apply (IH (s - t) (fun y => f (t :: y))); [lra|apply H1; lra|apply G1; lra]. }
  rewrite <- (is_RInt_unique _ _ _ _ G2). apply is_RInt_unique. exact H3.
Qed.
Lemma simplex_int_plus n : forall s f g v w, 0 <= s -> simplex_int n s f v -> simplex_int n s g w -> simplex_int n s (fun x => f x + g x) (v + w).
Proof.
  induction n as [|n IH]; intros s f g v w Hs Hv Hw; cbn [simplex_int] in *; [congruence|].
  destruct Hv as (h & H1 & H2), Hw as (k & K1 & K2). exists (fun t => h t + k t). split.
  - intros t Ht. apply (IH (s - t) (fun y => f (t :: y)) (fun y => g (t :: y))); [lra|apply H1, Ht|apply K1, Ht].
  - apply (is_RInt_plus (V := R_NormedModule) h k 0 s v w H2 K2).
Qed.
Lemma simplex_int_scal n : forall s f v c, 0 <= s -> simplex_int n s f v -> simplex_int n s (fun x => c * f x) (c * v).
Proof.
  induction n as [|n IH]; intros s f v c Hs Hv; cbn [simplex_int] in *; [congruence|].
  destruct Hv as (h & H1 & H2). exists (fun t => c * h t). split.
  - intros t Ht. apply (IH (s - t) (fun y => f (t :: y))); [lra|apply H1, Ht].
  - apply (is_RInt_scal (V := R_NormedModule) h 0 s c v H2).
Qed.

(** ** The integral of [t^a (s - t)^b] *)
Lemma pow_derive (s t : R) a b : is_derive (fun t => t ^ S a * (s - t) ^ S b) t (INR (S a) * (t ^ a * (s - t) ^ S b) - INR (S b) * (t ^ S a * (s - t) ^ b)).
Proof.
  auto_derive; [exact I|]. rewrite <- !tech_pow_Rmult. replace (match a with 0%nat => 1 | S _ => INR a + 1 end) with (INR (S a)) by (rewrite S_INR; destruct a; [cbn; ring|reflexivity]).
  replace (match b with 0%nat => 1 | S _ => INR b + 1 end) with (INR (S b)) by (rewrite S_INR; destruct b; [cbn; ring|reflexivity]). cbn [Nat.pred pow]. unfold Rminus. ring.
Qed.
Lemma pow_continuous (s t : R) a b : continuous (fun t => t ^ a * (s - t) ^ b) t.
Proof. apply (ex_derive_continuous (fun t => t ^ a * (s - t) ^ b)). auto_derive. exact I. Qed.
Lemma INR_S_neq a : INR (S a) <> 0. Proof. apply not_0_INR. discriminate. Qed.
Lemma beta_int a : forall b s, 0 <= s -> is_RInt (fun t => t ^ a * (s - t) ^ b) 0 s (INR (fact a) * INR (fact b) / INR (fact (a + b + 1)) * s ^ (a + b + 1)).
Proof.
  induction a as [|a IH]; intros b s Hs.
  - assert (H : is_RInt (fun t => t ^ 0 * (s - t) ^ b) 0 s (minus (- (s - s) ^ S b / INR (S b)) (- (s - 0) ^ S b / INR (S b)))).
    { apply (is_RInt_derive (V := R_CompleteNormedModule) (fun t => - (s - t) ^ S b / INR (S b))).
      - intros t _. auto_derive; [exact I|].  replace (match b with 0%nat => 1 | S _ => INR b + 1 end) with (INR (S b)) by (rewrite S_INR; destruct b; [cbn; ring|reflexivity]).
        pose proof (INR_S_neq b). cbn [Nat.pred pow]. unfold Rminus. field. assumption.
      - intros t _. apply pow_continuous. }
    replace (INR (fact 0) * INR (fact b) / INR (fact (0 + b + 1)) * s ^ (0 + b + 1)) with (minus (- (s - s) ^ S b / INR (S b)) (- (s - 0) ^ S b / INR (S b))); [exact H|].
    unfold minus, plus, opp; cbn [R_NormedModule]; cbn -[INR pow fact Nat.add]. change (INR (fact 0)) with 1. change (0 + b)%nat with b. replace (b + 1)%nat with (S b) by lia. change (fact (S b)) with (S b * fact b)%nat. rewrite mult_INR.
    pose proof (INR_fact_neq_0 b). pose proof (INR_S_neq b). rewrite !Rminus_0_r. replace (s - s) with 0 by ring. cbn [pow]. field. split; assumption.
  - assert (H : is_RInt (fun t => INR (S a) * (t ^ a * (s - t) ^ S b) - INR (S b) * (t ^ S a * (s - t) ^ b)) 0 s (minus (s ^ S a * (s - s) ^ S b) (0 ^ S a * (s - 0) ^ S b))).
    { apply (is_RInt_derive (V := R_CompleteNormedModule) (fun t => t ^ S a * (s - t) ^ S b)); [intros t _; apply pow_derive|].
      intros t _. apply (ex_derive_continuous (fun t => INR (S a) * (t ^ a * (s - t) ^ S b) - INR (S b) * (t ^ S a * (s - t) ^ b))). auto_derive. exact I. }
    pose proof (is_RInt_scal (V := R_NormedModule) _ 0 s (INR (S a)) _ (IH (S b) s Hs)) as H2.
    pose proof (is_RInt_minus (V := R_NormedModule) _ _ 0 s _ _ H2 H) as H3.
    pose proof (is_RInt_scal (V := R_NormedModule) _ 0 s (/ INR (S b)) _ H3) as H4. pose proof (INR_S_neq b) as Nb.
    match type of H4 with is_RInt _ _ _ ?v => replace (INR (fact (S a)) * INR (fact b) / INR (fact (S a + b + 1)) * s ^ (S a + b + 1)) with v end.
    + refine (is_RInt_ext _ _ _ _ _ _ H4). intros t _. unfold scal, minus, plus, opp; cbn [R_NormedModule]; unfold mult; cbn -[INR pow]. field. exact Nb.
    + unfold scal, minus, plus, opp; cbn [R_NormedModule]; unfold mult; cbn -[INR pow fact Nat.add]. replace (S a + b + 1)%nat with (a + S b + 1)%nat by lia.
      change (fact (S a)) with (S a * fact a)%nat. change (fact (S b)) with (S b * fact b)%nat. rewrite !mult_INR. pose proof (INR_fact_neq_0 (a + S b + 1)).
      replace (s - s) with 0 by ring. rewrite !pow_ne_zero by discriminate. field. split; assumption.
Qed.

(** ** Monomials times a power of the last barycentric coordinate *)
Fixpoint rmpow (x : list R) (a : list nat) : R := match x, a with xi :: x', ai :: a' => xi ^ ai * rmpow x' a' | _, _ => 1 end.
Definition rsum (x : list R) : R := fold_right Rplus 0 x.
Theorem monomial_int nu : forall k s, 0 <= s ->
  simplex_int (length nu) s (fun x => rmpow x nu * (s - rsum x) ^ k)
    (fold_right Rmult 1 (map (fun a => INR (fact a)) nu) * INR (fact k) / INR (fact (length nu + list_sum nu + k)) * s ^ (length nu + list_sum nu + k)).
Proof.
  induction nu as [|a nu IH]; intros k s Hs.
  - cbn [length simplex_int rmpow rsum fold_right map list_sum Nat.add]. pose proof (INR_fact_neq_0 k). rewrite Rminus_0_r. field. assumption.
  - cbn [length simplex_int]. set (N := (length nu + list_sum nu + k)%nat). set (P := fold_right Rmult 1 (map (fun a => INR (fact a)) nu)).
    exists (fun t => (P * INR (fact k) / INR (fact N)) * (t ^ a * (s - t) ^ N)). split.
    + intros t Ht. assert (Hst : 0 <= s - t) by lra. pose proof (simplex_int_scal _ _ _ _ (t ^ a) Hst (IH k (s - t) Hst)) as H. fold N P in H.
      replace (P * INR (fact k) / INR (fact N) * (t ^ a * (s - t) ^ N)) with (t ^ a * (P * INR (fact k) / INR (fact N) * (s - t) ^ N)) by ring.
      refine (simplex_int_ext _ _ _ _ _ Hst _ H). intros x _ _ _. cbn [rmpow rsum fold_right]. unfold rsum. replace (s - (t + fold_right Rplus 0 x)) with (s - t - fold_right Rplus 0 x) by ring. ring.
    + pose proof (is_RInt_scal (V := R_NormedModule) _ 0 s (P * INR (fact k) / INR (fact N)) _ (beta_int a N s Hs)) as H.
      match type of H with is_RInt _ _ _ ?v => match goal with |- is_RInt _ _ _ ?w => replace w with v end end.
      * refine (is_RInt_ext _ _ _ _ _ _ H). intros t _. reflexivity.
      * change (P * INR (fact k) / INR (fact N) * (INR (fact a) * INR (fact N) / INR (fact (a + N + 1)) * s ^ (a + N + 1)) = INR (fact a) * P * INR (fact k) / INR (fact (S (length nu) + list_sum (a :: nu) + k)) * s ^ (S (length nu) + list_sum (a :: nu) + k)). change (list_sum (a :: nu)) with (a + list_sum nu)%nat. replace (S (length nu) + (a + list_sum nu) + k)%nat with (a + N + 1)%nat by (unfold N; lia).
        pose proof (INR_fact_neq_0 (a + N + 1)). pose proof (INR_fact_neq_0 N). field. split; assumption.
Qed.
