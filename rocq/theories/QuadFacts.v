(** The quadrature rules with a fixed degree. *)
From Coq Require Import QArith Qabs.
From Verif Require Import Base MultiIndex MultiIndexFacts MultiCapFacts Fld FldInst CodeGen CodeGenFacts LinSolve Det Linalg VecFacts Simplicial SimplexGeo SimplexFacts AffineFacts SimplexInside MultiCoef MultiCoefFacts LagrangeCache Unisolv Poly PolyFacts LagFacts PolyEval PolyOps PolyOpsB PolyObj SubstFacts IntegralCache Integrate IntFacts HasInt Bases PolySimplex PolySimplexFacts PolySimplexMul HomogInt PolySimplexInt QHom Quadrature.
From Coq Require Import Field_theory Field.
Close Scope Q_scope.
Local Open Scope nat_scope.

(** Monomials and their moments in rational numbers. *)
Fixpoint qpow (x : Q) (n : nat) : Q := match n with O => 1%Q | S k => (x * qpow x k)%Q end.
Fixpoint qmpow (p : list Q) (nu : list nat) : Q :=
  match p, nu with x :: p', a :: nu' => (qpow x a * qmpow p' nu')%Q | _, _ => 1%Q end.
Definition qsum {A} (l : list A) (f : A -> Q) : Q := fold_right (fun a s => (f a + s)%Q) 0%Q l.
Definition moment (c : Q) (l : list (Q * list Q)) (nu : list nat) : Q := (c * qsum l (fun wp => fst wp * qmpow (snd wp) nu))%Q.
Definition qmint (nu : list nat) : Q := (Z.of_nat (mi_factorial nu) # Pos.of_nat (fact (length nu + nsum nu)))%Q.

Section Exact.
  Context {F : fld}.
  Add Field Kfield73 : (kth F).
  Local Open Scope fld_scope.

  Lemma kofQ_add a b : kofQ (F := F) (Qplus a b) = kofQ a + kofQ b.
  Proof.
    destruct a as [a p], b as [b q]. unfold kofQ, Qplus. cbn [Qnum Qden]. rewrite Pos2Z.inj_mul, kofZ_add, !kofZ_mul. field. split; apply kpos_neq.
  Qed.
  Lemma kofQ_mul a b : kofQ (F := F) (Qmult a b) = kofQ a * kofQ b.
  Proof. destruct a as [a p], b as [b q]. unfold kofQ, Qmult. cbn [Qnum Qden]. rewrite Pos2Z.inj_mul, !kofZ_mul. field. split; apply kpos_neq. Qed.
  Lemma kofQ_0 : kofQ (F := F) 0%Q = 0. Proof. unfold kofQ. cbn [Qnum Qden]. rewrite kofZ_0. field. apply kpos_neq. Qed.
  Lemma kofQ_1 : kofQ (F := F) 1%Q = 1. Proof. unfold kofQ. cbn [Qnum Qden]. rewrite kofZ_1. field. apply k1_neq_0. Qed.
  Lemma kofQ_pow x a : kofQ (F := F) (qpow x a) = kpow (kofQ x) a.
  Proof. induction a as [|a IH]; [exact kofQ_1|]. cbn [kpow qpow]. rewrite kofQ_mul, IH. reflexivity. Qed.
  Lemma kofQ_mpow p nu : kofQ (F := F) (qmpow p nu) = mpow (map kofQ p) nu.
  Proof.
    revert nu. induction p as [|x p IH]; intros [|a nu]; cbn [qmpow map mpow]; try apply kofQ_1. rewrite kofQ_mul, kofQ_pow, IH. reflexivity.
  Qed.
  Lemma kofQ_sum {A} (l : list A) f : kofQ (F := F) (qsum l f) = ksum l (fun a => kofQ (f a)).
  Proof. induction l as [|a l IH]; [apply kofQ_0|]. cbn [qsum fold_right]. rewrite kofQ_add. rewrite ksum_cons. f_equal. exact IH. Qed.
  Lemma kofQ_moment c l nu : kofQ (F := F) (moment c l nu) = kofQ c * ksum l (fun wp => kofQ (fst wp) * mpow (map kofQ (snd wp)) nu).
  Proof. unfold moment. rewrite kofQ_mul, kofQ_sum. f_equal. apply ksum_ext. intros wp _. rewrite kofQ_mul, kofQ_mpow. reflexivity. Qed.
  Lemma kofQ_mint nu : kofQ (F := F) (qmint nu) = mint nu.
  Proof.
    unfold kofQ, qmint, mint. cbn [Qnum Qden]. rewrite kofZ_nat. f_equal. rewrite <- positive_nat_Z, kofZ_nat, Nat2Pos.id; [reflexivity|]. apply fact_neq_0.
  Qed.

  (** What a rule computes for a scalar function. *)
  Definition rule_value (c : Q) (l : list (Q * list Q)) (g : list F -> F) : F := kofQ c * ksum l (fun wp => kofQ (fst wp) * g (map kofQ (snd wp))).
  Definition scalar_callable (m : nat) (f : callable F) (g : list F -> F) : Prop := forall x, length x = m -> c_run f (map Sc x) = Ok (Sc (g x)).
  Lemma weighted_eq m f g wp : scalar_callable m f g -> length (snd wp) = m -> weighted f wp = Ok (Sc (kofQ (fst wp) * g (map kofQ (snd wp)))).
  Proof. intros H E. unfold weighted. rewrite <- (map_map kofQ Sc). rewrite H; [reflexivity|]. rewrite map_length. exact E. Qed.
  Lemma weighted_fold m f g l : scalar_callable m f g -> (forall wp, In wp l -> length (snd wp) = m) -> forall s,
    foldM (fun s wp => let* y := weighted f wp in np_add s y) (Sc s) l = Ok (Sc (s + ksum l (fun wp => kofQ (fst wp) * g (map kofQ (snd wp))))).
  Proof.
    intros H. induction l as [|wp l IH]; intros E s; cbn [foldM].
    - rewrite ksum_nil. f_equal. f_equal. ring.
    - rewrite (weighted_eq m f g) by (try assumption; apply E; left; reflexivity). cbn [bind np_add]. rewrite IH by (intros; apply E; right; assumption).
      rewrite ksum_cons. f_equal. f_equal. ring.
  Qed.
  Lemma weighted_sum_eq m f g l : scalar_callable m f g -> (forall wp, In wp l -> length (snd wp) = m) ->
    weighted_sum f l = Ok (Sc (ksum l (fun wp => kofQ (fst wp) * g (map kofQ (snd wp))))).
  Proof.
    intros H E. destruct l as [|wp l]; [reflexivity|]. unfold weighted_sum. rewrite (weighted_eq m f g) by (try assumption; apply E; left; reflexivity).
    cbn [bind]. rewrite (weighted_fold m f g) by (try assumption; intros; apply E; right; assumption). rewrite ksum_cons. reflexivity.
  Qed.
  Lemma apply_rule_eq m f g c l : scalar_callable m f g -> (forall wp, In wp l -> length (snd wp) = m) -> apply_rule (Some (c, l)) f = Ok (Sc (rule_value c l g)).
  Proof. intros H E. unfold apply_rule. rewrite (weighted_sum_eq m f g) by assumption. reflexivity. Qed.

  Lemma rule_value_poly m r c l d (g : list F -> F) : (forall wp, In wp l -> length (snd wp) = m) -> (forall x, length x = m -> g x = mval m r d x) ->
    rule_value c l g = ksum (all_mi m r) (fun nu => cf m r d nu * kofQ (moment c l nu)).
  Proof.
    intros E G. unfold rule_value.
    rewrite (ksum_ext (fun wp => kofQ (fst wp) * g (map kofQ (snd wp))) (fun wp => ksum (all_mi m r) (fun nu => cf m r d nu * (kofQ (fst wp) * mpow (map kofQ (snd wp)) nu)))).
    - rewrite ksum_swap, <- ksum_scale_l. apply ksum_ext. intros nu _. rewrite kofQ_moment, ksum_scale_l. ring.
    - intros wp Hw. rewrite G by (rewrite map_length; apply E, Hw). unfold mval. rewrite <- ksum_scale_l. apply ksum_ext. intros nu _. ring.
  Qed.
  Definition exact_rule (m r : nat) (rule : Q * list (Q * list Q)) : bool :=
    forallb (fun wp => length (snd wp) =? m)%nat (snd rule) && forallb (fun nu => Qeq_bool (moment (fst rule) (snd rule) nu) (qmint nu)) (all_mi m r).
  Lemma exact_rule_int m r rule g : exact_rule m r rule = true -> polydeg m r g -> has_int m g (rule_value (fst rule) (snd rule) g).
  Proof.
    intros H (d & Hd & G). apply andb_prop in H. destruct H as [H1 H2]. rewrite forallb_forall in H1, H2.
    rewrite (rule_value_poly m r _ _ d); [|intros wp Hw; apply Nat.eqb_eq, H1, Hw|exact G].
    exists r, (cf m r d). split; [exact G|]. apply ksum_ext. intros nu Hn. rewrite <- kofQ_mint. f_equal. apply kofQ_eq. apply Qeq_bool_eq, H2, Hn.
  Qed.
  Lemma exact_rule_len m r rule : exact_rule m r rule = true -> forall wp, In wp (snd rule) -> length (snd wp) = m.
  Proof. intros H. apply andb_prop in H. destruct H as [H _]. rewrite forallb_forall in H. intros wp Hw. apply Nat.eqb_eq, H, Hw. Qed.

  (** ** pullbacks *)
  Lemma np_array_eq (x : list F) : np_array (map Sc x) = Ok (Vec x).
  Proof.
    destruct x as [|t x]; [reflexivity|]. cbn [map np_array]. change (Sc t :: map Sc x) with (map (fun t : F => Sc t) (t :: x)).
    rewrite (mapM_map_ok _ _ (fun t => t)); [rewrite map_id; reflexivity|]. intros; reflexivity.
  Qed.
  Lemma mapM_Sc (x : list F) : star (Vec x) = Ok (map Sc x). Proof. reflexivity. Qed.
End Exact.

Section Pull.
  Context {Q : ofld}.
  Add Field Kfield74 : (kth Q).
  Local Open Scope fld_scope.

  Lemma comb_point n (vs : list (list Q)) x y : affine_comb n (bary_of x) vs y -> y = simplex_point n vs x.
  Proof.
    intros (H1 & H2 & _ & H). apply (nth_ext _ _ 0 0); [unfold simplex_point; rewrite map_length, seq_length; exact H2|].
    intros j Hj. rewrite H2 in Hj. rewrite H by exact Hj. unfold simplex_point. rewrite (nth_map_seq' _ n j) || idtac.
    rewrite (nth_indep _ 0 (ksum (seq 0 (length vs)) (fun v => nth v (bary_of x) 0 * ent vs v n))) by (rewrite map_length, seq_length; exact Hj).
    rewrite (map_nth (fun j => ksum (seq 0 (length vs)) (fun v => nth v (bary_of x) 0 * ent vs v j))). rewrite seq_nth by exact Hj. reflexivity.
  Qed.
  Lemma from_unit_callable n (vs : list (list Q)) : (2 <= n)%nat -> rows_of (S n) n vs ->
    exists a b phi, affine_transformation_from_unit vs = Ok (a, b) /\ create_affine_map_callable a b true = Ok phi /\ is_univariate phi = Ok false /\
      (forall x, length x = n -> c_run phi (map Sc x) = Ok (Vec (simplex_point n vs x))) /\ arr_det a = Ok (det n (edge vs)).
  Proof.
    intros Hn Hr. destruct (from_unit_map n n vs) as (phi & E & P); [lia|lia|exact Hr|]. unfold affine_map_from_unit in E.
    rewrite (from_unit_eq n n vs) in * by (lia || exact Hr). replace (n =? 1)%nat with false in * by (symmetry; apply Nat.eqb_neq; lia). cbn [bind fst snd] in E.
    destruct (A_rows n n vs) as [AR1 AR2].
    assert (NC : ncols (A_of n n vs) = n).
    { unfold ncols. destruct (A_of n n vs) as [|r l]; [cbn in AR1; lia|]. apply AR2. left. reflexivity. }
    eexists _, _, (mkCallable (Some [VAR_POSITIONAL]) (fun xs => let* x := np_array xs in phi x)).
    split; [reflexivity|]. split.
    - unfold create_affine_map_callable. rewrite E. cbn [bind]. rewrite NC. replace (n =? 1)%nat with false by (symmetry; apply Nat.eqb_neq; lia). reflexivity.
    - split; [reflexivity|]. split.
      + intros x Hx. cbn [c_run]. rewrite np_array_eq. cbn [bind]. destruct (P x Hx) as (y & Ey & Cy). rewrite (pt_vec x n Hx Hn) in Ey. rewrite Ey.
        destruct Cy as (C1 & C2 & C3). rewrite (pt_vec y n) by assumption. f_equal. f_equal. apply comb_point. split; [exact C1|split; [exact C2|exact C3]].
      + unfold arr_det. rewrite NC, AR1, Nat.eqb_refl. f_equal. unfold np_det. rewrite AR1. apply (det_A n vs Hr).
  Qed.
  Lemma pull_callable n (vs : list (list Q)) f g phi : is_univariate f = Ok false -> is_univariate phi = Ok false ->
    (forall x, length x = n -> c_run phi (map Sc x) = Ok (Vec (simplex_point n vs x))) -> scalar_callable n f g ->
    exists h, composition f phi = Ok h /\ scalar_callable n h (fun x => g (simplex_point n vs x)).
  Proof.
    intros Uf Up P S. unfold composition. rewrite Uf, Up. cbn [bind]. eexists. split; [reflexivity|]. intros x Hx. cbn [c_run]. rewrite P by exact Hx. cbn [bind star].
    apply S. unfold simplex_point. rewrite map_length, seq_length. reflexivity.
  Qed.
  (** A fixed rule on a simplex is the rule for the pulled back function times
      the determinant. *)
  Lemma simplex_rule n (vs : list (list Q)) f g c l k (rule : callable Q -> Z -> result (arr Q)) : (2 <= n)%nat -> rows_of (S n) n vs -> is_univariate f = Ok false -> scalar_callable n f g ->
    (forall h, rule h k = apply_rule (Some (c, l)) h) -> (forall wp, In wp l -> length (snd wp) = n) ->
    quadrature_simplex_fixed rule f vs k = Ok (Sc (kabs (det n (edge vs)) * rule_value c l (fun x => g (simplex_point n vs x)))).
  Proof.
    intros Hn Hr Uf S R E. destruct (from_unit_callable n vs Hn Hr) as (a & b & phi & E1 & E2 & E3 & E4 & E5). unfold quadrature_simplex_fixed. rewrite E1. cbn [bind]. rewrite E2. cbn [bind].
    destruct (pull_callable n vs f g phi Uf E3 E4 S) as (h & E6 & S'). rewrite E6. cbn [bind]. rewrite E5. cbn [bind]. rewrite R, (apply_rule_eq n h _ c l S' E). reflexivity.
  Qed.
  Lemma point_polydeg' n (vs : list (list Q)) s f : rows_of (S n) n vs -> polydeg n s f -> polydeg n s (fun x => f (simplex_point n vs x)).
  Proof.
    intros Hr H. apply (polydeg_ext n s (fun x => f (point n vs x))); [|apply point_polydeg, H]. intros x Hx. rewrite point_eq by assumption. reflexivity.
  Qed.
  Lemma simplex_rule_exact n (vs : list (list Q)) f g r rl k (rule : callable Q -> Z -> result (arr Q)) : (2 <= n)%nat -> rows_of (S n) n vs -> is_univariate f = Ok false -> scalar_callable n f g ->
    polydeg n r g -> (forall h, rule h k = apply_rule (Some rl) h) -> exact_rule n r rl = true ->
    exists I, quadrature_simplex_fixed rule f vs k = Ok (Sc I) /\ has_sint n vs g I.
  Proof.
    intros Hn Hr Uf S G R E. destruct rl as [c l]. rewrite (simplex_rule n vs f g c l k rule Hn Hr Uf S R (exact_rule_len _ _ _ E)).
    eexists. split; [reflexivity|]. eexists. split; [apply (exact_rule_int n r (c, l) _ E), point_polydeg'; assumption|reflexivity].
  Qed.
End Pull.
