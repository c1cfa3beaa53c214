(** The dual Bernstein polynomials and the Bernstein basis polynomials are
    biorthogonal in the L2 inner product of the unit simplex. *)
From Coq Require Import Reals Lra Field_theory Field.
From Coquelicot Require Import Coquelicot.
From Verif Require Import Base MultiIndex MultiIndexFacts MultiCapFacts MultiIndexCache Fld FldInst CodeGen CodeGenFacts LinSolve MultiCoef MultiCoefFacts LagrangeCache Unisolv Poly PolyFacts LagFacts PolyEval PolyOps PolyOpsB PolyDeriv PolyObj PolyPow PolyCalls IntegralCache Integrate IntFacts SimplexInt SimplexPos HasInt QHom Gram Bases DualOne BasesFacts.

Theorem dual_bernstein_integral mu r : (list_sum mu <= r)%nat -> ((0 < length mu)%nat -> (r < 20)%nat) ->
  exists d : poly RF, dual_bernstein_basis_polynomial mu r = Ok d /\
    forall nu, length nu = length mu -> (list_sum nu <= r)%nat -> exists p : poly RF, basis_fn Bernstein nu r = Ok p /\
      simplex_int (length mu) 1 (fun x => match call d x, call p x with Ok [u], Ok [w] => (u * w)%R | _, _ => 0%R end) (if mi_dec mu nu then 1%R else 0%R).
Proof.
  intros Hmu Hr. destruct (dual_polynomial_ok (F := RF) mu r Hmu Hr) as (d & X & Ed & (Vd & Db & Dc & Dr & Dm) & LX & HG). exists d. split; [exact Ed|]. intros nu Lnu Hnu.
  destruct (basis_fn_ok (F := RF) Bernstein nu r Hnu ltac:(rewrite Lnu; exact Hr)) as (p & Ep & (Vp & Pb & Pc & Pr & Pm)). exists p. split; [exact Ep|]. set (m := length mu) in *.
  assert (Imu : In mu (all_mi m r)) by (apply in_all_mi; split; [reflexivity|exact Hmu]). pose proof (gram_form (F := RF) m r (cf m r X) (cf m r (unit_column (F := RF) m r nu))) as GF. apply has_int_real in GF. rewrite (gram_left (F := RF) m r mu X LX Imu HG) in GF.
  assert (E : cf m r (unit_column (F := RF) m r nu) mu = if mi_dec mu nu then 1%R else 0%R).
  { unfold unit_column. rewrite (cf_map (F := RF)) by (reflexivity || exact Hmu). reflexivity. }
  rewrite E in GF. refine (simplex_int_ext _ _ _ _ _ Rle_0_1 _ GF). intros x Hx _ _.
  rewrite (call_ok (F := RF) d x Vd (eq_trans Hx (eq_sym Dm))), (call_ok (F := RF) p x Vp (eq_trans Hx (eq_sym (eq_trans Pm Lnu)))). unfold pv. rewrite Db, Dc, Dr, Dm, Pb, Pc, Pr, Pm, Lnu. reflexivity.
Qed.
