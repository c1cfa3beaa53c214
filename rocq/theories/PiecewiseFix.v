(** Identities used when the property theorems are put together. *)
From Verif Require PermFacts KdTree.
From Verif Require Import KdFacts KdProps KdMesh Prop_LocalToGlobal.
From Verif Require Import Base Fld FldInst VecFacts Simplicial SimplexGeo SimplexFacts PolySimplexFacts PiecewiseFacts PiecewiseCall.
From Coq Require Import Field_theory Field.
Section Fix_.
  Context {F : fld}.
  Add Field Kfield69 : (kth F).
  Local Open Scope fld_scope.
  Lemma add00 : (0 : F) + 0 = 0. Proof. ring. Qed.
  Lemma sub00 : (0 : F) - 0 = 0. Proof. ring. Qed.
  Lemma add_mul (a c d : F) : (a + c) * d = a * d + c * d. Proof. ring. Qed.
  Lemma sub_mul (a c d : F) : (a - c) * d = a * d - c * d. Proof. ring. Qed.
End Fix_.
Section Fix2.
  Context {F : fld}.
  Add Field Kfield70 : (kth F).
  Local Open Scope fld_scope.
  Lemma div_mul (a c : F) : c <> 0 -> a / c * c = a. Proof. intros H. field. exact H. Qed.
End Fix2.
Lemma map_const_seq {A} (a : A) : forall n s, map (fun _ => a) (seq s n) = repeat a n.
Proof. induction n as [|n IH]; intros s; [reflexivity|]. cbn [seq map repeat]. rewrite IH. reflexivity. Qed.
Lemma nth_map_seq {A} (f : nat -> A) d n i : i < n -> nth i (map f (seq 0 n)) d = f i.
Proof. intros H. rewrite (nth_indep _ d (f 0)) by (rewrite map_length, seq_length; exact H). rewrite (map_nth f (seq 0 n) 0 i), seq_nth by exact H. reflexivity. Qed.

(** The unit square, cut into two triangles *)
Section Square.
  Context {Q : ofld}.
  Add Field Kfield71 : (kth Q).
  Local Open Scope fld_scope.
  Definition square : list (list Q) := [[0; 0]; [1; 0]; [0; 1]; [1; 1]].
  Lemma zero_of_opp (a c : Q) : kle 0 a -> kle 0 c -> a + c = 0 -> c = 0.
  Proof.
    intros H1 H2 H. destruct (kle_cases _ _ H2) as [H3|H3]; [|symmetry; exact H3]. exfalso. apply H1. pose proof (klt_add _ 0 c a H3) as H4. replace (c + a) with (0 : Q) in H4 by (rewrite <- H; ring). replace (0 + a) with a in H4 by ring. exact H4.
  Qed.
  Ltac in3 c H := destruct c as [|?c0 [|?c1 [|?c2 [|]]]]; try discriminate H.
  Lemma tri0 y : inside_tri 2 two_tri square 0 y -> exists a b c, kle 0 a /\ kle 0 b /\ kle 0 c /\ a + b + c = 1 /\ y = [b; c].
  Proof.
    intros (c & (H1 & H2 & H3 & H4) & H5). cbn in H1. in3 c H1. destruct y as [|y0 [|y1 [|]]]; try discriminate H2. pose proof (H4 0%nat ltac:(lia)) as E0. pose proof (H4 1%nat ltac:(lia)) as E1. cbn in E0, E1, H3. exists c0, c1, c2.
    split; [apply H5; cbn; auto|]. split; [apply H5; cbn; auto|]. split; [apply H5; cbn; auto|]. split; [rewrite <- H3; ring|]. f_equal; [rewrite E0; ring|]. f_equal. rewrite E1. ring.
  Qed.
  Lemma tri1 y : inside_tri 2 two_tri square 1 y -> exists a b c, kle 0 a /\ kle 0 b /\ kle 0 c /\ a + b + c = 1 /\ y = [a + b; b + c].
  Proof.
    intros (c & (H1 & H2 & H3 & H4) & H5). cbn in H1. in3 c H1. destruct y as [|y0 [|y1 [|]]]; try discriminate H2. pose proof (H4 0%nat ltac:(lia)) as E0. pose proof (H4 1%nat ltac:(lia)) as E1. cbn in E0, E1, H3. exists c0, c1, c2.
    split; [apply H5; cbn; auto|]. split; [apply H5; cbn; auto|]. split; [apply H5; cbn; auto|]. split; [rewrite <- H3; ring|]. f_equal; [rewrite E0; ring|]. f_equal. rewrite E1. ring.
  Qed.
  Lemma square_conforming : conforming 2 two_tri square.
  Proof.
    intros j j' y Hj Hj' HI HI'. cbn in Hj, Hj'. destruct j as [|[|j]]; [| |lia]; (destruct j' as [|[|j']]; [| |lia]).
    - destruct (tri0 y HI) as (a & b & c & _ & _ & _ & S & ->). exists (fun v => match v with 0 => a | 1 => b | 2 => c | _ => 0 end). split; [|split; [|split; [reflexivity|]]].
      + intros [|[|[|v]]] Hv; try reflexivity; exfalso; apply Hv; cbn; auto.
      + cbn. rewrite <- S. ring.
      + intros [|[|i]] Hi; [| |lia]; cbn; ring.
    - destruct (tri0 y HI) as (a & b & c & A0 & A1 & A2 & S & ->). destruct (tri1 _ HI') as (a' & b' & c' & B0 & B1 & B2 & S' & E). injection E as E1 E2.
      assert (Z : a = 0). { apply (zero_of_opp b' a B1 A0). replace b' with (b + c - 1) by (rewrite E1, E2, <- S'; ring). rewrite <- S. ring. }
      exists (fun v => match v with 1 => b | 2 => c | _ => 0 end). split; [|split; [|split; [reflexivity|]]].
      + intros [|[|[|v]]] Hv; try reflexivity; exfalso; apply Hv; cbn; auto.
      + cbn. rewrite <- S, Z. ring.
      + intros [|[|i]] Hi; [| |lia]; cbn; ring.
    - destruct (tri0 y HI') as (a & b & c & A0 & A1 & A2 & S & ->). destruct (tri1 _ HI) as (a' & b' & c' & B0 & B1 & B2 & S' & E). injection E as E1 E2.
      assert (Z : a = 0). { apply (zero_of_opp b' a B1 A0). replace b' with (b + c - 1) by (rewrite E1, E2, <- S'; ring). rewrite <- S. ring. }
      exists (fun v => match v with 1 => b | 2 => c | _ => 0 end). split; [|split; [|split; [reflexivity|]]].
      + intros [|[|[|v]]] Hv; try reflexivity; exfalso; apply Hv; cbn; auto.
      + cbn. rewrite <- S, Z. ring.
      + intros [|[|i]] Hi; [| |lia]; cbn; ring.
    - destruct (tri1 y HI) as (a & b & c & _ & _ & _ & S & ->). exists (fun v => match v with 1 => a | 3 => b | 2 => c | _ => 0 end). split; [|split; [|split; [reflexivity|]]].
      + intros [|[|[|[|v]]]] Hv; try reflexivity; exfalso; apply Hv; cbn; auto.
      + cbn. rewrite <- S. ring.
      + intros [|[|i]] Hi; [| |lia]; cbn; ring.
  Qed.
End Square.
