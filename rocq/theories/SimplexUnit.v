(** Facts about the unit simplex and its barycentric coordinates. *)
From Verif Require Import Base Fld FldInst VecFacts Linalg Simplicial SimplexGeo SimplexFacts.
From Coq Require Import Field_theory Field.
Section UnitSimplex.
  Context {F : fld}.
  Add Field Kfield72 : (kth F).
  Local Open Scope fld_scope.
  Lemma unit_length n ne : length (unit_simplex (F := F) n ne) = S n.
  Proof. unfold unit_simplex. cbn [length]. rewrite map_length, seq_length. reflexivity. Qed.
  Lemma unit_ent n i j : (i < n)%nat -> (j < n)%nat -> ent (unit_simplex (F := F) n n) (S i) j = if Nat.eq_dec i j then 1 else 0.
  Proof.
    intros Hi Hj. unfold ent, unit_simplex. cbn [nth]. rewrite (nth_indep _ [] (upd (repeat 0 n) 0%nat 1)) by (rewrite map_length, seq_length; exact Hi).
    rewrite (map_nth (fun i => upd (repeat (0 : F) n) i 1) (seq 0 n) 0%nat i), seq_nth by exact Hi. cbn [Nat.add]. destruct (Nat.eq_dec i j) as [->|Hne].
    - apply nth_upd_same. rewrite repeat_length. exact Hj.
    - rewrite nth_upd_other by congruence. apply nth_repeat.
  Qed.
  Lemma unit_comb n (c p : list F) : affine_comb n c (unit_simplex n n) p <-> length c = S n /\ ksum c (fun x => x) = 1 /\ p = tl c.
  Proof.
    assert (G : forall j, (j < n)%nat -> ksum (seq 0 (S n)) (fun i => nth i c 0 * ent (unit_simplex n n) i j) = nth (S j) c 0).
    { intros j Hj. cbn [seq]. rewrite ksum_cons, <- seq_shift, ksum_map. replace (ent (unit_simplex (F := F) n n) 0 j) with (0 : F) by (unfold ent, unit_simplex; cbn [nth]; symmetry; apply nth_repeat).
      rewrite (ksum_ext _ (fun i => if Nat.eq_dec i j then nth (S j) c 0 else 0)).
      - rewrite (ksum_delta Nat.eq_dec (fun _ => nth (S j) c 0) (seq 0 n) j (seq_NoDup n 0)) by (apply in_seq; lia). ring.
      - intros i Hi. apply in_seq in Hi. rewrite unit_ent by lia. destruct (Nat.eq_dec i j) as [->|_]; ring. }
    unfold affine_comb. rewrite unit_length. split.
    - intros (H1 & H2 & H3 & H4). split; [exact H1|]. split; [exact H3|]. apply (nth_ext _ _ 0 0).
      + destruct c; [discriminate|]. cbn in *. lia.
      + intros j Hj. rewrite H4, G by lia. destruct c; [discriminate|]. reflexivity.
    - intros (H1 & H2 & ->). split; [exact H1|]. split; [destruct c; [discriminate|]; cbn in *; lia|]. split; [exact H2|]. intros j Hj. rewrite G by exact Hj. destruct c; [discriminate|]. reflexivity.
  Qed.
  Theorem unit_bary n (p : list F) : length p = n -> affine_comb n (cartesian_to_barycentric_unit p) (unit_simplex n n) p.
  Proof. intros H. apply unit_comb. unfold cartesian_to_barycentric_unit. cbn [length tl]. split; [lia|]. split; [rewrite ksum_cons; ring|reflexivity]. Qed.
  Theorem unit_cart n (c p : list F) : affine_comb n c (unit_simplex n n) p -> p = barycentric_to_cartesian_unit c /\ c = cartesian_to_barycentric_unit p.
  Proof. intros H. apply unit_comb in H as (H1 & H2 & ->). split; [reflexivity|]. destruct c as [|a c]; [discriminate|]. unfold cartesian_to_barycentric_unit. cbn [tl]. f_equal. rewrite ksum_cons in H2. rewrite <- H2. ring. Qed.
  Lemma upd_repeat i : forall n, (i < n)%nat -> upd (repeat (0 : F) n) i 1 = repeat 0 i ++ 1 :: repeat 0 (n - S i).
  Proof. induction i as [|i IH]; intros [|n] H; try lia; cbn [repeat upd app]; [rewrite Nat.sub_succ, Nat.sub_0_r; reflexivity|]. rewrite IH by lia. reflexivity. Qed.
  Lemma unit_shape n : unit_simplex (F := F) n n = repeat 0 n :: map (fun i => repeat 0 i ++ 1 :: repeat 0 (n - S i)) (seq 0 n).
  Proof. unfold unit_simplex. f_equal. apply map_ext_in. intros i Hi. apply in_seq in Hi. apply upd_repeat. lia. Qed.
End UnitSimplex.
