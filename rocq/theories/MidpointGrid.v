(** The midpoint rules on the grid: the sum over the midpoints of the triangles
    or tetrahedra of the mesh is near the integral, and the sum of the
    coordinates of the vertices is known. *)
From Coq Require Import Reals Lra Permutation Factorial.
From Coquelicot Require Import Coquelicot.
From Verif Require Import Base MultiIndex MultiIndexFacts Fld Mesh MeshFacts MeshNum SimplexInt MidpointInt.
Local Open Scope R_scope.

Definition avg (d : nat) (l : list nat) : R := INR (nsum l) / INR d.
Definition gmid2 (t : list pt2) : list R := [avg 3 (map fst t); avg 3 (map snd t)].
Definition gmid3 (t : list pt3) : list R := [avg 4 (map cx t); avg 4 (map cy t); avg 4 (map cz t)].

(** ** Sums over cells *)
Lemma cells_sum k n (F : list nat -> R) : (forall c, (n <= nsum c)%nat -> F c = 0) -> lsum (cells k n) F = lsum (all_mi k n) F.
Proof.
  intros Z. assert (E : forall l, lsum l F = lsum (filter (fun c => nsum c <? n)%nat l) F).
  { intros l. rewrite lsum_filter. apply lsum_ext. intros c _. destruct (Nat.ltb_spec (nsum c) n) as [H|H]; [reflexivity|apply Z, H]. }
  rewrite (E (cells k n)), (E (all_mi k n)). apply lsum_perm. apply NoDup_Permutation; [apply NoDup_filter, cells_nodup|apply NoDup_filter, NoDup_all_mi|].
  intros c. rewrite !filter_In, in_cells, in_all_mi, Nat.ltb_lt. split; intros [[H1 H2] H3]; (split; [split|]); try assumption; try lia.
  intros a Ha. assert (H4 : (a <= nsum c)%nat); [|lia]. clear - Ha. induction c as [|b c IH]; [destruct Ha|]. rewrite nsum_cons. destruct Ha as [->|Ha]; [lia|]. specialize (IH Ha). lia.
Qed.
(** the simplex of size [n], and points that are close *)
Definition in_simp (n : nat) (x : list R) : Prop := (forall u, In u x -> 0 <= u) /\ fold_right Rplus 0 x <= INR n.
Definition close1 (x y : list R) : Prop := Forall2 (fun u v => Rabs (u - v) <= 1) x y.
Lemma in_cell_close c x y : in_cell c x -> in_cell c y -> close1 x y.
Proof.
  unfold in_cell, close1. intros H. revert y. induction H as [|a u c x [H1 H2] H IH]; intros y Hy; inversion Hy as [|a' v c' y' [B1 B2] B]; subst; constructor; [|apply IH; assumption].
  apply Rabs_le_between. lra.
Qed.
Lemma avg_bound {A} (l : list A) (h : A -> R) v eps : l <> [] -> (forall a, In a l -> Rabs (v - h a) <= eps) -> Rabs (v - lsum l h / INR (length l)) <= eps.
Proof.
  intros N H. assert (P : 0 < INR (length l)) by (apply lt_0_INR; destruct l; [contradiction|cbn; lia]).
  assert (S : INR (length l) * (v - eps) <= lsum l h <= INR (length l) * (v + eps)).
  { clear N P. induction l as [|a l IH]; [cbn; lra|]. cbn [length]. rewrite S_INR. cbn [lsum fold_right]. pose proof (H a (or_introl eq_refl)) as Ha. apply Rabs_le_between in Ha. assert (IH' := IH (fun b Hb => H b (or_intror Hb))). unfold lsum in IH'. lra. }
  apply Rabs_le_between. assert (D1 : lsum l h / INR (length l) <= v + eps) by (apply (Rmult_le_reg_l (INR (length l))); [exact P|]; replace (INR (length l) * (lsum l h / INR (length l))) with (lsum l h) by (field; lra); lra).
  assert (D2 : v - eps <= lsum l h / INR (length l)) by (apply (Rmult_le_reg_l (INR (length l))); [exact P|]; replace (INR (length l) * (lsum l h / INR (length l))) with (lsum l h) by (field; lra); lra). lra.
Qed.

(** [ts c]: the midpoints in the cell [c] *)
Lemma grid_rule k n g eps I (ts : list nat -> list (list R)) : (1 <= n)%nat -> simplex_int k (INR n) g I ->
  (forall x y, length x = k -> length y = k -> in_simp n x -> in_simp n y -> close1 x y -> Rabs (g x - g y) <= eps) ->
  (forall c, length c = k -> (nsum c < n)%nat -> INR (fact k) * cellvol k (INR (n - nsum c)) = INR (length (ts c)) /\ ts c <> [] /\ forall y, In y (ts c) -> length y = k /\ in_simp n y /\ in_cell c y) ->
  Rabs (I - / INR (fact k) * lsum (all_mi k n) (fun c => if (nsum c <? n)%nat then lsum (ts c) g else 0)) <= eps * (INR n ^ k / INR (fact k)).
Proof.
  intros Hn HI B T. pose proof (INR_fact_lt_0 k) as FP. assert (P : 0 < INR n) by (apply lt_0_INR; lia).
  assert (N := grid_near k n (INR n) g (fun c => lsum (ts c) g / INR (length (ts c))) eps I).
  rewrite <- (tp_pos k (INR n) P).
  replace (/ INR (fact k) * lsum (all_mi k n) (fun c => if (nsum c <? n)%nat then lsum (ts c) g else 0)) with (lsum (cells k n) (fun c => lsum (ts c) g / INR (length (ts c)) * cellvol k (INR n - csum c))).
  - apply N; [lra|exact HI|]. intros x c Lx Px Sx Cx Sc. assert (Sc' : (nsum c < n)%nat) by (apply INR_lt; exact Sc).
    assert (Lc : length c = k) by (rewrite <- Lx; clear - Cx; induction Cx; cbn; congruence).
    destruct (T c Lc Sc') as (_ & T2 & T3). apply avg_bound; [exact T2|]. intros y Hy. destruct (T3 y Hy) as (Ly & Sy & Cy). apply B; [exact Lx|exact Ly|split; assumption|exact Sy|apply (in_cell_close c); assumption].
  - assert (Z : forall c, (n <= nsum c)%nat -> lsum (ts c) g / INR (length (ts c)) * cellvol k (INR n - csum c) = 0) by (intros c Hc; rewrite cellvol_neg; [ring|]; assert (INR n <= csum c) by (apply le_INR; exact Hc); lra).
    rewrite (cells_sum k n _ Z). rewrite <- lsum_scal. apply lsum_ext. intros c Hc. apply in_all_mi in Hc as [Lc _]. destruct (Nat.ltb_spec (nsum c) n) as [H|H]; [|rewrite Z by exact H; ring].
    destruct (T c Lc H) as (T1 & T2 & _). replace (INR n - csum c) with (INR (n - nsum c)) by (rewrite minus_INR by lia; reflexivity).
    assert (L0 : INR (length (ts c)) <> 0) by (destruct (ts c); [contradiction|apply not_0_INR; discriminate]).
    replace (cellvol k (INR (n - nsum c))) with (INR (length (ts c)) / INR (fact k)) by (rewrite <- T1; field; lra). field. split; [lra|exact L0].
Qed.

(** ** Triangles *)
Lemma tri_ct_sum n (h : list pt2 -> R) : lsum (tri_ct n) h = lsum (all_mi 2 n) (fun c => if (nsum c <? n)%nat then lsum (T1 (nth 0 c 0%nat, nth 1 c 0%nat) :: (if (S (nsum c) <? n)%nat then [T2 (nth 0 c 0%nat, nth 1 c 0%nat)] else [])) h else 0).
Proof.
  unfold tri_ct, ct2. rewrite lsum_flat_map, lsum_filter, tcells_all_mi, lsum_map. apply lsum_ext. intros [a b] _. cbn [fst snd nth]. rewrite !nsum_cons. change (nsum []) with 0%nat. rewrite Nat.add_0_r. reflexivity.
Qed.
Ltac avg_tac := repeat (rewrite ?S_INR); cbn [INR]; lra.
Lemma gmid2_T1 a b : gmid2 (T1 (a, b)) = [INR a + / 3; INR b + / 3].
Proof. unfold gmid2, T1, avg. cbn [map fst snd]. rewrite !nsum_cons. change (nsum []) with 0%nat. rewrite !plus_INR, !S_INR. cbn [INR]. f_equal; [|f_equal]; field. Qed.
Lemma gmid2_T2 a b : gmid2 (T2 (a, b)) = [INR a + 2 / 3; INR b + 2 / 3].
Proof. unfold gmid2, T2, avg. cbn [map fst snd]. rewrite !nsum_cons. change (nsum []) with 0%nat. rewrite !plus_INR, !S_INR. cbn [INR]. f_equal; [|f_equal]; field. Qed.
Lemma tri_grid n g eps I : (1 <= n)%nat -> simplex_int 2 (INR n) g I ->
  (forall x y, length x = 2%nat -> length y = 2%nat -> in_simp n x -> in_simp n y -> close1 x y -> Rabs (g x - g y) <= eps) ->
  Rabs (I - / 2 * lsum (tri_ct n) (fun t => g (gmid2 t))) <= eps * (INR n ^ 2 / 2).
Proof.
  intros Hn HI B.
  pose proof (grid_rule 2 n g eps I (fun c => map gmid2 (T1 (nth 0 c 0%nat, nth 1 c 0%nat) :: (if (S (nsum c) <? n)%nat then [T2 (nth 0 c 0%nat, nth 1 c 0%nat)] else []))) Hn HI B) as G.
  replace (INR (fact 2)) with 2 in G by (cbn; ring). rewrite tri_ct_sum.
  rewrite (lsum_ext (all_mi 2 n) _ (fun c => if (nsum c <? n)%nat then lsum (map gmid2 (T1 (nth 0 c 0%nat, nth 1 c 0%nat) :: (if (S (nsum c) <? n)%nat then [T2 (nth 0 c 0%nat, nth 1 c 0%nat)] else []))) g else 0)) by (intros c _; rewrite lsum_map; reflexivity).
  apply G. clear G. intros c Lc Hc. destruct c as [|a [|b [|? ?]]]; try discriminate Lc. cbn [nth]. rewrite !nsum_cons in *. change (nsum []) with 0%nat in *. rewrite Nat.add_0_r in *.
  rewrite cellvol_2 by lia. assert (Hab : INR a + INR b + 1 <= INR n) by (rewrite <- plus_INR, <- S_INR; apply le_INR; lia). pose proof (pos_INR a). pose proof (pos_INR b).
  destruct (Nat.ltb_spec (S (a + b)) n) as [H2|H2].
  - destruct (Nat.eqb_spec (n - (a + b)) 1) as [E|E]; [lia|]. assert (Hab2 : INR a + INR b + 2 <= INR n) by (replace 2 with (INR 2) by (cbn; ring); rewrite <- !plus_INR; apply le_INR; lia). split; [cbn; ring|]. split; [discriminate|].
    intros y [<-|[<-|[]]]; rewrite ?gmid2_T1, ?gmid2_T2; (split; [reflexivity|]; split; [split; [intros u [<-|[<-|[]]]; lra|cbn [fold_right]; lra]|repeat constructor; lra]).
  - destruct (Nat.eqb_spec (n - (a + b)) 1) as [E|E]; [|lia]. split; [cbn; field|]. split; [discriminate|].
    intros y [<-|[]]; rewrite ?gmid2_T1; (split; [reflexivity|]; split; [split; [intros u [<-|[<-|[]]]; lra|cbn [fold_right]; lra]|repeat constructor; lra]).
Qed.

(** ** Tetrahedra *)
Lemma tet_ct_sum n (h : list pt3 -> R) : lsum (tet_ct (S n)) h = lsum (all_mi 3 n) (fun c => if (nsum c <? n)%nat then lsum (firstn (tcnt n (nth 0 c 0%nat, nth 1 c 0%nat, nth 2 c 0%nat)) (six (nth 0 c 0%nat, nth 1 c 0%nat, nth 2 c 0%nat))) h else 0).
Proof.
  unfold tet_ct, ct3. rewrite lsum_flat_map. replace (S n - 1)%nat with n by lia. pose proof (tcells3_all_mi (S n) ltac:(lia)) as E. replace (S n - 1)%nat with n in E by lia. rewrite E, lsum_map. apply lsum_ext. intros [[a b] c] H. apply in_tcells3 in H. cbv [cx cy cz fst snd]. cbn [nth]. rewrite !nsum_cons. change (nsum []) with 0%nat.
  destruct (Nat.ltb_spec (a + (b + (c + 0))) n) as [L|L]; [reflexivity|]. assert (Z : tcnt n (a, b, c) = 0%nat).
  { destruct (tcnt n (a, b, c)) as [|m] eqn:T; [reflexivity|]. assert (Q : (0 < tcnt n (a, b, c))%nat) by lia. apply tcnt_lt in Q. lia. }
  rewrite Z. reflexivity.
Qed.
Definition off3 (q : nat) : R * R * R := nth q [(1/4, 1/4, 1/4); (2/4, 1/4, 2/4); (1/4, 2/4, 3/4); (3/4, 2/4, 1/4); (2/4, 3/4, 2/4); (3/4, 3/4, 3/4)] (0, 0, 0).
Lemma gmid3_six a b c q : (q < 6)%nat -> gmid3 (nth q (six (a, b, c)) []) = [INR a + fst (fst (off3 q)); INR b + snd (fst (off3 q)); INR c + snd (off3 q)].
Proof.
  intros Hq. destruct q as [|[|[|[|[|[|q]]]]]]; [..|lia]; unfold gmid3, avg, off3; cbn [nth six map]; cbv [cx cy cz fst snd]; rewrite !nsum_cons; change (nsum []) with 0%nat; rewrite !plus_INR, !S_INR; cbn [INR]; (f_equal; [field|]); (f_equal; [field|]); f_equal; field.
Qed.
Lemma tet_grid n g eps I : (1 <= n)%nat -> simplex_int 3 (INR n) g I ->
  (forall x y, length x = 3%nat -> length y = 3%nat -> in_simp n x -> in_simp n y -> close1 x y -> Rabs (g x - g y) <= eps) ->
  Rabs (I - / 6 * lsum (tet_ct (S n)) (fun t => g (gmid3 t))) <= eps * (INR n ^ 3 / 6).
Proof.
  intros Hn HI B. set (ts := fun c : list nat => map gmid3 (firstn (tcnt n (nth 0 c 0%nat, nth 1 c 0%nat, nth 2 c 0%nat)) (six (nth 0 c 0%nat, nth 1 c 0%nat, nth 2 c 0%nat)))).
  pose proof (grid_rule 3 n g eps I ts Hn HI B) as G.
  replace (INR (fact 3)) with 6 in G by (cbn; ring). rewrite tet_ct_sum.
  rewrite (lsum_ext (all_mi 3 n) _ (fun c => if (nsum c <? n)%nat then lsum (ts c) g else 0)) by (intros c _; unfold ts; rewrite lsum_map; reflexivity).
  apply G. clear G. intros c Lc Hc. destruct c as [|a [|b [|c [|? ?]]]]; try discriminate Lc. unfold ts. cbn [nth]. rewrite !nsum_cons in *. change (nsum []) with 0%nat in *. replace (a + (b + (c + 0)))%nat with (a + b + c)%nat in * by lia.
  rewrite cellvol_3 by lia. pose proof (pos_INR a). pose proof (pos_INR b). pose proof (pos_INR c).
  rewrite map_length, firstn_length. change (length (six (a, b, c))) with 6%nat.
  assert (IN : forall y, In y (map gmid3 (firstn (tcnt n (a, b, c)) (six (a, b, c)))) -> length y = 3%nat /\ in_simp n y /\ in_cell [a; b; c] y).
  { intros y Hy. apply in_map_iff in Hy as (t & <- & Ht). apply (in_firstn _ _ []) in Ht as (q & Hq & Hq6 & ->). change (length (six (a, b, c))) with 6%nat in Hq6. rewrite gmid3_six by exact Hq6. split; [reflexivity|].
    assert (S : INR a + INR b + INR c + (fst (fst (off3 q)) + snd (fst (off3 q)) + snd (off3 q)) <= INR n).
    { apply tcnt_lt in Hq. destruct Hq as [[_ Q]|[[Q5 Q]|[Q1 Q]]].
      - apply le_INR in Q. rewrite !plus_INR in Q. cbn [INR] in Q. assert (fst (fst (off3 q)) + snd (fst (off3 q)) + snd (off3 q) <= 3); [|lra]. destruct q as [|[|[|[|[|[|q]]]]]]; [..|lia]; unfold off3; cbn [nth fst snd]; lra.
      - apply (f_equal INR) in Q. rewrite !plus_INR in Q. cbn [INR] in Q. assert (fst (fst (off3 q)) + snd (fst (off3 q)) + snd (off3 q) <= 2); [|lra]. destruct q as [|[|[|[|[|q]]]]]; [..|lia]; unfold off3; cbn [nth fst snd]; lra.
      - apply (f_equal INR) in Q. rewrite !plus_INR in Q. cbn [INR] in Q. assert (q = 0%nat) by lia. subst q. unfold off3; cbn [nth fst snd]; lra. }
    assert (O : 0 <= fst (fst (off3 q)) <= 1 /\ 0 <= snd (fst (off3 q)) <= 1 /\ 0 <= snd (off3 q) <= 1) by (clear - Hq6; destruct q as [|[|[|[|[|[|q]]]]]]; [..|lia]; unfold off3; cbn [nth fst snd]; lra).
    split; [split; [intros u [<-|[<-|[<-|[]]]]; lra|cbn [fold_right]; lra]|]. apply Forall2_cons; [lra|]. apply Forall2_cons; [lra|]. apply Forall2_cons; [lra|]. apply Forall2_nil. }
  assert (NE : tcnt n (a, b, c) <> 0%nat -> map gmid3 (firstn (tcnt n (a, b, c)) (six (a, b, c))) <> []).
  { intros Z E. apply (f_equal (@length _)) in E. rewrite map_length, firstn_length in E. change (length (six (a, b, c))) with 6%nat in E. cbn [length] in E. lia. }
  split; [|split; [|exact IN]].
  - unfold tcnt. cbv [cx cy cz fst snd]. cbv zeta. destruct (Nat.eqb_spec (n - (a + b + c)) 1) as [E1|E1]; [|destruct (Nat.eqb_spec (n - (a + b + c)) 2) as [E2|E2]];
      (destruct (Nat.leb_spec (a + b + c + 3) n); try lia); try (destruct (Nat.eqb_spec (a + b + c + 2) n); try lia); try (destruct (Nat.eqb_spec (a + b + c + 1) n); try lia); cbn [Nat.min INR]; field.
  - apply NE. assert (Q : (0 < tcnt n (a, b, c))%nat) by (apply tcnt_lt; lia). lia.
Qed.
