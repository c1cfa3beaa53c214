(** The values of the midpoint rules. *)
From Coq Require Import Reals Lra Factorial.
From Coquelicot Require Import Coquelicot.
From Verif Require Import Base MultiIndex MultiIndexFacts Fld FldInst LinSolve Det Linalg VecFacts SimplexGeo SimplexFacts AffineFacts SimplexMetric Mesh MeshFacts MeshNum MeshVerts KdTree RVec Triangle MeshNormals Quadrature SimplexInt IntReal SimplexIntReal SimplexPos KdMesh MeshGeo MidpointInt MidpointGrid MidpointSums Midpoint PiecewiseOps.
Local Open Scope R_scope.

Ltac rR := match goal with |- @eq _ ?a ?b => change (@eq R a b) end.
Definition scalar_fn (m : nat) (f : callable RF) (g : list R -> R) : Prop := forall x, length x = m -> c_run f (map (fun t : R => Sc (F := RF) t) x) = Ok (Sc (F := RF) (g x)).

Lemma get_nth {A} (l : list A) i d : (i < length l)%nat -> get l i = Ok (nth i l d).
Proof. intros H. unfold get. rewrite (nth_error_nth' l d H). reflexivity. Qed.

(** a sum over a list of cells *)
Lemma midpoint_fold {A B} (dim : nat) (f : callable RF) (g : list R -> R) (w : R) (cell : A -> result (list (list R))) (enc : B -> A) (mid : B -> list R) (l : list B) : scalar_fn dim f g ->
  (forall b, In b l -> exists ps, cell (enc b) = Ok ps /\ SimplexGeo.centroid (F := RF) ps = mid b /\ length (mid b) = dim) ->
  forall s : R, foldM (fun integral i => let* t := get (map enc l) i in let* ps := cell t in midpoint_term dim f w integral ps) (Sc (F := RF) s) (seq 0 (length (map enc l)))
  = Ok (Sc (F := RF) (s + w * lsum l (fun b => g (mid b)))).
Proof.
  intros S H. assert (G : forall (l' : list B) (s : R), incl l' l -> foldM (fun integral t => let* ps := cell t in midpoint_term dim f w integral ps) (Sc (F := RF) s) (map enc l') = Ok (Sc (F := RF) (s + w * lsum l' (fun b => g (mid b))))).
  { induction l' as [|b l' IH]; intros s HI; cbn [map foldM]; [cbn; do 2 f_equal; rR; ring|].
    destruct (H b (HI b (or_introl eq_refl))) as (ps & E1 & E2 & E3). rewrite E1. cbn [bind].
    assert (M : mapM (get (mid b)) (seq 0 dim) = Ok (mid b)).
    { rewrite (mapM_ok _ (fun i => nth i (mid b) 0)) by (intros i Hi; apply in_seq in Hi; apply get_nth; lia). f_equal. rewrite <- E3. clear. apply (nth_ext _ _ 0 0); [rewrite map_length, seq_length; reflexivity|]. intros j Hj. rewrite map_length, seq_length in Hj. rewrite (nth_indep _ 0 (nth 0 (mid b) 0)) by (rewrite map_length, seq_length; exact Hj). rewrite (map_nth (fun i => nth i (mid b) 0)), seq_nth by exact Hj. reflexivity. }
    assert (MT : midpoint_term dim f w (Sc (F := RF) s) ps = Ok (Sc (F := RF) (s + w * g (mid b)))).
    { unfold midpoint_term. cbv zeta. rewrite E2. refine (eq_trans (f_equal (fun r => bind r (fun xs => let* y := c_run f (map (fun t : R => Sc (F := RF) t) xs) in np_add (Sc (F := RF) s) (np_scale (F := RF) w y))) M) _). cbn [bind]. rewrite (S (mid b) E3). reflexivity. }
    rewrite MT. cbn [bind].
    change (foldM (fun integral t => let* ps := cell t in midpoint_term dim f w integral ps) (Sc (F := RF) (s + w * g (mid b))) (map enc l') = Ok (Sc (F := RF) (s + w * lsum (b :: l') (fun b => g (mid b))))).
    rewrite IH by (intros x Hx; apply HI; right; exact Hx). cbn [lsum fold_right]. do 2 f_equal. unfold lsum. rR. ring. }
  intros s. rewrite (foldM_seq _ (fun integral t => let* ps := cell t in midpoint_term dim f w integral ps)).
  - apply G. intros x Hx. exact Hx.
  - intros st k a Hk. unfold get. rewrite Hk. reflexivity.
Qed.

Lemma lsum_plus {A} (l : list A) f g : lsum l (fun a => f a + g a) = lsum l f + lsum l g.
Proof. unfold lsum. induction l as [|a l IH]; cbn [fold_right]; [ring|]. rewrite IH. ring. Qed.
Lemma lsum_INR {A} (l : list A) f : lsum l (fun a => INR (f a)) = INR (nsum (map f l)).
Proof. unfold lsum. induction l as [|a l IH]; cbn [fold_right map]; [reflexivity|]. rewrite nsum_cons, plus_INR, IH. reflexivity. Qed.
Lemma lsum_one {A} (l : list A) : lsum l (fun _ => 1) = INR (length l).
Proof. unfold lsum. induction l as [|a l IH]; [reflexivity|]. cbn [fold_right length]. rewrite S_INR, IH. ring. Qed.

(** ** Triangles *)
Section Tri.
  Variables p0 p1 q0 q1 r0 r1 : R.
  Let vs := [[p0; p1]; [q0; q1]; [r0; r1]].
  Definition Phi2 (x : list R) : list R := [p0 + nth 0 x 0 * (q0 - p0) + nth 1 x 0 * (r0 - p0); p1 + nth 0 x 0 * (q1 - p1) + nth 1 x 0 * (r1 - p1)].
  Definition det2 : R := (q0 - p0) * (r1 - p1) - (q1 - p1) * (r0 - p0).
  Lemma area2 : Triangle.area vs = Ok (Rabs det2 / 2).
  Proof.
    unfold Triangle.area, vs. cbn [edges map seq Nat.add Nat.modulo Nat.divmod fst snd Nat.sub vx nth bind]. unfold np_cross. cbn [vsub vmap2 length Nat.eqb andb bind cross_norm map combine fst snd nth].
    f_equal. rewrite Rmult_comm. unfold Rdiv. f_equal. replace (_ - _) with det2; [reflexivity|]. unfold det2. cbn. ring.
  Qed.
  Lemma det2_eq : det (F := RF) 2 (fun i j => nth j (nth (S i) vs []) 0 - nth j (nth 0 vs []) 0) = det2.
  Proof. unfold vs, det2. cbn [det seq]. rewrite !ksum_cons, !ksum_nil. unfold Det.sg. cbn. change (K RF) with R. ring. Qed.
  Lemma Phi2_comb x : length x = 2%nat -> affine_comb (F := RF) 2 (bary_of (F := RF) x) vs (Phi2 x).
  Proof.
    intros L. destruct x as [|u [|v [|? ?]]]; try discriminate L. unfold vs, Phi2. split; [reflexivity|]. split; [reflexivity|]. unfold bary_of. split; [rewrite !ksum_cons, !ksum_nil; cbn; change (K RF) with R; ring|].
    intros [|[|j]] Hj; [..|lia]; cbn [seq length]; rewrite !ksum_cons, !ksum_nil; unfold ent; cbn; change (K RF) with R; ring.
  Qed.
  Lemma Phi2_hull x : length x = 2%nat -> (forall u, In u x -> 0 <= u) -> fold_right Rplus 0 x <= 1 -> in_hull (Q := RO) 2 vs (Phi2 x).
  Proof.
    intros L P S. destruct x as [|u [|v [|? ?]]]; try discriminate L. cbn [fold_right] in S. pose proof (P u ltac:(cbn; auto)). pose proof (P v ltac:(cbn; auto)). exists [1 - u - v; u; v]. split; [reflexivity|]. split.
    - intros [|[|[|i]]] Hi; [..|cbn in Hi; lia]; apply kle_R; cbn; lra.
    - split; [unfold vs; cbn [length seq]; rewrite !ksum_cons, ksum_nil; cbn; rR; ring|]. intros [|[|j]] Hj; [..|lia]; unfold vs, Phi2; cbn [length seq]; rewrite !ksum_cons, ksum_nil; cbn; rR; ring.
  Qed.
  Lemma tri_rule_value f g n : (1 <= n)%nat -> scalar_fn 2 f g ->
    quadrature_triangle_midpoint_rule f vs n = Ok (Sc (F := RF) (Rabs det2 / 2 / INR (n ^ 2) * lsum (tri_ct n) (fun t => g (Phi2 (map (fun u => u / INR n) (gmid2 t)))))).
  Proof.
    intros Hn S. assert (Pn : INR n <> 0) by (apply not_0_INR; lia). unfold quadrature_triangle_midpoint_rule. rewrite triangle_eq by lia. replace (n + 1 - 1)%nat with n by lia. cbn [bind].
    change (get vs 0) with (Ok [p0; p1]). change (get vs 1) with (Ok [q0; q1]). change (get vs 2) with (Ok [r0; r1]). cbn [bind].
    unfold general_triangle_vertices.
    match goal with |- context [triangle_rows ?E ?v] => destruct (triangle_rows_eq (F := RF) E v ltac:(lia)) as (sv & EV & L & N & _) end.
    rewrite EV. cbn [bind]. rewrite area2. cbn [bind].
    refine (eq_trans (midpoint_fold 2 f g _ (fun t => MeshNormals.vertices t sv) (map (tenc (n + 1))) (fun t => Phi2 (map (fun u => u / INR n) (gmid2 t))) (tri_ct n) S _ 0) _).
    2:{ rewrite map_length, tri_ct_length. do 2 f_equal. rR. ring. }
    - assert (V : forall a b, (a + b <= n)%nat -> nth (tenc (n + 1) (a, b)) sv [] = Phi2 [INR a / INR n; INR b / INR n]).
      { intros a b Hab. rewrite (N a b) by lia. unfold frac. replace (n + 1 - 1)%nat with n by lia. rewrite !kofnat_INR. unfold Phi2. cbn. f_equal; [|f_equal]; rR; field; exact Pn. }
      assert (GT : forall a b, (a + b <= n)%nat -> @get vec sv (tenc (n + 1) (a, b)) = Ok (Phi2 [INR a / INR n; INR b / INR n])).
      { intros a b Hab. rewrite <- (V a b Hab). apply (get_nth (A := vec)). destruct (Nat.lt_ge_cases (tenc (n + 1) (a, b)) (length sv)) as [H|H]; [exact H|]. pose proof (V a b Hab) as V'. rewrite nth_overflow in V' by exact H. discriminate V'. }
      assert (G0 : exists v, @get vec sv 0 = Ok v).
      { destruct sv as [|v sv']; [|exists v; reflexivity]. pose proof (V 0%nat 0%nat ltac:(lia)) as V'. destruct (tenc (n + 1) (0, 0)%nat); discriminate V'. }
      destruct G0 as (gv & G0).
      intros t Ht. exists (map (fun c => Phi2 [INR (fst c) / INR n; INR (snd c) / INR n]) t).
      assert (B : exists x y z, t = [x; y; z] /\ (fst x + snd x <= n)%nat /\ (fst y + snd y <= n)%nat /\ (fst z + snd z <= n)%nat).
      { apply in_ct2 in Ht as ([a b] & Hc & Ht). apply in_tri_cells in Hc. destruct Ht as [->|[Hp ->]]; unfold T1, T2; cbn [fst snd]; [|cbn [fst snd] in Hp; apply Nat.ltb_lt in Hp]; do 3 eexists; (split; [reflexivity|]); cbn [fst snd]; lia. }
      destruct B as ([xa xb] & [ya yb] & [za zb] & -> & B1 & B2 & B3). cbn [fst snd] in B1, B2, B3. cbn [map fst snd]. split; [|split; [|reflexivity]].
      + unfold MeshNormals.vertices. rewrite G0. cbn [bind seq mapM]. change (get [tenc (n + 1) (xa, xb); tenc (n + 1) (ya, yb); tenc (n + 1) (za, zb)] 0) with (Ok (tenc (n + 1) (xa, xb))). change (get [tenc (n + 1) (xa, xb); tenc (n + 1) (ya, yb); tenc (n + 1) (za, zb)] 1) with (Ok (tenc (n + 1) (ya, yb))). change (get [tenc (n + 1) (xa, xb); tenc (n + 1) (ya, yb); tenc (n + 1) (za, zb)] 2) with (Ok (tenc (n + 1) (za, zb))).
        cbn [bind]. rewrite !GT by assumption. reflexivity.
      + unfold SimplexGeo.centroid, gmid2, avg. cbn [map length fst snd]. rewrite !nsum_cons. change (nsum []) with 0%nat. rewrite !plus_INR, kofnat_INR. unfold Phi2. cbn. f_equal; [|f_equal]; rR; field; exact Pn.
  Qed.
  Lemma tri_rule_near f g n eps I : (1 <= n)%nat -> scalar_fn 2 f g -> simplex_integral 2 vs g I ->
    (forall x y, in_hull (Q := RO) 2 vs x -> in_hull (Q := RO) 2 vs y -> length x = 2%nat -> length y = 2%nat ->
       Rabs (nth 0 x 0 - nth 0 y 0) <= (Rabs (q0 - p0) + Rabs (r0 - p0)) / INR n -> Rabs (nth 1 x 0 - nth 1 y 0) <= (Rabs (q1 - p1) + Rabs (r1 - p1)) / INR n -> Rabs (g x - g y) <= eps) ->
    exists v, quadrature_triangle_midpoint_rule f vs n = Ok (Sc (F := RF) v) /\ Rabs (v - I) <= eps * (Rabs det2 / 2).
  Proof.
    intros Hn S HI B. eexists. split; [exact (tri_rule_value f g n Hn S)|]. destruct (HI Phi2 Phi2_comb) as (w & Hw & E). rewrite det2_eq in E.
    assert (Pn : 0 < INR n) by (apply lt_0_INR; lia). pose proof (Rinv_0_lt_compat _ Pn) as Qn.
    apply (simplex_int_scale 2 1 (INR n)) in Hw; [|exact Pn|lra]. rewrite Rmult_1_r in Hw.
    assert (N := tri_grid n (fun x => g (Phi2 (map (fun u => u / INR n) x))) eps (INR n ^ 2 * w) Hn Hw). rewrite E, pow_INR.
    set (s := lsum (tri_ct n) _) in *. pose proof (Rabs_pos det2) as D.
    assert (N' : Rabs (INR n ^ 2 * w - / 2 * s) <= eps * (INR n ^ 2 / 2)).
    - apply N. clear N. intros x y Lx Ly [Px Sx] [Py Sy] C. destruct x as [|x0 [|x1 [|? ?]]]; try discriminate Lx. destruct y as [|y0 [|y1 [|? ?]]]; try discriminate Ly.
      inversion C as [|? ? ? ? C0 C1]; subst. inversion C1 as [|? ? ? ? C2 _]; subst. cbn [fold_right] in Sx, Sy.
      assert (HX : forall a b, 0 <= a -> 0 <= b -> a + (b + 0) <= INR n -> in_hull (Q := RO) 2 vs (Phi2 [a / INR n; b / INR n])).
      { intros a b Ha Hb Hab. apply Phi2_hull; [reflexivity| |].
        - intros u [<-|[<-|[]]]; apply Rmult_le_pos; lra.
        - cbn [fold_right]. apply (Rmult_le_reg_r (INR n)); [exact Pn|]. replace ((a / INR n + (b / INR n + 0)) * INR n) with (a + (b + 0)) by (field; lra). lra. }
      assert (DB : forall e h, Rabs (x0 / INR n * e + x1 / INR n * h - (y0 / INR n * e + y1 / INR n * h)) <= (Rabs e + Rabs h) / INR n).
      { intros e h. replace (x0 / INR n * e + x1 / INR n * h - (y0 / INR n * e + y1 / INR n * h)) with (((x0 - y0) * e + (x1 - y1) * h) / INR n) by (field; lra). unfold Rdiv. rewrite Rabs_mult, (Rabs_right (/ INR n)) by lra. apply Rmult_le_compat_r; [lra|].
        eapply Rle_trans; [apply Rabs_triang|]. rewrite !Rabs_mult. pose proof (Rabs_pos e). pose proof (Rabs_pos h). apply Rplus_le_compat; [rewrite <- (Rmult_1_l (Rabs e)) at 2|rewrite <- (Rmult_1_l (Rabs h)) at 2]; apply Rmult_le_compat_r; assumption. }
      cbn [map]. apply B; [apply HX; try (apply Px; cbn; tauto); lra|apply HX; try (apply Py; cbn; tauto); lra|reflexivity|reflexivity| |]; unfold Phi2; cbn [nth].
      + eapply Rle_trans; [|apply (DB (q0 - p0) (r0 - p0))]. right. f_equal. ring.
      + eapply Rle_trans; [|apply (DB (q1 - p1) (r1 - p1))]. right. f_equal. ring.
    - replace (Rabs det2 / 2 / INR n ^ 2 * s - Rabs det2 * w) with (- (Rabs det2 / INR n ^ 2 * (INR n ^ 2 * w - / 2 * s))) by (field; lra). rewrite Rabs_Ropp, Rabs_mult.
      assert (P2 : 0 <= Rabs det2 / INR n ^ 2) by (apply Rmult_le_pos; [exact D|]; apply Rlt_le, Rinv_0_lt_compat, pow_lt, Pn). rewrite (Rabs_right (Rabs det2 / INR n ^ 2)) by lra.
      eapply Rle_trans; [apply Rmult_le_compat_l; [exact P2|exact N']|]. right. field. lra.
  Qed.
  Lemma tri_rule_affine f g n a b c : (1 <= n)%nat -> scalar_fn 2 f g -> (forall x y, g [x; y] = a + b * x + c * y) ->
    exists I, quadrature_triangle_midpoint_rule f vs n = Ok (Sc (F := RF) I) /\ simplex_integral 2 vs g I /\ I = Rabs det2 / 2 * g [(p0 + q0 + r0) / 3; (p1 + q1 + r1) / 3].
  Proof.
    intros Hn S G. eexists. split; [exact (tri_rule_value f g n Hn S)|]. assert (Pn : 0 < INR n) by (apply lt_0_INR; lia).
    assert (SUM : lsum (tri_ct n) (fun t => g (Phi2 (map (fun u => u / INR n) (gmid2 t)))) = INR (n ^ 2) * g [(p0 + q0 + r0) / 3; (p1 + q1 + r1) / 3]).
    { rewrite (lsum_ext _ _ (fun t => (a + b * p0 + c * p1) * 1 + ((b * (q0 - p0) + c * (q1 - p1)) / (3 * INR n) * INR (nsum (map (coord2 0) t)) + (b * (r0 - p0) + c * (r1 - p1)) / (3 * INR n) * INR (nsum (map (coord2 1) t))))).
      2:{ intros t _. unfold gmid2, avg, Phi2. cbn [map nth]. rewrite G. change (map fst t) with (map (coord2 0) t). change (map snd t) with (map (coord2 1) t). replace (INR 3) with 3 by (cbn; ring). field. lra. }
      rewrite !lsum_plus, !lsum_scal, !lsum_INR, !tri_coord_sum by lia. rewrite lsum_one, tri_ct_length, G, !pow_INR. field. lra. }
    rewrite SUM. split.
    - intros Phi HP. exists (g [(p0 + q0 + r0) / 3; (p1 + q1 + r1) / 3] / 2). split.
      + pose proof (pl_integral 2 1 [(a + b * p0 + c * p1, [0; 0]%nat); (b * (q0 - p0) + c * (q1 - p1), [1; 0]%nat); (b * (r0 - p0) + c * (r1 - p1), [0; 1]%nat)] ltac:(lra)) as Q.
        replace (g [(p0 + q0 + r0) / 3; (p1 + q1 + r1) / 3] / 2) with (pl_int 2 1 [(a + b * p0 + c * p1, [0; 0]%nat); (b * (q0 - p0) + c * (q1 - p1), [1; 0]%nat); (b * (r0 - p0) + c * (r1 - p1), [0; 1]%nat)]).
        * apply (simplex_int_ext 2 1 (pl [(a + b * p0 + c * p1, [0; 0]%nat); (b * (q0 - p0) + c * (q1 - p1), [1; 0]%nat); (b * (r0 - p0) + c * (r1 - p1), [0; 1]%nat)])); [lra| |apply Q; intros e [<-|[<-|[<-|[]]]]; reflexivity].
          intros x Lx _ _. replace (Phi x) with (Phi2 x).
          2:{ apply (PolySimplexMul.affine_comb_unique (Q := RO) 2 (bary_of (F := RF) x) vs); [apply Phi2_comb, Lx|apply HP, Lx]. }
          destruct x as [|u [|v [|? ?]]]; try discriminate Lx. unfold Phi2. rewrite G. unfold pl, rmpow. cbn. ring.
        * rewrite G. unfold pl_int, mfac. cbn. field.
      + rewrite det2_eq. rewrite pow_INR. field. lra.
    - rewrite pow_INR. rR. field. lra.
  Qed.
End Tri.

(** ** Tetrahedra *)
Lemma tet_rows (E : nat) : (2 <= E)%nat -> tetrahedron_vertices (F := RF) E = Ok (map (fun c => [frac (F := RF) (cx c) E; frac (cy c) E; frac (cz c) E]) (tcells3 E)).
Proof.
  intros HE. unfold tetrahedron_vertices. rewrite (proj2 (Nat.leb_le 2 E) HE). cbn [assert_ bind].
  assert (R : flat_map (fun w => flat_map (fun v => map (fun u => [frac (F := RF) u E; frac v E; frac w E]) (seq 0 (E - v - w))) (seq 0 (E - w))) (seq 0 E) = map (fun c => [frac (cx c) E; frac (cy c) E; frac (cz c) E]) (tcells3 E)).
  { unfold tcells3. rewrite map_flat_map. apply flat_map_ext_in. intros w _. rewrite map_flat_map. apply flat_map_ext_in. intros v _. rewrite map_map. reflexivity. }
  rewrite R. apply alloc_ok. rewrite map_length. apply length_tcells3.
Qed.
Section Tet.
  Variables p0 p1 p2 q0 q1 q2 r0 r1 r2 t0 t1 t2 : R.
  Let vs := [[p0; p1; p2]; [q0; q1; q2]; [r0; r1; r2]; [t0; t1; t2]].
  Definition Phi3 (x : list R) : list R :=
    [p0 + nth 0 x 0 * (q0 - p0) + nth 1 x 0 * (r0 - p0) + nth 2 x 0 * (t0 - p0);
     p1 + nth 0 x 0 * (q1 - p1) + nth 1 x 0 * (r1 - p1) + nth 2 x 0 * (t1 - p1);
     p2 + nth 0 x 0 * (q2 - p2) + nth 1 x 0 * (r2 - p2) + nth 2 x 0 * (t2 - p2)].
  Definition det3 : R :=
    (q0 - p0) * ((r1 - p1) * (t2 - p2) - (r2 - p2) * (t1 - p1))
    - (q1 - p1) * ((r0 - p0) * (t2 - p2) - (r2 - p2) * (t0 - p0))
    + (q2 - p2) * ((r0 - p0) * (t1 - p1) - (r1 - p1) * (t0 - p0)).
  Lemma det3_eq : det (F := RF) 3 (fun i j => nth j (nth (S i) vs []) 0 - nth j (nth 0 vs []) 0) = det3.
  Proof. unfold vs, det3. cbn [det seq]. rewrite !ksum_cons, !ksum_nil. unfold Det.sg. cbn. change (K RF) with R. ring. Qed.
  Lemma vs_rows : rows_of (F := RF) 4 3 vs.
  Proof. split; [reflexivity|]. intros r [<-|[<-|[<-|[<-|[]]]]]; reflexivity. Qed.
  Lemma volume3 : SimplexGeo.volume (Q := RO) sqrt vs = Ok (Rabs det3 / 6).
  Proof.
    rewrite (SimplexMetric.volume_full (Q := RO) sqrt 3 vs); [|lia|exact vs_rows]. f_equal. rewrite kabs_Rabs. transitivity (Rabs (det3 / 6)).
    - f_equal. rewrite <- det3_eq. rR. match goal with |- _ = ?d / 6 => change (d * / kofnat (F := RF) 6 = d * / 6) end. f_equal. f_equal. rewrite (kofnat_INR 6). cbn. ring.
    - unfold Rdiv. rewrite Rabs_mult, (Rabs_right (/ 6)) by lra. reflexivity.
  Qed.
  Lemma Phi3_comb x : length x = 3%nat -> affine_comb (F := RF) 3 (bary_of (F := RF) x) vs (Phi3 x).
  Proof.
    intros L. destruct x as [|u [|v [|w [|? ?]]]]; try discriminate L. unfold vs, Phi3. split; [reflexivity|]. split; [reflexivity|]. unfold bary_of. split; [rewrite !ksum_cons, !ksum_nil; cbn; change (K RF) with R; ring|].
    intros [|[|[|j]]] Hj; [..|lia]; cbn [seq length]; rewrite !ksum_cons, !ksum_nil; unfold ent; cbn; change (K RF) with R; ring.
  Qed.
  Lemma Phi3_hull x : length x = 3%nat -> (forall u, In u x -> 0 <= u) -> fold_right Rplus 0 x <= 1 -> in_hull (Q := RO) 3 vs (Phi3 x).
  Proof.
    intros L P S. destruct x as [|u [|v [|w [|? ?]]]]; try discriminate L. cbn [fold_right] in S. pose proof (P u ltac:(cbn; auto)). pose proof (P v ltac:(cbn; auto)). pose proof (P w ltac:(cbn; auto)). exists [1 - u - v - w; u; v; w]. split; [reflexivity|]. split.
    - intros [|[|[|[|i]]]] Hi; [..|cbn in Hi; lia]; apply kle_R; cbn; lra.
    - split; [unfold vs; cbn [length seq]; rewrite !ksum_cons, ksum_nil; cbn; rR; ring|]. intros [|[|[|j]]] Hj; [..|lia]; unfold vs, Phi3; cbn [length seq]; rewrite !ksum_cons, ksum_nil; cbn; rR; ring.
  Qed.
  Lemma tet_vertices_value E : (2 <= E)%nat -> general_tetrahedron_vertices (F := RF) vs E = Ok (map (fun c => Phi3 [frac (F := RF) (cx c) E; frac (F := RF) (cy c) E; frac (F := RF) (cz c) E]) (tcells3 E)).
  Proof.
    intros HE. unfold general_tetrahedron_vertices. rewrite (proj2 (Nat.leb_le 2 E) HE). cbn [assert_ bind]. rewrite tet_rows by exact HE. cbn [bind].
    rewrite (from_unit_eq (F := RF) 3 3 vs); [|lia|lia|exact vs_rows]. cbn [Nat.eqb bind fst snd nth].
    rewrite (mapM_ok _ Phi3).
    - rewrite map_map. reflexivity.
    - intros v Hv. apply in_map_iff in Hv as (c & <- & _). generalize (frac (F := RF) (cx c) E) (frac (F := RF) (cy c) E) (frac (F := RF) (cz c) E). intros x y z. unfold vs, Phi3, A_of. cbn. do 2 f_equal; [|f_equal; [|f_equal]]; rR; ring.
  Qed.
  Lemma tet_rule_value f g n : (1 <= n)%nat -> scalar_fn 3 f g ->
    quadrature_tetrahedron_midpoint_rule f vs n = Ok (Sc (F := RF) (Rabs det3 / 6 / INR (n ^ 3) * lsum (tet_ct (S n)) (fun t => g (Phi3 (map (fun u => u / INR n) (gmid3 t)))))).
  Proof.
    intros Hn S. assert (Pn : INR n <> 0) by (apply not_0_INR; lia). unfold quadrature_tetrahedron_midpoint_rule. replace (n + 1)%nat with (Datatypes.S n) by lia. rewrite tet_eq by lia. cbn [bind].
    pose proof (tet_vertices_value (Datatypes.S n) ltac:(lia)) as EV. destruct (tetrahedron_vertices_eq (F := RF) (Datatypes.S n) ltac:(lia)) as (uv & EU & L & N).
    rewrite tet_rows in EU by lia. injection EU as EU.
    set (sv := map (fun c => Phi3 [frac (F := RF) (cx c) (Datatypes.S n); frac (F := RF) (cy c) (Datatypes.S n); frac (F := RF) (cz c) (Datatypes.S n)]) (tcells3 (Datatypes.S n))) in *.
    assert (SV : sv = map Phi3 uv) by (rewrite <- EU; unfold sv; exact (eq_sym (map_map _ Phi3 _))). clearbody sv. rewrite EV. cbn [bind]. rewrite volume3. cbn [bind].
    refine (eq_trans (midpoint_fold 3 f g _ (fun t => KdTree.simplex_vertices (Q := RO) t sv) (map (penc (Datatypes.S n))) (fun t => Phi3 (map (fun u => u / INR n) (gmid3 t))) (tet_ct (Datatypes.S n)) S _ 0) _).
    2:{ rewrite map_length, tet_ct_length by lia. replace (Datatypes.S n - 1)%nat with n by lia. do 2 f_equal. rR. ring. }
    assert (GT : forall c, (cx c + cy c + cz c < Datatypes.S n)%nat -> @get vec sv (penc (Datatypes.S n) c) = Ok (Phi3 [INR (cx c) / INR n; INR (cy c) / INR n; INR (cz c) / INR n])).
    { intros [[a b] c] Hc. cbv [cx cy cz fst snd] in *. pose proof (N a b c Hc) as V. assert (B : (penc (Datatypes.S n) (a, b, c) < length uv)%nat).
      { destruct (Nat.lt_ge_cases (penc (Datatypes.S n) (a, b, c)) (length uv)) as [H|H]; [exact H|]. rewrite nth_overflow in V by exact H. discriminate V. }
      rewrite SV. rewrite (get_nth (A := vec) _ _ (Phi3 [])) by (rewrite map_length; exact B). f_equal. refine (eq_trans (map_nth Phi3 uv [] _) _). refine (eq_trans (f_equal Phi3 V) _). unfold frac. replace (Datatypes.S n - 1)%nat with n by lia. rewrite !kofnat_INR. reflexivity. }
    assert (G0 : exists v, @get vec sv 0 = Ok v /\ length v = 3%nat).
    { destruct sv as [|v sv']; [|exists v; split; [reflexivity|]]. 
      - pose proof (GT (0, 0, 0)%nat ltac:(cbn; lia)) as V'. unfold get in V'. destruct (penc (Datatypes.S n) (0, 0, 0)%nat); discriminate V'.
      - destruct uv; [discriminate SV|]. injection SV as -> _. reflexivity. }
    destruct G0 as (gv & G0 & Lg).
    intros t Ht. exists (map (fun c => Phi3 [INR (cx c) / INR n; INR (cy c) / INR n; INR (cz c) / INR n]) t).
    assert (BD := fun c => tet_ct_bound _ t c Ht).
    assert (L4 : length t = 4%nat).
    { apply in_ct3 in Ht as ([[a b] c] & q & _ & _ & Q & ->). destruct q as [|[|[|[|[|[|q]]]]]]; [reflexivity..|lia]. }
    destruct t as [|c1 [|c2 [|c3 [|c4 [|? ?]]]]]; try discriminate L4. split; [|split; [|reflexivity]].
    - unfold KdTree.simplex_vertices. refine (eq_trans (f_equal (fun r => bind r _) G0) _). cbn [bind]. match goal with |- context [@length ?T gv] => replace (@length T gv) with 3%nat by (symmetry; exact Lg) end.
      assert (GV : forall c, In c [c1; c2; c3; c4] -> (let* v := @get vec sv (penc (Datatypes.S n) c) in if (length v =? 3)%nat then Ok v else Err ValueError) = Ok (Phi3 [INR (cx c) / INR n; INR (cy c) / INR n; INR (cz c) / INR n])).
      { intros c Hc. rewrite GT by (apply BD; exact Hc). reflexivity. }
      cbn [map mapM]. pose proof (GV c1 ltac:(cbn; tauto)) as V1. pose proof (GV c2 ltac:(cbn; tauto)) as V2. pose proof (GV c3 ltac:(cbn; tauto)) as V3. pose proof (GV c4 ltac:(cbn; tauto)) as V4.
      refine (eq_trans (f_equal (fun r => bind r _) V1) _). cbn [bind]. refine (eq_trans (f_equal (fun r => bind (bind r _) _) V2) _). cbn [bind]. refine (eq_trans (f_equal (fun r => bind (bind (bind r _) _) _) V3) _). cbn [bind]. refine (eq_trans (f_equal (fun r => bind (bind (bind (bind r _) _) _) _) V4) _). reflexivity.
    - unfold SimplexGeo.centroid, gmid3, avg. cbn [map length]. rewrite !nsum_cons. change (nsum []) with 0%nat. rewrite !plus_INR, kofnat_INR. unfold Phi3. cbn. f_equal; [|f_equal; [|f_equal]]; rR; field; exact Pn.
  Qed.
  Lemma tet_rule_near f g n eps I : (1 <= n)%nat -> scalar_fn 3 f g -> simplex_integral 3 vs g I ->
    (forall x y, in_hull (Q := RO) 3 vs x -> in_hull (Q := RO) 3 vs y -> length x = 3%nat -> length y = 3%nat ->
       Rabs (nth 0 x 0 - nth 0 y 0) <= (Rabs (q0 - p0) + Rabs (r0 - p0) + Rabs (t0 - p0)) / INR n -> Rabs (nth 1 x 0 - nth 1 y 0) <= (Rabs (q1 - p1) + Rabs (r1 - p1) + Rabs (t1 - p1)) / INR n ->
       Rabs (nth 2 x 0 - nth 2 y 0) <= (Rabs (q2 - p2) + Rabs (r2 - p2) + Rabs (t2 - p2)) / INR n -> Rabs (g x - g y) <= eps) ->
    exists v, quadrature_tetrahedron_midpoint_rule f vs n = Ok (Sc (F := RF) v) /\ Rabs (v - I) <= eps * (Rabs det3 / 6).
  Proof.
    intros Hn S HI B. eexists. split; [exact (tet_rule_value f g n Hn S)|]. destruct (HI Phi3 Phi3_comb) as (w & Hw & E). rewrite det3_eq in E.
    assert (Pn : 0 < INR n) by (apply lt_0_INR; lia). pose proof (Rinv_0_lt_compat _ Pn) as Qn.
    apply (simplex_int_scale 3 1 (INR n)) in Hw; [|exact Pn|lra]. rewrite Rmult_1_r in Hw.
    assert (N := tet_grid n (fun x => g (Phi3 (map (fun u => u / INR n) x))) eps (INR n ^ 3 * w) Hn Hw). rewrite E, pow_INR.
    set (s := lsum (tet_ct (Datatypes.S n)) _) in *. pose proof (Rabs_pos det3) as D.
    assert (N' : Rabs (INR n ^ 3 * w - / 6 * s) <= eps * (INR n ^ 3 / 6)).
    - apply N. clear N. intros x y Lx Ly [Px Sx] [Py Sy] C. destruct x as [|x0 [|x1 [|x2 [|? ?]]]]; try discriminate Lx. destruct y as [|y0 [|y1 [|y2 [|? ?]]]]; try discriminate Ly.
      inversion C as [|? ? ? ? C0 C1]; subst. inversion C1 as [|? ? ? ? C2 C3]; subst. inversion C3 as [|? ? ? ? C4 _]; subst. cbn [fold_right] in Sx, Sy.
      assert (HX : forall a b c, 0 <= a -> 0 <= b -> 0 <= c -> a + (b + (c + 0)) <= INR n -> in_hull (Q := RO) 3 vs (Phi3 [a / INR n; b / INR n; c / INR n])).
      { intros a b c Ha Hb Hc Hab. apply Phi3_hull; [reflexivity| |].
        - intros u [<-|[<-|[<-|[]]]]; apply Rmult_le_pos; lra.
        - cbn [fold_right]. apply (Rmult_le_reg_r (INR n)); [exact Pn|]. replace ((a / INR n + (b / INR n + (c / INR n + 0))) * INR n) with (a + (b + (c + 0))) by (field; lra). lra. }
      assert (DB : forall e h k, Rabs (x0 / INR n * e + x1 / INR n * h + x2 / INR n * k - (y0 / INR n * e + y1 / INR n * h + y2 / INR n * k)) <= (Rabs e + Rabs h + Rabs k) / INR n).
      { intros e h k. replace (x0 / INR n * e + x1 / INR n * h + x2 / INR n * k - (y0 / INR n * e + y1 / INR n * h + y2 / INR n * k)) with (((x0 - y0) * e + (x1 - y1) * h + (x2 - y2) * k) / INR n) by (field; lra). unfold Rdiv. rewrite Rabs_mult, (Rabs_right (/ INR n)) by lra. apply Rmult_le_compat_r; [lra|].
        eapply Rle_trans; [apply Rabs_triang|]. apply Rplus_le_compat; [eapply Rle_trans; [apply Rabs_triang|]; apply Rplus_le_compat|]; rewrite Rabs_mult; match goal with |- _ <= Rabs ?z => rewrite <- (Rmult_1_l (Rabs z)) at 2; apply Rmult_le_compat_r; [apply Rabs_pos|assumption] end. }
      cbn [map]. apply B; [apply HX; try (apply Px; cbn; tauto); lra|apply HX; try (apply Py; cbn; tauto); lra|reflexivity|reflexivity| | |]; unfold Phi3; cbn [nth].
      + eapply Rle_trans; [|apply (DB (q0 - p0) (r0 - p0) (t0 - p0))]. right. f_equal. ring.
      + eapply Rle_trans; [|apply (DB (q1 - p1) (r1 - p1) (t1 - p1))]. right. f_equal. ring.
      + eapply Rle_trans; [|apply (DB (q2 - p2) (r2 - p2) (t2 - p2))]. right. f_equal. ring.
    - replace (Rabs det3 / 6 / INR n ^ 3 * s - Rabs det3 * w) with (- (Rabs det3 / INR n ^ 3 * (INR n ^ 3 * w - / 6 * s))) by (field; lra). rewrite Rabs_Ropp, Rabs_mult.
      assert (P2 : 0 <= Rabs det3 / INR n ^ 3) by (apply Rmult_le_pos; [exact D|]; apply Rlt_le, Rinv_0_lt_compat, pow_lt, Pn). rewrite (Rabs_right (Rabs det3 / INR n ^ 3)) by lra.
      eapply Rle_trans; [apply Rmult_le_compat_l; [exact P2|exact N']|]. right. field. lra.
  Qed.
  Lemma tet_rule_affine f g n a b c d : (1 <= n)%nat -> scalar_fn 3 f g -> (forall x y z, g [x; y; z] = a + b * x + c * y + d * z) ->
    exists I, quadrature_tetrahedron_midpoint_rule f vs n = Ok (Sc (F := RF) I) /\ simplex_integral 3 vs g I /\ I = Rabs det3 / 6 * g [(p0 + q0 + r0 + t0) / 4; (p1 + q1 + r1 + t1) / 4; (p2 + q2 + r2 + t2) / 4].
  Proof.
    intros Hn S G. eexists. split; [exact (tet_rule_value f g n Hn S)|]. assert (Pn : 0 < INR n) by (apply lt_0_INR; lia).
    set (cen := [(p0 + q0 + r0 + t0) / 4; (p1 + q1 + r1 + t1) / 4; (p2 + q2 + r2 + t2) / 4]).
    set (k0 := a + b * p0 + c * p1 + d * p2). set (k1 := b * (q0 - p0) + c * (q1 - p1) + d * (q2 - p2)). set (k2 := b * (r0 - p0) + c * (r1 - p1) + d * (r2 - p2)). set (k3 := b * (t0 - p0) + c * (t1 - p1) + d * (t2 - p2)).
    assert (GP : forall u v w, g (Phi3 [u; v; w]) = k0 + k1 * u + k2 * v + k3 * w) by (intros u v w; unfold Phi3; cbn [nth]; rewrite G; unfold k0, k1, k2, k3; ring).
    assert (GC : g cen = k0 + (k1 + k2 + k3) / 4) by (unfold cen; rewrite G; unfold k0, k1, k2, k3; field).
    clearbody k0 k1 k2 k3.
    assert (SUM : lsum (tet_ct (Datatypes.S n)) (fun t => g (Phi3 (map (fun u => u / INR n) (gmid3 t)))) = INR (n ^ 3) * g cen).
    { rewrite (lsum_ext _ _ (fun t => k0 * 1 + (k1 / (4 * INR n) * INR (nsum (map (coord3 0) t)) + (k2 / (4 * INR n) * INR (nsum (map (coord3 1) t)) + k3 / (4 * INR n) * INR (nsum (map (coord3 2) t)))))).
      2:{ intros t _. unfold gmid3, avg. cbn [map]. rewrite GP. change (map cx t) with (map (coord3 0) t). change (map cy t) with (map (coord3 1) t). change (map cz t) with (map (coord3 2) t). replace (INR 4) with 4 by (cbn; ring). field. lra. }
      rewrite !lsum_plus, !lsum_scal, !lsum_INR, !tet_coord_sum by lia. rewrite lsum_one, tet_ct_length, GC by lia. replace (Datatypes.S n - 1)%nat with n by lia. rewrite !pow_INR. field. lra. }
    rewrite SUM. split.
    - intros Phi HP. exists (g cen / 6). split.
      + set (L := [(k0, [0; 0; 0]%nat); (k1, [1; 0; 0]%nat); (k2, [0; 1; 0]%nat); (k3, [0; 0; 1]%nat)]). pose proof (pl_integral 3 1 L ltac:(lra)) as Q.
        replace (g cen / 6) with (pl_int 3 1 L).
        * apply (simplex_int_ext 3 1 (pl L)); [lra| |apply Q; intros e [<-|[<-|[<-|[<-|[]]]]]; reflexivity].
          intros x Lx _ _. replace (Phi x) with (Phi3 x).
          2:{ apply (PolySimplexMul.affine_comb_unique (Q := RO) 3 (bary_of (F := RF) x) vs); [apply Phi3_comb, Lx|apply HP, Lx]. }
          destruct x as [|u [|v [|w [|? ?]]]]; try discriminate Lx. rewrite GP. unfold pl, L, rmpow. cbn. ring.
        * rewrite GC. unfold pl_int, L, mfac. cbn. field.
      + rewrite det3_eq. rewrite pow_INR. field. lra.
    - rewrite pow_INR. rR. field. lra.
  Qed.
End Tet.
