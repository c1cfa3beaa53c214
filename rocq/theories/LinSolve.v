(** Linear systems: a model of numpy.linalg.solve in exact arithmetic
    (Gaussian elimination with the first usable pivot of each column; numpy's
    partial pivoting only matters for rounding), and its correctness. *)
From Verif Require Import Base MultiIndex MultiIndexFacts Fld.
From Coq Require Import Field_theory Field.

Section LinSolve.
  Context {F : fld}.
  Add Field Kfield3 : (kth F).
  Local Open Scope fld_scope.

  Definition vadd (u v : list F) : list F := map (fun p => fst p + snd p) (combine u v).
  Definition vsub (u v : list F) : list F := map (fun p => fst p - snd p) (combine u v).
  Definition vscale (c : F) (u : list F) : list F := map (fun a => c * a) u.
  (** [np.dot] of two vectors *)
  Definition dot (u v : list F) : F := ksum (combine u v) (fun p => fst p * snd p).
  (** [np.dot] of a matrix (list of rows) and a vector *)
  Definition mat_vec (l : list (list F)) (v : list F) : list F := map (fun row => dot row v) l.
  (** [a[:, j]] *)
  Definition mat_col (l : list (list F)) (j : nat) : list F := map (fun row => nth j row 0) l.
  (** [np.array(l).T] for [l] with rows of length [n] *)
  Definition transpose (n : nat) (l : list (list F)) : list (list F) := map (mat_col l) (seq 0 n).
  (** [np.identity(n)] *)
  Definition identity (n : nat) : list (list F) :=
    map (fun i => map (fun j => if Nat.eqb i j then 1 else 0) (seq 0 n)) (seq 0 n).

  (** Split off the first row whose leading coefficient is not zero. *)
  Fixpoint find_pivot (rows : list (list F * list F)) : option ((list F * list F) * list (list F * list F)) :=
    match rows with
    | [] => None
    | row :: rows' =>
      if kdec (hd 0 (fst row)) 0 then
        match find_pivot rows' with Some (p, rest) => Some (p, row :: rest) | None => None end
      else Some (row, rows')
    end.
  (** Subtract the multiple of the pivot row that removes the first unknown. *)
  Definition eliminate (p row : list F * list F) : list F * list F :=
    let c := hd 0 (fst row) / hd 0 (fst p) in
    (vsub (tl (fst row)) (vscale c (tl (fst p))), vsub (snd row) (vscale c (snd p))).
  (** Sum of [c_i * row_i], a row of [k] numbers *)
  Definition comb (k : nat) (c : list F) (rows : list (list F)) : list F :=
    fold_right (fun p acc => vadd (vscale (fst p) (snd p)) acc) (repeat 0 k) (combine c rows).
  (** Solve for [n] unknown rows of [k] numbers each. *)
  Fixpoint solve_rows (n k : nat) (rows : list (list F * list F)) : result (list (list F)) :=
    match n with
    | O => Ok []
    | S n' =>
      match find_pivot rows with
      | None => Err LinAlgError
      | Some (p, rest) =>
        let* x := solve_rows n' k (map (eliminate p) rest) in
        Ok (vscale (1 / hd 0 (fst p)) (vsub (snd p) (comb k (tl (fst p)) x)) :: x)
      end
    end.
  (** [np.linalg.solve(a, b)] for a square matrix [a] and a matrix [b] with as
      many rows. *)
  Definition solve (a b : list (list F)) : result (list (list F)) :=
    solve_rows (length a) (length (hd [] b)) (combine a b).

  (** ** Vectors *)
  Lemma vadd_length u v : length u = length v -> length (vadd u v) = length u.
  Proof. intros E. unfold vadd. rewrite map_length, combine_length. lia. Qed.
  Lemma vsub_length u v : length u = length v -> length (vsub u v) = length u.
  Proof. intros E. unfold vsub. rewrite map_length, combine_length. lia. Qed.
  Lemma vscale_length c u : length (vscale c u) = length u. Proof. apply map_length. Qed.
  Lemma nth_vadd u v i : length u = length v -> nth i (vadd u v) 0 = nth i u 0 + nth i v 0.
  Proof.
    revert v i. induction u as [|a u IH]; intros [|b v] [|i] E; try discriminate; cbn [vadd combine map nth fst snd]; try ring.
    change (nth i (vadd u v) 0 = nth i u 0 + nth i v 0). apply IH. cbn in E. lia.
  Qed.
  Lemma nth_vsub u v i : length u = length v -> nth i (vsub u v) 0 = nth i u 0 - nth i v 0.
  Proof.
    revert v i. induction u as [|a u IH]; intros [|b v] [|i] E; try discriminate; cbn [vsub combine map nth fst snd]; try ring.
    change (nth i (vsub u v) 0 = nth i u 0 - nth i v 0). apply IH. cbn in E. lia.
  Qed.
  Lemma nth_vscale c u i : nth i (vscale c u) 0 = c * nth i u 0.
  Proof. revert i. induction u as [|a u IH]; intros [|i]; cbn [vscale map nth]; try ring. change (nth i (vscale c u) 0 = c * nth i u 0). apply IH. Qed.
  Lemma dot_cons a u b v : dot (a :: u) (b :: v) = a * b + dot u v. Proof. reflexivity. Qed.
  Lemma dot_nil_l v : dot [] v = 0. Proof. reflexivity. Qed.
  Lemma dot_nil_r u : dot u [] = 0. Proof. destruct u; reflexivity. Qed.
  Lemma dot_vsub_l u v w : length u = length v -> dot (vsub u v) w = dot u w - dot v w.
  Proof.
    revert v w. induction u as [|a u IH]; intros [|b v] w E; try discriminate; [rewrite !dot_nil_l; ring|].
    destruct w as [|c w]; [rewrite !dot_nil_r; ring|].
    change (vsub (a :: u) (b :: v)) with ((a - b) :: vsub u v). rewrite !dot_cons, IH by (cbn in E; lia). ring.
  Qed.
  Lemma dot_vscale_l c u w : dot (vscale c u) w = c * dot u w.
  Proof.
    revert w. induction u as [|a u IH]; intros w; [rewrite !dot_nil_l; ring|]. destruct w as [|b w]; [rewrite !dot_nil_r; ring|].
    change (vscale c (a :: u)) with (c * a :: vscale c u). rewrite !dot_cons, IH. ring.
  Qed.

  (** ** Correctness of elimination *)
  Lemma find_pivot_some rows p rest : find_pivot rows = Some (p, rest) -> hd 0 (fst p) <> 0 /\ Permutation rows (p :: rest).
  Proof.
    revert p rest. induction rows as [|row rows IH]; intros p rest H; cbn [find_pivot] in H; [discriminate|].
    destruct (kdec (hd 0 (fst row)) 0) as [E|E].
    - destruct (find_pivot rows) as [[p' rest']|]; [|discriminate]. injection H as -> <-. destruct (IH p rest' eq_refl) as [H1 H2]. split; [exact H1|].
      rewrite H2. apply perm_swap.
    - injection H as -> ->. split; [exact E|apply Permutation_refl].
  Qed.
  Lemma find_pivot_none rows : find_pivot rows = None -> forall row, In row rows -> hd 0 (fst row) = 0.
  Proof.
    induction rows as [|row rows IH]; intros H r []; cbn [find_pivot] in H.
    - subst r. destruct (kdec (hd 0 (fst row)) 0); [assumption|discriminate].
    - apply IH; [|assumption]. destruct (kdec (hd 0 (fst row)) 0); [|discriminate]. destruct (find_pivot rows) as [[? ?]|]; [discriminate|reflexivity].
  Qed.

  Definition shape (n k : nat) (rows : list (list F * list F)) : Prop :=
    forall row, In row rows -> length (fst row) = n /\ length (snd row) = k.
  Lemma eliminate_shape n k p row : length (fst p) = S n -> length (snd p) = k -> length (fst row) = S n -> length (snd row) = k ->
    length (fst (eliminate p row)) = n /\ length (snd (eliminate p row)) = k.
  Proof.
    intros H1 H2 H3 H4. destruct p as [[|a u] b], row as [[|c v] d]; cbn [fst snd length] in *; try discriminate.
    unfold eliminate. cbn [fst snd tl hd]. rewrite !vsub_length; rewrite ?vscale_length; lia.
  Qed.
  Lemma comb_length k c rows : (forall row, In row rows -> length row = k) -> length (comb k c rows) = k.
  Proof.
    revert rows. induction c as [|a c IH]; intros [|row rows] H; try apply repeat_length.
    cbn [comb combine fold_right fst snd]. change (fold_right _ _ (combine c rows)) with (comb k c rows).
    assert (Hr : length row = k) by (apply H; left; reflexivity). rewrite vadd_length, vscale_length; [exact Hr|].
    rewrite vscale_length, IH; [exact Hr|]. intros r Hr'. apply H. right. exact Hr'.
  Qed.
  Lemma nth_comb k c rows j : (forall row, In row rows -> length row = k) ->
    nth j (comb k c rows) 0 = dot c (mat_col rows j).
  Proof.
    revert rows. induction c as [|a c IH]; intros rows H.
    - rewrite dot_nil_l. cbn [comb combine fold_right]. apply nth_repeat.
    - destruct rows as [|row rows]; [rewrite dot_nil_r; cbn [comb combine fold_right]; apply nth_repeat|].
      cbn [comb combine fold_right fst snd mat_col map]. change (fold_right _ _ (combine c rows)) with (comb k c rows).
      assert (Hr : forall r, In r rows -> length r = k) by (intros r Hr; apply H; right; exact Hr).
      rewrite dot_cons, nth_vadd, nth_vscale by (rewrite vscale_length, comb_length by exact Hr; apply H; left; reflexivity).
      rewrite IH by exact Hr. reflexivity.
  Qed.

  Lemma solve_rows_shape n k : forall rows x, shape n k rows -> solve_rows n k rows = Ok x -> length x = n /\ forall row, In row x -> length row = k.
  Proof.
    induction n as [|n IH]; intros rows x Hs H; cbn [solve_rows] in H.
    - injection H as <-. split; [reflexivity|intros row []].
    - destruct (find_pivot rows) as [[p rest]|] eqn:E; [|discriminate]. apply find_pivot_some in E as [Hp HP].
      destruct (solve_rows n k (map (eliminate p) rest)) as [x'|] eqn:E'; [|discriminate]. cbn [bind] in H. injection H as <-.
      assert (Hpin : In p rows) by (apply (Permutation_in _ (Permutation_sym HP)); left; reflexivity). destruct (Hs p Hpin) as [Hp1 Hp2].
      assert (Hs' : shape n k (map (eliminate p) rest)).
      { intros row Hr. apply in_map_iff in Hr as (row' & <- & Hr). destruct (Hs row') as [H1 H2]; [apply (Permutation_in _ (Permutation_sym HP)); right; exact Hr|].
        apply eliminate_shape; assumption. }
      destruct (IH _ _ Hs' E') as [H1 H2]. split; [cbn [length]; lia|]. intros row [<-|Hr]; [|apply H2; exact Hr].
      rewrite vscale_length, vsub_length; [exact Hp2|]. rewrite comb_length; [exact Hp2|exact H2].
  Qed.
  Lemma solve_rows_sound n k : forall rows x, shape n k rows -> solve_rows n k rows = Ok x -> forall row j, In row rows -> length rows = n ->
    dot (fst row) (mat_col x j) = nth j (snd row) 0.
  Proof.
    induction n as [|n IH]; intros rows x Hs H row j Hr Hl; cbn [solve_rows] in H.
    - destruct rows; [destruct Hr|discriminate].
    - destruct (find_pivot rows) as [[p rest]|] eqn:E; [|discriminate]. apply find_pivot_some in E as [Hp HP].
      destruct (solve_rows n k (map (eliminate p) rest)) as [x'|] eqn:E'; [|discriminate]. cbn [bind] in H. injection H as <-.
      assert (Hpin : In p rows) by (apply (Permutation_in _ (Permutation_sym HP)); left; reflexivity). destruct (Hs p Hpin) as [Hp1 Hp2].
      assert (Hs' : shape n k (map (eliminate p) rest)).
      { intros row' Hr'. apply in_map_iff in Hr' as (row'' & <- & Hr'). destruct (Hs row'') as [H1 H2]; [apply (Permutation_in _ (Permutation_sym HP)); right; exact Hr'|].
        apply eliminate_shape; assumption. }
      destruct (solve_rows_shape _ _ _ _ Hs' E') as [Hx1 Hx2].
      assert (Hpx : forall j, dot (fst p) (mat_col (vscale (1 / hd 0 (fst p)) (vsub (snd p) (comb k (tl (fst p)) x')) :: x') j) = nth j (snd p) 0).
      { intros j0. destruct p as [[|a u] b]; [discriminate|]. cbn [fst snd hd tl mat_col map] in *. rewrite dot_cons, nth_vscale, nth_vsub, nth_comb.
        - change (map (fun row => nth j0 row 0) x') with (mat_col x' j0). field. exact Hp.
        - exact Hx2.
        - rewrite comb_length; [exact Hp2|exact Hx2]. }
      apply (Permutation_in _ HP) in Hr. destruct Hr as [<-|Hr]; [apply Hpx|].
      assert (Hl' : length (map (eliminate p) rest) = n) by (apply Permutation_length in HP; cbn [length] in HP; rewrite map_length; lia).
      pose proof (IH _ _ Hs' E' (eliminate p row) j (in_map _ _ _ Hr) Hl') as HE. specialize (Hpx j).
      destruct (Hs row) as [H1 H2]; [apply (Permutation_in _ (Permutation_sym HP)); right; exact Hr|].
      destruct p as [[|a u] b]; [discriminate|]. destruct row as [[|c v] d]; [discriminate|]. unfold eliminate in HE. cbn [fst snd hd tl length] in *.
      rewrite dot_vsub_l, dot_vscale_l in HE by (rewrite vscale_length; lia). rewrite nth_vsub, nth_vscale in HE by (rewrite vscale_length; lia).
      cbn [mat_col map] in *. rewrite dot_cons in *. change (map (fun row => nth j row 0) x') with (mat_col x' j) in *.
      rewrite <- Hpx in HE. transitivity (c / a * (a * nth j (vscale (1 / a) (vsub b (comb k u x'))) 0 + dot u (mat_col x' j)) + (dot v (mat_col x' j) - c / a * dot u (mat_col x' j))); [field; exact Hp|].
      rewrite HE. ring.
  Qed.
  (** A square system whose homogeneous system has only the zero solution is
      solvable. *)
  Lemma solve_rows_complete n k : forall rows, shape n k rows -> length rows = n ->
    (forall v, length v = n -> (forall row, In row rows -> dot (fst row) v = 0) -> v = repeat 0 n) -> exists x, solve_rows n k rows = Ok x.
  Proof.
    induction n as [|n IH]; intros rows Hs Hl Hk; cbn [solve_rows]; [eauto|].
    destruct (find_pivot rows) as [[p rest]|] eqn:E.
    - apply find_pivot_some in E as [Hp HP].
      assert (Hpin : In p rows) by (apply (Permutation_in _ (Permutation_sym HP)); left; reflexivity). destruct (Hs p Hpin) as [Hp1 Hp2].
      assert (Hs' : shape n k (map (eliminate p) rest)).
      { intros row' Hr'. apply in_map_iff in Hr' as (row'' & <- & Hr'). destruct (Hs row'') as [H1 H2]; [apply (Permutation_in _ (Permutation_sym HP)); right; exact Hr'|].
        apply eliminate_shape; assumption. }
      destruct (IH (map (eliminate p) rest) Hs') as [x Hx].
      + apply Permutation_length in HP; cbn [length] in HP; rewrite map_length; lia.
      + intros v Hv H0. destruct p as [[|a u] b]; [discriminate|]. cbn [fst snd hd tl length] in *.
        assert (HK : (- (dot u v) / a) :: v = repeat 0 (S n)).
        { apply Hk; [cbn [length]; lia|]. intros row Hr. apply (Permutation_in _ HP) in Hr. destruct Hr as [<-|Hr].
          - cbn [fst]. rewrite dot_cons. field. exact Hp.
          - destruct (Hs row) as [H1 H2]; [apply (Permutation_in _ (Permutation_sym HP)); right; exact Hr|].
            specialize (H0 _ (in_map _ _ _ Hr)). destruct row as [[|c w] d]; [discriminate|]. unfold eliminate in H0. cbn [fst snd hd tl length] in *.
            rewrite dot_vsub_l, dot_vscale_l in H0 by (rewrite vscale_length; lia). rewrite dot_cons. transitivity (dot w v - c / a * dot u v); [field; exact Hp|exact H0]. }
        cbn [repeat] in HK. injection HK as _ HK. exact HK.
      + rewrite Hx. cbn [bind]. eauto.
    - exfalso. pose proof (find_pivot_none _ E) as H0. specialize (Hk (1 :: repeat 0 n)).
      assert (HK : 1 :: repeat (0 : F) n = repeat 0 (S n)).
      { apply Hk; [cbn [length]; rewrite repeat_length; reflexivity|]. intros row Hr. destruct (Hs row Hr) as [H1 _]. specialize (H0 row Hr).
        destruct row as [[|c w] d]; [discriminate|]. cbn [fst hd] in *. rewrite dot_cons, H0.
        assert (HZ : forall n (u : list F), dot u (repeat 0 n) = 0).
        { clear. induction n as [|n IH]; intros [|a u]; try reflexivity. cbn [repeat]. rewrite dot_cons, IH. ring. }
        rewrite HZ. ring. }
      cbn [repeat] in HK. injection HK as HK. apply (@k1_neq_0 F). exact HK.
  Qed.

  Lemma solve_ok n k (a b : list (list F)) : length a = n -> length b = n -> (forall row, In row a -> length row = n) -> (forall row, In row b -> length row = k) -> n <> O ->
    (forall v, length v = n -> (forall row, In row a -> dot row v = 0) -> v = repeat 0 n) ->
    exists x, solve a b = Ok x /\ length x = n /\ (forall row, In row x -> length row = k) /\
      forall i j, i < n -> dot (nth i a []) (mat_col x j) = nth j (nth i b []) 0.
  Proof.
    intros Ha Hb Hra Hrb Hn Hk. unfold solve. replace (length (hd [] b)) with k.
    2:{ destruct b as [|row b]; [cbn in Hb; congruence|]. cbn [hd]. symmetry. apply Hrb. left. reflexivity. }
    assert (Hs : shape n k (combine a b)).
    { intros [u v] H. split; [apply Hra, (in_combine_l _ _ _ _ H)|apply Hrb, (in_combine_r _ _ _ _ H)]. }
    assert (Hl : length (combine a b) = n) by (rewrite combine_length; lia). rewrite Ha.
    destruct (solve_rows_complete n k (combine a b) Hs Hl) as [x Hx].
    - intros v Hv H. apply Hk; [exact Hv|]. intros row Hr. destruct (In_nth a row [] Hr) as (i & Hi & <-).
      specialize (H (nth i a [], nth i b [])). apply H. rewrite <- combine_nth by lia. apply nth_In. lia.
    - exists x. split; [exact Hx|]. destruct (solve_rows_shape _ _ _ _ Hs Hx) as [H1 H2]. split; [exact H1|split; [exact H2|]].
      intros i j Hi. apply (solve_rows_sound n k (combine a b) x Hs Hx (nth i a [], nth i b []) j); [|exact Hl].
      rewrite <- combine_nth by lia. apply nth_In. lia.
  Qed.
End LinSolve.
