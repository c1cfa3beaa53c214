(** Model of polynomials_on_simplices/geometry/primitives/simplex.py.

    A simplex is the list of its vertices, all of the same dimension.  Numbers
    are elements of an ordered field with a square root function [ksqrt] (exact
    arithmetic).  Division by zero, which in numpy gives nan or inf, has an
    arbitrary value here and theorems exclude it. *)
From Verif Require Import Base Fld FldInst LinSolve Det Linalg Simplicial.

Section Affine.
  Context {F : fld}.
  Local Open Scope fld_scope.
  (** 122-141 *)
  Definition dimension (vs : list (list F)) : nat := length vs - 1.
  Definition embedding_dimension (vs : list (list F)) : nat := length (hd [] vs).
  Definition vtx (vs : list (list F)) (i : nat) : list F := nth i vs [].
  (** 22-37, the columns of the matrix *)
  Definition basis (vs : list (list F)) (base : nat) : result (list (list F)) :=
    let n := dimension vs in
    if (n =? 0)%nat then Err TypeError
    else Ok (map (fun i => vsub (vtx vs ((base + i + 1) mod (n + 1))) (vtx vs base)) (seq 0 n)).
  (** 54-80 *)
  Definition unit_simplex (n ne : nat) : list (list F) :=
    repeat 0 ne :: map (fun i => upd (repeat 0 ne) i 1) (seq 0 n).
  (** 183-208 *)
  Definition affine_transformation_from_unit (vs : list (list F)) : result (arr F * arr F) :=
    let n := dimension vs in
    let m := embedding_dimension vs in
    let* _ := assert_ (n <=? m)%nat in
    if (n =? 1)%nat && (m =? 1)%nat then
      Ok (Sc (nth 0 (vtx vs 1) 0 - nth 0 (vtx vs 0) 0), Sc (nth 0 (vtx vs 0) 0))
    else if (n =? 0)%nat then Err IndexError
    else Ok (Mat (of_cols m (map (fun i => vsub (vtx vs (S i)) (vtx vs 0)) (seq 0 n))), Vec (vtx vs 0)).
  (** 144-157 *)
  Definition affine_transformation_to_unit (vs : list (list F)) : result (arr F * arr F) :=
    let* ab := affine_transformation_from_unit vs in
    if (embedding_dimension vs =? dimension vs)%nat then inverse_affine_transformation (fst ab) (snd ab)
    else pseudoinverse_affine_transformation (fst ab) (snd ab).
  (** 211-221 *)
  Definition affine_map_from_unit (vs : list (list F)) : result (arr F -> result (arr F)) :=
    let* ab := affine_transformation_from_unit vs in
    create_affine_map (fst ab) (snd ab).
  (** 224-235 *)
  Definition affine_transformation (vs1 vs2 : list (list F)) : result (arr F * arr F) :=
    let* phi1 := affine_transformation_to_unit vs1 in
    let* phi2 := affine_transformation_from_unit vs2 in
    affine_composition phi1 phi2.
  (** 281-299 *)
  Definition volume_unit (n : nat) : F := 1 / kofnat (fact n).
  (** 302-324; more vertices than the space allows: the assignment to a column
      of the wrong length raises ValueError (not if the space has dimension 1,
      where the single number is repeated and the result is 0; not modelled) *)
  Definition signed_volume (vs : list (list F)) : result F :=
    let n := dimension vs in
    if (n =? 0)%nat then Ok 1
    else if (n <? embedding_dimension vs)%nat then Err ValueError
    else if (embedding_dimension vs <? n)%nat then Err ValueError
    else Ok (np_det (of_cols n (map (fun i => vsub (vtx vs (S i)) (vtx vs 0)) (seq 0 n))) / kofnat (fact n)).
  (** 399-432 *)
  Definition barycentric_to_cartesian (bary : list F) (vs : list (list F)) : list F :=
    fold_left (fun p i => vadd p (vscale (nth i bary 0) (vtx vs i))) (seq 0 (length vs)) (repeat 0 (embedding_dimension vs)).
  Definition cartesian_to_barycentric_unit (p : list F) : list F := (1 - ksum p (fun x => x)) :: p.
  Definition barycentric_to_cartesian_unit (bary : list F) : list F := tl bary.
  (** 484-491 *)
  Definition centroid (vs : list (list F)) : list F :=
    vscale (1 / kofnat (length vs)) (fold_left vadd vs (repeat 0 (embedding_dimension vs))).
  (** 516-527: vertex [i] is left out; [simplex_boundary] and
      [simplex_vertices] are modelled in Simplicial.v *)
  Definition face (vs : list (list F)) (i : nat) : result (list (list F)) :=
    let* fs := simplex_boundary (seq 0 (length vs)) in
    let* f := get fs i in
    Ok (map (vtx vs) f).
  (** A point as an argument or value of these functions: a number on the line,
      an array elsewhere. *)
  Definition pt (x : list F) : arr F := match x with [t] => Sc t | _ => Vec x end.
  (** 696-732 *)
  Definition sub_simplex (vs : list (list F)) (f : list nat) : list (list F) := map (vtx vs) f.
End Affine.

Section Metric.
  Context {Q : ofld} (ksqrt : Q -> Q).
  Local Open Scope fld_scope.
  Definition kabs (x : Q) : Q := if kltb x 0 then - x else x.
  (** 40-51 *)
  Definition orthonormal_basis (vs : list (list Q)) (base : nat) : result (list (list Q)) :=
    let* b := basis vs base in Ok (gram_schmidt_rn ksqrt b).
  (** transform_to_basis of each of a list of vectors *)
  Fixpoint transform_all (l : list (list Q)) (b : list (list Q)) : result (list (list Q)) :=
    match l with
    | [] => Ok []
    | v :: l' => let* u := transform_to_basis v b in let* us := transform_all l' b in Ok (u :: us)
    end.
  (** 238-255 *)
  Definition local_coordinates (vs : list (list Q)) : result (list (list Q)) :=
    if (dimension vs =? 0)%nat then Ok [[0]]
    else
      let ws := map (fun v => vsub v (vtx vs 0)) vs in
      let* b := orthonormal_basis ws 0 in
      transform_all ws b.
  (** 258-278 *)
  Definition volume (vs : list (list Q)) : result Q :=
    let k := dimension vs in
    if (k =? 0)%nat then Ok 1
    else if (k <? embedding_dimension vs)%nat then
      let* l := local_coordinates vs in signed_volume l
    else let* v := signed_volume vs in Ok (kabs v).
  (** 327-336 *)
  Definition orientation (vs : list (list Q)) : result Z :=
    let* v := signed_volume vs in Ok (if kleb 0 v then 1%Z else (-1)%Z).
  (** 666-693 *)
  Definition in_subspace (p : list Q) (vs : list (list Q)) (tol : Q) : result bool :=
    let* _ := assert_ (length p =? embedding_dimension vs)%nat in
    if (length p =? dimension vs)%nat then Ok true
    else if (dimension vs =? 0)%nat then Ok (kleb (norm2 ksqrt (vsub p (vtx vs 0))) tol)
    else
      let* b := basis vs 0 in
      Ok (kleb (norm2 ksqrt (vsub p (subspace_projection ksqrt b (vtx vs 0) p))) tol).
  (** 160-180; [tol] is 1e-14 *)
  Definition affine_map_to_unit (tol : Q) (vs : list (list Q)) : result (arr Q -> result (arr Q)) :=
    let* ab := affine_transformation_to_unit vs in
    let* phi := create_affine_map (fst ab) (snd ab) in
    if (embedding_dimension vs =? dimension vs)%nat then Ok phi
    else Ok (fun x => match x with
                      | Vec v => let* s := in_subspace v vs tol in let* _ := assert_ s in phi x
                      | Sc _ => Err TypeError
                      | Mat m => Err RuntimeError end).
  (** the loop 361-366: vertex [i] replaced by the point and put back *)
  Fixpoint bary_loop (vol : Q) (p : list Q) (vs : list (list Q)) (is_ : list nat) : result (list Q) :=
    match is_ with
    | [] => Ok []
    | i :: r => let* v := signed_volume (upd vs i p) in let* l := bary_loop vol p vs r in Ok (v / vol :: l)
    end.
  (** 339-367, 387-396; [tol] is 1e-14 *)
  Definition cartesian_to_barycentric (tol : Q) (p : list Q) (vs : list (list Q)) : result (list Q) :=
    let* pv :=
      if (dimension vs <? embedding_dimension vs)%nat then
        let* s := in_subspace p vs tol in
        let* _ := assert_ s in
        let* b := orthonormal_basis vs 0 in
        let* p' := transform_to_basis (vsub p (vtx vs 0)) b in
        let* vs' := local_coordinates vs in
        Ok (p', vs')
      else Ok (p, vs) in
    let* vol := volume (snd pv) in
    bary_loop vol (fst pv) (snd pv) (seq 0 (length (snd pv))).
  (** 370-384 *)
  Definition cartesian_to_barycentric_basis (p : list Q) (vs : list (list Q)) : result (list Q) :=
    let* b := basis vs 0 in
    let* l := transform_to_basis (vsub p (vtx vs 0)) b in
    Ok ((1 - ksum l (fun x => x)) :: l).
  (** 634-663; [eps] is 1e-14 *)
  Definition inside_simplex (eps : Q) (p : list Q) (vs : list (list Q)) (include_boundary : bool) (tol : Q) : result bool :=
    let* bary := cartesian_to_barycentric eps p vs in
    if kdec tol 0 then
      Ok (forallb (fun b => if include_boundary then in_closed_range b 0 1 else in_open_range b 0 1) bary)
    else Ok (forallb (fun b => in_open_range b (0 - tol) (1 + tol)) bary).
  (** 435-458 *)
  Fixpoint face_volumes (vs : list (list Q)) (is_ : list nat) : result (list Q) :=
    match is_ with
    | [] => Ok []
    | i :: r => let* f := face vs i in let* v := volume f in let* l := face_volumes vs r in Ok (v :: l)
    end.
  Definition barycentric_to_trilinear (bary : list Q) (vs : list (list Q)) : result (list Q) :=
    let* v := volume vs in
    let n := dimension vs in
    let* fv := face_volumes vs (seq 0 (n + 1)) in
    Ok (map (fun i => kofnat n * v * nth i bary 0 / nth i fv 0) (seq 0 (n + 1))).
  (** 461-481 *)
  Definition trilinear_to_barycentric (tri : list Q) (vs : list (list Q)) : result (list Q) :=
    let* v := volume vs in
    let n := dimension vs in
    let* fv := face_volumes vs (seq 0 (n + 1)) in
    let b := map (fun i => nth i tri 0 * nth i fv 0 / v) (seq 0 (n + 1)) in
    Ok (map (fun x => x * (1 / ksum b (fun y => y))) b).
  (** 494-513; nested loops over the pairs in place of increasing_subset_permutations *)
  Definition simplex_edges (vs : list (list Q)) : list (list Q) :=
    flat_map (fun i => map (fun j => vsub (vtx vs j) (vtx vs i)) (seq (S i) (length vs - S i))) (seq 0 (length vs)).
  (** 530-540 *)
  Definition face_normal (vs : list (list Q)) (i : nat) : result (list Q) :=
    let* b := orthonormal_basis vs ((i + 1) mod (length vs)) in
    Ok (vscale (- (1)) (last b [])).
  (** 543-556 *)
  Definition altitude (vs : list (list Q)) (i : nat) : result Q :=
    let* si := face vs i in
    let n := dimension vs in
    let* v := volume vs in
    let* vf := volume si in
    Ok (kofnat n * v / vf).
  (** 559-580; the recursion drops the first vertex *)
  Fixpoint circumcenter_ (fuel : nat) (vs : list (list Q)) : result (list Q) :=
    match fuel with
    | O => Err OutOfFuel
    | S f =>
      if (length vs <? 3)%nat then Ok (centroid vs)
      else
        let* c := circumcenter_ f (tl vs) in
        let* n := face_normal vs 0 in
        let v0 := vtx vs 0 in
        let v1 := vtx vs 1 in
        let two := 1 + 1 in
        let num := dot v0 v0 - dot v1 v1 + two * dot c v1 - two * dot c v0 in
        let denom := two * (dot n v0 - dot n v1) in
        Ok (vadd c (vscale (num / denom) n))
    end.
  Definition circumcenter (vs : list (list Q)) : result (list Q) := circumcenter_ (S (length vs)) vs.
  (** 583-591 *)
  Definition circumradius (vs : list (list Q)) : result Q :=
    let* c := circumcenter vs in Ok (norm2 ksqrt (vsub c (vtx vs 0))).
  (** 594-603 *)
  Definition incenter (vs : list (list Q)) : result (list Q) :=
    let* b := trilinear_to_barycentric (repeat 1 (length vs)) vs in
    Ok (barycentric_to_cartesian b vs).
  (** 606-617; [tol] is 1e-10 *)
  Definition inradius (tol : Q) (vs : list (list Q)) : result Q :=
    let n := dimension vs in
    let* b := trilinear_to_barycentric (repeat 1 (n + 1)) vs in
    let* e := barycentric_to_trilinear b vs in
    let* _ := assert_ (forallb (fun i => kltb (kabs (nth i e 0 - nth ((i + 1) mod (n + 1)) e 0)) tol) (seq 0 (n + 1))) in
    Ok (nth 0 e 0).
  (** 620-631 *)
  Definition diameter (vs : list (list Q)) : Q :=
    fold_left (fun h i => fold_left (fun h j => kmax h (norm2 ksqrt (vsub (vtx vs i) (vtx vs j)))) (seq (S i) (length vs - S i)) h) (seq 0 (length vs - 1)) 0.
  (** 83-119 *)
  Fixpoint equilateral (n : nat) (d : Q) (ne : nat) : result (list (list Q)) :=
    match n with
    | O => Err AssertionError
    | S m =>
      match m with
      | O => Ok (map (vscale d) (unit_simplex 1 ne))
      | S _ =>
        let* vs := equilateral m d ne in
        let c := centroid (map (firstn m) vs) in
        let h := ksqrt (d * d - kpow (norm2 ksqrt (vsub c (repeat 0 m))) 2) in
        Ok (vs ++ [c ++ h :: repeat 0 (ne - n)])
      end
    end.
End Metric.
