(** Model of polynomials_on_simplices/calculus/quadrature.py, of
    polynomials_on_simplices/algebra/algebraic_operations.py and of
    [create_affine_map] with [multiple_arguments=True]
    (polynomials_on_simplices/calculus/affine_map.py 14-90).

    The adaptive quadratures (lines 26-34, 80-90,
    113-127, 160-175, 197-217, 289-304) are in Adaptive.v, the midpoint rules in
    Midpoint.v.  A decimal literal of the source is
    the exact decimal number. *)
From Coq Require Import QArith.
From Verif Require Import Base MultiIndex Fld FldInst LinSolve Linalg QHom Det SimplexGeo.
Close Scope Q_scope.
Local Open Scope nat_scope.

Section Callables.
  Context {F : fld}.
  Local Open Scope fld_scope.
  Notation arr := (arr F).

  (** inspect.Parameter.kind *)
  Inductive kind : Type := POSITIONAL | VAR_POSITIONAL.
  (** A Python callable: its signature ([None] when [signature] raises
      ValueError) and what a call with positional arguments does. *)
  Record callable : Type := mkCallable { c_sig : option (list kind); c_run : list arr -> result arr }.

  (** algebraic_operations.py 47-69 [_is_univariate_function] *)
  Definition is_univariate (f : callable) : result bool :=
    match c_sig f with
    | None => Ok true
    | Some ps =>
      if (1 <? length ps)%nat then Ok false
      else
        let* _ := assert_ (length ps =? 1)%nat in
        Ok (match ps with VAR_POSITIONAL :: _ => false | _ => true end)
    end.

  (** [*y] in a call *)
  Definition star (y : arr) : result (list arr) :=
    match y with Sc _ => Err TypeError | Vec v => Ok (map Sc v) | Mat m => Ok (map Vec m) end.

  (** algebraic_operations.py 6-44 [composition] *)
  Definition composition (f g : callable) : result callable :=
    let* fu := is_univariate f in
    let* gu := is_univariate g in
    let inner := fun xs => if fu then let* y := c_run g xs in c_run f [y]
                           else let* y := c_run g xs in let* ys := star y in c_run f ys in
    Ok (if gu then mkCallable (Some [POSITIONAL]) (fun xs => match xs with [x] => inner [x] | _ => Err TypeError end)
        else mkCallable (Some [VAR_POSITIONAL]) inner).

  (** [np.array(x)] for the tuple of the arguments *)
  Definition np_array (xs : list arr) : result arr :=
    match xs with
    | Sc _ :: _ => let* l := mapM (fun a => match a with Sc t => Ok t | _ => Err ValueError end) xs in Ok (Vec l)
    | Vec _ :: _ => let* l := mapM (fun a => match a with Vec v => Ok v | _ => Err ValueError end) xs in Ok (Mat l)
    | [] => Ok (Vec [])
    | _ => Err RuntimeError
    end.

  (** affine_map.py 14-90 [create_affine_map] as a callable *)
  Definition create_affine_map_callable (a b : arr) (multiple_arguments : bool) : result callable :=
    let* phi := create_affine_map a b in
    let multi := match a with
                 | Sc _ => false
                 | Vec _ => is_number b
                 | Mat m => negb (ncols m =? 1)%nat
                 end in
    Ok (if multi && multiple_arguments then mkCallable (Some [VAR_POSITIONAL]) (fun xs => let* x := np_array xs in phi x)
        else mkCallable (Some [POSITIONAL]) (fun xs => match xs with [x] => phi x | _ => Err TypeError end)).
End Callables.
Arguments callable F : clear implicits.

(** quadrature.py 139-156: the factor in front, the weights and the points of
    [quadrature_unit_triangle_fixed]; transcribed by a script. *)
Section Rules.
Local Open Scope Q_scope.
Definition triangle_rule (n : Z) : option (Q * list (Q * list Q)) :=
  if (n =? 1)%Z then Some ((1 # 2),
    [ ((1 # 1), [(1 # 3); (1 # 3)]) ])
  else if (n =? 2)%Z then Some ((1 # 6),
    [ ((1 # 1), [(1 # 2); (1 # 2)]);
      ((1 # 1), [(0 # 1); (1 # 2)]);
      ((1 # 1), [(1 # 2); (0 # 1)]) ])
  else if (n =? 3)%Z then Some ((1 # 96),
    [ ((-27 # 1), [(1 # 3); (1 # 3)]);
      ((25 # 1), [(2 # 10); (6 # 10)]);
      ((25 # 1), [(6 # 10); (2 # 10)]);
      ((25 # 1), [(2 # 10); (2 # 10)]) ])
  else if (n =? 4)%Z then Some ((5 # 10),
    [ ((223381589678011 # 1000000000000000), [(108103018168070 # 1000000000000000); (445948490915965 # 1000000000000000)]);
      ((223381589678011 # 1000000000000000), [(445948490915965 # 1000000000000000); (108103018168070 # 1000000000000000)]);
      ((223381589678011 # 1000000000000000), [(445948490915965 # 1000000000000000); (445948490915965 # 1000000000000000)]);
      ((109951743655322 # 1000000000000000), [(816847572980459 # 1000000000000000); (91576213509771 # 1000000000000000)]);
      ((109951743655322 # 1000000000000000), [(91576213509771 # 1000000000000000); (816847572980459 # 1000000000000000)]);
      ((109951743655322 # 1000000000000000), [(91576213509771 # 1000000000000000); (91576213509771 # 1000000000000000)]) ])
  else None.
(** quadrature.py 229-285 [quadrature_unit_tetrahedron_fixed] *)
Definition tetrahedron_rule (n : Z) : option (Q * list (Q * list Q)) :=
  if (n =? 1)%Z then Some ((1 # 6),
    [ ((1 # 1), [(1 # 4); (1 # 4); (1 # 4)]) ])
  else if (n =? 2)%Z then Some ((1 # 24),
    [ ((1 # 1), [(58541019662496852 # 100000000000000000); (1381966011250105 # 10000000000000000); (1381966011250105 # 10000000000000000)]);
      ((1 # 1), [(1381966011250105 # 10000000000000000); (58541019662496852 # 100000000000000000); (1381966011250105 # 10000000000000000)]);
      ((1 # 1), [(1381966011250105 # 10000000000000000); (1381966011250105 # 10000000000000000); (58541019662496852 # 100000000000000000)]);
      ((1 # 1), [(1381966011250105 # 10000000000000000); (1381966011250105 # 10000000000000000); (1381966011250105 # 10000000000000000)]) ])
  else if (n =? 3)%Z then Some ((1 # 6),
    [ ((-8 # 10), [(1 # 4); (1 # 4); (1 # 4)]);
      ((45 # 100), [(5 # 10); (1 # 6); (1 # 6)]);
      ((45 # 100), [(1 # 6); (5 # 10); (1 # 6)]);
      ((45 # 100), [(1 # 6); (1 # 6); (5 # 10)]);
      ((45 # 100), [(1 # 6); (1 # 6); (1 # 6)]) ])
  else if (n =? 4)%Z then Some ((1 # 6),
    [ ((7349304311636194934358694586367885 # 100000000000000000000000000000000000), [(7217942490673264 # 10000000000000000); (9273525031089122628655892066032137 # 100000000000000000000000000000000000); (9273525031089122628655892066032137 # 100000000000000000000000000000000000)]);
      ((7349304311636194934358694586367885 # 100000000000000000000000000000000000), [(9273525031089122628655892066032137 # 100000000000000000000000000000000000); (7217942490673264 # 10000000000000000); (9273525031089122628655892066032137 # 100000000000000000000000000000000000)]);
      ((7349304311636194934358694586367885 # 100000000000000000000000000000000000), [(9273525031089122628655892066032137 # 100000000000000000000000000000000000); (9273525031089122628655892066032137 # 100000000000000000000000000000000000); (7217942490673264 # 10000000000000000)]);
      ((7349304311636194934358694586367885 # 100000000000000000000000000000000000), [(9273525031089122628655892066032137 # 100000000000000000000000000000000000); (9273525031089122628655892066032137 # 100000000000000000000000000000000000); (9273525031089122628655892066032137 # 100000000000000000000000000000000000)]);
      ((11268792571801585036501492847638892 # 100000000000000000000000000000000000), [(6734224221009821 # 100000000000000000); (31088591926330060975814749494040332 # 100000000000000000000000000000000000); (31088591926330060975814749494040332 # 100000000000000000000000000000000000)]);
      ((11268792571801585036501492847638892 # 100000000000000000000000000000000000), [(31088591926330060975814749494040332 # 100000000000000000000000000000000000); (6734224221009821 # 100000000000000000); (31088591926330060975814749494040332 # 100000000000000000000000000000000000)]);
      ((11268792571801585036501492847638892 # 100000000000000000000000000000000000), [(31088591926330060975814749494040332 # 100000000000000000000000000000000000); (31088591926330060975814749494040332 # 100000000000000000000000000000000000); (6734224221009821 # 100000000000000000)]);
      ((11268792571801585036501492847638892 # 100000000000000000000000000000000000), [(31088591926330060975814749494040332 # 100000000000000000000000000000000000); (31088591926330060975814749494040332 # 100000000000000000000000000000000000); (31088591926330060975814749494040332 # 100000000000000000000000000000000000)]);
      ((4254602077708146686093208377328816 # 100000000000000000000000000000000000), [(4550370412564965000000000000000000 # 100000000000000000000000000000000000); (4550370412564965000000000000000000 # 100000000000000000000000000000000000); (45449629587435036 # 100000000000000000)]);
      ((4254602077708146686093208377328816 # 100000000000000000000000000000000000), [(4550370412564965000000000000000000 # 100000000000000000000000000000000000); (45449629587435036 # 100000000000000000); (4550370412564965000000000000000000 # 100000000000000000000000000000000000)]);
      ((4254602077708146686093208377328816 # 100000000000000000000000000000000000), [(4550370412564965000000000000000000 # 100000000000000000000000000000000000); (45449629587435036 # 100000000000000000); (45449629587435036 # 100000000000000000)]);
      ((4254602077708146686093208377328816 # 100000000000000000000000000000000000), [(45449629587435036 # 100000000000000000); (4550370412564965000000000000000000 # 100000000000000000000000000000000000); (4550370412564965000000000000000000 # 100000000000000000000000000000000000)]);
      ((4254602077708146686093208377328816 # 100000000000000000000000000000000000), [(45449629587435036 # 100000000000000000); (4550370412564965000000000000000000 # 100000000000000000000000000000000000); (45449629587435036 # 100000000000000000)]);
      ((4254602077708146686093208377328816 # 100000000000000000000000000000000000), [(45449629587435036 # 100000000000000000); (45449629587435036 # 100000000000000000); (4550370412564965000000000000000000 # 100000000000000000000000000000000000)]) ])
  else None.
End Rules.

Section Quadrature.
  Context {F : fld}.
  Local Open Scope fld_scope.

  (** [w0 * f(p0) + w1 * f(p1) + ...] *)
  Definition weighted (f : callable F) (wp : Q * list Q) : result (arr F) :=
    let* y := c_run f (map (fun t => Sc (kofQ t)) (snd wp)) in Ok (np_scale (kofQ (fst wp)) y).
  Definition weighted_sum (f : callable F) (l : list (Q * list Q)) : result (arr F) :=
    match l with
    | [] => Ok (Sc 0)
    | wp :: l' => let* y := weighted f wp in foldM (fun s wp => let* y := weighted f wp in np_add s y) y l'
    end.
  Definition apply_rule (rule : option (Q * list (Q * list Q))) (f : callable F) : result (arr F) :=
    match rule with
    | Some (c, l) => let* s := weighted_sum f l in Ok (np_scale (kofQ c) s)
    | None => Err ValueError
    end.

  (** 130-157 *)
  Definition quadrature_unit_triangle_fixed (f : callable F) (n : Z) : result (arr F) := apply_rule (triangle_rule n) f.
  (** 220-286 *)
  Definition quadrature_unit_tetrahedron_fixed (f : callable F) (n : Z) : result (arr F) := apply_rule (tetrahedron_rule n) f.

  Context (gauss_legendre : nat -> list F * list F).
  Notation two := (1 + 1).
  (** 37-59; [gauss_legendre] stands for sympy's rule on [-1, 1] *)
  Definition gauss_legendre_unit_interval (n : nat) : list F * list F :=
    let (x, w) := gauss_legendre n in
    (map (fun i => (nth i x 0 + 1) / two) (seq 0 (length x)), map (fun i => 1 / two * nth i w 0) (seq 0 (length x))).
  (** 62-77; [np.ceil((r + 1) / 2)] for a natural number [r] *)
  Definition quadrature_unit_interval_fixed (f : callable F) (r : nat) : result (arr F) :=
    let n := ((r + 2) / 2)%nat in
    let (xg, wg) := gauss_legendre_unit_interval n in
    foldM (fun integral i => let* y := c_run f [Sc (nth i xg 0)] in np_add integral (np_scale (nth i wg 0) y)) (Sc 0) (seq 0 (length xg)).
End Quadrature.

Section General.
  Context {Q : ofld}.
  Local Open Scope fld_scope.

  (** [np.linalg.det(ta)] *)
  Definition arr_det (a : arr Q) : result Q :=
    match a with Mat m => if (ncols m =? length m)%nat then Ok (np_det m) else Err LinAlgError | _ => Err LinAlgError end.

  (** 93-110 *)
  Definition quadrature_interval_fixed (gauss_legendre : nat -> list Q * list Q) (f : callable Q) (a b : Q) (n : nat) : result (arr Q) :=
    let* t := affine_transformation_from_unit [[a]; [b]] in
    let (ta, tb) := t in
    let* phi := create_affine_map_callable ta tb false in
    let* pb_f := composition f phi in
    let* d := match ta with Sc x => Ok (kabs x) | _ => Err RuntimeError end in
    let* v := quadrature_unit_interval_fixed gauss_legendre pb_f n in
    Ok (np_scale d v).
  (** 178-194 and 307-323 *)
  Definition quadrature_simplex_fixed (rule : callable Q -> Z -> result (arr Q)) (f : callable Q) (vs : list (list Q)) (n : Z) : result (arr Q) :=
    let* t := affine_transformation_from_unit vs in
    let (ta, tb) := t in
    let* phi := create_affine_map_callable ta tb true in
    let* pb_f := composition f phi in
    let* d := arr_det ta in
    let* v := rule pb_f n in
    Ok (np_scale (kabs d) v).
  Definition quadrature_triangle_fixed := quadrature_simplex_fixed quadrature_unit_triangle_fixed.
  Definition quadrature_tetrahedron_fixed := quadrature_simplex_fixed quadrature_unit_tetrahedron_fixed.
End General.
