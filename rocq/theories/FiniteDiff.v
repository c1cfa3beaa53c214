(** Model of polynomials_on_simplices/calculus/finite_difference.py.

    The functions write to their argument [x] while they run, so they return
    the contents of [x] together with the result.  The function [f] may raise an
    exception.  Arithmetic is exact; the step [h] = 0 (nan or inf with a warning
    in numpy) has an arbitrary value and is excluded by hypotheses.  An argument
    [x] is a list or an array of floating point numbers; integer arrays and
    tuples, which cannot be written to, are not modelled. *)
From Verif Require Import Base Fld FldInst MultiIndex LinSolve Linalg.

Section FiniteDifference.
  Context {F : fld}.
  Local Open Scope fld_scope.
  Definition half : F := 1 / (1 + 1).

  (** ** 6-38 *)
  (** 28 *)
  Definition forward_difference_univariate (f : F -> F) (x h : F) : F := (f (x + h) - f x) / h.
  (** 32-38 *)
  Fixpoint forward_loop (f : list F -> result F) (h f0 : F) (is_ : list nat) (x g_fd : list F) : result (list F) * list F :=
    match is_ with
    | [] => (Ok g_fd, x)
    | i :: is_ =>
      let x0 := nth i x 0 in
      let x := upd x i (nth i x 0 + h) in
      match f x with
      | Err e => (Err e, x)
      | Ok f1 =>
        let x := upd x i x0 in
        forward_loop f h f0 is_ x (g_fd ++ [(f1 - f0) / h])
      end
    end.
  (** 30-38 *)
  Definition forward_difference (f : list F -> result F) (x : list F) (h : F) : result (list F) * list F :=
    match f x with
    | Err e => (Err e, x)
    | Ok f0 => forward_loop f h f0 (seq 0 (length x)) x []
    end.

  (** ** 97-130 *)
  (** 119 *)
  Definition central_difference_univariate (f : F -> F) (x h : F) : F := (f (x + half * h) - f (x - half * h)) / h.
  (** 122-130 *)
  Fixpoint central_loop (f : list F -> result F) (h : F) (is_ : list nat) (x g_fd : list F) : result (list F) * list F :=
    match is_ with
    | [] => (Ok g_fd, x)
    | i :: is_ =>
      let x0 := nth i x 0 in
      let x := upd x i (nth i x 0 + half * h) in
      match f x with
      | Err e => (Err e, x)
      | Ok fp =>
        let x := upd x i (x0 - half * h) in
        match f x with
        | Err e => (Err e, x)
        | Ok fm =>
          let x := upd x i x0 in
          central_loop f h is_ x (g_fd ++ [(fp - fm) / h])
        end
      end
    end.
  Definition central_difference (f : list F -> result F) (x : list F) (h : F) : result (list F) * list F :=
    central_loop f h (seq 0 (length x)) x [].

  (** ** 83-94; for equal points the result is nan or inf in numpy *)
  Definition discrete_forward_difference (f0 x0 f1 x1 : F) : F := (f1 - f0) / (x1 - x0).

  (** ** Jacobians: 41-80 and 133-173 *)
  (** [f] returns a new array or number, or the array [x] itself *)
  Inductive ret : Type := Fresh (a : arr F) | Argument.
  Definition deref (x : list F) (r : ret) : arr F := match r with Fresh a => a | Argument => Vec x end.
  (** [(f1 - f0) / h], where [x] is the contents of the argument at that time *)
  Definition quotient (x : list F) (f1 f0 : ret) (h : F) : result (arr F) :=
    let* d := np_add (deref x f1) (np_neg (deref x f0)) in
    Ok (np_scale (1 / h) d).
  (** the assignment [j_fd[:, j] = v] for [n] rows *)
  Definition column_of (n : nat) (v : arr F) : result (list F) :=
    match v with
    | Sc c => Ok (repeat c n)
    | Vec v => if (length v =? n)%nat then Ok v else if (length v =? 1)%nat then Ok (repeat (hd 0 v) n) else Err ValueError
    | Mat _ => Err ValueError
    end.
  (** 68-70 *)
  Definition forward_difference_jacobian_univariate (f : F -> arr F) (n : nat) (x h : F) : result (list (list F)) :=
    let* d := np_add (f (x + h)) (np_neg (f x)) in
    let* c := column_of n (np_scale (1 / h) d) in
    Ok (of_cols n [c]).
  (** 160-162 *)
  Definition central_difference_jacobian_univariate (f : F -> arr F) (n : nat) (x h : F) : result (list (list F)) :=
    let* d := np_add (f (x + half * h)) (np_neg (f (x - half * h))) in
    let* c := column_of n (np_scale (1 / h) d) in
    Ok (of_cols n [c]).
  (** 74-80; [cols] are the columns written so far *)
  Fixpoint forward_jacobian_loop (f : list F -> result ret) (n : nat) (h : F) (f0 : ret) (js : list nat) (x : list F) (cols : list (list F)) : result (list (list F)) * list F :=
    match js with
    | [] => (Ok (of_cols n cols), x)
    | j :: js =>
      let x0 := nth j x 0 in
      let x := upd x j (nth j x 0 + h) in
      match f x with
      | Err e => (Err e, x)
      | Ok f1 =>
        let x := upd x j x0 in
        match (let* q := quotient x f1 f0 h in column_of n q) with
        | Err e => (Err e, x)
        | Ok c => forward_jacobian_loop f n h f0 js x (cols ++ [c])
        end
      end
    end.
  Definition forward_difference_jacobian (f : list F -> result ret) (n : nat) (x : list F) (h : F) : result (list (list F)) * list F :=
    match f x with
    | Err e => (Err e, x)
    | Ok f0 => forward_jacobian_loop f n h f0 (seq 0 (length x)) x []
    end.
  (** 165-173 *)
  Fixpoint central_jacobian_loop (f : list F -> result ret) (n : nat) (h : F) (js : list nat) (x : list F) (cols : list (list F)) : result (list (list F)) * list F :=
    match js with
    | [] => (Ok (of_cols n cols), x)
    | j :: js =>
      let x0 := nth j x 0 in
      let x := upd x j (nth j x 0 + half * h) in
      match f x with
      | Err e => (Err e, x)
      | Ok fp =>
        let x := upd x j (x0 - half * h) in
        match f x with
        | Err e => (Err e, x)
        | Ok fm =>
          let x := upd x j x0 in
          match (let* q := quotient x fp fm h in column_of n q) with
          | Err e => (Err e, x)
          | Ok c => central_jacobian_loop f n h js x (cols ++ [c])
          end
        end
      end
    end.
  Definition central_difference_jacobian (f : list F -> result ret) (n : nat) (x : list F) (h : F) : result (list (list F)) * list F :=
    central_jacobian_loop f n h (seq 0 (length x)) x [].

  (** ** Hessians: 176-263; [x] is not written to *)
  (** 198 and 245 *)
  Definition second_forward_difference_univariate (f : F -> F) (x h : F) : F := (f (x + (1 + 1) * h) - (1 + 1) * f (x + h) + f x) / kpow h 2.
  Definition second_central_difference_univariate (f : F -> F) (x h : F) : F := (f (x + h) - (1 + 1) * f x + f (x - h)) / kpow h 2.
  (** [h_fd[i][j] = v] *)
  Definition set_entry (m : list (list F)) (i j : nat) (v : F) : list (list F) := upd m i (upd (nth i m []) j v).
  (** 208-211 *)
  Definition forward_entry (f : list F -> F) (x : list F) (h : F) (e_i e_j : list F) : F :=
    (f (vadd x (vscale h (vadd e_i e_j))) - f (vadd x (vscale h e_i)) - f (vadd x (vscale h e_j)) + f x) * (1 / kpow h 2).
  (** 255-258 *)
  Definition central_entry (f : list F -> F) (x : list F) (h : F) (e_i e_j : list F) : F :=
    (f (vadd x (vscale (half * h) (vadd e_i e_j))) - f (vadd x (vscale (half * h) (vsub e_i e_j))) - f (vadd x (vscale (half * h) (vsub e_j e_i)))
     + f (vsub x (vscale (half * h) (vadd e_i e_j)))) * (1 / kpow h 2).
  (** 206-214 and 253-261: the state is [h_fd] and [e_j] *)
  Definition hessian_inner (entry : list F -> list F -> F) (i : nat) (e_i : list F) (s : list (list F) * list F) (j : nat) : list (list F) * list F :=
    let (h_fd, e_j) := s in
    let e_j := upd e_j j 1 in
    let h_fd := set_entry h_fd i j (entry e_i e_j) in
    let h_fd := if (i =? j)%nat then h_fd else set_entry h_fd j i (nth j (nth i h_fd []) 0) in
    (h_fd, upd e_j j 0).
  (** 204-215 and 251-262 *)
  Definition hessian_outer (entry : list F -> list F -> F) (n : nat) (s : list (list F) * list F * list F) (i : nat) : list (list F) * list F * list F :=
    let '(h_fd, e_i, e_j) := s in
    let e_i := upd e_i i 1 in
    let (h_fd, e_j) := fold_left (hessian_inner entry i e_i) (seq i (n - i)) (h_fd, e_j) in
    (h_fd, upd e_i i 0, e_j).
  (** 200-216 and 247-263; the unwritten entries of [np.empty] are given as [init] *)
  Definition hessian (entry : list F -> list F -> F) (init : list (list F)) (n : nat) : list (list F) :=
    fst (fst (fold_left (hessian_outer entry n) (seq 0 n) (init, repeat 0 n, repeat 0 n))).
  Definition second_forward_difference (init : list (list F)) (f : list F -> F) (x : list F) (h : F) : list (list F) := hessian (forward_entry f x h) init (length x).
  Definition second_central_difference (init : list (list F)) (f : list F -> F) (x : list F) (h : F) : list (list F) := hessian (central_entry f x h) init (length x).
End FiniteDifference.
