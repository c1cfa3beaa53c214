(** Rational numbers for the examples. *)
From Coq Require Import Qcanon QArith.
From Verif Require Import Base Fld FldInst.
Definition rat (a : Z) (b : positive) : QcF := Q2Qc (Qmake a b).
Definition qlist (l : list QcF) : list Q := map (fun v : Qc => this v) l.
Definition qres (r : result (list QcF)) : list Q := match r with Ok l => qlist l | Err _ => [] end.
Definition qval (r : result QcF) : option Q := match r with Ok v => Some (this (v : Qc)) | Err _ => None end.
