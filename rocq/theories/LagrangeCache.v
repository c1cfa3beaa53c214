(** Transcription of
    polynomials_on_simplices/polynomial/polynomials_unit_simplex_lagrange_basis_cache.py
    5-end [lagrange_basis_coefficients_cache]: [cache[n-1][r-1]] is a
    dictionary from multi-indices to coefficient lists; a number [p / q] of
    the source is the pair of [p] and [q] ([q = 1] for an integer). *)
From Coq Require Import List ZArith.
Import ListNotations.
Local Open Scope Z_scope.

Definition lagrange_basis_coefficients_cache : list (list (list (list nat * list (Z * nat)))) :=
  [ [ (* n = 1, r = 1 *)
      [ ([0]%nat, [(1, 1%nat); ((-1), 1%nat)]);
        ([1]%nat, [(0, 1%nat); (1, 1%nat)]) ];
      (* n = 1, r = 2 *)
      [ ([0]%nat, [(1, 1%nat); ((-3), 1%nat); (2, 1%nat)]);
        ([1]%nat, [(0, 1%nat); (4, 1%nat); ((-4), 1%nat)]);
        ([2]%nat, [(0, 1%nat); ((-1), 1%nat); (2, 1%nat)]) ];
      (* n = 1, r = 3 *)
      [ ([0]%nat, [(1, 1%nat); ((-11), 2%nat); (9, 1%nat); ((-9), 2%nat)]);
        ([1]%nat, [(0, 1%nat); (9, 1%nat); ((-45), 2%nat); (27, 2%nat)]);
        ([2]%nat, [(0, 1%nat); ((-9), 2%nat); (18, 1%nat); ((-27), 2%nat)]);
        ([3]%nat, [(0, 1%nat); (1, 1%nat); ((-9), 2%nat); (9, 2%nat)]) ];
      (* n = 1, r = 4 *)
      [ ([0]%nat, [(1, 1%nat); ((-25), 3%nat); (70, 3%nat); ((-80), 3%nat); (32, 3%nat)]);
        ([1]%nat, [(0, 1%nat); (16, 1%nat); ((-208), 3%nat); (96, 1%nat); ((-128), 3%nat)]);
        ([2]%nat, [(0, 1%nat); ((-12), 1%nat); (76, 1%nat); ((-128), 1%nat); (64, 1%nat)]);
        ([3]%nat, [(0, 1%nat); (16, 3%nat); ((-112), 3%nat); (224, 3%nat); ((-128), 3%nat)]);
        ([4]%nat, [(0, 1%nat); ((-1), 1%nat); (22, 3%nat); ((-16), 1%nat); (32, 3%nat)]) ] ];
    [ (* n = 2, r = 1 *)
      [ ([0; 0]%nat, [(1, 1%nat); ((-1), 1%nat); ((-1), 1%nat)]);
        ([1; 0]%nat, [(0, 1%nat); (1, 1%nat); (0, 1%nat)]);
        ([0; 1]%nat, [(0, 1%nat); (0, 1%nat); (1, 1%nat)]) ];
      (* n = 2, r = 2 *)
      [ ([0; 0]%nat, [(1, 1%nat); ((-3), 1%nat); (2, 1%nat); ((-3), 1%nat); (4, 1%nat); (2, 1%nat)]);
        ([1; 0]%nat, [(0, 1%nat); (4, 1%nat); ((-4), 1%nat); (0, 1%nat); ((-4), 1%nat); (0, 1%nat)]);
        ([2; 0]%nat, [(0, 1%nat); ((-1), 1%nat); (2, 1%nat); (0, 1%nat); (0, 1%nat); (0, 1%nat)]);
        ([0; 1]%nat, [(0, 1%nat); (0, 1%nat); (0, 1%nat); (4, 1%nat); ((-4), 1%nat); ((-4), 1%nat)]);
        ([1; 1]%nat, [(0, 1%nat); (0, 1%nat); (0, 1%nat); (0, 1%nat); (4, 1%nat); (0, 1%nat)]);
        ([0; 2]%nat, [(0, 1%nat); (0, 1%nat); (0, 1%nat); ((-1), 1%nat); (0, 1%nat); (2, 1%nat)]) ];
      (* n = 2, r = 3 *)
      [ ([0; 0]%nat, [(1, 1%nat); ((-11), 2%nat); (9, 1%nat); ((-9), 2%nat); ((-11), 2%nat); (18, 1%nat); ((-27), 2%nat); (9, 1%nat); ((-27), 2%nat); ((-9), 2%nat)]);
        ([1; 0]%nat, [(0, 1%nat); (9, 1%nat); ((-45), 2%nat); (27, 2%nat); (0, 1%nat); ((-45), 2%nat); (27, 1%nat); (0, 1%nat); (27, 2%nat); (0, 1%nat)]);
        ([2; 0]%nat, [(0, 1%nat); ((-9), 2%nat); (18, 1%nat); ((-27), 2%nat); (0, 1%nat); (9, 2%nat); ((-27), 2%nat); (0, 1%nat); (0, 1%nat); (0, 1%nat)]);
        ([3; 0]%nat, [(0, 1%nat); (1, 1%nat); ((-9), 2%nat); (9, 2%nat); (0, 1%nat); (0, 1%nat); (0, 1%nat); (0, 1%nat); (0, 1%nat); (0, 1%nat)]);
        ([0; 1]%nat, [(0, 1%nat); (0, 1%nat); (0, 1%nat); (0, 1%nat); (9, 1%nat); ((-45), 2%nat); (27, 2%nat); ((-45), 2%nat); (27, 1%nat); (27, 2%nat)]);
        ([1; 1]%nat, [(0, 1%nat); (0, 1%nat); (0, 1%nat); (0, 1%nat); (0, 1%nat); (27, 1%nat); ((-27), 1%nat); (0, 1%nat); ((-27), 1%nat); (0, 1%nat)]);
        ([2; 1]%nat, [(0, 1%nat); (0, 1%nat); (0, 1%nat); (0, 1%nat); (0, 1%nat); ((-9), 2%nat); (27, 2%nat); (0, 1%nat); (0, 1%nat); (0, 1%nat)]);
        ([0; 2]%nat, [(0, 1%nat); (0, 1%nat); (0, 1%nat); (0, 1%nat); ((-9), 2%nat); (9, 2%nat); (0, 1%nat); (18, 1%nat); ((-27), 2%nat); ((-27), 2%nat)]);
        ([1; 2]%nat, [(0, 1%nat); (0, 1%nat); (0, 1%nat); (0, 1%nat); (0, 1%nat); ((-9), 2%nat); (0, 1%nat); (0, 1%nat); (27, 2%nat); (0, 1%nat)]);
        ([0; 3]%nat, [(0, 1%nat); (0, 1%nat); (0, 1%nat); (0, 1%nat); (1, 1%nat); (0, 1%nat); (0, 1%nat); ((-9), 2%nat); (0, 1%nat); (9, 2%nat)]) ];
      (* n = 2, r = 4 *)
      [ ([0; 0]%nat, [(1, 1%nat); ((-25), 3%nat); (70, 3%nat); ((-80), 3%nat); (32, 3%nat); ((-25), 3%nat); (140, 3%nat); ((-80), 1%nat); (128, 3%nat); (70, 3%nat); ((-80), 1%nat); (64, 1%nat); ((-80), 3%nat); (128, 3%nat); (32, 3%nat)]);
        ([1; 0]%nat, [(0, 1%nat); (16, 1%nat); ((-208), 3%nat); (96, 1%nat); ((-128), 3%nat); (0, 1%nat); ((-208), 3%nat); (192, 1%nat); ((-128), 1%nat); (0, 1%nat); (96, 1%nat); ((-128), 1%nat); (0, 1%nat); ((-128), 3%nat); (0, 1%nat)]);
        ([2; 0]%nat, [(0, 1%nat); ((-12), 1%nat); (76, 1%nat); ((-128), 1%nat); (64, 1%nat); (0, 1%nat); (28, 1%nat); ((-144), 1%nat); (128, 1%nat); (0, 1%nat); ((-16), 1%nat); (64, 1%nat); (0, 1%nat); (0, 1%nat); (0, 1%nat)]);
        ([3; 0]%nat, [(0, 1%nat); (16, 3%nat); ((-112), 3%nat); (224, 3%nat); ((-128), 3%nat); (0, 1%nat); ((-16), 3%nat); (32, 1%nat); ((-128), 3%nat); (0, 1%nat); (0, 1%nat); (0, 1%nat); (0, 1%nat); (0, 1%nat); (0, 1%nat)]);
        ([4; 0]%nat, [(0, 1%nat); ((-1), 1%nat); (22, 3%nat); ((-16), 1%nat); (32, 3%nat); (0, 1%nat); (0, 1%nat); (0, 1%nat); (0, 1%nat); (0, 1%nat); (0, 1%nat); (0, 1%nat); (0, 1%nat); (0, 1%nat); (0, 1%nat)]);
        ([0; 1]%nat, [(0, 1%nat); (0, 1%nat); (0, 1%nat); (0, 1%nat); (0, 1%nat); (16, 1%nat); ((-208), 3%nat); (96, 1%nat); ((-128), 3%nat); ((-208), 3%nat); (192, 1%nat); ((-128), 1%nat); (96, 1%nat); ((-128), 1%nat); ((-128), 3%nat)]);
        ([1; 1]%nat, [(0, 1%nat); (0, 1%nat); (0, 1%nat); (0, 1%nat); (0, 1%nat); (0, 1%nat); (96, 1%nat); ((-224), 1%nat); (128, 1%nat); (0, 1%nat); ((-224), 1%nat); (256, 1%nat); (0, 1%nat); (128, 1%nat); (0, 1%nat)]);
        ([2; 1]%nat, [(0, 1%nat); (0, 1%nat); (0, 1%nat); (0, 1%nat); (0, 1%nat); (0, 1%nat); ((-32), 1%nat); (160, 1%nat); ((-128), 1%nat); (0, 1%nat); (32, 1%nat); ((-128), 1%nat); (0, 1%nat); (0, 1%nat); (0, 1%nat)]);
        ([3; 1]%nat, [(0, 1%nat); (0, 1%nat); (0, 1%nat); (0, 1%nat); (0, 1%nat); (0, 1%nat); (16, 3%nat); ((-32), 1%nat); (128, 3%nat); (0, 1%nat); (0, 1%nat); (0, 1%nat); (0, 1%nat); (0, 1%nat); (0, 1%nat)]);
        ([0; 2]%nat, [(0, 1%nat); (0, 1%nat); (0, 1%nat); (0, 1%nat); (0, 1%nat); ((-12), 1%nat); (28, 1%nat); ((-16), 1%nat); (0, 1%nat); (76, 1%nat); ((-144), 1%nat); (64, 1%nat); ((-128), 1%nat); (128, 1%nat); (64, 1%nat)]);
        ([1; 2]%nat, [(0, 1%nat); (0, 1%nat); (0, 1%nat); (0, 1%nat); (0, 1%nat); (0, 1%nat); ((-32), 1%nat); (32, 1%nat); (0, 1%nat); (0, 1%nat); (160, 1%nat); ((-128), 1%nat); (0, 1%nat); ((-128), 1%nat); (0, 1%nat)]);
        ([2; 2]%nat, [(0, 1%nat); (0, 1%nat); (0, 1%nat); (0, 1%nat); (0, 1%nat); (0, 1%nat); (4, 1%nat); ((-16), 1%nat); (0, 1%nat); (0, 1%nat); ((-16), 1%nat); (64, 1%nat); (0, 1%nat); (0, 1%nat); (0, 1%nat)]);
        ([0; 3]%nat, [(0, 1%nat); (0, 1%nat); (0, 1%nat); (0, 1%nat); (0, 1%nat); (16, 3%nat); ((-16), 3%nat); (0, 1%nat); (0, 1%nat); ((-112), 3%nat); (32, 1%nat); (0, 1%nat); (224, 3%nat); ((-128), 3%nat); ((-128), 3%nat)]);
        ([1; 3]%nat, [(0, 1%nat); (0, 1%nat); (0, 1%nat); (0, 1%nat); (0, 1%nat); (0, 1%nat); (16, 3%nat); (0, 1%nat); (0, 1%nat); (0, 1%nat); ((-32), 1%nat); (0, 1%nat); (0, 1%nat); (128, 3%nat); (0, 1%nat)]);
        ([0; 4]%nat, [(0, 1%nat); (0, 1%nat); (0, 1%nat); (0, 1%nat); (0, 1%nat); ((-1), 1%nat); (0, 1%nat); (0, 1%nat); (0, 1%nat); (22, 3%nat); (0, 1%nat); (0, 1%nat); ((-16), 1%nat); (0, 1%nat); (32, 3%nat)]) ] ];
    [ (* n = 3, r = 1 *)
      [ ([0; 0; 0]%nat, [(1, 1%nat); ((-1), 1%nat); ((-1), 1%nat); ((-1), 1%nat)]);
        ([1; 0; 0]%nat, [(0, 1%nat); (1, 1%nat); (0, 1%nat); (0, 1%nat)]);
        ([0; 1; 0]%nat, [(0, 1%nat); (0, 1%nat); (1, 1%nat); (0, 1%nat)]);
        ([0; 0; 1]%nat, [(0, 1%nat); (0, 1%nat); (0, 1%nat); (1, 1%nat)]) ];
      (* n = 3, r = 2 *)
      [ ([0; 0; 0]%nat, [(1, 1%nat); ((-3), 1%nat); (2, 1%nat); ((-3), 1%nat); (4, 1%nat); (2, 1%nat); ((-3), 1%nat); (4, 1%nat); (4, 1%nat); (2, 1%nat)]);
        ([1; 0; 0]%nat, [(0, 1%nat); (4, 1%nat); ((-4), 1%nat); (0, 1%nat); ((-4), 1%nat); (0, 1%nat); (0, 1%nat); ((-4), 1%nat); (0, 1%nat); (0, 1%nat)]);
        ([2; 0; 0]%nat, [(0, 1%nat); ((-1), 1%nat); (2, 1%nat); (0, 1%nat); (0, 1%nat); (0, 1%nat); (0, 1%nat); (0, 1%nat); (0, 1%nat); (0, 1%nat)]);
        ([0; 1; 0]%nat, [(0, 1%nat); (0, 1%nat); (0, 1%nat); (4, 1%nat); ((-4), 1%nat); ((-4), 1%nat); (0, 1%nat); (0, 1%nat); ((-4), 1%nat); (0, 1%nat)]);
        ([1; 1; 0]%nat, [(0, 1%nat); (0, 1%nat); (0, 1%nat); (0, 1%nat); (4, 1%nat); (0, 1%nat); (0, 1%nat); (0, 1%nat); (0, 1%nat); (0, 1%nat)]);
        ([0; 2; 0]%nat, [(0, 1%nat); (0, 1%nat); (0, 1%nat); ((-1), 1%nat); (0, 1%nat); (2, 1%nat); (0, 1%nat); (0, 1%nat); (0, 1%nat); (0, 1%nat)]);
        ([0; 0; 1]%nat, [(0, 1%nat); (0, 1%nat); (0, 1%nat); (0, 1%nat); (0, 1%nat); (0, 1%nat); (4, 1%nat); ((-4), 1%nat); ((-4), 1%nat); ((-4), 1%nat)]);
        ([1; 0; 1]%nat, [(0, 1%nat); (0, 1%nat); (0, 1%nat); (0, 1%nat); (0, 1%nat); (0, 1%nat); (0, 1%nat); (4, 1%nat); (0, 1%nat); (0, 1%nat)]);
        ([0; 1; 1]%nat, [(0, 1%nat); (0, 1%nat); (0, 1%nat); (0, 1%nat); (0, 1%nat); (0, 1%nat); (0, 1%nat); (0, 1%nat); (4, 1%nat); (0, 1%nat)]);
        ([0; 0; 2]%nat, [(0, 1%nat); (0, 1%nat); (0, 1%nat); (0, 1%nat); (0, 1%nat); (0, 1%nat); ((-1), 1%nat); (0, 1%nat); (0, 1%nat); (2, 1%nat)]) ];
      (* n = 3, r = 3 *)
      [ ([0; 0; 0]%nat, [(1, 1%nat); ((-11), 2%nat); (9, 1%nat); ((-9), 2%nat); ((-11), 2%nat); (18, 1%nat); ((-27), 2%nat); (9, 1%nat); ((-27), 2%nat); ((-9), 2%nat); ((-11), 2%nat); (18, 1%nat); ((-27), 2%nat); (18, 1%nat); ((-27), 1%nat); ((-27), 2%nat); (9, 1%nat); ((-27), 2%nat); ((-27), 2%nat); ((-9), 2%nat)]);
        ([1; 0; 0]%nat, [(0, 1%nat); (9, 1%nat); ((-45), 2%nat); (27, 2%nat); (0, 1%nat); ((-45), 2%nat); (27, 1%nat); (0, 1%nat); (27, 2%nat); (0, 1%nat); (0, 1%nat); ((-45), 2%nat); (27, 1%nat); (0, 1%nat); (27, 1%nat); (0, 1%nat); (0, 1%nat); (27, 2%nat); (0, 1%nat); (0, 1%nat)]);
        ([2; 0; 0]%nat, [(0, 1%nat); ((-9), 2%nat); (18, 1%nat); ((-27), 2%nat); (0, 1%nat); (9, 2%nat); ((-27), 2%nat); (0, 1%nat); (0, 1%nat); (0, 1%nat); (0, 1%nat); (9, 2%nat); ((-27), 2%nat); (0, 1%nat); (0, 1%nat); (0, 1%nat); (0, 1%nat); (0, 1%nat); (0, 1%nat); (0, 1%nat)]);
        ([3; 0; 0]%nat, [(0, 1%nat); (1, 1%nat); ((-9), 2%nat); (9, 2%nat); (0, 1%nat); (0, 1%nat); (0, 1%nat); (0, 1%nat); (0, 1%nat); (0, 1%nat); (0, 1%nat); (0, 1%nat); (0, 1%nat); (0, 1%nat); (0, 1%nat); (0, 1%nat); (0, 1%nat); (0, 1%nat); (0, 1%nat); (0, 1%nat)]);
        ([0; 1; 0]%nat, [(0, 1%nat); (0, 1%nat); (0, 1%nat); (0, 1%nat); (9, 1%nat); ((-45), 2%nat); (27, 2%nat); ((-45), 2%nat); (27, 1%nat); (27, 2%nat); (0, 1%nat); (0, 1%nat); (0, 1%nat); ((-45), 2%nat); (27, 1%nat); (27, 1%nat); (0, 1%nat); (0, 1%nat); (27, 2%nat); (0, 1%nat)]);
        ([1; 1; 0]%nat, [(0, 1%nat); (0, 1%nat); (0, 1%nat); (0, 1%nat); (0, 1%nat); (27, 1%nat); ((-27), 1%nat); (0, 1%nat); ((-27), 1%nat); (0, 1%nat); (0, 1%nat); (0, 1%nat); (0, 1%nat); (0, 1%nat); ((-27), 1%nat); (0, 1%nat); (0, 1%nat); (0, 1%nat); (0, 1%nat); (0, 1%nat)]);
        ([2; 1; 0]%nat, [(0, 1%nat); (0, 1%nat); (0, 1%nat); (0, 1%nat); (0, 1%nat); ((-9), 2%nat); (27, 2%nat); (0, 1%nat); (0, 1%nat); (0, 1%nat); (0, 1%nat); (0, 1%nat); (0, 1%nat); (0, 1%nat); (0, 1%nat); (0, 1%nat); (0, 1%nat); (0, 1%nat); (0, 1%nat); (0, 1%nat)]);
        ([0; 2; 0]%nat, [(0, 1%nat); (0, 1%nat); (0, 1%nat); (0, 1%nat); ((-9), 2%nat); (9, 2%nat); (0, 1%nat); (18, 1%nat); ((-27), 2%nat); ((-27), 2%nat); (0, 1%nat); (0, 1%nat); (0, 1%nat); (9, 2%nat); (0, 1%nat); ((-27), 2%nat); (0, 1%nat); (0, 1%nat); (0, 1%nat); (0, 1%nat)]);
        ([1; 2; 0]%nat, [(0, 1%nat); (0, 1%nat); (0, 1%nat); (0, 1%nat); (0, 1%nat); ((-9), 2%nat); (0, 1%nat); (0, 1%nat); (27, 2%nat); (0, 1%nat); (0, 1%nat); (0, 1%nat); (0, 1%nat); (0, 1%nat); (0, 1%nat); (0, 1%nat); (0, 1%nat); (0, 1%nat); (0, 1%nat); (0, 1%nat)]);
        ([0; 3; 0]%nat, [(0, 1%nat); (0, 1%nat); (0, 1%nat); (0, 1%nat); (1, 1%nat); (0, 1%nat); (0, 1%nat); ((-9), 2%nat); (0, 1%nat); (9, 2%nat); (0, 1%nat); (0, 1%nat); (0, 1%nat); (0, 1%nat); (0, 1%nat); (0, 1%nat); (0, 1%nat); (0, 1%nat); (0, 1%nat); (0, 1%nat)]);
        ([0; 0; 1]%nat, [(0, 1%nat); (0, 1%nat); (0, 1%nat); (0, 1%nat); (0, 1%nat); (0, 1%nat); (0, 1%nat); (0, 1%nat); (0, 1%nat); (0, 1%nat); (9, 1%nat); ((-45), 2%nat); (27, 2%nat); ((-45), 2%nat); (27, 1%nat); (27, 2%nat); ((-45), 2%nat); (27, 1%nat); (27, 1%nat); (27, 2%nat)]);
        ([1; 0; 1]%nat, [(0, 1%nat); (0, 1%nat); (0, 1%nat); (0, 1%nat); (0, 1%nat); (0, 1%nat); (0, 1%nat); (0, 1%nat); (0, 1%nat); (0, 1%nat); (0, 1%nat); (27, 1%nat); ((-27), 1%nat); (0, 1%nat); ((-27), 1%nat); (0, 1%nat); (0, 1%nat); ((-27), 1%nat); (0, 1%nat); (0, 1%nat)]);
        ([2; 0; 1]%nat, [(0, 1%nat); (0, 1%nat); (0, 1%nat); (0, 1%nat); (0, 1%nat); (0, 1%nat); (0, 1%nat); (0, 1%nat); (0, 1%nat); (0, 1%nat); (0, 1%nat); ((-9), 2%nat); (27, 2%nat); (0, 1%nat); (0, 1%nat); (0, 1%nat); (0, 1%nat); (0, 1%nat); (0, 1%nat); (0, 1%nat)]);
        ([0; 1; 1]%nat, [(0, 1%nat); (0, 1%nat); (0, 1%nat); (0, 1%nat); (0, 1%nat); (0, 1%nat); (0, 1%nat); (0, 1%nat); (0, 1%nat); (0, 1%nat); (0, 1%nat); (0, 1%nat); (0, 1%nat); (27, 1%nat); ((-27), 1%nat); ((-27), 1%nat); (0, 1%nat); (0, 1%nat); ((-27), 1%nat); (0, 1%nat)]);
        ([1; 1; 1]%nat, [(0, 1%nat); (0, 1%nat); (0, 1%nat); (0, 1%nat); (0, 1%nat); (0, 1%nat); (0, 1%nat); (0, 1%nat); (0, 1%nat); (0, 1%nat); (0, 1%nat); (0, 1%nat); (0, 1%nat); (0, 1%nat); (27, 1%nat); (0, 1%nat); (0, 1%nat); (0, 1%nat); (0, 1%nat); (0, 1%nat)]);
        ([0; 2; 1]%nat, [(0, 1%nat); (0, 1%nat); (0, 1%nat); (0, 1%nat); (0, 1%nat); (0, 1%nat); (0, 1%nat); (0, 1%nat); (0, 1%nat); (0, 1%nat); (0, 1%nat); (0, 1%nat); (0, 1%nat); ((-9), 2%nat); (0, 1%nat); (27, 2%nat); (0, 1%nat); (0, 1%nat); (0, 1%nat); (0, 1%nat)]);
        ([0; 0; 2]%nat, [(0, 1%nat); (0, 1%nat); (0, 1%nat); (0, 1%nat); (0, 1%nat); (0, 1%nat); (0, 1%nat); (0, 1%nat); (0, 1%nat); (0, 1%nat); ((-9), 2%nat); (9, 2%nat); (0, 1%nat); (9, 2%nat); (0, 1%nat); (0, 1%nat); (18, 1%nat); ((-27), 2%nat); ((-27), 2%nat); ((-27), 2%nat)]);
        ([1; 0; 2]%nat, [(0, 1%nat); (0, 1%nat); (0, 1%nat); (0, 1%nat); (0, 1%nat); (0, 1%nat); (0, 1%nat); (0, 1%nat); (0, 1%nat); (0, 1%nat); (0, 1%nat); ((-9), 2%nat); (0, 1%nat); (0, 1%nat); (0, 1%nat); (0, 1%nat); (0, 1%nat); (27, 2%nat); (0, 1%nat); (0, 1%nat)]);
        ([0; 1; 2]%nat, [(0, 1%nat); (0, 1%nat); (0, 1%nat); (0, 1%nat); (0, 1%nat); (0, 1%nat); (0, 1%nat); (0, 1%nat); (0, 1%nat); (0, 1%nat); (0, 1%nat); (0, 1%nat); (0, 1%nat); ((-9), 2%nat); (0, 1%nat); (0, 1%nat); (0, 1%nat); (0, 1%nat); (27, 2%nat); (0, 1%nat)]);
        ([0; 0; 3]%nat, [(0, 1%nat); (0, 1%nat); (0, 1%nat); (0, 1%nat); (0, 1%nat); (0, 1%nat); (0, 1%nat); (0, 1%nat); (0, 1%nat); (0, 1%nat); (1, 1%nat); (0, 1%nat); (0, 1%nat); (0, 1%nat); (0, 1%nat); (0, 1%nat); ((-9), 2%nat); (0, 1%nat); (0, 1%nat); (9, 2%nat)]) ];
      (* n = 3, r = 4 *)
      [ ([0; 0; 0]%nat, [(1, 1%nat); ((-25), 3%nat); (70, 3%nat); ((-80), 3%nat); (32, 3%nat); ((-25), 3%nat); (140, 3%nat); ((-80), 1%nat); (128, 3%nat); (70, 3%nat); ((-80), 1%nat); (64, 1%nat); ((-80), 3%nat); (128, 3%nat); (32, 3%nat); ((-25), 3%nat); (140, 3%nat); ((-80), 1%nat); (128, 3%nat); (140, 3%nat); ((-160), 1%nat); (128, 1%nat); ((-80), 1%nat); (128, 1%nat); (128, 3%nat); (70, 3%nat); ((-80), 1%nat); (64, 1%nat); ((-80), 1%nat); (128, 1%nat); (64, 1%nat); ((-80), 3%nat); (128, 3%nat); (128, 3%nat); (32, 3%nat)]);
        ([1; 0; 0]%nat, [(0, 1%nat); (16, 1%nat); ((-208), 3%nat); (96, 1%nat); ((-128), 3%nat); (0, 1%nat); ((-208), 3%nat); (192, 1%nat); ((-128), 1%nat); (0, 1%nat); (96, 1%nat); ((-128), 1%nat); (0, 1%nat); ((-128), 3%nat); (0, 1%nat); (0, 1%nat); ((-208), 3%nat); (192, 1%nat); ((-128), 1%nat); (0, 1%nat); (192, 1%nat); ((-256), 1%nat); (0, 1%nat); ((-128), 1%nat); (0, 1%nat); (0, 1%nat); (96, 1%nat); ((-128), 1%nat); (0, 1%nat); ((-128), 1%nat); (0, 1%nat); (0, 1%nat); ((-128), 3%nat); (0, 1%nat); (0, 1%nat)]);
        ([2; 0; 0]%nat, [(0, 1%nat); ((-12), 1%nat); (76, 1%nat); ((-128), 1%nat); (64, 1%nat); (0, 1%nat); (28, 1%nat); ((-144), 1%nat); (128, 1%nat); (0, 1%nat); ((-16), 1%nat); (64, 1%nat); (0, 1%nat); (0, 1%nat); (0, 1%nat); (0, 1%nat); (28, 1%nat); ((-144), 1%nat); (128, 1%nat); (0, 1%nat); ((-32), 1%nat); (128, 1%nat); (0, 1%nat); (0, 1%nat); (0, 1%nat); (0, 1%nat); ((-16), 1%nat); (64, 1%nat); (0, 1%nat); (0, 1%nat); (0, 1%nat); (0, 1%nat); (0, 1%nat); (0, 1%nat); (0, 1%nat)]);
        ([3; 0; 0]%nat, [(0, 1%nat); (16, 3%nat); ((-112), 3%nat); (224, 3%nat); ((-128), 3%nat); (0, 1%nat); ((-16), 3%nat); (32, 1%nat); ((-128), 3%nat); (0, 1%nat); (0, 1%nat); (0, 1%nat); (0, 1%nat); (0, 1%nat); (0, 1%nat); (0, 1%nat); ((-16), 3%nat); (32, 1%nat); ((-128), 3%nat); (0, 1%nat); (0, 1%nat); (0, 1%nat); (0, 1%nat); (0, 1%nat); (0, 1%nat); (0, 1%nat); (0, 1%nat); (0, 1%nat); (0, 1%nat); (0, 1%nat); (0, 1%nat); (0, 1%nat); (0, 1%nat); (0, 1%nat); (0, 1%nat)]);
        ([4; 0; 0]%nat, [(0, 1%nat); ((-1), 1%nat); (22, 3%nat); ((-16), 1%nat); (32, 3%nat); (0, 1%nat); (0, 1%nat); (0, 1%nat); (0, 1%nat); (0, 1%nat); (0, 1%nat); (0, 1%nat); (0, 1%nat); (0, 1%nat); (0, 1%nat); (0, 1%nat); (0, 1%nat); (0, 1%nat); (0, 1%nat); (0, 1%nat); (0, 1%nat); (0, 1%nat); (0, 1%nat); (0, 1%nat); (0, 1%nat); (0, 1%nat); (0, 1%nat); (0, 1%nat); (0, 1%nat); (0, 1%nat); (0, 1%nat); (0, 1%nat); (0, 1%nat); (0, 1%nat); (0, 1%nat)]);
        ([0; 1; 0]%nat, [(0, 1%nat); (0, 1%nat); (0, 1%nat); (0, 1%nat); (0, 1%nat); (16, 1%nat); ((-208), 3%nat); (96, 1%nat); ((-128), 3%nat); ((-208), 3%nat); (192, 1%nat); ((-128), 1%nat); (96, 1%nat); ((-128), 1%nat); ((-128), 3%nat); (0, 1%nat); (0, 1%nat); (0, 1%nat); (0, 1%nat); ((-208), 3%nat); (192, 1%nat); ((-128), 1%nat); (192, 1%nat); ((-256), 1%nat); ((-128), 1%nat); (0, 1%nat); (0, 1%nat); (0, 1%nat); (96, 1%nat); ((-128), 1%nat); ((-128), 1%nat); (0, 1%nat); (0, 1%nat); ((-128), 3%nat); (0, 1%nat)]);
        ([1; 1; 0]%nat, [(0, 1%nat); (0, 1%nat); (0, 1%nat); (0, 1%nat); (0, 1%nat); (0, 1%nat); (96, 1%nat); ((-224), 1%nat); (128, 1%nat); (0, 1%nat); ((-224), 1%nat); (256, 1%nat); (0, 1%nat); (128, 1%nat); (0, 1%nat); (0, 1%nat); (0, 1%nat); (0, 1%nat); (0, 1%nat); (0, 1%nat); ((-224), 1%nat); (256, 1%nat); (0, 1%nat); (256, 1%nat); (0, 1%nat); (0, 1%nat); (0, 1%nat); (0, 1%nat); (0, 1%nat); (128, 1%nat); (0, 1%nat); (0, 1%nat); (0, 1%nat); (0, 1%nat); (0, 1%nat)]);
        ([2; 1; 0]%nat, [(0, 1%nat); (0, 1%nat); (0, 1%nat); (0, 1%nat); (0, 1%nat); (0, 1%nat); ((-32), 1%nat); (160, 1%nat); ((-128), 1%nat); (0, 1%nat); (32, 1%nat); ((-128), 1%nat); (0, 1%nat); (0, 1%nat); (0, 1%nat); (0, 1%nat); (0, 1%nat); (0, 1%nat); (0, 1%nat); (0, 1%nat); (32, 1%nat); ((-128), 1%nat); (0, 1%nat); (0, 1%nat); (0, 1%nat); (0, 1%nat); (0, 1%nat); (0, 1%nat); (0, 1%nat); (0, 1%nat); (0, 1%nat); (0, 1%nat); (0, 1%nat); (0, 1%nat); (0, 1%nat)]);
        ([3; 1; 0]%nat, [(0, 1%nat); (0, 1%nat); (0, 1%nat); (0, 1%nat); (0, 1%nat); (0, 1%nat); (16, 3%nat); ((-32), 1%nat); (128, 3%nat); (0, 1%nat); (0, 1%nat); (0, 1%nat); (0, 1%nat); (0, 1%nat); (0, 1%nat); (0, 1%nat); (0, 1%nat); (0, 1%nat); (0, 1%nat); (0, 1%nat); (0, 1%nat); (0, 1%nat); (0, 1%nat); (0, 1%nat); (0, 1%nat); (0, 1%nat); (0, 1%nat); (0, 1%nat); (0, 1%nat); (0, 1%nat); (0, 1%nat); (0, 1%nat); (0, 1%nat); (0, 1%nat); (0, 1%nat)]);
        ([0; 2; 0]%nat, [(0, 1%nat); (0, 1%nat); (0, 1%nat); (0, 1%nat); (0, 1%nat); ((-12), 1%nat); (28, 1%nat); ((-16), 1%nat); (0, 1%nat); (76, 1%nat); ((-144), 1%nat); (64, 1%nat); ((-128), 1%nat); (128, 1%nat); (64, 1%nat); (0, 1%nat); (0, 1%nat); (0, 1%nat); (0, 1%nat); (28, 1%nat); ((-32), 1%nat); (0, 1%nat); ((-144), 1%nat); (128, 1%nat); (128, 1%nat); (0, 1%nat); (0, 1%nat); (0, 1%nat); ((-16), 1%nat); (0, 1%nat); (64, 1%nat); (0, 1%nat); (0, 1%nat); (0, 1%nat); (0, 1%nat)]);
        ([1; 2; 0]%nat, [(0, 1%nat); (0, 1%nat); (0, 1%nat); (0, 1%nat); (0, 1%nat); (0, 1%nat); ((-32), 1%nat); (32, 1%nat); (0, 1%nat); (0, 1%nat); (160, 1%nat); ((-128), 1%nat); (0, 1%nat); ((-128), 1%nat); (0, 1%nat); (0, 1%nat); (0, 1%nat); (0, 1%nat); (0, 1%nat); (0, 1%nat); (32, 1%nat); (0, 1%nat); (0, 1%nat); ((-128), 1%nat); (0, 1%nat); (0, 1%nat); (0, 1%nat); (0, 1%nat); (0, 1%nat); (0, 1%nat); (0, 1%nat); (0, 1%nat); (0, 1%nat); (0, 1%nat); (0, 1%nat)]);
        ([2; 2; 0]%nat, [(0, 1%nat); (0, 1%nat); (0, 1%nat); (0, 1%nat); (0, 1%nat); (0, 1%nat); (4, 1%nat); ((-16), 1%nat); (0, 1%nat); (0, 1%nat); ((-16), 1%nat); (64, 1%nat); (0, 1%nat); (0, 1%nat); (0, 1%nat); (0, 1%nat); (0, 1%nat); (0, 1%nat); (0, 1%nat); (0, 1%nat); (0, 1%nat); (0, 1%nat); (0, 1%nat); (0, 1%nat); (0, 1%nat); (0, 1%nat); (0, 1%nat); (0, 1%nat); (0, 1%nat); (0, 1%nat); (0, 1%nat); (0, 1%nat); (0, 1%nat); (0, 1%nat); (0, 1%nat)]);
        ([0; 3; 0]%nat, [(0, 1%nat); (0, 1%nat); (0, 1%nat); (0, 1%nat); (0, 1%nat); (16, 3%nat); ((-16), 3%nat); (0, 1%nat); (0, 1%nat); ((-112), 3%nat); (32, 1%nat); (0, 1%nat); (224, 3%nat); ((-128), 3%nat); ((-128), 3%nat); (0, 1%nat); (0, 1%nat); (0, 1%nat); (0, 1%nat); ((-16), 3%nat); (0, 1%nat); (0, 1%nat); (32, 1%nat); (0, 1%nat); ((-128), 3%nat); (0, 1%nat); (0, 1%nat); (0, 1%nat); (0, 1%nat); (0, 1%nat); (0, 1%nat); (0, 1%nat); (0, 1%nat); (0, 1%nat); (0, 1%nat)]);
        ([1; 3; 0]%nat, [(0, 1%nat); (0, 1%nat); (0, 1%nat); (0, 1%nat); (0, 1%nat); (0, 1%nat); (16, 3%nat); (0, 1%nat); (0, 1%nat); (0, 1%nat); ((-32), 1%nat); (0, 1%nat); (0, 1%nat); (128, 3%nat); (0, 1%nat); (0, 1%nat); (0, 1%nat); (0, 1%nat); (0, 1%nat); (0, 1%nat); (0, 1%nat); (0, 1%nat); (0, 1%nat); (0, 1%nat); (0, 1%nat); (0, 1%nat); (0, 1%nat); (0, 1%nat); (0, 1%nat); (0, 1%nat); (0, 1%nat); (0, 1%nat); (0, 1%nat); (0, 1%nat); (0, 1%nat)]);
        ([0; 4; 0]%nat, [(0, 1%nat); (0, 1%nat); (0, 1%nat); (0, 1%nat); (0, 1%nat); ((-1), 1%nat); (0, 1%nat); (0, 1%nat); (0, 1%nat); (22, 3%nat); (0, 1%nat); (0, 1%nat); ((-16), 1%nat); (0, 1%nat); (32, 3%nat); (0, 1%nat); (0, 1%nat); (0, 1%nat); (0, 1%nat); (0, 1%nat); (0, 1%nat); (0, 1%nat); (0, 1%nat); (0, 1%nat); (0, 1%nat); (0, 1%nat); (0, 1%nat); (0, 1%nat); (0, 1%nat); (0, 1%nat); (0, 1%nat); (0, 1%nat); (0, 1%nat); (0, 1%nat); (0, 1%nat)]);
        ([0; 0; 1]%nat, [(0, 1%nat); (0, 1%nat); (0, 1%nat); (0, 1%nat); (0, 1%nat); (0, 1%nat); (0, 1%nat); (0, 1%nat); (0, 1%nat); (0, 1%nat); (0, 1%nat); (0, 1%nat); (0, 1%nat); (0, 1%nat); (0, 1%nat); (16, 1%nat); ((-208), 3%nat); (96, 1%nat); ((-128), 3%nat); ((-208), 3%nat); (192, 1%nat); ((-128), 1%nat); (96, 1%nat); ((-128), 1%nat); ((-128), 3%nat); ((-208), 3%nat); (192, 1%nat); ((-128), 1%nat); (192, 1%nat); ((-256), 1%nat); ((-128), 1%nat); (96, 1%nat); ((-128), 1%nat); ((-128), 1%nat); ((-128), 3%nat)]);
        ([1; 0; 1]%nat, [(0, 1%nat); (0, 1%nat); (0, 1%nat); (0, 1%nat); (0, 1%nat); (0, 1%nat); (0, 1%nat); (0, 1%nat); (0, 1%nat); (0, 1%nat); (0, 1%nat); (0, 1%nat); (0, 1%nat); (0, 1%nat); (0, 1%nat); (0, 1%nat); (96, 1%nat); ((-224), 1%nat); (128, 1%nat); (0, 1%nat); ((-224), 1%nat); (256, 1%nat); (0, 1%nat); (128, 1%nat); (0, 1%nat); (0, 1%nat); ((-224), 1%nat); (256, 1%nat); (0, 1%nat); (256, 1%nat); (0, 1%nat); (0, 1%nat); (128, 1%nat); (0, 1%nat); (0, 1%nat)]);
        ([2; 0; 1]%nat, [(0, 1%nat); (0, 1%nat); (0, 1%nat); (0, 1%nat); (0, 1%nat); (0, 1%nat); (0, 1%nat); (0, 1%nat); (0, 1%nat); (0, 1%nat); (0, 1%nat); (0, 1%nat); (0, 1%nat); (0, 1%nat); (0, 1%nat); (0, 1%nat); ((-32), 1%nat); (160, 1%nat); ((-128), 1%nat); (0, 1%nat); (32, 1%nat); ((-128), 1%nat); (0, 1%nat); (0, 1%nat); (0, 1%nat); (0, 1%nat); (32, 1%nat); ((-128), 1%nat); (0, 1%nat); (0, 1%nat); (0, 1%nat); (0, 1%nat); (0, 1%nat); (0, 1%nat); (0, 1%nat)]);
        ([3; 0; 1]%nat, [(0, 1%nat); (0, 1%nat); (0, 1%nat); (0, 1%nat); (0, 1%nat); (0, 1%nat); (0, 1%nat); (0, 1%nat); (0, 1%nat); (0, 1%nat); (0, 1%nat); (0, 1%nat); (0, 1%nat); (0, 1%nat); (0, 1%nat); (0, 1%nat); (16, 3%nat); ((-32), 1%nat); (128, 3%nat); (0, 1%nat); (0, 1%nat); (0, 1%nat); (0, 1%nat); (0, 1%nat); (0, 1%nat); (0, 1%nat); (0, 1%nat); (0, 1%nat); (0, 1%nat); (0, 1%nat); (0, 1%nat); (0, 1%nat); (0, 1%nat); (0, 1%nat); (0, 1%nat)]);
        ([0; 1; 1]%nat, [(0, 1%nat); (0, 1%nat); (0, 1%nat); (0, 1%nat); (0, 1%nat); (0, 1%nat); (0, 1%nat); (0, 1%nat); (0, 1%nat); (0, 1%nat); (0, 1%nat); (0, 1%nat); (0, 1%nat); (0, 1%nat); (0, 1%nat); (0, 1%nat); (0, 1%nat); (0, 1%nat); (0, 1%nat); (96, 1%nat); ((-224), 1%nat); (128, 1%nat); ((-224), 1%nat); (256, 1%nat); (128, 1%nat); (0, 1%nat); (0, 1%nat); (0, 1%nat); ((-224), 1%nat); (256, 1%nat); (256, 1%nat); (0, 1%nat); (0, 1%nat); (128, 1%nat); (0, 1%nat)]);
        ([1; 1; 1]%nat, [(0, 1%nat); (0, 1%nat); (0, 1%nat); (0, 1%nat); (0, 1%nat); (0, 1%nat); (0, 1%nat); (0, 1%nat); (0, 1%nat); (0, 1%nat); (0, 1%nat); (0, 1%nat); (0, 1%nat); (0, 1%nat); (0, 1%nat); (0, 1%nat); (0, 1%nat); (0, 1%nat); (0, 1%nat); (0, 1%nat); (256, 1%nat); ((-256), 1%nat); (0, 1%nat); ((-256), 1%nat); (0, 1%nat); (0, 1%nat); (0, 1%nat); (0, 1%nat); (0, 1%nat); ((-256), 1%nat); (0, 1%nat); (0, 1%nat); (0, 1%nat); (0, 1%nat); (0, 1%nat)]);
        ([2; 1; 1]%nat, [(0, 1%nat); (0, 1%nat); (0, 1%nat); (0, 1%nat); (0, 1%nat); (0, 1%nat); (0, 1%nat); (0, 1%nat); (0, 1%nat); (0, 1%nat); (0, 1%nat); (0, 1%nat); (0, 1%nat); (0, 1%nat); (0, 1%nat); (0, 1%nat); (0, 1%nat); (0, 1%nat); (0, 1%nat); (0, 1%nat); ((-32), 1%nat); (128, 1%nat); (0, 1%nat); (0, 1%nat); (0, 1%nat); (0, 1%nat); (0, 1%nat); (0, 1%nat); (0, 1%nat); (0, 1%nat); (0, 1%nat); (0, 1%nat); (0, 1%nat); (0, 1%nat); (0, 1%nat)]);
        ([0; 2; 1]%nat, [(0, 1%nat); (0, 1%nat); (0, 1%nat); (0, 1%nat); (0, 1%nat); (0, 1%nat); (0, 1%nat); (0, 1%nat); (0, 1%nat); (0, 1%nat); (0, 1%nat); (0, 1%nat); (0, 1%nat); (0, 1%nat); (0, 1%nat); (0, 1%nat); (0, 1%nat); (0, 1%nat); (0, 1%nat); ((-32), 1%nat); (32, 1%nat); (0, 1%nat); (160, 1%nat); ((-128), 1%nat); ((-128), 1%nat); (0, 1%nat); (0, 1%nat); (0, 1%nat); (32, 1%nat); (0, 1%nat); ((-128), 1%nat); (0, 1%nat); (0, 1%nat); (0, 1%nat); (0, 1%nat)]);
        ([1; 2; 1]%nat, [(0, 1%nat); (0, 1%nat); (0, 1%nat); (0, 1%nat); (0, 1%nat); (0, 1%nat); (0, 1%nat); (0, 1%nat); (0, 1%nat); (0, 1%nat); (0, 1%nat); (0, 1%nat); (0, 1%nat); (0, 1%nat); (0, 1%nat); (0, 1%nat); (0, 1%nat); (0, 1%nat); (0, 1%nat); (0, 1%nat); ((-32), 1%nat); (0, 1%nat); (0, 1%nat); (128, 1%nat); (0, 1%nat); (0, 1%nat); (0, 1%nat); (0, 1%nat); (0, 1%nat); (0, 1%nat); (0, 1%nat); (0, 1%nat); (0, 1%nat); (0, 1%nat); (0, 1%nat)]);
        ([0; 3; 1]%nat, [(0, 1%nat); (0, 1%nat); (0, 1%nat); (0, 1%nat); (0, 1%nat); (0, 1%nat); (0, 1%nat); (0, 1%nat); (0, 1%nat); (0, 1%nat); (0, 1%nat); (0, 1%nat); (0, 1%nat); (0, 1%nat); (0, 1%nat); (0, 1%nat); (0, 1%nat); (0, 1%nat); (0, 1%nat); (16, 3%nat); (0, 1%nat); (0, 1%nat); ((-32), 1%nat); (0, 1%nat); (128, 3%nat); (0, 1%nat); (0, 1%nat); (0, 1%nat); (0, 1%nat); (0, 1%nat); (0, 1%nat); (0, 1%nat); (0, 1%nat); (0, 1%nat); (0, 1%nat)]);
        ([0; 0; 2]%nat, [(0, 1%nat); (0, 1%nat); (0, 1%nat); (0, 1%nat); (0, 1%nat); (0, 1%nat); (0, 1%nat); (0, 1%nat); (0, 1%nat); (0, 1%nat); (0, 1%nat); (0, 1%nat); (0, 1%nat); (0, 1%nat); (0, 1%nat); ((-12), 1%nat); (28, 1%nat); ((-16), 1%nat); (0, 1%nat); (28, 1%nat); ((-32), 1%nat); (0, 1%nat); ((-16), 1%nat); (0, 1%nat); (0, 1%nat); (76, 1%nat); ((-144), 1%nat); (64, 1%nat); ((-144), 1%nat); (128, 1%nat); (64, 1%nat); ((-128), 1%nat); (128, 1%nat); (128, 1%nat); (64, 1%nat)]);
        ([1; 0; 2]%nat, [(0, 1%nat); (0, 1%nat); (0, 1%nat); (0, 1%nat); (0, 1%nat); (0, 1%nat); (0, 1%nat); (0, 1%nat); (0, 1%nat); (0, 1%nat); (0, 1%nat); (0, 1%nat); (0, 1%nat); (0, 1%nat); (0, 1%nat); (0, 1%nat); ((-32), 1%nat); (32, 1%nat); (0, 1%nat); (0, 1%nat); (32, 1%nat); (0, 1%nat); (0, 1%nat); (0, 1%nat); (0, 1%nat); (0, 1%nat); (160, 1%nat); ((-128), 1%nat); (0, 1%nat); ((-128), 1%nat); (0, 1%nat); (0, 1%nat); ((-128), 1%nat); (0, 1%nat); (0, 1%nat)]);
        ([2; 0; 2]%nat, [(0, 1%nat); (0, 1%nat); (0, 1%nat); (0, 1%nat); (0, 1%nat); (0, 1%nat); (0, 1%nat); (0, 1%nat); (0, 1%nat); (0, 1%nat); (0, 1%nat); (0, 1%nat); (0, 1%nat); (0, 1%nat); (0, 1%nat); (0, 1%nat); (4, 1%nat); ((-16), 1%nat); (0, 1%nat); (0, 1%nat); (0, 1%nat); (0, 1%nat); (0, 1%nat); (0, 1%nat); (0, 1%nat); (0, 1%nat); ((-16), 1%nat); (64, 1%nat); (0, 1%nat); (0, 1%nat); (0, 1%nat); (0, 1%nat); (0, 1%nat); (0, 1%nat); (0, 1%nat)]);
        ([0; 1; 2]%nat, [(0, 1%nat); (0, 1%nat); (0, 1%nat); (0, 1%nat); (0, 1%nat); (0, 1%nat); (0, 1%nat); (0, 1%nat); (0, 1%nat); (0, 1%nat); (0, 1%nat); (0, 1%nat); (0, 1%nat); (0, 1%nat); (0, 1%nat); (0, 1%nat); (0, 1%nat); (0, 1%nat); (0, 1%nat); ((-32), 1%nat); (32, 1%nat); (0, 1%nat); (32, 1%nat); (0, 1%nat); (0, 1%nat); (0, 1%nat); (0, 1%nat); (0, 1%nat); (160, 1%nat); ((-128), 1%nat); ((-128), 1%nat); (0, 1%nat); (0, 1%nat); ((-128), 1%nat); (0, 1%nat)]);
        ([1; 1; 2]%nat, [(0, 1%nat); (0, 1%nat); (0, 1%nat); (0, 1%nat); (0, 1%nat); (0, 1%nat); (0, 1%nat); (0, 1%nat); (0, 1%nat); (0, 1%nat); (0, 1%nat); (0, 1%nat); (0, 1%nat); (0, 1%nat); (0, 1%nat); (0, 1%nat); (0, 1%nat); (0, 1%nat); (0, 1%nat); (0, 1%nat); ((-32), 1%nat); (0, 1%nat); (0, 1%nat); (0, 1%nat); (0, 1%nat); (0, 1%nat); (0, 1%nat); (0, 1%nat); (0, 1%nat); (128, 1%nat); (0, 1%nat); (0, 1%nat); (0, 1%nat); (0, 1%nat); (0, 1%nat)]);
        ([0; 2; 2]%nat, [(0, 1%nat); (0, 1%nat); (0, 1%nat); (0, 1%nat); (0, 1%nat); (0, 1%nat); (0, 1%nat); (0, 1%nat); (0, 1%nat); (0, 1%nat); (0, 1%nat); (0, 1%nat); (0, 1%nat); (0, 1%nat); (0, 1%nat); (0, 1%nat); (0, 1%nat); (0, 1%nat); (0, 1%nat); (4, 1%nat); (0, 1%nat); (0, 1%nat); ((-16), 1%nat); (0, 1%nat); (0, 1%nat); (0, 1%nat); (0, 1%nat); (0, 1%nat); ((-16), 1%nat); (0, 1%nat); (64, 1%nat); (0, 1%nat); (0, 1%nat); (0, 1%nat); (0, 1%nat)]);
        ([0; 0; 3]%nat, [(0, 1%nat); (0, 1%nat); (0, 1%nat); (0, 1%nat); (0, 1%nat); (0, 1%nat); (0, 1%nat); (0, 1%nat); (0, 1%nat); (0, 1%nat); (0, 1%nat); (0, 1%nat); (0, 1%nat); (0, 1%nat); (0, 1%nat); (16, 3%nat); ((-16), 3%nat); (0, 1%nat); (0, 1%nat); ((-16), 3%nat); (0, 1%nat); (0, 1%nat); (0, 1%nat); (0, 1%nat); (0, 1%nat); ((-112), 3%nat); (32, 1%nat); (0, 1%nat); (32, 1%nat); (0, 1%nat); (0, 1%nat); (224, 3%nat); ((-128), 3%nat); ((-128), 3%nat); ((-128), 3%nat)]);
        ([1; 0; 3]%nat, [(0, 1%nat); (0, 1%nat); (0, 1%nat); (0, 1%nat); (0, 1%nat); (0, 1%nat); (0, 1%nat); (0, 1%nat); (0, 1%nat); (0, 1%nat); (0, 1%nat); (0, 1%nat); (0, 1%nat); (0, 1%nat); (0, 1%nat); (0, 1%nat); (16, 3%nat); (0, 1%nat); (0, 1%nat); (0, 1%nat); (0, 1%nat); (0, 1%nat); (0, 1%nat); (0, 1%nat); (0, 1%nat); (0, 1%nat); ((-32), 1%nat); (0, 1%nat); (0, 1%nat); (0, 1%nat); (0, 1%nat); (0, 1%nat); (128, 3%nat); (0, 1%nat); (0, 1%nat)]);
        ([0; 1; 3]%nat, [(0, 1%nat); (0, 1%nat); (0, 1%nat); (0, 1%nat); (0, 1%nat); (0, 1%nat); (0, 1%nat); (0, 1%nat); (0, 1%nat); (0, 1%nat); (0, 1%nat); (0, 1%nat); (0, 1%nat); (0, 1%nat); (0, 1%nat); (0, 1%nat); (0, 1%nat); (0, 1%nat); (0, 1%nat); (16, 3%nat); (0, 1%nat); (0, 1%nat); (0, 1%nat); (0, 1%nat); (0, 1%nat); (0, 1%nat); (0, 1%nat); (0, 1%nat); ((-32), 1%nat); (0, 1%nat); (0, 1%nat); (0, 1%nat); (0, 1%nat); (128, 3%nat); (0, 1%nat)]);
        ([0; 0; 4]%nat, [(0, 1%nat); (0, 1%nat); (0, 1%nat); (0, 1%nat); (0, 1%nat); (0, 1%nat); (0, 1%nat); (0, 1%nat); (0, 1%nat); (0, 1%nat); (0, 1%nat); (0, 1%nat); (0, 1%nat); (0, 1%nat); (0, 1%nat); ((-1), 1%nat); (0, 1%nat); (0, 1%nat); (0, 1%nat); (0, 1%nat); (0, 1%nat); (0, 1%nat); (0, 1%nat); (0, 1%nat); (0, 1%nat); (22, 3%nat); (0, 1%nat); (0, 1%nat); (0, 1%nat); (0, 1%nat); (0, 1%nat); ((-16), 1%nat); (0, 1%nat); (0, 1%nat); (32, 3%nat)]) ] ];
    [ (* n = 4, r = 1 *)
      [ ([0; 0; 0; 0]%nat, [(1, 1%nat); ((-1), 1%nat); ((-1), 1%nat); ((-1), 1%nat); ((-1), 1%nat)]);
        ([1; 0; 0; 0]%nat, [(0, 1%nat); (1, 1%nat); (0, 1%nat); (0, 1%nat); (0, 1%nat)]);
        ([0; 1; 0; 0]%nat, [(0, 1%nat); (0, 1%nat); (1, 1%nat); (0, 1%nat); (0, 1%nat)]);
        ([0; 0; 1; 0]%nat, [(0, 1%nat); (0, 1%nat); (0, 1%nat); (1, 1%nat); (0, 1%nat)]);
        ([0; 0; 0; 1]%nat, [(0, 1%nat); (0, 1%nat); (0, 1%nat); (0, 1%nat); (1, 1%nat)]) ];
      (* n = 4, r = 2 *)
      [ ([0; 0; 0; 0]%nat, [(1, 1%nat); ((-3), 1%nat); (2, 1%nat); ((-3), 1%nat); (4, 1%nat); (2, 1%nat); ((-3), 1%nat); (4, 1%nat); (4, 1%nat); (2, 1%nat); ((-3), 1%nat); (4, 1%nat); (4, 1%nat); (4, 1%nat); (2, 1%nat)]);
        ([1; 0; 0; 0]%nat, [(0, 1%nat); (4, 1%nat); ((-4), 1%nat); (0, 1%nat); ((-4), 1%nat); (0, 1%nat); (0, 1%nat); ((-4), 1%nat); (0, 1%nat); (0, 1%nat); (0, 1%nat); ((-4), 1%nat); (0, 1%nat); (0, 1%nat); (0, 1%nat)]);
        ([2; 0; 0; 0]%nat, [(0, 1%nat); ((-1), 1%nat); (2, 1%nat); (0, 1%nat); (0, 1%nat); (0, 1%nat); (0, 1%nat); (0, 1%nat); (0, 1%nat); (0, 1%nat); (0, 1%nat); (0, 1%nat); (0, 1%nat); (0, 1%nat); (0, 1%nat)]);
        ([0; 1; 0; 0]%nat, [(0, 1%nat); (0, 1%nat); (0, 1%nat); (4, 1%nat); ((-4), 1%nat); ((-4), 1%nat); (0, 1%nat); (0, 1%nat); ((-4), 1%nat); (0, 1%nat); (0, 1%nat); (0, 1%nat); ((-4), 1%nat); (0, 1%nat); (0, 1%nat)]);
        ([1; 1; 0; 0]%nat, [(0, 1%nat); (0, 1%nat); (0, 1%nat); (0, 1%nat); (4, 1%nat); (0, 1%nat); (0, 1%nat); (0, 1%nat); (0, 1%nat); (0, 1%nat); (0, 1%nat); (0, 1%nat); (0, 1%nat); (0, 1%nat); (0, 1%nat)]);
        ([0; 2; 0; 0]%nat, [(0, 1%nat); (0, 1%nat); (0, 1%nat); ((-1), 1%nat); (0, 1%nat); (2, 1%nat); (0, 1%nat); (0, 1%nat); (0, 1%nat); (0, 1%nat); (0, 1%nat); (0, 1%nat); (0, 1%nat); (0, 1%nat); (0, 1%nat)]);
        ([0; 0; 1; 0]%nat, [(0, 1%nat); (0, 1%nat); (0, 1%nat); (0, 1%nat); (0, 1%nat); (0, 1%nat); (4, 1%nat); ((-4), 1%nat); ((-4), 1%nat); ((-4), 1%nat); (0, 1%nat); (0, 1%nat); (0, 1%nat); ((-4), 1%nat); (0, 1%nat)]);
        ([1; 0; 1; 0]%nat, [(0, 1%nat); (0, 1%nat); (0, 1%nat); (0, 1%nat); (0, 1%nat); (0, 1%nat); (0, 1%nat); (4, 1%nat); (0, 1%nat); (0, 1%nat); (0, 1%nat); (0, 1%nat); (0, 1%nat); (0, 1%nat); (0, 1%nat)]);
        ([0; 1; 1; 0]%nat, [(0, 1%nat); (0, 1%nat); (0, 1%nat); (0, 1%nat); (0, 1%nat); (0, 1%nat); (0, 1%nat); (0, 1%nat); (4, 1%nat); (0, 1%nat); (0, 1%nat); (0, 1%nat); (0, 1%nat); (0, 1%nat); (0, 1%nat)]);
        ([0; 0; 2; 0]%nat, [(0, 1%nat); (0, 1%nat); (0, 1%nat); (0, 1%nat); (0, 1%nat); (0, 1%nat); ((-1), 1%nat); (0, 1%nat); (0, 1%nat); (2, 1%nat); (0, 1%nat); (0, 1%nat); (0, 1%nat); (0, 1%nat); (0, 1%nat)]);
        ([0; 0; 0; 1]%nat, [(0, 1%nat); (0, 1%nat); (0, 1%nat); (0, 1%nat); (0, 1%nat); (0, 1%nat); (0, 1%nat); (0, 1%nat); (0, 1%nat); (0, 1%nat); (4, 1%nat); ((-4), 1%nat); ((-4), 1%nat); ((-4), 1%nat); ((-4), 1%nat)]);
        ([1; 0; 0; 1]%nat, [(0, 1%nat); (0, 1%nat); (0, 1%nat); (0, 1%nat); (0, 1%nat); (0, 1%nat); (0, 1%nat); (0, 1%nat); (0, 1%nat); (0, 1%nat); (0, 1%nat); (4, 1%nat); (0, 1%nat); (0, 1%nat); (0, 1%nat)]);
        ([0; 1; 0; 1]%nat, [(0, 1%nat); (0, 1%nat); (0, 1%nat); (0, 1%nat); (0, 1%nat); (0, 1%nat); (0, 1%nat); (0, 1%nat); (0, 1%nat); (0, 1%nat); (0, 1%nat); (0, 1%nat); (4, 1%nat); (0, 1%nat); (0, 1%nat)]);
        ([0; 0; 1; 1]%nat, [(0, 1%nat); (0, 1%nat); (0, 1%nat); (0, 1%nat); (0, 1%nat); (0, 1%nat); (0, 1%nat); (0, 1%nat); (0, 1%nat); (0, 1%nat); (0, 1%nat); (0, 1%nat); (0, 1%nat); (4, 1%nat); (0, 1%nat)]);
        ([0; 0; 0; 2]%nat, [(0, 1%nat); (0, 1%nat); (0, 1%nat); (0, 1%nat); (0, 1%nat); (0, 1%nat); (0, 1%nat); (0, 1%nat); (0, 1%nat); (0, 1%nat); ((-1), 1%nat); (0, 1%nat); (0, 1%nat); (0, 1%nat); (2, 1%nat)]) ];
      (* n = 4, r = 3 *)
      [ ([0; 0; 0; 0]%nat, [(1, 1%nat); ((-11), 2%nat); (9, 1%nat); ((-9), 2%nat); ((-11), 2%nat); (18, 1%nat); ((-27), 2%nat); (9, 1%nat); ((-27), 2%nat); ((-9), 2%nat); ((-11), 2%nat); (18, 1%nat); ((-27), 2%nat); (18, 1%nat); ((-27), 1%nat); ((-27), 2%nat); (9, 1%nat); ((-27), 2%nat); ((-27), 2%nat); ((-9), 2%nat); ((-11), 2%nat); (18, 1%nat); ((-27), 2%nat); (18, 1%nat); ((-27), 1%nat); ((-27), 2%nat); (18, 1%nat); ((-27), 1%nat); ((-27), 1%nat); ((-27), 2%nat); (9, 1%nat); ((-27), 2%nat); ((-27), 2%nat); ((-27), 2%nat); ((-9), 2%nat)]);
        ([1; 0; 0; 0]%nat, [(0, 1%nat); (9, 1%nat); ((-45), 2%nat); (27, 2%nat); (0, 1%nat); ((-45), 2%nat); (27, 1%nat); (0, 1%nat); (27, 2%nat); (0, 1%nat); (0, 1%nat); ((-45), 2%nat); (27, 1%nat); (0, 1%nat); (27, 1%nat); (0, 1%nat); (0, 1%nat); (27, 2%nat); (0, 1%nat); (0, 1%nat); (0, 1%nat); ((-45), 2%nat); (27, 1%nat); (0, 1%nat); (27, 1%nat); (0, 1%nat); (0, 1%nat); (27, 1%nat); (0, 1%nat); (0, 1%nat); (0, 1%nat); (27, 2%nat); (0, 1%nat); (0, 1%nat); (0, 1%nat)]);
        ([2; 0; 0; 0]%nat, [(0, 1%nat); ((-9), 2%nat); (18, 1%nat); ((-27), 2%nat); (0, 1%nat); (9, 2%nat); ((-27), 2%nat); (0, 1%nat); (0, 1%nat); (0, 1%nat); (0, 1%nat); (9, 2%nat); ((-27), 2%nat); (0, 1%nat); (0, 1%nat); (0, 1%nat); (0, 1%nat); (0, 1%nat); (0, 1%nat); (0, 1%nat); (0, 1%nat); (9, 2%nat); ((-27), 2%nat); (0, 1%nat); (0, 1%nat); (0, 1%nat); (0, 1%nat); (0, 1%nat); (0, 1%nat); (0, 1%nat); (0, 1%nat); (0, 1%nat); (0, 1%nat); (0, 1%nat); (0, 1%nat)]);
        ([3; 0; 0; 0]%nat, [(0, 1%nat); (1, 1%nat); ((-9), 2%nat); (9, 2%nat); (0, 1%nat); (0, 1%nat); (0, 1%nat); (0, 1%nat); (0, 1%nat); (0, 1%nat); (0, 1%nat); (0, 1%nat); (0, 1%nat); (0, 1%nat); (0, 1%nat); (0, 1%nat); (0, 1%nat); (0, 1%nat); (0, 1%nat); (0, 1%nat); (0, 1%nat); (0, 1%nat); (0, 1%nat); (0, 1%nat); (0, 1%nat); (0, 1%nat); (0, 1%nat); (0, 1%nat); (0, 1%nat); (0, 1%nat); (0, 1%nat); (0, 1%nat); (0, 1%nat); (0, 1%nat); (0, 1%nat)]);
        ([0; 1; 0; 0]%nat, [(0, 1%nat); (0, 1%nat); (0, 1%nat); (0, 1%nat); (9, 1%nat); ((-45), 2%nat); (27, 2%nat); ((-45), 2%nat); (27, 1%nat); (27, 2%nat); (0, 1%nat); (0, 1%nat); (0, 1%nat); ((-45), 2%nat); (27, 1%nat); (27, 1%nat); (0, 1%nat); (0, 1%nat); (27, 2%nat); (0, 1%nat); (0, 1%nat); (0, 1%nat); (0, 1%nat); ((-45), 2%nat); (27, 1%nat); (27, 1%nat); (0, 1%nat); (0, 1%nat); (27, 1%nat); (0, 1%nat); (0, 1%nat); (0, 1%nat); (27, 2%nat); (0, 1%nat); (0, 1%nat)]);
        ([1; 1; 0; 0]%nat, [(0, 1%nat); (0, 1%nat); (0, 1%nat); (0, 1%nat); (0, 1%nat); (27, 1%nat); ((-27), 1%nat); (0, 1%nat); ((-27), 1%nat); (0, 1%nat); (0, 1%nat); (0, 1%nat); (0, 1%nat); (0, 1%nat); ((-27), 1%nat); (0, 1%nat); (0, 1%nat); (0, 1%nat); (0, 1%nat); (0, 1%nat); (0, 1%nat); (0, 1%nat); (0, 1%nat); (0, 1%nat); ((-27), 1%nat); (0, 1%nat); (0, 1%nat); (0, 1%nat); (0, 1%nat); (0, 1%nat); (0, 1%nat); (0, 1%nat); (0, 1%nat); (0, 1%nat); (0, 1%nat)]);
        ([2; 1; 0; 0]%nat, [(0, 1%nat); (0, 1%nat); (0, 1%nat); (0, 1%nat); (0, 1%nat); ((-9), 2%nat); (27, 2%nat); (0, 1%nat); (0, 1%nat); (0, 1%nat); (0, 1%nat); (0, 1%nat); (0, 1%nat); (0, 1%nat); (0, 1%nat); (0, 1%nat); (0, 1%nat); (0, 1%nat); (0, 1%nat); (0, 1%nat); (0, 1%nat); (0, 1%nat); (0, 1%nat); (0, 1%nat); (0, 1%nat); (0, 1%nat); (0, 1%nat); (0, 1%nat); (0, 1%nat); (0, 1%nat); (0, 1%nat); (0, 1%nat); (0, 1%nat); (0, 1%nat); (0, 1%nat)]);
        ([0; 2; 0; 0]%nat, [(0, 1%nat); (0, 1%nat); (0, 1%nat); (0, 1%nat); ((-9), 2%nat); (9, 2%nat); (0, 1%nat); (18, 1%nat); ((-27), 2%nat); ((-27), 2%nat); (0, 1%nat); (0, 1%nat); (0, 1%nat); (9, 2%nat); (0, 1%nat); ((-27), 2%nat); (0, 1%nat); (0, 1%nat); (0, 1%nat); (0, 1%nat); (0, 1%nat); (0, 1%nat); (0, 1%nat); (9, 2%nat); (0, 1%nat); ((-27), 2%nat); (0, 1%nat); (0, 1%nat); (0, 1%nat); (0, 1%nat); (0, 1%nat); (0, 1%nat); (0, 1%nat); (0, 1%nat); (0, 1%nat)]);
        ([1; 2; 0; 0]%nat, [(0, 1%nat); (0, 1%nat); (0, 1%nat); (0, 1%nat); (0, 1%nat); ((-9), 2%nat); (0, 1%nat); (0, 1%nat); (27, 2%nat); (0, 1%nat); (0, 1%nat); (0, 1%nat); (0, 1%nat); (0, 1%nat); (0, 1%nat); (0, 1%nat); (0, 1%nat); (0, 1%nat); (0, 1%nat); (0, 1%nat); (0, 1%nat); (0, 1%nat); (0, 1%nat); (0, 1%nat); (0, 1%nat); (0, 1%nat); (0, 1%nat); (0, 1%nat); (0, 1%nat); (0, 1%nat); (0, 1%nat); (0, 1%nat); (0, 1%nat); (0, 1%nat); (0, 1%nat)]);
        ([0; 3; 0; 0]%nat, [(0, 1%nat); (0, 1%nat); (0, 1%nat); (0, 1%nat); (1, 1%nat); (0, 1%nat); (0, 1%nat); ((-9), 2%nat); (0, 1%nat); (9, 2%nat); (0, 1%nat); (0, 1%nat); (0, 1%nat); (0, 1%nat); (0, 1%nat); (0, 1%nat); (0, 1%nat); (0, 1%nat); (0, 1%nat); (0, 1%nat); (0, 1%nat); (0, 1%nat); (0, 1%nat); (0, 1%nat); (0, 1%nat); (0, 1%nat); (0, 1%nat); (0, 1%nat); (0, 1%nat); (0, 1%nat); (0, 1%nat); (0, 1%nat); (0, 1%nat); (0, 1%nat); (0, 1%nat)]);
        ([0; 0; 1; 0]%nat, [(0, 1%nat); (0, 1%nat); (0, 1%nat); (0, 1%nat); (0, 1%nat); (0, 1%nat); (0, 1%nat); (0, 1%nat); (0, 1%nat); (0, 1%nat); (9, 1%nat); ((-45), 2%nat); (27, 2%nat); ((-45), 2%nat); (27, 1%nat); (27, 2%nat); ((-45), 2%nat); (27, 1%nat); (27, 1%nat); (27, 2%nat); (0, 1%nat); (0, 1%nat); (0, 1%nat); (0, 1%nat); (0, 1%nat); (0, 1%nat); ((-45), 2%nat); (27, 1%nat); (27, 1%nat); (27, 1%nat); (0, 1%nat); (0, 1%nat); (0, 1%nat); (27, 2%nat); (0, 1%nat)]);
        ([1; 0; 1; 0]%nat, [(0, 1%nat); (0, 1%nat); (0, 1%nat); (0, 1%nat); (0, 1%nat); (0, 1%nat); (0, 1%nat); (0, 1%nat); (0, 1%nat); (0, 1%nat); (0, 1%nat); (27, 1%nat); ((-27), 1%nat); (0, 1%nat); ((-27), 1%nat); (0, 1%nat); (0, 1%nat); ((-27), 1%nat); (0, 1%nat); (0, 1%nat); (0, 1%nat); (0, 1%nat); (0, 1%nat); (0, 1%nat); (0, 1%nat); (0, 1%nat); (0, 1%nat); ((-27), 1%nat); (0, 1%nat); (0, 1%nat); (0, 1%nat); (0, 1%nat); (0, 1%nat); (0, 1%nat); (0, 1%nat)]);
        ([2; 0; 1; 0]%nat, [(0, 1%nat); (0, 1%nat); (0, 1%nat); (0, 1%nat); (0, 1%nat); (0, 1%nat); (0, 1%nat); (0, 1%nat); (0, 1%nat); (0, 1%nat); (0, 1%nat); ((-9), 2%nat); (27, 2%nat); (0, 1%nat); (0, 1%nat); (0, 1%nat); (0, 1%nat); (0, 1%nat); (0, 1%nat); (0, 1%nat); (0, 1%nat); (0, 1%nat); (0, 1%nat); (0, 1%nat); (0, 1%nat); (0, 1%nat); (0, 1%nat); (0, 1%nat); (0, 1%nat); (0, 1%nat); (0, 1%nat); (0, 1%nat); (0, 1%nat); (0, 1%nat); (0, 1%nat)]);
        ([0; 1; 1; 0]%nat, [(0, 1%nat); (0, 1%nat); (0, 1%nat); (0, 1%nat); (0, 1%nat); (0, 1%nat); (0, 1%nat); (0, 1%nat); (0, 1%nat); (0, 1%nat); (0, 1%nat); (0, 1%nat); (0, 1%nat); (27, 1%nat); ((-27), 1%nat); ((-27), 1%nat); (0, 1%nat); (0, 1%nat); ((-27), 1%nat); (0, 1%nat); (0, 1%nat); (0, 1%nat); (0, 1%nat); (0, 1%nat); (0, 1%nat); (0, 1%nat); (0, 1%nat); (0, 1%nat); ((-27), 1%nat); (0, 1%nat); (0, 1%nat); (0, 1%nat); (0, 1%nat); (0, 1%nat); (0, 1%nat)]);
        ([1; 1; 1; 0]%nat, [(0, 1%nat); (0, 1%nat); (0, 1%nat); (0, 1%nat); (0, 1%nat); (0, 1%nat); (0, 1%nat); (0, 1%nat); (0, 1%nat); (0, 1%nat); (0, 1%nat); (0, 1%nat); (0, 1%nat); (0, 1%nat); (27, 1%nat); (0, 1%nat); (0, 1%nat); (0, 1%nat); (0, 1%nat); (0, 1%nat); (0, 1%nat); (0, 1%nat); (0, 1%nat); (0, 1%nat); (0, 1%nat); (0, 1%nat); (0, 1%nat); (0, 1%nat); (0, 1%nat); (0, 1%nat); (0, 1%nat); (0, 1%nat); (0, 1%nat); (0, 1%nat); (0, 1%nat)]);
        ([0; 2; 1; 0]%nat, [(0, 1%nat); (0, 1%nat); (0, 1%nat); (0, 1%nat); (0, 1%nat); (0, 1%nat); (0, 1%nat); (0, 1%nat); (0, 1%nat); (0, 1%nat); (0, 1%nat); (0, 1%nat); (0, 1%nat); ((-9), 2%nat); (0, 1%nat); (27, 2%nat); (0, 1%nat); (0, 1%nat); (0, 1%nat); (0, 1%nat); (0, 1%nat); (0, 1%nat); (0, 1%nat); (0, 1%nat); (0, 1%nat); (0, 1%nat); (0, 1%nat); (0, 1%nat); (0, 1%nat); (0, 1%nat); (0, 1%nat); (0, 1%nat); (0, 1%nat); (0, 1%nat); (0, 1%nat)]);
        ([0; 0; 2; 0]%nat, [(0, 1%nat); (0, 1%nat); (0, 1%nat); (0, 1%nat); (0, 1%nat); (0, 1%nat); (0, 1%nat); (0, 1%nat); (0, 1%nat); (0, 1%nat); ((-9), 2%nat); (9, 2%nat); (0, 1%nat); (9, 2%nat); (0, 1%nat); (0, 1%nat); (18, 1%nat); ((-27), 2%nat); ((-27), 2%nat); ((-27), 2%nat); (0, 1%nat); (0, 1%nat); (0, 1%nat); (0, 1%nat); (0, 1%nat); (0, 1%nat); (9, 2%nat); (0, 1%nat); (0, 1%nat); ((-27), 2%nat); (0, 1%nat); (0, 1%nat); (0, 1%nat); (0, 1%nat); (0, 1%nat)]);
        ([1; 0; 2; 0]%nat, [(0, 1%nat); (0, 1%nat); (0, 1%nat); (0, 1%nat); (0, 1%nat); (0, 1%nat); (0, 1%nat); (0, 1%nat); (0, 1%nat); (0, 1%nat); (0, 1%nat); ((-9), 2%nat); (0, 1%nat); (0, 1%nat); (0, 1%nat); (0, 1%nat); (0, 1%nat); (27, 2%nat); (0, 1%nat); (0, 1%nat); (0, 1%nat); (0, 1%nat); (0, 1%nat); (0, 1%nat); (0, 1%nat); (0, 1%nat); (0, 1%nat); (0, 1%nat); (0, 1%nat); (0, 1%nat); (0, 1%nat); (0, 1%nat); (0, 1%nat); (0, 1%nat); (0, 1%nat)]);
        ([0; 1; 2; 0]%nat, [(0, 1%nat); (0, 1%nat); (0, 1%nat); (0, 1%nat); (0, 1%nat); (0, 1%nat); (0, 1%nat); (0, 1%nat); (0, 1%nat); (0, 1%nat); (0, 1%nat); (0, 1%nat); (0, 1%nat); ((-9), 2%nat); (0, 1%nat); (0, 1%nat); (0, 1%nat); (0, 1%nat); (27, 2%nat); (0, 1%nat); (0, 1%nat); (0, 1%nat); (0, 1%nat); (0, 1%nat); (0, 1%nat); (0, 1%nat); (0, 1%nat); (0, 1%nat); (0, 1%nat); (0, 1%nat); (0, 1%nat); (0, 1%nat); (0, 1%nat); (0, 1%nat); (0, 1%nat)]);
        ([0; 0; 3; 0]%nat, [(0, 1%nat); (0, 1%nat); (0, 1%nat); (0, 1%nat); (0, 1%nat); (0, 1%nat); (0, 1%nat); (0, 1%nat); (0, 1%nat); (0, 1%nat); (1, 1%nat); (0, 1%nat); (0, 1%nat); (0, 1%nat); (0, 1%nat); (0, 1%nat); ((-9), 2%nat); (0, 1%nat); (0, 1%nat); (9, 2%nat); (0, 1%nat); (0, 1%nat); (0, 1%nat); (0, 1%nat); (0, 1%nat); (0, 1%nat); (0, 1%nat); (0, 1%nat); (0, 1%nat); (0, 1%nat); (0, 1%nat); (0, 1%nat); (0, 1%nat); (0, 1%nat); (0, 1%nat)]);
        ([0; 0; 0; 1]%nat, [(0, 1%nat); (0, 1%nat); (0, 1%nat); (0, 1%nat); (0, 1%nat); (0, 1%nat); (0, 1%nat); (0, 1%nat); (0, 1%nat); (0, 1%nat); (0, 1%nat); (0, 1%nat); (0, 1%nat); (0, 1%nat); (0, 1%nat); (0, 1%nat); (0, 1%nat); (0, 1%nat); (0, 1%nat); (0, 1%nat); (9, 1%nat); ((-45), 2%nat); (27, 2%nat); ((-45), 2%nat); (27, 1%nat); (27, 2%nat); ((-45), 2%nat); (27, 1%nat); (27, 1%nat); (27, 2%nat); ((-45), 2%nat); (27, 1%nat); (27, 1%nat); (27, 1%nat); (27, 2%nat)]);
        ([1; 0; 0; 1]%nat, [(0, 1%nat); (0, 1%nat); (0, 1%nat); (0, 1%nat); (0, 1%nat); (0, 1%nat); (0, 1%nat); (0, 1%nat); (0, 1%nat); (0, 1%nat); (0, 1%nat); (0, 1%nat); (0, 1%nat); (0, 1%nat); (0, 1%nat); (0, 1%nat); (0, 1%nat); (0, 1%nat); (0, 1%nat); (0, 1%nat); (0, 1%nat); (27, 1%nat); ((-27), 1%nat); (0, 1%nat); ((-27), 1%nat); (0, 1%nat); (0, 1%nat); ((-27), 1%nat); (0, 1%nat); (0, 1%nat); (0, 1%nat); ((-27), 1%nat); (0, 1%nat); (0, 1%nat); (0, 1%nat)]);
        ([2; 0; 0; 1]%nat, [(0, 1%nat); (0, 1%nat); (0, 1%nat); (0, 1%nat); (0, 1%nat); (0, 1%nat); (0, 1%nat); (0, 1%nat); (0, 1%nat); (0, 1%nat); (0, 1%nat); (0, 1%nat); (0, 1%nat); (0, 1%nat); (0, 1%nat); (0, 1%nat); (0, 1%nat); (0, 1%nat); (0, 1%nat); (0, 1%nat); (0, 1%nat); ((-9), 2%nat); (27, 2%nat); (0, 1%nat); (0, 1%nat); (0, 1%nat); (0, 1%nat); (0, 1%nat); (0, 1%nat); (0, 1%nat); (0, 1%nat); (0, 1%nat); (0, 1%nat); (0, 1%nat); (0, 1%nat)]);
        ([0; 1; 0; 1]%nat, [(0, 1%nat); (0, 1%nat); (0, 1%nat); (0, 1%nat); (0, 1%nat); (0, 1%nat); (0, 1%nat); (0, 1%nat); (0, 1%nat); (0, 1%nat); (0, 1%nat); (0, 1%nat); (0, 1%nat); (0, 1%nat); (0, 1%nat); (0, 1%nat); (0, 1%nat); (0, 1%nat); (0, 1%nat); (0, 1%nat); (0, 1%nat); (0, 1%nat); (0, 1%nat); (27, 1%nat); ((-27), 1%nat); ((-27), 1%nat); (0, 1%nat); (0, 1%nat); ((-27), 1%nat); (0, 1%nat); (0, 1%nat); (0, 1%nat); ((-27), 1%nat); (0, 1%nat); (0, 1%nat)]);
        ([1; 1; 0; 1]%nat, [(0, 1%nat); (0, 1%nat); (0, 1%nat); (0, 1%nat); (0, 1%nat); (0, 1%nat); (0, 1%nat); (0, 1%nat); (0, 1%nat); (0, 1%nat); (0, 1%nat); (0, 1%nat); (0, 1%nat); (0, 1%nat); (0, 1%nat); (0, 1%nat); (0, 1%nat); (0, 1%nat); (0, 1%nat); (0, 1%nat); (0, 1%nat); (0, 1%nat); (0, 1%nat); (0, 1%nat); (27, 1%nat); (0, 1%nat); (0, 1%nat); (0, 1%nat); (0, 1%nat); (0, 1%nat); (0, 1%nat); (0, 1%nat); (0, 1%nat); (0, 1%nat); (0, 1%nat)]);
        ([0; 2; 0; 1]%nat, [(0, 1%nat); (0, 1%nat); (0, 1%nat); (0, 1%nat); (0, 1%nat); (0, 1%nat); (0, 1%nat); (0, 1%nat); (0, 1%nat); (0, 1%nat); (0, 1%nat); (0, 1%nat); (0, 1%nat); (0, 1%nat); (0, 1%nat); (0, 1%nat); (0, 1%nat); (0, 1%nat); (0, 1%nat); (0, 1%nat); (0, 1%nat); (0, 1%nat); (0, 1%nat); ((-9), 2%nat); (0, 1%nat); (27, 2%nat); (0, 1%nat); (0, 1%nat); (0, 1%nat); (0, 1%nat); (0, 1%nat); (0, 1%nat); (0, 1%nat); (0, 1%nat); (0, 1%nat)]);
        ([0; 0; 1; 1]%nat, [(0, 1%nat); (0, 1%nat); (0, 1%nat); (0, 1%nat); (0, 1%nat); (0, 1%nat); (0, 1%nat); (0, 1%nat); (0, 1%nat); (0, 1%nat); (0, 1%nat); (0, 1%nat); (0, 1%nat); (0, 1%nat); (0, 1%nat); (0, 1%nat); (0, 1%nat); (0, 1%nat); (0, 1%nat); (0, 1%nat); (0, 1%nat); (0, 1%nat); (0, 1%nat); (0, 1%nat); (0, 1%nat); (0, 1%nat); (27, 1%nat); ((-27), 1%nat); ((-27), 1%nat); ((-27), 1%nat); (0, 1%nat); (0, 1%nat); (0, 1%nat); ((-27), 1%nat); (0, 1%nat)]);
        ([1; 0; 1; 1]%nat, [(0, 1%nat); (0, 1%nat); (0, 1%nat); (0, 1%nat); (0, 1%nat); (0, 1%nat); (0, 1%nat); (0, 1%nat); (0, 1%nat); (0, 1%nat); (0, 1%nat); (0, 1%nat); (0, 1%nat); (0, 1%nat); (0, 1%nat); (0, 1%nat); (0, 1%nat); (0, 1%nat); (0, 1%nat); (0, 1%nat); (0, 1%nat); (0, 1%nat); (0, 1%nat); (0, 1%nat); (0, 1%nat); (0, 1%nat); (0, 1%nat); (27, 1%nat); (0, 1%nat); (0, 1%nat); (0, 1%nat); (0, 1%nat); (0, 1%nat); (0, 1%nat); (0, 1%nat)]);
        ([0; 1; 1; 1]%nat, [(0, 1%nat); (0, 1%nat); (0, 1%nat); (0, 1%nat); (0, 1%nat); (0, 1%nat); (0, 1%nat); (0, 1%nat); (0, 1%nat); (0, 1%nat); (0, 1%nat); (0, 1%nat); (0, 1%nat); (0, 1%nat); (0, 1%nat); (0, 1%nat); (0, 1%nat); (0, 1%nat); (0, 1%nat); (0, 1%nat); (0, 1%nat); (0, 1%nat); (0, 1%nat); (0, 1%nat); (0, 1%nat); (0, 1%nat); (0, 1%nat); (0, 1%nat); (27, 1%nat); (0, 1%nat); (0, 1%nat); (0, 1%nat); (0, 1%nat); (0, 1%nat); (0, 1%nat)]);
        ([0; 0; 2; 1]%nat, [(0, 1%nat); (0, 1%nat); (0, 1%nat); (0, 1%nat); (0, 1%nat); (0, 1%nat); (0, 1%nat); (0, 1%nat); (0, 1%nat); (0, 1%nat); (0, 1%nat); (0, 1%nat); (0, 1%nat); (0, 1%nat); (0, 1%nat); (0, 1%nat); (0, 1%nat); (0, 1%nat); (0, 1%nat); (0, 1%nat); (0, 1%nat); (0, 1%nat); (0, 1%nat); (0, 1%nat); (0, 1%nat); (0, 1%nat); ((-9), 2%nat); (0, 1%nat); (0, 1%nat); (27, 2%nat); (0, 1%nat); (0, 1%nat); (0, 1%nat); (0, 1%nat); (0, 1%nat)]);
        ([0; 0; 0; 2]%nat, [(0, 1%nat); (0, 1%nat); (0, 1%nat); (0, 1%nat); (0, 1%nat); (0, 1%nat); (0, 1%nat); (0, 1%nat); (0, 1%nat); (0, 1%nat); (0, 1%nat); (0, 1%nat); (0, 1%nat); (0, 1%nat); (0, 1%nat); (0, 1%nat); (0, 1%nat); (0, 1%nat); (0, 1%nat); (0, 1%nat); ((-9), 2%nat); (9, 2%nat); (0, 1%nat); (9, 2%nat); (0, 1%nat); (0, 1%nat); (9, 2%nat); (0, 1%nat); (0, 1%nat); (0, 1%nat); (18, 1%nat); ((-27), 2%nat); ((-27), 2%nat); ((-27), 2%nat); ((-27), 2%nat)]);
        ([1; 0; 0; 2]%nat, [(0, 1%nat); (0, 1%nat); (0, 1%nat); (0, 1%nat); (0, 1%nat); (0, 1%nat); (0, 1%nat); (0, 1%nat); (0, 1%nat); (0, 1%nat); (0, 1%nat); (0, 1%nat); (0, 1%nat); (0, 1%nat); (0, 1%nat); (0, 1%nat); (0, 1%nat); (0, 1%nat); (0, 1%nat); (0, 1%nat); (0, 1%nat); ((-9), 2%nat); (0, 1%nat); (0, 1%nat); (0, 1%nat); (0, 1%nat); (0, 1%nat); (0, 1%nat); (0, 1%nat); (0, 1%nat); (0, 1%nat); (27, 2%nat); (0, 1%nat); (0, 1%nat); (0, 1%nat)]);
        ([0; 1; 0; 2]%nat, [(0, 1%nat); (0, 1%nat); (0, 1%nat); (0, 1%nat); (0, 1%nat); (0, 1%nat); (0, 1%nat); (0, 1%nat); (0, 1%nat); (0, 1%nat); (0, 1%nat); (0, 1%nat); (0, 1%nat); (0, 1%nat); (0, 1%nat); (0, 1%nat); (0, 1%nat); (0, 1%nat); (0, 1%nat); (0, 1%nat); (0, 1%nat); (0, 1%nat); (0, 1%nat); ((-9), 2%nat); (0, 1%nat); (0, 1%nat); (0, 1%nat); (0, 1%nat); (0, 1%nat); (0, 1%nat); (0, 1%nat); (0, 1%nat); (27, 2%nat); (0, 1%nat); (0, 1%nat)]);
        ([0; 0; 1; 2]%nat, [(0, 1%nat); (0, 1%nat); (0, 1%nat); (0, 1%nat); (0, 1%nat); (0, 1%nat); (0, 1%nat); (0, 1%nat); (0, 1%nat); (0, 1%nat); (0, 1%nat); (0, 1%nat); (0, 1%nat); (0, 1%nat); (0, 1%nat); (0, 1%nat); (0, 1%nat); (0, 1%nat); (0, 1%nat); (0, 1%nat); (0, 1%nat); (0, 1%nat); (0, 1%nat); (0, 1%nat); (0, 1%nat); (0, 1%nat); ((-9), 2%nat); (0, 1%nat); (0, 1%nat); (0, 1%nat); (0, 1%nat); (0, 1%nat); (0, 1%nat); (27, 2%nat); (0, 1%nat)]);
        ([0; 0; 0; 3]%nat, [(0, 1%nat); (0, 1%nat); (0, 1%nat); (0, 1%nat); (0, 1%nat); (0, 1%nat); (0, 1%nat); (0, 1%nat); (0, 1%nat); (0, 1%nat); (0, 1%nat); (0, 1%nat); (0, 1%nat); (0, 1%nat); (0, 1%nat); (0, 1%nat); (0, 1%nat); (0, 1%nat); (0, 1%nat); (0, 1%nat); (1, 1%nat); (0, 1%nat); (0, 1%nat); (0, 1%nat); (0, 1%nat); (0, 1%nat); (0, 1%nat); (0, 1%nat); (0, 1%nat); (0, 1%nat); ((-9), 2%nat); (0, 1%nat); (0, 1%nat); (0, 1%nat); (9, 2%nat)]) ];
      (* n = 4, r = 4 *)
      [ ([0; 0; 0; 0]%nat, [(1, 1%nat); ((-25), 3%nat); (70, 3%nat); ((-80), 3%nat); (32, 3%nat); ((-25), 3%nat); (140, 3%nat); ((-80), 1%nat); (128, 3%nat); (70, 3%nat); ((-80), 1%nat); (64, 1%nat); ((-80), 3%nat); (128, 3%nat); (32, 3%nat); ((-25), 3%nat); (140, 3%nat); ((-80), 1%nat); (128, 3%nat); (140, 3%nat); ((-160), 1%nat); (128, 1%nat); ((-80), 1%nat); (128, 1%nat); (128, 3%nat); (70, 3%nat); ((-80), 1%nat); (64, 1%nat); ((-80), 1%nat); (128, 1%nat); (64, 1%nat); ((-80), 3%nat); (128, 3%nat); (128, 3%nat); (32, 3%nat); ((-25), 3%nat); (140, 3%nat); ((-80), 1%nat); (128, 3%nat); (140, 3%nat); ((-160), 1%nat); (128, 1%nat); ((-80), 1%nat); (128, 1%nat); (128, 3%nat); (140, 3%nat); ((-160), 1%nat); (128, 1%nat); ((-160), 1%nat); (256, 1%nat); (128, 1%nat); ((-80), 1%nat); (128, 1%nat); (128, 1%nat); (128, 3%nat); (70, 3%nat); ((-80), 1%nat); (64, 1%nat); ((-80), 1%nat); (128, 1%nat); (64, 1%nat); ((-80), 1%nat); (128, 1%nat); (128, 1%nat); (64, 1%nat); ((-80), 3%nat); (128, 3%nat); (128, 3%nat); (128, 3%nat); (32, 3%nat)]);
        ([1; 0; 0; 0]%nat, [(0, 1%nat); (16, 1%nat); ((-208), 3%nat); (96, 1%nat); ((-128), 3%nat); (0, 1%nat); ((-208), 3%nat); (192, 1%nat); ((-128), 1%nat); (0, 1%nat); (96, 1%nat); ((-128), 1%nat); (0, 1%nat); ((-128), 3%nat); (0, 1%nat); (0, 1%nat); ((-208), 3%nat); (192, 1%nat); ((-128), 1%nat); (0, 1%nat); (192, 1%nat); ((-256), 1%nat); (0, 1%nat); ((-128), 1%nat); (0, 1%nat); (0, 1%nat); (96, 1%nat); ((-128), 1%nat); (0, 1%nat); ((-128), 1%nat); (0, 1%nat); (0, 1%nat); ((-128), 3%nat); (0, 1%nat); (0, 1%nat); (0, 1%nat); ((-208), 3%nat); (192, 1%nat); ((-128), 1%nat); (0, 1%nat); (192, 1%nat); ((-256), 1%nat); (0, 1%nat); ((-128), 1%nat); (0, 1%nat); (0, 1%nat); (192, 1%nat); ((-256), 1%nat); (0, 1%nat); ((-256), 1%nat); (0, 1%nat); (0, 1%nat); ((-128), 1%nat); (0, 1%nat); (0, 1%nat); (0, 1%nat); (96, 1%nat); ((-128), 1%nat); (0, 1%nat); ((-128), 1%nat); (0, 1%nat); (0, 1%nat); ((-128), 1%nat); (0, 1%nat); (0, 1%nat); (0, 1%nat); ((-128), 3%nat); (0, 1%nat); (0, 1%nat); (0, 1%nat)]);
        ([2; 0; 0; 0]%nat, [(0, 1%nat); ((-12), 1%nat); (76, 1%nat); ((-128), 1%nat); (64, 1%nat); (0, 1%nat); (28, 1%nat); ((-144), 1%nat); (128, 1%nat); (0, 1%nat); ((-16), 1%nat); (64, 1%nat); (0, 1%nat); (0, 1%nat); (0, 1%nat); (0, 1%nat); (28, 1%nat); ((-144), 1%nat); (128, 1%nat); (0, 1%nat); ((-32), 1%nat); (128, 1%nat); (0, 1%nat); (0, 1%nat); (0, 1%nat); (0, 1%nat); ((-16), 1%nat); (64, 1%nat); (0, 1%nat); (0, 1%nat); (0, 1%nat); (0, 1%nat); (0, 1%nat); (0, 1%nat); (0, 1%nat); (0, 1%nat); (28, 1%nat); ((-144), 1%nat); (128, 1%nat); (0, 1%nat); ((-32), 1%nat); (128, 1%nat); (0, 1%nat); (0, 1%nat); (0, 1%nat); (0, 1%nat); ((-32), 1%nat); (128, 1%nat); (0, 1%nat); (0, 1%nat); (0, 1%nat); (0, 1%nat); (0, 1%nat); (0, 1%nat); (0, 1%nat); (0, 1%nat); ((-16), 1%nat); (64, 1%nat); (0, 1%nat); (0, 1%nat); (0, 1%nat); (0, 1%nat); (0, 1%nat); (0, 1%nat); (0, 1%nat); (0, 1%nat); (0, 1%nat); (0, 1%nat); (0, 1%nat); (0, 1%nat)]);
        ([3; 0; 0; 0]%nat, [(0, 1%nat); (16, 3%nat); ((-112), 3%nat); (224, 3%nat); ((-128), 3%nat); (0, 1%nat); ((-16), 3%nat); (32, 1%nat); ((-128), 3%nat); (0, 1%nat); (0, 1%nat); (0, 1%nat); (0, 1%nat); (0, 1%nat); (0, 1%nat); (0, 1%nat); ((-16), 3%nat); (32, 1%nat); ((-128), 3%nat); (0, 1%nat); (0, 1%nat); (0, 1%nat); (0, 1%nat); (0, 1%nat); (0, 1%nat); (0, 1%nat); (0, 1%nat); (0, 1%nat); (0, 1%nat); (0, 1%nat); (0, 1%nat); (0, 1%nat); (0, 1%nat); (0, 1%nat); (0, 1%nat); (0, 1%nat); ((-16), 3%nat); (32, 1%nat); ((-128), 3%nat); (0, 1%nat); (0, 1%nat); (0, 1%nat); (0, 1%nat); (0, 1%nat); (0, 1%nat); (0, 1%nat); (0, 1%nat); (0, 1%nat); (0, 1%nat); (0, 1%nat); (0, 1%nat); (0, 1%nat); (0, 1%nat); (0, 1%nat); (0, 1%nat); (0, 1%nat); (0, 1%nat); (0, 1%nat); (0, 1%nat); (0, 1%nat); (0, 1%nat); (0, 1%nat); (0, 1%nat); (0, 1%nat); (0, 1%nat); (0, 1%nat); (0, 1%nat); (0, 1%nat); (0, 1%nat); (0, 1%nat)]);
        ([4; 0; 0; 0]%nat, [(0, 1%nat); ((-1), 1%nat); (22, 3%nat); ((-16), 1%nat); (32, 3%nat); (0, 1%nat); (0, 1%nat); (0, 1%nat); (0, 1%nat); (0, 1%nat); (0, 1%nat); (0, 1%nat); (0, 1%nat); (0, 1%nat); (0, 1%nat); (0, 1%nat); (0, 1%nat); (0, 1%nat); (0, 1%nat); (0, 1%nat); (0, 1%nat); (0, 1%nat); (0, 1%nat); (0, 1%nat); (0, 1%nat); (0, 1%nat); (0, 1%nat); (0, 1%nat); (0, 1%nat); (0, 1%nat); (0, 1%nat); (0, 1%nat); (0, 1%nat); (0, 1%nat); (0, 1%nat); (0, 1%nat); (0, 1%nat); (0, 1%nat); (0, 1%nat); (0, 1%nat); (0, 1%nat); (0, 1%nat); (0, 1%nat); (0, 1%nat); (0, 1%nat); (0, 1%nat); (0, 1%nat); (0, 1%nat); (0, 1%nat); (0, 1%nat); (0, 1%nat); (0, 1%nat); (0, 1%nat); (0, 1%nat); (0, 1%nat); (0, 1%nat); (0, 1%nat); (0, 1%nat); (0, 1%nat); (0, 1%nat); (0, 1%nat); (0, 1%nat); (0, 1%nat); (0, 1%nat); (0, 1%nat); (0, 1%nat); (0, 1%nat); (0, 1%nat); (0, 1%nat); (0, 1%nat)]);
        ([0; 1; 0; 0]%nat, [(0, 1%nat); (0, 1%nat); (0, 1%nat); (0, 1%nat); (0, 1%nat); (16, 1%nat); ((-208), 3%nat); (96, 1%nat); ((-128), 3%nat); ((-208), 3%nat); (192, 1%nat); ((-128), 1%nat); (96, 1%nat); ((-128), 1%nat); ((-128), 3%nat); (0, 1%nat); (0, 1%nat); (0, 1%nat); (0, 1%nat); ((-208), 3%nat); (192, 1%nat); ((-128), 1%nat); (192, 1%nat); ((-256), 1%nat); ((-128), 1%nat); (0, 1%nat); (0, 1%nat); (0, 1%nat); (96, 1%nat); ((-128), 1%nat); ((-128), 1%nat); (0, 1%nat); (0, 1%nat); ((-128), 3%nat); (0, 1%nat); (0, 1%nat); (0, 1%nat); (0, 1%nat); (0, 1%nat); ((-208), 3%nat); (192, 1%nat); ((-128), 1%nat); (192, 1%nat); ((-256), 1%nat); ((-128), 1%nat); (0, 1%nat); (0, 1%nat); (0, 1%nat); (192, 1%nat); ((-256), 1%nat); ((-256), 1%nat); (0, 1%nat); (0, 1%nat); ((-128), 1%nat); (0, 1%nat); (0, 1%nat); (0, 1%nat); (0, 1%nat); (96, 1%nat); ((-128), 1%nat); ((-128), 1%nat); (0, 1%nat); (0, 1%nat); ((-128), 1%nat); (0, 1%nat); (0, 1%nat); (0, 1%nat); ((-128), 3%nat); (0, 1%nat); (0, 1%nat)]);
        ([1; 1; 0; 0]%nat, [(0, 1%nat); (0, 1%nat); (0, 1%nat); (0, 1%nat); (0, 1%nat); (0, 1%nat); (96, 1%nat); ((-224), 1%nat); (128, 1%nat); (0, 1%nat); ((-224), 1%nat); (256, 1%nat); (0, 1%nat); (128, 1%nat); (0, 1%nat); (0, 1%nat); (0, 1%nat); (0, 1%nat); (0, 1%nat); (0, 1%nat); ((-224), 1%nat); (256, 1%nat); (0, 1%nat); (256, 1%nat); (0, 1%nat); (0, 1%nat); (0, 1%nat); (0, 1%nat); (0, 1%nat); (128, 1%nat); (0, 1%nat); (0, 1%nat); (0, 1%nat); (0, 1%nat); (0, 1%nat); (0, 1%nat); (0, 1%nat); (0, 1%nat); (0, 1%nat); (0, 1%nat); ((-224), 1%nat); (256, 1%nat); (0, 1%nat); (256, 1%nat); (0, 1%nat); (0, 1%nat); (0, 1%nat); (0, 1%nat); (0, 1%nat); (256, 1%nat); (0, 1%nat); (0, 1%nat); (0, 1%nat); (0, 1%nat); (0, 1%nat); (0, 1%nat); (0, 1%nat); (0, 1%nat); (0, 1%nat); (128, 1%nat); (0, 1%nat); (0, 1%nat); (0, 1%nat); (0, 1%nat); (0, 1%nat); (0, 1%nat); (0, 1%nat); (0, 1%nat); (0, 1%nat); (0, 1%nat)]);
        ([2; 1; 0; 0]%nat, [(0, 1%nat); (0, 1%nat); (0, 1%nat); (0, 1%nat); (0, 1%nat); (0, 1%nat); ((-32), 1%nat); (160, 1%nat); ((-128), 1%nat); (0, 1%nat); (32, 1%nat); ((-128), 1%nat); (0, 1%nat); (0, 1%nat); (0, 1%nat); (0, 1%nat); (0, 1%nat); (0, 1%nat); (0, 1%nat); (0, 1%nat); (32, 1%nat); ((-128), 1%nat); (0, 1%nat); (0, 1%nat); (0, 1%nat); (0, 1%nat); (0, 1%nat); (0, 1%nat); (0, 1%nat); (0, 1%nat); (0, 1%nat); (0, 1%nat); (0, 1%nat); (0, 1%nat); (0, 1%nat); (0, 1%nat); (0, 1%nat); (0, 1%nat); (0, 1%nat); (0, 1%nat); (32, 1%nat); ((-128), 1%nat); (0, 1%nat); (0, 1%nat); (0, 1%nat); (0, 1%nat); (0, 1%nat); (0, 1%nat); (0, 1%nat); (0, 1%nat); (0, 1%nat); (0, 1%nat); (0, 1%nat); (0, 1%nat); (0, 1%nat); (0, 1%nat); (0, 1%nat); (0, 1%nat); (0, 1%nat); (0, 1%nat); (0, 1%nat); (0, 1%nat); (0, 1%nat); (0, 1%nat); (0, 1%nat); (0, 1%nat); (0, 1%nat); (0, 1%nat); (0, 1%nat); (0, 1%nat)]);
        ([3; 1; 0; 0]%nat, [(0, 1%nat); (0, 1%nat); (0, 1%nat); (0, 1%nat); (0, 1%nat); (0, 1%nat); (16, 3%nat); ((-32), 1%nat); (128, 3%nat); (0, 1%nat); (0, 1%nat); (0, 1%nat); (0, 1%nat); (0, 1%nat); (0, 1%nat); (0, 1%nat); (0, 1%nat); (0, 1%nat); (0, 1%nat); (0, 1%nat); (0, 1%nat); (0, 1%nat); (0, 1%nat); (0, 1%nat); (0, 1%nat); (0, 1%nat); (0, 1%nat); (0, 1%nat); (0, 1%nat); (0, 1%nat); (0, 1%nat); (0, 1%nat); (0, 1%nat); (0, 1%nat); (0, 1%nat); (0, 1%nat); (0, 1%nat); (0, 1%nat); (0, 1%nat); (0, 1%nat); (0, 1%nat); (0, 1%nat); (0, 1%nat); (0, 1%nat); (0, 1%nat); (0, 1%nat); (0, 1%nat); (0, 1%nat); (0, 1%nat); (0, 1%nat); (0, 1%nat); (0, 1%nat); (0, 1%nat); (0, 1%nat); (0, 1%nat); (0, 1%nat); (0, 1%nat); (0, 1%nat); (0, 1%nat); (0, 1%nat); (0, 1%nat); (0, 1%nat); (0, 1%nat); (0, 1%nat); (0, 1%nat); (0, 1%nat); (0, 1%nat); (0, 1%nat); (0, 1%nat); (0, 1%nat)]);
        ([0; 2; 0; 0]%nat, [(0, 1%nat); (0, 1%nat); (0, 1%nat); (0, 1%nat); (0, 1%nat); ((-12), 1%nat); (28, 1%nat); ((-16), 1%nat); (0, 1%nat); (76, 1%nat); ((-144), 1%nat); (64, 1%nat); ((-128), 1%nat); (128, 1%nat); (64, 1%nat); (0, 1%nat); (0, 1%nat); (0, 1%nat); (0, 1%nat); (28, 1%nat); ((-32), 1%nat); (0, 1%nat); ((-144), 1%nat); (128, 1%nat); (128, 1%nat); (0, 1%nat); (0, 1%nat); (0, 1%nat); ((-16), 1%nat); (0, 1%nat); (64, 1%nat); (0, 1%nat); (0, 1%nat); (0, 1%nat); (0, 1%nat); (0, 1%nat); (0, 1%nat); (0, 1%nat); (0, 1%nat); (28, 1%nat); ((-32), 1%nat); (0, 1%nat); ((-144), 1%nat); (128, 1%nat); (128, 1%nat); (0, 1%nat); (0, 1%nat); (0, 1%nat); ((-32), 1%nat); (0, 1%nat); (128, 1%nat); (0, 1%nat); (0, 1%nat); (0, 1%nat); (0, 1%nat); (0, 1%nat); (0, 1%nat); (0, 1%nat); ((-16), 1%nat); (0, 1%nat); (64, 1%nat); (0, 1%nat); (0, 1%nat); (0, 1%nat); (0, 1%nat); (0, 1%nat); (0, 1%nat); (0, 1%nat); (0, 1%nat); (0, 1%nat)]);
        ([1; 2; 0; 0]%nat, [(0, 1%nat); (0, 1%nat); (0, 1%nat); (0, 1%nat); (0, 1%nat); (0, 1%nat); ((-32), 1%nat); (32, 1%nat); (0, 1%nat); (0, 1%nat); (160, 1%nat); ((-128), 1%nat); (0, 1%nat); ((-128), 1%nat); (0, 1%nat); (0, 1%nat); (0, 1%nat); (0, 1%nat); (0, 1%nat); (0, 1%nat); (32, 1%nat); (0, 1%nat); (0, 1%nat); ((-128), 1%nat); (0, 1%nat); (0, 1%nat); (0, 1%nat); (0, 1%nat); (0, 1%nat); (0, 1%nat); (0, 1%nat); (0, 1%nat); (0, 1%nat); (0, 1%nat); (0, 1%nat); (0, 1%nat); (0, 1%nat); (0, 1%nat); (0, 1%nat); (0, 1%nat); (32, 1%nat); (0, 1%nat); (0, 1%nat); ((-128), 1%nat); (0, 1%nat); (0, 1%nat); (0, 1%nat); (0, 1%nat); (0, 1%nat); (0, 1%nat); (0, 1%nat); (0, 1%nat); (0, 1%nat); (0, 1%nat); (0, 1%nat); (0, 1%nat); (0, 1%nat); (0, 1%nat); (0, 1%nat); (0, 1%nat); (0, 1%nat); (0, 1%nat); (0, 1%nat); (0, 1%nat); (0, 1%nat); (0, 1%nat); (0, 1%nat); (0, 1%nat); (0, 1%nat); (0, 1%nat)]);
        ([2; 2; 0; 0]%nat, [(0, 1%nat); (0, 1%nat); (0, 1%nat); (0, 1%nat); (0, 1%nat); (0, 1%nat); (4, 1%nat); ((-16), 1%nat); (0, 1%nat); (0, 1%nat); ((-16), 1%nat); (64, 1%nat); (0, 1%nat); (0, 1%nat); (0, 1%nat); (0, 1%nat); (0, 1%nat); (0, 1%nat); (0, 1%nat); (0, 1%nat); (0, 1%nat); (0, 1%nat); (0, 1%nat); (0, 1%nat); (0, 1%nat); (0, 1%nat); (0, 1%nat); (0, 1%nat); (0, 1%nat); (0, 1%nat); (0, 1%nat); (0, 1%nat); (0, 1%nat); (0, 1%nat); (0, 1%nat); (0, 1%nat); (0, 1%nat); (0, 1%nat); (0, 1%nat); (0, 1%nat); (0, 1%nat); (0, 1%nat); (0, 1%nat); (0, 1%nat); (0, 1%nat); (0, 1%nat); (0, 1%nat); (0, 1%nat); (0, 1%nat); (0, 1%nat); (0, 1%nat); (0, 1%nat); (0, 1%nat); (0, 1%nat); (0, 1%nat); (0, 1%nat); (0, 1%nat); (0, 1%nat); (0, 1%nat); (0, 1%nat); (0, 1%nat); (0, 1%nat); (0, 1%nat); (0, 1%nat); (0, 1%nat); (0, 1%nat); (0, 1%nat); (0, 1%nat); (0, 1%nat); (0, 1%nat)]);
        ([0; 3; 0; 0]%nat, [(0, 1%nat); (0, 1%nat); (0, 1%nat); (0, 1%nat); (0, 1%nat); (16, 3%nat); ((-16), 3%nat); (0, 1%nat); (0, 1%nat); ((-112), 3%nat); (32, 1%nat); (0, 1%nat); (224, 3%nat); ((-128), 3%nat); ((-128), 3%nat); (0, 1%nat); (0, 1%nat); (0, 1%nat); (0, 1%nat); ((-16), 3%nat); (0, 1%nat); (0, 1%nat); (32, 1%nat); (0, 1%nat); ((-128), 3%nat); (0, 1%nat); (0, 1%nat); (0, 1%nat); (0, 1%nat); (0, 1%nat); (0, 1%nat); (0, 1%nat); (0, 1%nat); (0, 1%nat); (0, 1%nat); (0, 1%nat); (0, 1%nat); (0, 1%nat); (0, 1%nat); ((-16), 3%nat); (0, 1%nat); (0, 1%nat); (32, 1%nat); (0, 1%nat); ((-128), 3%nat); (0, 1%nat); (0, 1%nat); (0, 1%nat); (0, 1%nat); (0, 1%nat); (0, 1%nat); (0, 1%nat); (0, 1%nat); (0, 1%nat); (0, 1%nat); (0, 1%nat); (0, 1%nat); (0, 1%nat); (0, 1%nat); (0, 1%nat); (0, 1%nat); (0, 1%nat); (0, 1%nat); (0, 1%nat); (0, 1%nat); (0, 1%nat); (0, 1%nat); (0, 1%nat); (0, 1%nat); (0, 1%nat)]);
        ([1; 3; 0; 0]%nat, [(0, 1%nat); (0, 1%nat); (0, 1%nat); (0, 1%nat); (0, 1%nat); (0, 1%nat); (16, 3%nat); (0, 1%nat); (0, 1%nat); (0, 1%nat); ((-32), 1%nat); (0, 1%nat); (0, 1%nat); (128, 3%nat); (0, 1%nat); (0, 1%nat); (0, 1%nat); (0, 1%nat); (0, 1%nat); (0, 1%nat); (0, 1%nat); (0, 1%nat); (0, 1%nat); (0, 1%nat); (0, 1%nat); (0, 1%nat); (0, 1%nat); (0, 1%nat); (0, 1%nat); (0, 1%nat); (0, 1%nat); (0, 1%nat); (0, 1%nat); (0, 1%nat); (0, 1%nat); (0, 1%nat); (0, 1%nat); (0, 1%nat); (0, 1%nat); (0, 1%nat); (0, 1%nat); (0, 1%nat); (0, 1%nat); (0, 1%nat); (0, 1%nat); (0, 1%nat); (0, 1%nat); (0, 1%nat); (0, 1%nat); (0, 1%nat); (0, 1%nat); (0, 1%nat); (0, 1%nat); (0, 1%nat); (0, 1%nat); (0, 1%nat); (0, 1%nat); (0, 1%nat); (0, 1%nat); (0, 1%nat); (0, 1%nat); (0, 1%nat); (0, 1%nat); (0, 1%nat); (0, 1%nat); (0, 1%nat); (0, 1%nat); (0, 1%nat); (0, 1%nat); (0, 1%nat)]);
        ([0; 4; 0; 0]%nat, [(0, 1%nat); (0, 1%nat); (0, 1%nat); (0, 1%nat); (0, 1%nat); ((-1), 1%nat); (0, 1%nat); (0, 1%nat); (0, 1%nat); (22, 3%nat); (0, 1%nat); (0, 1%nat); ((-16), 1%nat); (0, 1%nat); (32, 3%nat); (0, 1%nat); (0, 1%nat); (0, 1%nat); (0, 1%nat); (0, 1%nat); (0, 1%nat); (0, 1%nat); (0, 1%nat); (0, 1%nat); (0, 1%nat); (0, 1%nat); (0, 1%nat); (0, 1%nat); (0, 1%nat); (0, 1%nat); (0, 1%nat); (0, 1%nat); (0, 1%nat); (0, 1%nat); (0, 1%nat); (0, 1%nat); (0, 1%nat); (0, 1%nat); (0, 1%nat); (0, 1%nat); (0, 1%nat); (0, 1%nat); (0, 1%nat); (0, 1%nat); (0, 1%nat); (0, 1%nat); (0, 1%nat); (0, 1%nat); (0, 1%nat); (0, 1%nat); (0, 1%nat); (0, 1%nat); (0, 1%nat); (0, 1%nat); (0, 1%nat); (0, 1%nat); (0, 1%nat); (0, 1%nat); (0, 1%nat); (0, 1%nat); (0, 1%nat); (0, 1%nat); (0, 1%nat); (0, 1%nat); (0, 1%nat); (0, 1%nat); (0, 1%nat); (0, 1%nat); (0, 1%nat); (0, 1%nat)]);
        ([0; 0; 1; 0]%nat, [(0, 1%nat); (0, 1%nat); (0, 1%nat); (0, 1%nat); (0, 1%nat); (0, 1%nat); (0, 1%nat); (0, 1%nat); (0, 1%nat); (0, 1%nat); (0, 1%nat); (0, 1%nat); (0, 1%nat); (0, 1%nat); (0, 1%nat); (16, 1%nat); ((-208), 3%nat); (96, 1%nat); ((-128), 3%nat); ((-208), 3%nat); (192, 1%nat); ((-128), 1%nat); (96, 1%nat); ((-128), 1%nat); ((-128), 3%nat); ((-208), 3%nat); (192, 1%nat); ((-128), 1%nat); (192, 1%nat); ((-256), 1%nat); ((-128), 1%nat); (96, 1%nat); ((-128), 1%nat); ((-128), 1%nat); ((-128), 3%nat); (0, 1%nat); (0, 1%nat); (0, 1%nat); (0, 1%nat); (0, 1%nat); (0, 1%nat); (0, 1%nat); (0, 1%nat); (0, 1%nat); (0, 1%nat); ((-208), 3%nat); (192, 1%nat); ((-128), 1%nat); (192, 1%nat); ((-256), 1%nat); ((-128), 1%nat); (192, 1%nat); ((-256), 1%nat); ((-256), 1%nat); ((-128), 1%nat); (0, 1%nat); (0, 1%nat); (0, 1%nat); (0, 1%nat); (0, 1%nat); (0, 1%nat); (96, 1%nat); ((-128), 1%nat); ((-128), 1%nat); ((-128), 1%nat); (0, 1%nat); (0, 1%nat); (0, 1%nat); ((-128), 3%nat); (0, 1%nat)]);
        ([1; 0; 1; 0]%nat, [(0, 1%nat); (0, 1%nat); (0, 1%nat); (0, 1%nat); (0, 1%nat); (0, 1%nat); (0, 1%nat); (0, 1%nat); (0, 1%nat); (0, 1%nat); (0, 1%nat); (0, 1%nat); (0, 1%nat); (0, 1%nat); (0, 1%nat); (0, 1%nat); (96, 1%nat); ((-224), 1%nat); (128, 1%nat); (0, 1%nat); ((-224), 1%nat); (256, 1%nat); (0, 1%nat); (128, 1%nat); (0, 1%nat); (0, 1%nat); ((-224), 1%nat); (256, 1%nat); (0, 1%nat); (256, 1%nat); (0, 1%nat); (0, 1%nat); (128, 1%nat); (0, 1%nat); (0, 1%nat); (0, 1%nat); (0, 1%nat); (0, 1%nat); (0, 1%nat); (0, 1%nat); (0, 1%nat); (0, 1%nat); (0, 1%nat); (0, 1%nat); (0, 1%nat); (0, 1%nat); ((-224), 1%nat); (256, 1%nat); (0, 1%nat); (256, 1%nat); (0, 1%nat); (0, 1%nat); (256, 1%nat); (0, 1%nat); (0, 1%nat); (0, 1%nat); (0, 1%nat); (0, 1%nat); (0, 1%nat); (0, 1%nat); (0, 1%nat); (0, 1%nat); (128, 1%nat); (0, 1%nat); (0, 1%nat); (0, 1%nat); (0, 1%nat); (0, 1%nat); (0, 1%nat); (0, 1%nat)]);
        ([2; 0; 1; 0]%nat, [(0, 1%nat); (0, 1%nat); (0, 1%nat); (0, 1%nat); (0, 1%nat); (0, 1%nat); (0, 1%nat); (0, 1%nat); (0, 1%nat); (0, 1%nat); (0, 1%nat); (0, 1%nat); (0, 1%nat); (0, 1%nat); (0, 1%nat); (0, 1%nat); ((-32), 1%nat); (160, 1%nat); ((-128), 1%nat); (0, 1%nat); (32, 1%nat); ((-128), 1%nat); (0, 1%nat); (0, 1%nat); (0, 1%nat); (0, 1%nat); (32, 1%nat); ((-128), 1%nat); (0, 1%nat); (0, 1%nat); (0, 1%nat); (0, 1%nat); (0, 1%nat); (0, 1%nat); (0, 1%nat); (0, 1%nat); (0, 1%nat); (0, 1%nat); (0, 1%nat); (0, 1%nat); (0, 1%nat); (0, 1%nat); (0, 1%nat); (0, 1%nat); (0, 1%nat); (0, 1%nat); (32, 1%nat); ((-128), 1%nat); (0, 1%nat); (0, 1%nat); (0, 1%nat); (0, 1%nat); (0, 1%nat); (0, 1%nat); (0, 1%nat); (0, 1%nat); (0, 1%nat); (0, 1%nat); (0, 1%nat); (0, 1%nat); (0, 1%nat); (0, 1%nat); (0, 1%nat); (0, 1%nat); (0, 1%nat); (0, 1%nat); (0, 1%nat); (0, 1%nat); (0, 1%nat); (0, 1%nat)]);
        ([3; 0; 1; 0]%nat, [(0, 1%nat); (0, 1%nat); (0, 1%nat); (0, 1%nat); (0, 1%nat); (0, 1%nat); (0, 1%nat); (0, 1%nat); (0, 1%nat); (0, 1%nat); (0, 1%nat); (0, 1%nat); (0, 1%nat); (0, 1%nat); (0, 1%nat); (0, 1%nat); (16, 3%nat); ((-32), 1%nat); (128, 3%nat); (0, 1%nat); (0, 1%nat); (0, 1%nat); (0, 1%nat); (0, 1%nat); (0, 1%nat); (0, 1%nat); (0, 1%nat); (0, 1%nat); (0, 1%nat); (0, 1%nat); (0, 1%nat); (0, 1%nat); (0, 1%nat); (0, 1%nat); (0, 1%nat); (0, 1%nat); (0, 1%nat); (0, 1%nat); (0, 1%nat); (0, 1%nat); (0, 1%nat); (0, 1%nat); (0, 1%nat); (0, 1%nat); (0, 1%nat); (0, 1%nat); (0, 1%nat); (0, 1%nat); (0, 1%nat); (0, 1%nat); (0, 1%nat); (0, 1%nat); (0, 1%nat); (0, 1%nat); (0, 1%nat); (0, 1%nat); (0, 1%nat); (0, 1%nat); (0, 1%nat); (0, 1%nat); (0, 1%nat); (0, 1%nat); (0, 1%nat); (0, 1%nat); (0, 1%nat); (0, 1%nat); (0, 1%nat); (0, 1%nat); (0, 1%nat); (0, 1%nat)]);
        ([0; 1; 1; 0]%nat, [(0, 1%nat); (0, 1%nat); (0, 1%nat); (0, 1%nat); (0, 1%nat); (0, 1%nat); (0, 1%nat); (0, 1%nat); (0, 1%nat); (0, 1%nat); (0, 1%nat); (0, 1%nat); (0, 1%nat); (0, 1%nat); (0, 1%nat); (0, 1%nat); (0, 1%nat); (0, 1%nat); (0, 1%nat); (96, 1%nat); ((-224), 1%nat); (128, 1%nat); ((-224), 1%nat); (256, 1%nat); (128, 1%nat); (0, 1%nat); (0, 1%nat); (0, 1%nat); ((-224), 1%nat); (256, 1%nat); (256, 1%nat); (0, 1%nat); (0, 1%nat); (128, 1%nat); (0, 1%nat); (0, 1%nat); (0, 1%nat); (0, 1%nat); (0, 1%nat); (0, 1%nat); (0, 1%nat); (0, 1%nat); (0, 1%nat); (0, 1%nat); (0, 1%nat); (0, 1%nat); (0, 1%nat); (0, 1%nat); ((-224), 1%nat); (256, 1%nat); (256, 1%nat); (0, 1%nat); (0, 1%nat); (256, 1%nat); (0, 1%nat); (0, 1%nat); (0, 1%nat); (0, 1%nat); (0, 1%nat); (0, 1%nat); (0, 1%nat); (0, 1%nat); (0, 1%nat); (128, 1%nat); (0, 1%nat); (0, 1%nat); (0, 1%nat); (0, 1%nat); (0, 1%nat); (0, 1%nat)]);
        ([1; 1; 1; 0]%nat, [(0, 1%nat); (0, 1%nat); (0, 1%nat); (0, 1%nat); (0, 1%nat); (0, 1%nat); (0, 1%nat); (0, 1%nat); (0, 1%nat); (0, 1%nat); (0, 1%nat); (0, 1%nat); (0, 1%nat); (0, 1%nat); (0, 1%nat); (0, 1%nat); (0, 1%nat); (0, 1%nat); (0, 1%nat); (0, 1%nat); (256, 1%nat); ((-256), 1%nat); (0, 1%nat); ((-256), 1%nat); (0, 1%nat); (0, 1%nat); (0, 1%nat); (0, 1%nat); (0, 1%nat); ((-256), 1%nat); (0, 1%nat); (0, 1%nat); (0, 1%nat); (0, 1%nat); (0, 1%nat); (0, 1%nat); (0, 1%nat); (0, 1%nat); (0, 1%nat); (0, 1%nat); (0, 1%nat); (0, 1%nat); (0, 1%nat); (0, 1%nat); (0, 1%nat); (0, 1%nat); (0, 1%nat); (0, 1%nat); (0, 1%nat); ((-256), 1%nat); (0, 1%nat); (0, 1%nat); (0, 1%nat); (0, 1%nat); (0, 1%nat); (0, 1%nat); (0, 1%nat); (0, 1%nat); (0, 1%nat); (0, 1%nat); (0, 1%nat); (0, 1%nat); (0, 1%nat); (0, 1%nat); (0, 1%nat); (0, 1%nat); (0, 1%nat); (0, 1%nat); (0, 1%nat); (0, 1%nat)]);
        ([2; 1; 1; 0]%nat, [(0, 1%nat); (0, 1%nat); (0, 1%nat); (0, 1%nat); (0, 1%nat); (0, 1%nat); (0, 1%nat); (0, 1%nat); (0, 1%nat); (0, 1%nat); (0, 1%nat); (0, 1%nat); (0, 1%nat); (0, 1%nat); (0, 1%nat); (0, 1%nat); (0, 1%nat); (0, 1%nat); (0, 1%nat); (0, 1%nat); ((-32), 1%nat); (128, 1%nat); (0, 1%nat); (0, 1%nat); (0, 1%nat); (0, 1%nat); (0, 1%nat); (0, 1%nat); (0, 1%nat); (0, 1%nat); (0, 1%nat); (0, 1%nat); (0, 1%nat); (0, 1%nat); (0, 1%nat); (0, 1%nat); (0, 1%nat); (0, 1%nat); (0, 1%nat); (0, 1%nat); (0, 1%nat); (0, 1%nat); (0, 1%nat); (0, 1%nat); (0, 1%nat); (0, 1%nat); (0, 1%nat); (0, 1%nat); (0, 1%nat); (0, 1%nat); (0, 1%nat); (0, 1%nat); (0, 1%nat); (0, 1%nat); (0, 1%nat); (0, 1%nat); (0, 1%nat); (0, 1%nat); (0, 1%nat); (0, 1%nat); (0, 1%nat); (0, 1%nat); (0, 1%nat); (0, 1%nat); (0, 1%nat); (0, 1%nat); (0, 1%nat); (0, 1%nat); (0, 1%nat); (0, 1%nat)]);
        ([0; 2; 1; 0]%nat, [(0, 1%nat); (0, 1%nat); (0, 1%nat); (0, 1%nat); (0, 1%nat); (0, 1%nat); (0, 1%nat); (0, 1%nat); (0, 1%nat); (0, 1%nat); (0, 1%nat); (0, 1%nat); (0, 1%nat); (0, 1%nat); (0, 1%nat); (0, 1%nat); (0, 1%nat); (0, 1%nat); (0, 1%nat); ((-32), 1%nat); (32, 1%nat); (0, 1%nat); (160, 1%nat); ((-128), 1%nat); ((-128), 1%nat); (0, 1%nat); (0, 1%nat); (0, 1%nat); (32, 1%nat); (0, 1%nat); ((-128), 1%nat); (0, 1%nat); (0, 1%nat); (0, 1%nat); (0, 1%nat); (0, 1%nat); (0, 1%nat); (0, 1%nat); (0, 1%nat); (0, 1%nat); (0, 1%nat); (0, 1%nat); (0, 1%nat); (0, 1%nat); (0, 1%nat); (0, 1%nat); (0, 1%nat); (0, 1%nat); (32, 1%nat); (0, 1%nat); ((-128), 1%nat); (0, 1%nat); (0, 1%nat); (0, 1%nat); (0, 1%nat); (0, 1%nat); (0, 1%nat); (0, 1%nat); (0, 1%nat); (0, 1%nat); (0, 1%nat); (0, 1%nat); (0, 1%nat); (0, 1%nat); (0, 1%nat); (0, 1%nat); (0, 1%nat); (0, 1%nat); (0, 1%nat); (0, 1%nat)]);
        ([1; 2; 1; 0]%nat, [(0, 1%nat); (0, 1%nat); (0, 1%nat); (0, 1%nat); (0, 1%nat); (0, 1%nat); (0, 1%nat); (0, 1%nat); (0, 1%nat); (0, 1%nat); (0, 1%nat); (0, 1%nat); (0, 1%nat); (0, 1%nat); (0, 1%nat); (0, 1%nat); (0, 1%nat); (0, 1%nat); (0, 1%nat); (0, 1%nat); ((-32), 1%nat); (0, 1%nat); (0, 1%nat); (128, 1%nat); (0, 1%nat); (0, 1%nat); (0, 1%nat); (0, 1%nat); (0, 1%nat); (0, 1%nat); (0, 1%nat); (0, 1%nat); (0, 1%nat); (0, 1%nat); (0, 1%nat); (0, 1%nat); (0, 1%nat); (0, 1%nat); (0, 1%nat); (0, 1%nat); (0, 1%nat); (0, 1%nat); (0, 1%nat); (0, 1%nat); (0, 1%nat); (0, 1%nat); (0, 1%nat); (0, 1%nat); (0, 1%nat); (0, 1%nat); (0, 1%nat); (0, 1%nat); (0, 1%nat); (0, 1%nat); (0, 1%nat); (0, 1%nat); (0, 1%nat); (0, 1%nat); (0, 1%nat); (0, 1%nat); (0, 1%nat); (0, 1%nat); (0, 1%nat); (0, 1%nat); (0, 1%nat); (0, 1%nat); (0, 1%nat); (0, 1%nat); (0, 1%nat); (0, 1%nat)]);
        ([0; 3; 1; 0]%nat, [(0, 1%nat); (0, 1%nat); (0, 1%nat); (0, 1%nat); (0, 1%nat); (0, 1%nat); (0, 1%nat); (0, 1%nat); (0, 1%nat); (0, 1%nat); (0, 1%nat); (0, 1%nat); (0, 1%nat); (0, 1%nat); (0, 1%nat); (0, 1%nat); (0, 1%nat); (0, 1%nat); (0, 1%nat); (16, 3%nat); (0, 1%nat); (0, 1%nat); ((-32), 1%nat); (0, 1%nat); (128, 3%nat); (0, 1%nat); (0, 1%nat); (0, 1%nat); (0, 1%nat); (0, 1%nat); (0, 1%nat); (0, 1%nat); (0, 1%nat); (0, 1%nat); (0, 1%nat); (0, 1%nat); (0, 1%nat); (0, 1%nat); (0, 1%nat); (0, 1%nat); (0, 1%nat); (0, 1%nat); (0, 1%nat); (0, 1%nat); (0, 1%nat); (0, 1%nat); (0, 1%nat); (0, 1%nat); (0, 1%nat); (0, 1%nat); (0, 1%nat); (0, 1%nat); (0, 1%nat); (0, 1%nat); (0, 1%nat); (0, 1%nat); (0, 1%nat); (0, 1%nat); (0, 1%nat); (0, 1%nat); (0, 1%nat); (0, 1%nat); (0, 1%nat); (0, 1%nat); (0, 1%nat); (0, 1%nat); (0, 1%nat); (0, 1%nat); (0, 1%nat); (0, 1%nat)]);
        ([0; 0; 2; 0]%nat, [(0, 1%nat); (0, 1%nat); (0, 1%nat); (0, 1%nat); (0, 1%nat); (0, 1%nat); (0, 1%nat); (0, 1%nat); (0, 1%nat); (0, 1%nat); (0, 1%nat); (0, 1%nat); (0, 1%nat); (0, 1%nat); (0, 1%nat); ((-12), 1%nat); (28, 1%nat); ((-16), 1%nat); (0, 1%nat); (28, 1%nat); ((-32), 1%nat); (0, 1%nat); ((-16), 1%nat); (0, 1%nat); (0, 1%nat); (76, 1%nat); ((-144), 1%nat); (64, 1%nat); ((-144), 1%nat); (128, 1%nat); (64, 1%nat); ((-128), 1%nat); (128, 1%nat); (128, 1%nat); (64, 1%nat); (0, 1%nat); (0, 1%nat); (0, 1%nat); (0, 1%nat); (0, 1%nat); (0, 1%nat); (0, 1%nat); (0, 1%nat); (0, 1%nat); (0, 1%nat); (28, 1%nat); ((-32), 1%nat); (0, 1%nat); ((-32), 1%nat); (0, 1%nat); (0, 1%nat); ((-144), 1%nat); (128, 1%nat); (128, 1%nat); (128, 1%nat); (0, 1%nat); (0, 1%nat); (0, 1%nat); (0, 1%nat); (0, 1%nat); (0, 1%nat); ((-16), 1%nat); (0, 1%nat); (0, 1%nat); (64, 1%nat); (0, 1%nat); (0, 1%nat); (0, 1%nat); (0, 1%nat); (0, 1%nat)]);
        ([1; 0; 2; 0]%nat, [(0, 1%nat); (0, 1%nat); (0, 1%nat); (0, 1%nat); (0, 1%nat); (0, 1%nat); (0, 1%nat); (0, 1%nat); (0, 1%nat); (0, 1%nat); (0, 1%nat); (0, 1%nat); (0, 1%nat); (0, 1%nat); (0, 1%nat); (0, 1%nat); ((-32), 1%nat); (32, 1%nat); (0, 1%nat); (0, 1%nat); (32, 1%nat); (0, 1%nat); (0, 1%nat); (0, 1%nat); (0, 1%nat); (0, 1%nat); (160, 1%nat); ((-128), 1%nat); (0, 1%nat); ((-128), 1%nat); (0, 1%nat); (0, 1%nat); ((-128), 1%nat); (0, 1%nat); (0, 1%nat); (0, 1%nat); (0, 1%nat); (0, 1%nat); (0, 1%nat); (0, 1%nat); (0, 1%nat); (0, 1%nat); (0, 1%nat); (0, 1%nat); (0, 1%nat); (0, 1%nat); (32, 1%nat); (0, 1%nat); (0, 1%nat); (0, 1%nat); (0, 1%nat); (0, 1%nat); ((-128), 1%nat); (0, 1%nat); (0, 1%nat); (0, 1%nat); (0, 1%nat); (0, 1%nat); (0, 1%nat); (0, 1%nat); (0, 1%nat); (0, 1%nat); (0, 1%nat); (0, 1%nat); (0, 1%nat); (0, 1%nat); (0, 1%nat); (0, 1%nat); (0, 1%nat); (0, 1%nat)]);
        ([2; 0; 2; 0]%nat, [(0, 1%nat); (0, 1%nat); (0, 1%nat); (0, 1%nat); (0, 1%nat); (0, 1%nat); (0, 1%nat); (0, 1%nat); (0, 1%nat); (0, 1%nat); (0, 1%nat); (0, 1%nat); (0, 1%nat); (0, 1%nat); (0, 1%nat); (0, 1%nat); (4, 1%nat); ((-16), 1%nat); (0, 1%nat); (0, 1%nat); (0, 1%nat); (0, 1%nat); (0, 1%nat); (0, 1%nat); (0, 1%nat); (0, 1%nat); ((-16), 1%nat); (64, 1%nat); (0, 1%nat); (0, 1%nat); (0, 1%nat); (0, 1%nat); (0, 1%nat); (0, 1%nat); (0, 1%nat); (0, 1%nat); (0, 1%nat); (0, 1%nat); (0, 1%nat); (0, 1%nat); (0, 1%nat); (0, 1%nat); (0, 1%nat); (0, 1%nat); (0, 1%nat); (0, 1%nat); (0, 1%nat); (0, 1%nat); (0, 1%nat); (0, 1%nat); (0, 1%nat); (0, 1%nat); (0, 1%nat); (0, 1%nat); (0, 1%nat); (0, 1%nat); (0, 1%nat); (0, 1%nat); (0, 1%nat); (0, 1%nat); (0, 1%nat); (0, 1%nat); (0, 1%nat); (0, 1%nat); (0, 1%nat); (0, 1%nat); (0, 1%nat); (0, 1%nat); (0, 1%nat); (0, 1%nat)]);
        ([0; 1; 2; 0]%nat, [(0, 1%nat); (0, 1%nat); (0, 1%nat); (0, 1%nat); (0, 1%nat); (0, 1%nat); (0, 1%nat); (0, 1%nat); (0, 1%nat); (0, 1%nat); (0, 1%nat); (0, 1%nat); (0, 1%nat); (0, 1%nat); (0, 1%nat); (0, 1%nat); (0, 1%nat); (0, 1%nat); (0, 1%nat); ((-32), 1%nat); (32, 1%nat); (0, 1%nat); (32, 1%nat); (0, 1%nat); (0, 1%nat); (0, 1%nat); (0, 1%nat); (0, 1%nat); (160, 1%nat); ((-128), 1%nat); ((-128), 1%nat); (0, 1%nat); (0, 1%nat); ((-128), 1%nat); (0, 1%nat); (0, 1%nat); (0, 1%nat); (0, 1%nat); (0, 1%nat); (0, 1%nat); (0, 1%nat); (0, 1%nat); (0, 1%nat); (0, 1%nat); (0, 1%nat); (0, 1%nat); (0, 1%nat); (0, 1%nat); (32, 1%nat); (0, 1%nat); (0, 1%nat); (0, 1%nat); (0, 1%nat); ((-128), 1%nat); (0, 1%nat); (0, 1%nat); (0, 1%nat); (0, 1%nat); (0, 1%nat); (0, 1%nat); (0, 1%nat); (0, 1%nat); (0, 1%nat); (0, 1%nat); (0, 1%nat); (0, 1%nat); (0, 1%nat); (0, 1%nat); (0, 1%nat); (0, 1%nat)]);
        ([1; 1; 2; 0]%nat, [(0, 1%nat); (0, 1%nat); (0, 1%nat); (0, 1%nat); (0, 1%nat); (0, 1%nat); (0, 1%nat); (0, 1%nat); (0, 1%nat); (0, 1%nat); (0, 1%nat); (0, 1%nat); (0, 1%nat); (0, 1%nat); (0, 1%nat); (0, 1%nat); (0, 1%nat); (0, 1%nat); (0, 1%nat); (0, 1%nat); ((-32), 1%nat); (0, 1%nat); (0, 1%nat); (0, 1%nat); (0, 1%nat); (0, 1%nat); (0, 1%nat); (0, 1%nat); (0, 1%nat); (128, 1%nat); (0, 1%nat); (0, 1%nat); (0, 1%nat); (0, 1%nat); (0, 1%nat); (0, 1%nat); (0, 1%nat); (0, 1%nat); (0, 1%nat); (0, 1%nat); (0, 1%nat); (0, 1%nat); (0, 1%nat); (0, 1%nat); (0, 1%nat); (0, 1%nat); (0, 1%nat); (0, 1%nat); (0, 1%nat); (0, 1%nat); (0, 1%nat); (0, 1%nat); (0, 1%nat); (0, 1%nat); (0, 1%nat); (0, 1%nat); (0, 1%nat); (0, 1%nat); (0, 1%nat); (0, 1%nat); (0, 1%nat); (0, 1%nat); (0, 1%nat); (0, 1%nat); (0, 1%nat); (0, 1%nat); (0, 1%nat); (0, 1%nat); (0, 1%nat); (0, 1%nat)]);
        ([0; 2; 2; 0]%nat, [(0, 1%nat); (0, 1%nat); (0, 1%nat); (0, 1%nat); (0, 1%nat); (0, 1%nat); (0, 1%nat); (0, 1%nat); (0, 1%nat); (0, 1%nat); (0, 1%nat); (0, 1%nat); (0, 1%nat); (0, 1%nat); (0, 1%nat); (0, 1%nat); (0, 1%nat); (0, 1%nat); (0, 1%nat); (4, 1%nat); (0, 1%nat); (0, 1%nat); ((-16), 1%nat); (0, 1%nat); (0, 1%nat); (0, 1%nat); (0, 1%nat); (0, 1%nat); ((-16), 1%nat); (0, 1%nat); (64, 1%nat); (0, 1%nat); (0, 1%nat); (0, 1%nat); (0, 1%nat); (0, 1%nat); (0, 1%nat); (0, 1%nat); (0, 1%nat); (0, 1%nat); (0, 1%nat); (0, 1%nat); (0, 1%nat); (0, 1%nat); (0, 1%nat); (0, 1%nat); (0, 1%nat); (0, 1%nat); (0, 1%nat); (0, 1%nat); (0, 1%nat); (0, 1%nat); (0, 1%nat); (0, 1%nat); (0, 1%nat); (0, 1%nat); (0, 1%nat); (0, 1%nat); (0, 1%nat); (0, 1%nat); (0, 1%nat); (0, 1%nat); (0, 1%nat); (0, 1%nat); (0, 1%nat); (0, 1%nat); (0, 1%nat); (0, 1%nat); (0, 1%nat); (0, 1%nat)]);
        ([0; 0; 3; 0]%nat, [(0, 1%nat); (0, 1%nat); (0, 1%nat); (0, 1%nat); (0, 1%nat); (0, 1%nat); (0, 1%nat); (0, 1%nat); (0, 1%nat); (0, 1%nat); (0, 1%nat); (0, 1%nat); (0, 1%nat); (0, 1%nat); (0, 1%nat); (16, 3%nat); ((-16), 3%nat); (0, 1%nat); (0, 1%nat); ((-16), 3%nat); (0, 1%nat); (0, 1%nat); (0, 1%nat); (0, 1%nat); (0, 1%nat); ((-112), 3%nat); (32, 1%nat); (0, 1%nat); (32, 1%nat); (0, 1%nat); (0, 1%nat); (224, 3%nat); ((-128), 3%nat); ((-128), 3%nat); ((-128), 3%nat); (0, 1%nat); (0, 1%nat); (0, 1%nat); (0, 1%nat); (0, 1%nat); (0, 1%nat); (0, 1%nat); (0, 1%nat); (0, 1%nat); (0, 1%nat); ((-16), 3%nat); (0, 1%nat); (0, 1%nat); (0, 1%nat); (0, 1%nat); (0, 1%nat); (32, 1%nat); (0, 1%nat); (0, 1%nat); ((-128), 3%nat); (0, 1%nat); (0, 1%nat); (0, 1%nat); (0, 1%nat); (0, 1%nat); (0, 1%nat); (0, 1%nat); (0, 1%nat); (0, 1%nat); (0, 1%nat); (0, 1%nat); (0, 1%nat); (0, 1%nat); (0, 1%nat); (0, 1%nat)]);
        ([1; 0; 3; 0]%nat, [(0, 1%nat); (0, 1%nat); (0, 1%nat); (0, 1%nat); (0, 1%nat); (0, 1%nat); (0, 1%nat); (0, 1%nat); (0, 1%nat); (0, 1%nat); (0, 1%nat); (0, 1%nat); (0, 1%nat); (0, 1%nat); (0, 1%nat); (0, 1%nat); (16, 3%nat); (0, 1%nat); (0, 1%nat); (0, 1%nat); (0, 1%nat); (0, 1%nat); (0, 1%nat); (0, 1%nat); (0, 1%nat); (0, 1%nat); ((-32), 1%nat); (0, 1%nat); (0, 1%nat); (0, 1%nat); (0, 1%nat); (0, 1%nat); (128, 3%nat); (0, 1%nat); (0, 1%nat); (0, 1%nat); (0, 1%nat); (0, 1%nat); (0, 1%nat); (0, 1%nat); (0, 1%nat); (0, 1%nat); (0, 1%nat); (0, 1%nat); (0, 1%nat); (0, 1%nat); (0, 1%nat); (0, 1%nat); (0, 1%nat); (0, 1%nat); (0, 1%nat); (0, 1%nat); (0, 1%nat); (0, 1%nat); (0, 1%nat); (0, 1%nat); (0, 1%nat); (0, 1%nat); (0, 1%nat); (0, 1%nat); (0, 1%nat); (0, 1%nat); (0, 1%nat); (0, 1%nat); (0, 1%nat); (0, 1%nat); (0, 1%nat); (0, 1%nat); (0, 1%nat); (0, 1%nat)]);
        ([0; 1; 3; 0]%nat, [(0, 1%nat); (0, 1%nat); (0, 1%nat); (0, 1%nat); (0, 1%nat); (0, 1%nat); (0, 1%nat); (0, 1%nat); (0, 1%nat); (0, 1%nat); (0, 1%nat); (0, 1%nat); (0, 1%nat); (0, 1%nat); (0, 1%nat); (0, 1%nat); (0, 1%nat); (0, 1%nat); (0, 1%nat); (16, 3%nat); (0, 1%nat); (0, 1%nat); (0, 1%nat); (0, 1%nat); (0, 1%nat); (0, 1%nat); (0, 1%nat); (0, 1%nat); ((-32), 1%nat); (0, 1%nat); (0, 1%nat); (0, 1%nat); (0, 1%nat); (128, 3%nat); (0, 1%nat); (0, 1%nat); (0, 1%nat); (0, 1%nat); (0, 1%nat); (0, 1%nat); (0, 1%nat); (0, 1%nat); (0, 1%nat); (0, 1%nat); (0, 1%nat); (0, 1%nat); (0, 1%nat); (0, 1%nat); (0, 1%nat); (0, 1%nat); (0, 1%nat); (0, 1%nat); (0, 1%nat); (0, 1%nat); (0, 1%nat); (0, 1%nat); (0, 1%nat); (0, 1%nat); (0, 1%nat); (0, 1%nat); (0, 1%nat); (0, 1%nat); (0, 1%nat); (0, 1%nat); (0, 1%nat); (0, 1%nat); (0, 1%nat); (0, 1%nat); (0, 1%nat); (0, 1%nat)]);
        ([0; 0; 4; 0]%nat, [(0, 1%nat); (0, 1%nat); (0, 1%nat); (0, 1%nat); (0, 1%nat); (0, 1%nat); (0, 1%nat); (0, 1%nat); (0, 1%nat); (0, 1%nat); (0, 1%nat); (0, 1%nat); (0, 1%nat); (0, 1%nat); (0, 1%nat); ((-1), 1%nat); (0, 1%nat); (0, 1%nat); (0, 1%nat); (0, 1%nat); (0, 1%nat); (0, 1%nat); (0, 1%nat); (0, 1%nat); (0, 1%nat); (22, 3%nat); (0, 1%nat); (0, 1%nat); (0, 1%nat); (0, 1%nat); (0, 1%nat); ((-16), 1%nat); (0, 1%nat); (0, 1%nat); (32, 3%nat); (0, 1%nat); (0, 1%nat); (0, 1%nat); (0, 1%nat); (0, 1%nat); (0, 1%nat); (0, 1%nat); (0, 1%nat); (0, 1%nat); (0, 1%nat); (0, 1%nat); (0, 1%nat); (0, 1%nat); (0, 1%nat); (0, 1%nat); (0, 1%nat); (0, 1%nat); (0, 1%nat); (0, 1%nat); (0, 1%nat); (0, 1%nat); (0, 1%nat); (0, 1%nat); (0, 1%nat); (0, 1%nat); (0, 1%nat); (0, 1%nat); (0, 1%nat); (0, 1%nat); (0, 1%nat); (0, 1%nat); (0, 1%nat); (0, 1%nat); (0, 1%nat); (0, 1%nat)]);
        ([0; 0; 0; 1]%nat, [(0, 1%nat); (0, 1%nat); (0, 1%nat); (0, 1%nat); (0, 1%nat); (0, 1%nat); (0, 1%nat); (0, 1%nat); (0, 1%nat); (0, 1%nat); (0, 1%nat); (0, 1%nat); (0, 1%nat); (0, 1%nat); (0, 1%nat); (0, 1%nat); (0, 1%nat); (0, 1%nat); (0, 1%nat); (0, 1%nat); (0, 1%nat); (0, 1%nat); (0, 1%nat); (0, 1%nat); (0, 1%nat); (0, 1%nat); (0, 1%nat); (0, 1%nat); (0, 1%nat); (0, 1%nat); (0, 1%nat); (0, 1%nat); (0, 1%nat); (0, 1%nat); (0, 1%nat); (16, 1%nat); ((-208), 3%nat); (96, 1%nat); ((-128), 3%nat); ((-208), 3%nat); (192, 1%nat); ((-128), 1%nat); (96, 1%nat); ((-128), 1%nat); ((-128), 3%nat); ((-208), 3%nat); (192, 1%nat); ((-128), 1%nat); (192, 1%nat); ((-256), 1%nat); ((-128), 1%nat); (96, 1%nat); ((-128), 1%nat); ((-128), 1%nat); ((-128), 3%nat); ((-208), 3%nat); (192, 1%nat); ((-128), 1%nat); (192, 1%nat); ((-256), 1%nat); ((-128), 1%nat); (192, 1%nat); ((-256), 1%nat); ((-256), 1%nat); ((-128), 1%nat); (96, 1%nat); ((-128), 1%nat); ((-128), 1%nat); ((-128), 1%nat); ((-128), 3%nat)]);
        ([1; 0; 0; 1]%nat, [(0, 1%nat); (0, 1%nat); (0, 1%nat); (0, 1%nat); (0, 1%nat); (0, 1%nat); (0, 1%nat); (0, 1%nat); (0, 1%nat); (0, 1%nat); (0, 1%nat); (0, 1%nat); (0, 1%nat); (0, 1%nat); (0, 1%nat); (0, 1%nat); (0, 1%nat); (0, 1%nat); (0, 1%nat); (0, 1%nat); (0, 1%nat); (0, 1%nat); (0, 1%nat); (0, 1%nat); (0, 1%nat); (0, 1%nat); (0, 1%nat); (0, 1%nat); (0, 1%nat); (0, 1%nat); (0, 1%nat); (0, 1%nat); (0, 1%nat); (0, 1%nat); (0, 1%nat); (0, 1%nat); (96, 1%nat); ((-224), 1%nat); (128, 1%nat); (0, 1%nat); ((-224), 1%nat); (256, 1%nat); (0, 1%nat); (128, 1%nat); (0, 1%nat); (0, 1%nat); ((-224), 1%nat); (256, 1%nat); (0, 1%nat); (256, 1%nat); (0, 1%nat); (0, 1%nat); (128, 1%nat); (0, 1%nat); (0, 1%nat); (0, 1%nat); ((-224), 1%nat); (256, 1%nat); (0, 1%nat); (256, 1%nat); (0, 1%nat); (0, 1%nat); (256, 1%nat); (0, 1%nat); (0, 1%nat); (0, 1%nat); (128, 1%nat); (0, 1%nat); (0, 1%nat); (0, 1%nat)]);
        ([2; 0; 0; 1]%nat, [(0, 1%nat); (0, 1%nat); (0, 1%nat); (0, 1%nat); (0, 1%nat); (0, 1%nat); (0, 1%nat); (0, 1%nat); (0, 1%nat); (0, 1%nat); (0, 1%nat); (0, 1%nat); (0, 1%nat); (0, 1%nat); (0, 1%nat); (0, 1%nat); (0, 1%nat); (0, 1%nat); (0, 1%nat); (0, 1%nat); (0, 1%nat); (0, 1%nat); (0, 1%nat); (0, 1%nat); (0, 1%nat); (0, 1%nat); (0, 1%nat); (0, 1%nat); (0, 1%nat); (0, 1%nat); (0, 1%nat); (0, 1%nat); (0, 1%nat); (0, 1%nat); (0, 1%nat); (0, 1%nat); ((-32), 1%nat); (160, 1%nat); ((-128), 1%nat); (0, 1%nat); (32, 1%nat); ((-128), 1%nat); (0, 1%nat); (0, 1%nat); (0, 1%nat); (0, 1%nat); (32, 1%nat); ((-128), 1%nat); (0, 1%nat); (0, 1%nat); (0, 1%nat); (0, 1%nat); (0, 1%nat); (0, 1%nat); (0, 1%nat); (0, 1%nat); (32, 1%nat); ((-128), 1%nat); (0, 1%nat); (0, 1%nat); (0, 1%nat); (0, 1%nat); (0, 1%nat); (0, 1%nat); (0, 1%nat); (0, 1%nat); (0, 1%nat); (0, 1%nat); (0, 1%nat); (0, 1%nat)]);
        ([3; 0; 0; 1]%nat, [(0, 1%nat); (0, 1%nat); (0, 1%nat); (0, 1%nat); (0, 1%nat); (0, 1%nat); (0, 1%nat); (0, 1%nat); (0, 1%nat); (0, 1%nat); (0, 1%nat); (0, 1%nat); (0, 1%nat); (0, 1%nat); (0, 1%nat); (0, 1%nat); (0, 1%nat); (0, 1%nat); (0, 1%nat); (0, 1%nat); (0, 1%nat); (0, 1%nat); (0, 1%nat); (0, 1%nat); (0, 1%nat); (0, 1%nat); (0, 1%nat); (0, 1%nat); (0, 1%nat); (0, 1%nat); (0, 1%nat); (0, 1%nat); (0, 1%nat); (0, 1%nat); (0, 1%nat); (0, 1%nat); (16, 3%nat); ((-32), 1%nat); (128, 3%nat); (0, 1%nat); (0, 1%nat); (0, 1%nat); (0, 1%nat); (0, 1%nat); (0, 1%nat); (0, 1%nat); (0, 1%nat); (0, 1%nat); (0, 1%nat); (0, 1%nat); (0, 1%nat); (0, 1%nat); (0, 1%nat); (0, 1%nat); (0, 1%nat); (0, 1%nat); (0, 1%nat); (0, 1%nat); (0, 1%nat); (0, 1%nat); (0, 1%nat); (0, 1%nat); (0, 1%nat); (0, 1%nat); (0, 1%nat); (0, 1%nat); (0, 1%nat); (0, 1%nat); (0, 1%nat); (0, 1%nat)]);
        ([0; 1; 0; 1]%nat, [(0, 1%nat); (0, 1%nat); (0, 1%nat); (0, 1%nat); (0, 1%nat); (0, 1%nat); (0, 1%nat); (0, 1%nat); (0, 1%nat); (0, 1%nat); (0, 1%nat); (0, 1%nat); (0, 1%nat); (0, 1%nat); (0, 1%nat); (0, 1%nat); (0, 1%nat); (0, 1%nat); (0, 1%nat); (0, 1%nat); (0, 1%nat); (0, 1%nat); (0, 1%nat); (0, 1%nat); (0, 1%nat); (0, 1%nat); (0, 1%nat); (0, 1%nat); (0, 1%nat); (0, 1%nat); (0, 1%nat); (0, 1%nat); (0, 1%nat); (0, 1%nat); (0, 1%nat); (0, 1%nat); (0, 1%nat); (0, 1%nat); (0, 1%nat); (96, 1%nat); ((-224), 1%nat); (128, 1%nat); ((-224), 1%nat); (256, 1%nat); (128, 1%nat); (0, 1%nat); (0, 1%nat); (0, 1%nat); ((-224), 1%nat); (256, 1%nat); (256, 1%nat); (0, 1%nat); (0, 1%nat); (128, 1%nat); (0, 1%nat); (0, 1%nat); (0, 1%nat); (0, 1%nat); ((-224), 1%nat); (256, 1%nat); (256, 1%nat); (0, 1%nat); (0, 1%nat); (256, 1%nat); (0, 1%nat); (0, 1%nat); (0, 1%nat); (128, 1%nat); (0, 1%nat); (0, 1%nat)]);
        ([1; 1; 0; 1]%nat, [(0, 1%nat); (0, 1%nat); (0, 1%nat); (0, 1%nat); (0, 1%nat); (0, 1%nat); (0, 1%nat); (0, 1%nat); (0, 1%nat); (0, 1%nat); (0, 1%nat); (0, 1%nat); (0, 1%nat); (0, 1%nat); (0, 1%nat); (0, 1%nat); (0, 1%nat); (0, 1%nat); (0, 1%nat); (0, 1%nat); (0, 1%nat); (0, 1%nat); (0, 1%nat); (0, 1%nat); (0, 1%nat); (0, 1%nat); (0, 1%nat); (0, 1%nat); (0, 1%nat); (0, 1%nat); (0, 1%nat); (0, 1%nat); (0, 1%nat); (0, 1%nat); (0, 1%nat); (0, 1%nat); (0, 1%nat); (0, 1%nat); (0, 1%nat); (0, 1%nat); (256, 1%nat); ((-256), 1%nat); (0, 1%nat); ((-256), 1%nat); (0, 1%nat); (0, 1%nat); (0, 1%nat); (0, 1%nat); (0, 1%nat); ((-256), 1%nat); (0, 1%nat); (0, 1%nat); (0, 1%nat); (0, 1%nat); (0, 1%nat); (0, 1%nat); (0, 1%nat); (0, 1%nat); (0, 1%nat); ((-256), 1%nat); (0, 1%nat); (0, 1%nat); (0, 1%nat); (0, 1%nat); (0, 1%nat); (0, 1%nat); (0, 1%nat); (0, 1%nat); (0, 1%nat); (0, 1%nat)]);
        ([2; 1; 0; 1]%nat, [(0, 1%nat); (0, 1%nat); (0, 1%nat); (0, 1%nat); (0, 1%nat); (0, 1%nat); (0, 1%nat); (0, 1%nat); (0, 1%nat); (0, 1%nat); (0, 1%nat); (0, 1%nat); (0, 1%nat); (0, 1%nat); (0, 1%nat); (0, 1%nat); (0, 1%nat); (0, 1%nat); (0, 1%nat); (0, 1%nat); (0, 1%nat); (0, 1%nat); (0, 1%nat); (0, 1%nat); (0, 1%nat); (0, 1%nat); (0, 1%nat); (0, 1%nat); (0, 1%nat); (0, 1%nat); (0, 1%nat); (0, 1%nat); (0, 1%nat); (0, 1%nat); (0, 1%nat); (0, 1%nat); (0, 1%nat); (0, 1%nat); (0, 1%nat); (0, 1%nat); ((-32), 1%nat); (128, 1%nat); (0, 1%nat); (0, 1%nat); (0, 1%nat); (0, 1%nat); (0, 1%nat); (0, 1%nat); (0, 1%nat); (0, 1%nat); (0, 1%nat); (0, 1%nat); (0, 1%nat); (0, 1%nat); (0, 1%nat); (0, 1%nat); (0, 1%nat); (0, 1%nat); (0, 1%nat); (0, 1%nat); (0, 1%nat); (0, 1%nat); (0, 1%nat); (0, 1%nat); (0, 1%nat); (0, 1%nat); (0, 1%nat); (0, 1%nat); (0, 1%nat); (0, 1%nat)]);
        ([0; 2; 0; 1]%nat, [(0, 1%nat); (0, 1%nat); (0, 1%nat); (0, 1%nat); (0, 1%nat); (0, 1%nat); (0, 1%nat); (0, 1%nat); (0, 1%nat); (0, 1%nat); (0, 1%nat); (0, 1%nat); (0, 1%nat); (0, 1%nat); (0, 1%nat); (0, 1%nat); (0, 1%nat); (0, 1%nat); (0, 1%nat); (0, 1%nat); (0, 1%nat); (0, 1%nat); (0, 1%nat); (0, 1%nat); (0, 1%nat); (0, 1%nat); (0, 1%nat); (0, 1%nat); (0, 1%nat); (0, 1%nat); (0, 1%nat); (0, 1%nat); (0, 1%nat); (0, 1%nat); (0, 1%nat); (0, 1%nat); (0, 1%nat); (0, 1%nat); (0, 1%nat); ((-32), 1%nat); (32, 1%nat); (0, 1%nat); (160, 1%nat); ((-128), 1%nat); ((-128), 1%nat); (0, 1%nat); (0, 1%nat); (0, 1%nat); (32, 1%nat); (0, 1%nat); ((-128), 1%nat); (0, 1%nat); (0, 1%nat); (0, 1%nat); (0, 1%nat); (0, 1%nat); (0, 1%nat); (0, 1%nat); (32, 1%nat); (0, 1%nat); ((-128), 1%nat); (0, 1%nat); (0, 1%nat); (0, 1%nat); (0, 1%nat); (0, 1%nat); (0, 1%nat); (0, 1%nat); (0, 1%nat); (0, 1%nat)]);
        ([1; 2; 0; 1]%nat, [(0, 1%nat); (0, 1%nat); (0, 1%nat); (0, 1%nat); (0, 1%nat); (0, 1%nat); (0, 1%nat); (0, 1%nat); (0, 1%nat); (0, 1%nat); (0, 1%nat); (0, 1%nat); (0, 1%nat); (0, 1%nat); (0, 1%nat); (0, 1%nat); (0, 1%nat); (0, 1%nat); (0, 1%nat); (0, 1%nat); (0, 1%nat); (0, 1%nat); (0, 1%nat); (0, 1%nat); (0, 1%nat); (0, 1%nat); (0, 1%nat); (0, 1%nat); (0, 1%nat); (0, 1%nat); (0, 1%nat); (0, 1%nat); (0, 1%nat); (0, 1%nat); (0, 1%nat); (0, 1%nat); (0, 1%nat); (0, 1%nat); (0, 1%nat); (0, 1%nat); ((-32), 1%nat); (0, 1%nat); (0, 1%nat); (128, 1%nat); (0, 1%nat); (0, 1%nat); (0, 1%nat); (0, 1%nat); (0, 1%nat); (0, 1%nat); (0, 1%nat); (0, 1%nat); (0, 1%nat); (0, 1%nat); (0, 1%nat); (0, 1%nat); (0, 1%nat); (0, 1%nat); (0, 1%nat); (0, 1%nat); (0, 1%nat); (0, 1%nat); (0, 1%nat); (0, 1%nat); (0, 1%nat); (0, 1%nat); (0, 1%nat); (0, 1%nat); (0, 1%nat); (0, 1%nat)]);
        ([0; 3; 0; 1]%nat, [(0, 1%nat); (0, 1%nat); (0, 1%nat); (0, 1%nat); (0, 1%nat); (0, 1%nat); (0, 1%nat); (0, 1%nat); (0, 1%nat); (0, 1%nat); (0, 1%nat); (0, 1%nat); (0, 1%nat); (0, 1%nat); (0, 1%nat); (0, 1%nat); (0, 1%nat); (0, 1%nat); (0, 1%nat); (0, 1%nat); (0, 1%nat); (0, 1%nat); (0, 1%nat); (0, 1%nat); (0, 1%nat); (0, 1%nat); (0, 1%nat); (0, 1%nat); (0, 1%nat); (0, 1%nat); (0, 1%nat); (0, 1%nat); (0, 1%nat); (0, 1%nat); (0, 1%nat); (0, 1%nat); (0, 1%nat); (0, 1%nat); (0, 1%nat); (16, 3%nat); (0, 1%nat); (0, 1%nat); ((-32), 1%nat); (0, 1%nat); (128, 3%nat); (0, 1%nat); (0, 1%nat); (0, 1%nat); (0, 1%nat); (0, 1%nat); (0, 1%nat); (0, 1%nat); (0, 1%nat); (0, 1%nat); (0, 1%nat); (0, 1%nat); (0, 1%nat); (0, 1%nat); (0, 1%nat); (0, 1%nat); (0, 1%nat); (0, 1%nat); (0, 1%nat); (0, 1%nat); (0, 1%nat); (0, 1%nat); (0, 1%nat); (0, 1%nat); (0, 1%nat); (0, 1%nat)]);
        ([0; 0; 1; 1]%nat, [(0, 1%nat); (0, 1%nat); (0, 1%nat); (0, 1%nat); (0, 1%nat); (0, 1%nat); (0, 1%nat); (0, 1%nat); (0, 1%nat); (0, 1%nat); (0, 1%nat); (0, 1%nat); (0, 1%nat); (0, 1%nat); (0, 1%nat); (0, 1%nat); (0, 1%nat); (0, 1%nat); (0, 1%nat); (0, 1%nat); (0, 1%nat); (0, 1%nat); (0, 1%nat); (0, 1%nat); (0, 1%nat); (0, 1%nat); (0, 1%nat); (0, 1%nat); (0, 1%nat); (0, 1%nat); (0, 1%nat); (0, 1%nat); (0, 1%nat); (0, 1%nat); (0, 1%nat); (0, 1%nat); (0, 1%nat); (0, 1%nat); (0, 1%nat); (0, 1%nat); (0, 1%nat); (0, 1%nat); (0, 1%nat); (0, 1%nat); (0, 1%nat); (96, 1%nat); ((-224), 1%nat); (128, 1%nat); ((-224), 1%nat); (256, 1%nat); (128, 1%nat); ((-224), 1%nat); (256, 1%nat); (256, 1%nat); (128, 1%nat); (0, 1%nat); (0, 1%nat); (0, 1%nat); (0, 1%nat); (0, 1%nat); (0, 1%nat); ((-224), 1%nat); (256, 1%nat); (256, 1%nat); (256, 1%nat); (0, 1%nat); (0, 1%nat); (0, 1%nat); (128, 1%nat); (0, 1%nat)]);
        ([1; 0; 1; 1]%nat, [(0, 1%nat); (0, 1%nat); (0, 1%nat); (0, 1%nat); (0, 1%nat); (0, 1%nat); (0, 1%nat); (0, 1%nat); (0, 1%nat); (0, 1%nat); (0, 1%nat); (0, 1%nat); (0, 1%nat); (0, 1%nat); (0, 1%nat); (0, 1%nat); (0, 1%nat); (0, 1%nat); (0, 1%nat); (0, 1%nat); (0, 1%nat); (0, 1%nat); (0, 1%nat); (0, 1%nat); (0, 1%nat); (0, 1%nat); (0, 1%nat); (0, 1%nat); (0, 1%nat); (0, 1%nat); (0, 1%nat); (0, 1%nat); (0, 1%nat); (0, 1%nat); (0, 1%nat); (0, 1%nat); (0, 1%nat); (0, 1%nat); (0, 1%nat); (0, 1%nat); (0, 1%nat); (0, 1%nat); (0, 1%nat); (0, 1%nat); (0, 1%nat); (0, 1%nat); (256, 1%nat); ((-256), 1%nat); (0, 1%nat); ((-256), 1%nat); (0, 1%nat); (0, 1%nat); ((-256), 1%nat); (0, 1%nat); (0, 1%nat); (0, 1%nat); (0, 1%nat); (0, 1%nat); (0, 1%nat); (0, 1%nat); (0, 1%nat); (0, 1%nat); ((-256), 1%nat); (0, 1%nat); (0, 1%nat); (0, 1%nat); (0, 1%nat); (0, 1%nat); (0, 1%nat); (0, 1%nat)]);
        ([2; 0; 1; 1]%nat, [(0, 1%nat); (0, 1%nat); (0, 1%nat); (0, 1%nat); (0, 1%nat); (0, 1%nat); (0, 1%nat); (0, 1%nat); (0, 1%nat); (0, 1%nat); (0, 1%nat); (0, 1%nat); (0, 1%nat); (0, 1%nat); (0, 1%nat); (0, 1%nat); (0, 1%nat); (0, 1%nat); (0, 1%nat); (0, 1%nat); (0, 1%nat); (0, 1%nat); (0, 1%nat); (0, 1%nat); (0, 1%nat); (0, 1%nat); (0, 1%nat); (0, 1%nat); (0, 1%nat); (0, 1%nat); (0, 1%nat); (0, 1%nat); (0, 1%nat); (0, 1%nat); (0, 1%nat); (0, 1%nat); (0, 1%nat); (0, 1%nat); (0, 1%nat); (0, 1%nat); (0, 1%nat); (0, 1%nat); (0, 1%nat); (0, 1%nat); (0, 1%nat); (0, 1%nat); ((-32), 1%nat); (128, 1%nat); (0, 1%nat); (0, 1%nat); (0, 1%nat); (0, 1%nat); (0, 1%nat); (0, 1%nat); (0, 1%nat); (0, 1%nat); (0, 1%nat); (0, 1%nat); (0, 1%nat); (0, 1%nat); (0, 1%nat); (0, 1%nat); (0, 1%nat); (0, 1%nat); (0, 1%nat); (0, 1%nat); (0, 1%nat); (0, 1%nat); (0, 1%nat); (0, 1%nat)]);
        ([0; 1; 1; 1]%nat, [(0, 1%nat); (0, 1%nat); (0, 1%nat); (0, 1%nat); (0, 1%nat); (0, 1%nat); (0, 1%nat); (0, 1%nat); (0, 1%nat); (0, 1%nat); (0, 1%nat); (0, 1%nat); (0, 1%nat); (0, 1%nat); (0, 1%nat); (0, 1%nat); (0, 1%nat); (0, 1%nat); (0, 1%nat); (0, 1%nat); (0, 1%nat); (0, 1%nat); (0, 1%nat); (0, 1%nat); (0, 1%nat); (0, 1%nat); (0, 1%nat); (0, 1%nat); (0, 1%nat); (0, 1%nat); (0, 1%nat); (0, 1%nat); (0, 1%nat); (0, 1%nat); (0, 1%nat); (0, 1%nat); (0, 1%nat); (0, 1%nat); (0, 1%nat); (0, 1%nat); (0, 1%nat); (0, 1%nat); (0, 1%nat); (0, 1%nat); (0, 1%nat); (0, 1%nat); (0, 1%nat); (0, 1%nat); (256, 1%nat); ((-256), 1%nat); ((-256), 1%nat); (0, 1%nat); (0, 1%nat); ((-256), 1%nat); (0, 1%nat); (0, 1%nat); (0, 1%nat); (0, 1%nat); (0, 1%nat); (0, 1%nat); (0, 1%nat); (0, 1%nat); (0, 1%nat); ((-256), 1%nat); (0, 1%nat); (0, 1%nat); (0, 1%nat); (0, 1%nat); (0, 1%nat); (0, 1%nat)]);
        ([1; 1; 1; 1]%nat, [(0, 1%nat); (0, 1%nat); (0, 1%nat); (0, 1%nat); (0, 1%nat); (0, 1%nat); (0, 1%nat); (0, 1%nat); (0, 1%nat); (0, 1%nat); (0, 1%nat); (0, 1%nat); (0, 1%nat); (0, 1%nat); (0, 1%nat); (0, 1%nat); (0, 1%nat); (0, 1%nat); (0, 1%nat); (0, 1%nat); (0, 1%nat); (0, 1%nat); (0, 1%nat); (0, 1%nat); (0, 1%nat); (0, 1%nat); (0, 1%nat); (0, 1%nat); (0, 1%nat); (0, 1%nat); (0, 1%nat); (0, 1%nat); (0, 1%nat); (0, 1%nat); (0, 1%nat); (0, 1%nat); (0, 1%nat); (0, 1%nat); (0, 1%nat); (0, 1%nat); (0, 1%nat); (0, 1%nat); (0, 1%nat); (0, 1%nat); (0, 1%nat); (0, 1%nat); (0, 1%nat); (0, 1%nat); (0, 1%nat); (256, 1%nat); (0, 1%nat); (0, 1%nat); (0, 1%nat); (0, 1%nat); (0, 1%nat); (0, 1%nat); (0, 1%nat); (0, 1%nat); (0, 1%nat); (0, 1%nat); (0, 1%nat); (0, 1%nat); (0, 1%nat); (0, 1%nat); (0, 1%nat); (0, 1%nat); (0, 1%nat); (0, 1%nat); (0, 1%nat); (0, 1%nat)]);
        ([0; 2; 1; 1]%nat, [(0, 1%nat); (0, 1%nat); (0, 1%nat); (0, 1%nat); (0, 1%nat); (0, 1%nat); (0, 1%nat); (0, 1%nat); (0, 1%nat); (0, 1%nat); (0, 1%nat); (0, 1%nat); (0, 1%nat); (0, 1%nat); (0, 1%nat); (0, 1%nat); (0, 1%nat); (0, 1%nat); (0, 1%nat); (0, 1%nat); (0, 1%nat); (0, 1%nat); (0, 1%nat); (0, 1%nat); (0, 1%nat); (0, 1%nat); (0, 1%nat); (0, 1%nat); (0, 1%nat); (0, 1%nat); (0, 1%nat); (0, 1%nat); (0, 1%nat); (0, 1%nat); (0, 1%nat); (0, 1%nat); (0, 1%nat); (0, 1%nat); (0, 1%nat); (0, 1%nat); (0, 1%nat); (0, 1%nat); (0, 1%nat); (0, 1%nat); (0, 1%nat); (0, 1%nat); (0, 1%nat); (0, 1%nat); ((-32), 1%nat); (0, 1%nat); (128, 1%nat); (0, 1%nat); (0, 1%nat); (0, 1%nat); (0, 1%nat); (0, 1%nat); (0, 1%nat); (0, 1%nat); (0, 1%nat); (0, 1%nat); (0, 1%nat); (0, 1%nat); (0, 1%nat); (0, 1%nat); (0, 1%nat); (0, 1%nat); (0, 1%nat); (0, 1%nat); (0, 1%nat); (0, 1%nat)]);
        ([0; 0; 2; 1]%nat, [(0, 1%nat); (0, 1%nat); (0, 1%nat); (0, 1%nat); (0, 1%nat); (0, 1%nat); (0, 1%nat); (0, 1%nat); (0, 1%nat); (0, 1%nat); (0, 1%nat); (0, 1%nat); (0, 1%nat); (0, 1%nat); (0, 1%nat); (0, 1%nat); (0, 1%nat); (0, 1%nat); (0, 1%nat); (0, 1%nat); (0, 1%nat); (0, 1%nat); (0, 1%nat); (0, 1%nat); (0, 1%nat); (0, 1%nat); (0, 1%nat); (0, 1%nat); (0, 1%nat); (0, 1%nat); (0, 1%nat); (0, 1%nat); (0, 1%nat); (0, 1%nat); (0, 1%nat); (0, 1%nat); (0, 1%nat); (0, 1%nat); (0, 1%nat); (0, 1%nat); (0, 1%nat); (0, 1%nat); (0, 1%nat); (0, 1%nat); (0, 1%nat); ((-32), 1%nat); (32, 1%nat); (0, 1%nat); (32, 1%nat); (0, 1%nat); (0, 1%nat); (160, 1%nat); ((-128), 1%nat); ((-128), 1%nat); ((-128), 1%nat); (0, 1%nat); (0, 1%nat); (0, 1%nat); (0, 1%nat); (0, 1%nat); (0, 1%nat); (32, 1%nat); (0, 1%nat); (0, 1%nat); ((-128), 1%nat); (0, 1%nat); (0, 1%nat); (0, 1%nat); (0, 1%nat); (0, 1%nat)]);
        ([1; 0; 2; 1]%nat, [(0, 1%nat); (0, 1%nat); (0, 1%nat); (0, 1%nat); (0, 1%nat); (0, 1%nat); (0, 1%nat); (0, 1%nat); (0, 1%nat); (0, 1%nat); (0, 1%nat); (0, 1%nat); (0, 1%nat); (0, 1%nat); (0, 1%nat); (0, 1%nat); (0, 1%nat); (0, 1%nat); (0, 1%nat); (0, 1%nat); (0, 1%nat); (0, 1%nat); (0, 1%nat); (0, 1%nat); (0, 1%nat); (0, 1%nat); (0, 1%nat); (0, 1%nat); (0, 1%nat); (0, 1%nat); (0, 1%nat); (0, 1%nat); (0, 1%nat); (0, 1%nat); (0, 1%nat); (0, 1%nat); (0, 1%nat); (0, 1%nat); (0, 1%nat); (0, 1%nat); (0, 1%nat); (0, 1%nat); (0, 1%nat); (0, 1%nat); (0, 1%nat); (0, 1%nat); ((-32), 1%nat); (0, 1%nat); (0, 1%nat); (0, 1%nat); (0, 1%nat); (0, 1%nat); (128, 1%nat); (0, 1%nat); (0, 1%nat); (0, 1%nat); (0, 1%nat); (0, 1%nat); (0, 1%nat); (0, 1%nat); (0, 1%nat); (0, 1%nat); (0, 1%nat); (0, 1%nat); (0, 1%nat); (0, 1%nat); (0, 1%nat); (0, 1%nat); (0, 1%nat); (0, 1%nat)]);
        ([0; 1; 2; 1]%nat, [(0, 1%nat); (0, 1%nat); (0, 1%nat); (0, 1%nat); (0, 1%nat); (0, 1%nat); (0, 1%nat); (0, 1%nat); (0, 1%nat); (0, 1%nat); (0, 1%nat); (0, 1%nat); (0, 1%nat); (0, 1%nat); (0, 1%nat); (0, 1%nat); (0, 1%nat); (0, 1%nat); (0, 1%nat); (0, 1%nat); (0, 1%nat); (0, 1%nat); (0, 1%nat); (0, 1%nat); (0, 1%nat); (0, 1%nat); (0, 1%nat); (0, 1%nat); (0, 1%nat); (0, 1%nat); (0, 1%nat); (0, 1%nat); (0, 1%nat); (0, 1%nat); (0, 1%nat); (0, 1%nat); (0, 1%nat); (0, 1%nat); (0, 1%nat); (0, 1%nat); (0, 1%nat); (0, 1%nat); (0, 1%nat); (0, 1%nat); (0, 1%nat); (0, 1%nat); (0, 1%nat); (0, 1%nat); ((-32), 1%nat); (0, 1%nat); (0, 1%nat); (0, 1%nat); (0, 1%nat); (128, 1%nat); (0, 1%nat); (0, 1%nat); (0, 1%nat); (0, 1%nat); (0, 1%nat); (0, 1%nat); (0, 1%nat); (0, 1%nat); (0, 1%nat); (0, 1%nat); (0, 1%nat); (0, 1%nat); (0, 1%nat); (0, 1%nat); (0, 1%nat); (0, 1%nat)]);
        ([0; 0; 3; 1]%nat, [(0, 1%nat); (0, 1%nat); (0, 1%nat); (0, 1%nat); (0, 1%nat); (0, 1%nat); (0, 1%nat); (0, 1%nat); (0, 1%nat); (0, 1%nat); (0, 1%nat); (0, 1%nat); (0, 1%nat); (0, 1%nat); (0, 1%nat); (0, 1%nat); (0, 1%nat); (0, 1%nat); (0, 1%nat); (0, 1%nat); (0, 1%nat); (0, 1%nat); (0, 1%nat); (0, 1%nat); (0, 1%nat); (0, 1%nat); (0, 1%nat); (0, 1%nat); (0, 1%nat); (0, 1%nat); (0, 1%nat); (0, 1%nat); (0, 1%nat); (0, 1%nat); (0, 1%nat); (0, 1%nat); (0, 1%nat); (0, 1%nat); (0, 1%nat); (0, 1%nat); (0, 1%nat); (0, 1%nat); (0, 1%nat); (0, 1%nat); (0, 1%nat); (16, 3%nat); (0, 1%nat); (0, 1%nat); (0, 1%nat); (0, 1%nat); (0, 1%nat); ((-32), 1%nat); (0, 1%nat); (0, 1%nat); (128, 3%nat); (0, 1%nat); (0, 1%nat); (0, 1%nat); (0, 1%nat); (0, 1%nat); (0, 1%nat); (0, 1%nat); (0, 1%nat); (0, 1%nat); (0, 1%nat); (0, 1%nat); (0, 1%nat); (0, 1%nat); (0, 1%nat); (0, 1%nat)]);
        ([0; 0; 0; 2]%nat, [(0, 1%nat); (0, 1%nat); (0, 1%nat); (0, 1%nat); (0, 1%nat); (0, 1%nat); (0, 1%nat); (0, 1%nat); (0, 1%nat); (0, 1%nat); (0, 1%nat); (0, 1%nat); (0, 1%nat); (0, 1%nat); (0, 1%nat); (0, 1%nat); (0, 1%nat); (0, 1%nat); (0, 1%nat); (0, 1%nat); (0, 1%nat); (0, 1%nat); (0, 1%nat); (0, 1%nat); (0, 1%nat); (0, 1%nat); (0, 1%nat); (0, 1%nat); (0, 1%nat); (0, 1%nat); (0, 1%nat); (0, 1%nat); (0, 1%nat); (0, 1%nat); (0, 1%nat); ((-12), 1%nat); (28, 1%nat); ((-16), 1%nat); (0, 1%nat); (28, 1%nat); ((-32), 1%nat); (0, 1%nat); ((-16), 1%nat); (0, 1%nat); (0, 1%nat); (28, 1%nat); ((-32), 1%nat); (0, 1%nat); ((-32), 1%nat); (0, 1%nat); (0, 1%nat); ((-16), 1%nat); (0, 1%nat); (0, 1%nat); (0, 1%nat); (76, 1%nat); ((-144), 1%nat); (64, 1%nat); ((-144), 1%nat); (128, 1%nat); (64, 1%nat); ((-144), 1%nat); (128, 1%nat); (128, 1%nat); (64, 1%nat); ((-128), 1%nat); (128, 1%nat); (128, 1%nat); (128, 1%nat); (64, 1%nat)]);
        ([1; 0; 0; 2]%nat, [(0, 1%nat); (0, 1%nat); (0, 1%nat); (0, 1%nat); (0, 1%nat); (0, 1%nat); (0, 1%nat); (0, 1%nat); (0, 1%nat); (0, 1%nat); (0, 1%nat); (0, 1%nat); (0, 1%nat); (0, 1%nat); (0, 1%nat); (0, 1%nat); (0, 1%nat); (0, 1%nat); (0, 1%nat); (0, 1%nat); (0, 1%nat); (0, 1%nat); (0, 1%nat); (0, 1%nat); (0, 1%nat); (0, 1%nat); (0, 1%nat); (0, 1%nat); (0, 1%nat); (0, 1%nat); (0, 1%nat); (0, 1%nat); (0, 1%nat); (0, 1%nat); (0, 1%nat); (0, 1%nat); ((-32), 1%nat); (32, 1%nat); (0, 1%nat); (0, 1%nat); (32, 1%nat); (0, 1%nat); (0, 1%nat); (0, 1%nat); (0, 1%nat); (0, 1%nat); (32, 1%nat); (0, 1%nat); (0, 1%nat); (0, 1%nat); (0, 1%nat); (0, 1%nat); (0, 1%nat); (0, 1%nat); (0, 1%nat); (0, 1%nat); (160, 1%nat); ((-128), 1%nat); (0, 1%nat); ((-128), 1%nat); (0, 1%nat); (0, 1%nat); ((-128), 1%nat); (0, 1%nat); (0, 1%nat); (0, 1%nat); ((-128), 1%nat); (0, 1%nat); (0, 1%nat); (0, 1%nat)]);
        ([2; 0; 0; 2]%nat, [(0, 1%nat); (0, 1%nat); (0, 1%nat); (0, 1%nat); (0, 1%nat); (0, 1%nat); (0, 1%nat); (0, 1%nat); (0, 1%nat); (0, 1%nat); (0, 1%nat); (0, 1%nat); (0, 1%nat); (0, 1%nat); (0, 1%nat); (0, 1%nat); (0, 1%nat); (0, 1%nat); (0, 1%nat); (0, 1%nat); (0, 1%nat); (0, 1%nat); (0, 1%nat); (0, 1%nat); (0, 1%nat); (0, 1%nat); (0, 1%nat); (0, 1%nat); (0, 1%nat); (0, 1%nat); (0, 1%nat); (0, 1%nat); (0, 1%nat); (0, 1%nat); (0, 1%nat); (0, 1%nat); (4, 1%nat); ((-16), 1%nat); (0, 1%nat); (0, 1%nat); (0, 1%nat); (0, 1%nat); (0, 1%nat); (0, 1%nat); (0, 1%nat); (0, 1%nat); (0, 1%nat); (0, 1%nat); (0, 1%nat); (0, 1%nat); (0, 1%nat); (0, 1%nat); (0, 1%nat); (0, 1%nat); (0, 1%nat); (0, 1%nat); ((-16), 1%nat); (64, 1%nat); (0, 1%nat); (0, 1%nat); (0, 1%nat); (0, 1%nat); (0, 1%nat); (0, 1%nat); (0, 1%nat); (0, 1%nat); (0, 1%nat); (0, 1%nat); (0, 1%nat); (0, 1%nat)]);
        ([0; 1; 0; 2]%nat, [(0, 1%nat); (0, 1%nat); (0, 1%nat); (0, 1%nat); (0, 1%nat); (0, 1%nat); (0, 1%nat); (0, 1%nat); (0, 1%nat); (0, 1%nat); (0, 1%nat); (0, 1%nat); (0, 1%nat); (0, 1%nat); (0, 1%nat); (0, 1%nat); (0, 1%nat); (0, 1%nat); (0, 1%nat); (0, 1%nat); (0, 1%nat); (0, 1%nat); (0, 1%nat); (0, 1%nat); (0, 1%nat); (0, 1%nat); (0, 1%nat); (0, 1%nat); (0, 1%nat); (0, 1%nat); (0, 1%nat); (0, 1%nat); (0, 1%nat); (0, 1%nat); (0, 1%nat); (0, 1%nat); (0, 1%nat); (0, 1%nat); (0, 1%nat); ((-32), 1%nat); (32, 1%nat); (0, 1%nat); (32, 1%nat); (0, 1%nat); (0, 1%nat); (0, 1%nat); (0, 1%nat); (0, 1%nat); (32, 1%nat); (0, 1%nat); (0, 1%nat); (0, 1%nat); (0, 1%nat); (0, 1%nat); (0, 1%nat); (0, 1%nat); (0, 1%nat); (0, 1%nat); (160, 1%nat); ((-128), 1%nat); ((-128), 1%nat); (0, 1%nat); (0, 1%nat); ((-128), 1%nat); (0, 1%nat); (0, 1%nat); (0, 1%nat); ((-128), 1%nat); (0, 1%nat); (0, 1%nat)]);
        ([1; 1; 0; 2]%nat, [(0, 1%nat); (0, 1%nat); (0, 1%nat); (0, 1%nat); (0, 1%nat); (0, 1%nat); (0, 1%nat); (0, 1%nat); (0, 1%nat); (0, 1%nat); (0, 1%nat); (0, 1%nat); (0, 1%nat); (0, 1%nat); (0, 1%nat); (0, 1%nat); (0, 1%nat); (0, 1%nat); (0, 1%nat); (0, 1%nat); (0, 1%nat); (0, 1%nat); (0, 1%nat); (0, 1%nat); (0, 1%nat); (0, 1%nat); (0, 1%nat); (0, 1%nat); (0, 1%nat); (0, 1%nat); (0, 1%nat); (0, 1%nat); (0, 1%nat); (0, 1%nat); (0, 1%nat); (0, 1%nat); (0, 1%nat); (0, 1%nat); (0, 1%nat); (0, 1%nat); ((-32), 1%nat); (0, 1%nat); (0, 1%nat); (0, 1%nat); (0, 1%nat); (0, 1%nat); (0, 1%nat); (0, 1%nat); (0, 1%nat); (0, 1%nat); (0, 1%nat); (0, 1%nat); (0, 1%nat); (0, 1%nat); (0, 1%nat); (0, 1%nat); (0, 1%nat); (0, 1%nat); (0, 1%nat); (128, 1%nat); (0, 1%nat); (0, 1%nat); (0, 1%nat); (0, 1%nat); (0, 1%nat); (0, 1%nat); (0, 1%nat); (0, 1%nat); (0, 1%nat); (0, 1%nat)]);
        ([0; 2; 0; 2]%nat, [(0, 1%nat); (0, 1%nat); (0, 1%nat); (0, 1%nat); (0, 1%nat); (0, 1%nat); (0, 1%nat); (0, 1%nat); (0, 1%nat); (0, 1%nat); (0, 1%nat); (0, 1%nat); (0, 1%nat); (0, 1%nat); (0, 1%nat); (0, 1%nat); (0, 1%nat); (0, 1%nat); (0, 1%nat); (0, 1%nat); (0, 1%nat); (0, 1%nat); (0, 1%nat); (0, 1%nat); (0, 1%nat); (0, 1%nat); (0, 1%nat); (0, 1%nat); (0, 1%nat); (0, 1%nat); (0, 1%nat); (0, 1%nat); (0, 1%nat); (0, 1%nat); (0, 1%nat); (0, 1%nat); (0, 1%nat); (0, 1%nat); (0, 1%nat); (4, 1%nat); (0, 1%nat); (0, 1%nat); ((-16), 1%nat); (0, 1%nat); (0, 1%nat); (0, 1%nat); (0, 1%nat); (0, 1%nat); (0, 1%nat); (0, 1%nat); (0, 1%nat); (0, 1%nat); (0, 1%nat); (0, 1%nat); (0, 1%nat); (0, 1%nat); (0, 1%nat); (0, 1%nat); ((-16), 1%nat); (0, 1%nat); (64, 1%nat); (0, 1%nat); (0, 1%nat); (0, 1%nat); (0, 1%nat); (0, 1%nat); (0, 1%nat); (0, 1%nat); (0, 1%nat); (0, 1%nat)]);
        ([0; 0; 1; 2]%nat, [(0, 1%nat); (0, 1%nat); (0, 1%nat); (0, 1%nat); (0, 1%nat); (0, 1%nat); (0, 1%nat); (0, 1%nat); (0, 1%nat); (0, 1%nat); (0, 1%nat); (0, 1%nat); (0, 1%nat); (0, 1%nat); (0, 1%nat); (0, 1%nat); (0, 1%nat); (0, 1%nat); (0, 1%nat); (0, 1%nat); (0, 1%nat); (0, 1%nat); (0, 1%nat); (0, 1%nat); (0, 1%nat); (0, 1%nat); (0, 1%nat); (0, 1%nat); (0, 1%nat); (0, 1%nat); (0, 1%nat); (0, 1%nat); (0, 1%nat); (0, 1%nat); (0, 1%nat); (0, 1%nat); (0, 1%nat); (0, 1%nat); (0, 1%nat); (0, 1%nat); (0, 1%nat); (0, 1%nat); (0, 1%nat); (0, 1%nat); (0, 1%nat); ((-32), 1%nat); (32, 1%nat); (0, 1%nat); (32, 1%nat); (0, 1%nat); (0, 1%nat); (32, 1%nat); (0, 1%nat); (0, 1%nat); (0, 1%nat); (0, 1%nat); (0, 1%nat); (0, 1%nat); (0, 1%nat); (0, 1%nat); (0, 1%nat); (160, 1%nat); ((-128), 1%nat); ((-128), 1%nat); ((-128), 1%nat); (0, 1%nat); (0, 1%nat); (0, 1%nat); ((-128), 1%nat); (0, 1%nat)]);
        ([1; 0; 1; 2]%nat, [(0, 1%nat); (0, 1%nat); (0, 1%nat); (0, 1%nat); (0, 1%nat); (0, 1%nat); (0, 1%nat); (0, 1%nat); (0, 1%nat); (0, 1%nat); (0, 1%nat); (0, 1%nat); (0, 1%nat); (0, 1%nat); (0, 1%nat); (0, 1%nat); (0, 1%nat); (0, 1%nat); (0, 1%nat); (0, 1%nat); (0, 1%nat); (0, 1%nat); (0, 1%nat); (0, 1%nat); (0, 1%nat); (0, 1%nat); (0, 1%nat); (0, 1%nat); (0, 1%nat); (0, 1%nat); (0, 1%nat); (0, 1%nat); (0, 1%nat); (0, 1%nat); (0, 1%nat); (0, 1%nat); (0, 1%nat); (0, 1%nat); (0, 1%nat); (0, 1%nat); (0, 1%nat); (0, 1%nat); (0, 1%nat); (0, 1%nat); (0, 1%nat); (0, 1%nat); ((-32), 1%nat); (0, 1%nat); (0, 1%nat); (0, 1%nat); (0, 1%nat); (0, 1%nat); (0, 1%nat); (0, 1%nat); (0, 1%nat); (0, 1%nat); (0, 1%nat); (0, 1%nat); (0, 1%nat); (0, 1%nat); (0, 1%nat); (0, 1%nat); (128, 1%nat); (0, 1%nat); (0, 1%nat); (0, 1%nat); (0, 1%nat); (0, 1%nat); (0, 1%nat); (0, 1%nat)]);
        ([0; 1; 1; 2]%nat, [(0, 1%nat); (0, 1%nat); (0, 1%nat); (0, 1%nat); (0, 1%nat); (0, 1%nat); (0, 1%nat); (0, 1%nat); (0, 1%nat); (0, 1%nat); (0, 1%nat); (0, 1%nat); (0, 1%nat); (0, 1%nat); (0, 1%nat); (0, 1%nat); (0, 1%nat); (0, 1%nat); (0, 1%nat); (0, 1%nat); (0, 1%nat); (0, 1%nat); (0, 1%nat); (0, 1%nat); (0, 1%nat); (0, 1%nat); (0, 1%nat); (0, 1%nat); (0, 1%nat); (0, 1%nat); (0, 1%nat); (0, 1%nat); (0, 1%nat); (0, 1%nat); (0, 1%nat); (0, 1%nat); (0, 1%nat); (0, 1%nat); (0, 1%nat); (0, 1%nat); (0, 1%nat); (0, 1%nat); (0, 1%nat); (0, 1%nat); (0, 1%nat); (0, 1%nat); (0, 1%nat); (0, 1%nat); ((-32), 1%nat); (0, 1%nat); (0, 1%nat); (0, 1%nat); (0, 1%nat); (0, 1%nat); (0, 1%nat); (0, 1%nat); (0, 1%nat); (0, 1%nat); (0, 1%nat); (0, 1%nat); (0, 1%nat); (0, 1%nat); (0, 1%nat); (128, 1%nat); (0, 1%nat); (0, 1%nat); (0, 1%nat); (0, 1%nat); (0, 1%nat); (0, 1%nat)]);
        ([0; 0; 2; 2]%nat, [(0, 1%nat); (0, 1%nat); (0, 1%nat); (0, 1%nat); (0, 1%nat); (0, 1%nat); (0, 1%nat); (0, 1%nat); (0, 1%nat); (0, 1%nat); (0, 1%nat); (0, 1%nat); (0, 1%nat); (0, 1%nat); (0, 1%nat); (0, 1%nat); (0, 1%nat); (0, 1%nat); (0, 1%nat); (0, 1%nat); (0, 1%nat); (0, 1%nat); (0, 1%nat); (0, 1%nat); (0, 1%nat); (0, 1%nat); (0, 1%nat); (0, 1%nat); (0, 1%nat); (0, 1%nat); (0, 1%nat); (0, 1%nat); (0, 1%nat); (0, 1%nat); (0, 1%nat); (0, 1%nat); (0, 1%nat); (0, 1%nat); (0, 1%nat); (0, 1%nat); (0, 1%nat); (0, 1%nat); (0, 1%nat); (0, 1%nat); (0, 1%nat); (4, 1%nat); (0, 1%nat); (0, 1%nat); (0, 1%nat); (0, 1%nat); (0, 1%nat); ((-16), 1%nat); (0, 1%nat); (0, 1%nat); (0, 1%nat); (0, 1%nat); (0, 1%nat); (0, 1%nat); (0, 1%nat); (0, 1%nat); (0, 1%nat); ((-16), 1%nat); (0, 1%nat); (0, 1%nat); (64, 1%nat); (0, 1%nat); (0, 1%nat); (0, 1%nat); (0, 1%nat); (0, 1%nat)]);
        ([0; 0; 0; 3]%nat, [(0, 1%nat); (0, 1%nat); (0, 1%nat); (0, 1%nat); (0, 1%nat); (0, 1%nat); (0, 1%nat); (0, 1%nat); (0, 1%nat); (0, 1%nat); (0, 1%nat); (0, 1%nat); (0, 1%nat); (0, 1%nat); (0, 1%nat); (0, 1%nat); (0, 1%nat); (0, 1%nat); (0, 1%nat); (0, 1%nat); (0, 1%nat); (0, 1%nat); (0, 1%nat); (0, 1%nat); (0, 1%nat); (0, 1%nat); (0, 1%nat); (0, 1%nat); (0, 1%nat); (0, 1%nat); (0, 1%nat); (0, 1%nat); (0, 1%nat); (0, 1%nat); (0, 1%nat); (16, 3%nat); ((-16), 3%nat); (0, 1%nat); (0, 1%nat); ((-16), 3%nat); (0, 1%nat); (0, 1%nat); (0, 1%nat); (0, 1%nat); (0, 1%nat); ((-16), 3%nat); (0, 1%nat); (0, 1%nat); (0, 1%nat); (0, 1%nat); (0, 1%nat); (0, 1%nat); (0, 1%nat); (0, 1%nat); (0, 1%nat); ((-112), 3%nat); (32, 1%nat); (0, 1%nat); (32, 1%nat); (0, 1%nat); (0, 1%nat); (32, 1%nat); (0, 1%nat); (0, 1%nat); (0, 1%nat); (224, 3%nat); ((-128), 3%nat); ((-128), 3%nat); ((-128), 3%nat); ((-128), 3%nat)]);
        ([1; 0; 0; 3]%nat, [(0, 1%nat); (0, 1%nat); (0, 1%nat); (0, 1%nat); (0, 1%nat); (0, 1%nat); (0, 1%nat); (0, 1%nat); (0, 1%nat); (0, 1%nat); (0, 1%nat); (0, 1%nat); (0, 1%nat); (0, 1%nat); (0, 1%nat); (0, 1%nat); (0, 1%nat); (0, 1%nat); (0, 1%nat); (0, 1%nat); (0, 1%nat); (0, 1%nat); (0, 1%nat); (0, 1%nat); (0, 1%nat); (0, 1%nat); (0, 1%nat); (0, 1%nat); (0, 1%nat); (0, 1%nat); (0, 1%nat); (0, 1%nat); (0, 1%nat); (0, 1%nat); (0, 1%nat); (0, 1%nat); (16, 3%nat); (0, 1%nat); (0, 1%nat); (0, 1%nat); (0, 1%nat); (0, 1%nat); (0, 1%nat); (0, 1%nat); (0, 1%nat); (0, 1%nat); (0, 1%nat); (0, 1%nat); (0, 1%nat); (0, 1%nat); (0, 1%nat); (0, 1%nat); (0, 1%nat); (0, 1%nat); (0, 1%nat); (0, 1%nat); ((-32), 1%nat); (0, 1%nat); (0, 1%nat); (0, 1%nat); (0, 1%nat); (0, 1%nat); (0, 1%nat); (0, 1%nat); (0, 1%nat); (0, 1%nat); (128, 3%nat); (0, 1%nat); (0, 1%nat); (0, 1%nat)]);
        ([0; 1; 0; 3]%nat, [(0, 1%nat); (0, 1%nat); (0, 1%nat); (0, 1%nat); (0, 1%nat); (0, 1%nat); (0, 1%nat); (0, 1%nat); (0, 1%nat); (0, 1%nat); (0, 1%nat); (0, 1%nat); (0, 1%nat); (0, 1%nat); (0, 1%nat); (0, 1%nat); (0, 1%nat); (0, 1%nat); (0, 1%nat); (0, 1%nat); (0, 1%nat); (0, 1%nat); (0, 1%nat); (0, 1%nat); (0, 1%nat); (0, 1%nat); (0, 1%nat); (0, 1%nat); (0, 1%nat); (0, 1%nat); (0, 1%nat); (0, 1%nat); (0, 1%nat); (0, 1%nat); (0, 1%nat); (0, 1%nat); (0, 1%nat); (0, 1%nat); (0, 1%nat); (16, 3%nat); (0, 1%nat); (0, 1%nat); (0, 1%nat); (0, 1%nat); (0, 1%nat); (0, 1%nat); (0, 1%nat); (0, 1%nat); (0, 1%nat); (0, 1%nat); (0, 1%nat); (0, 1%nat); (0, 1%nat); (0, 1%nat); (0, 1%nat); (0, 1%nat); (0, 1%nat); (0, 1%nat); ((-32), 1%nat); (0, 1%nat); (0, 1%nat); (0, 1%nat); (0, 1%nat); (0, 1%nat); (0, 1%nat); (0, 1%nat); (0, 1%nat); (128, 3%nat); (0, 1%nat); (0, 1%nat)]);
        ([0; 0; 1; 3]%nat, [(0, 1%nat); (0, 1%nat); (0, 1%nat); (0, 1%nat); (0, 1%nat); (0, 1%nat); (0, 1%nat); (0, 1%nat); (0, 1%nat); (0, 1%nat); (0, 1%nat); (0, 1%nat); (0, 1%nat); (0, 1%nat); (0, 1%nat); (0, 1%nat); (0, 1%nat); (0, 1%nat); (0, 1%nat); (0, 1%nat); (0, 1%nat); (0, 1%nat); (0, 1%nat); (0, 1%nat); (0, 1%nat); (0, 1%nat); (0, 1%nat); (0, 1%nat); (0, 1%nat); (0, 1%nat); (0, 1%nat); (0, 1%nat); (0, 1%nat); (0, 1%nat); (0, 1%nat); (0, 1%nat); (0, 1%nat); (0, 1%nat); (0, 1%nat); (0, 1%nat); (0, 1%nat); (0, 1%nat); (0, 1%nat); (0, 1%nat); (0, 1%nat); (16, 3%nat); (0, 1%nat); (0, 1%nat); (0, 1%nat); (0, 1%nat); (0, 1%nat); (0, 1%nat); (0, 1%nat); (0, 1%nat); (0, 1%nat); (0, 1%nat); (0, 1%nat); (0, 1%nat); (0, 1%nat); (0, 1%nat); (0, 1%nat); ((-32), 1%nat); (0, 1%nat); (0, 1%nat); (0, 1%nat); (0, 1%nat); (0, 1%nat); (0, 1%nat); (128, 3%nat); (0, 1%nat)]);
        ([0; 0; 0; 4]%nat, [(0, 1%nat); (0, 1%nat); (0, 1%nat); (0, 1%nat); (0, 1%nat); (0, 1%nat); (0, 1%nat); (0, 1%nat); (0, 1%nat); (0, 1%nat); (0, 1%nat); (0, 1%nat); (0, 1%nat); (0, 1%nat); (0, 1%nat); (0, 1%nat); (0, 1%nat); (0, 1%nat); (0, 1%nat); (0, 1%nat); (0, 1%nat); (0, 1%nat); (0, 1%nat); (0, 1%nat); (0, 1%nat); (0, 1%nat); (0, 1%nat); (0, 1%nat); (0, 1%nat); (0, 1%nat); (0, 1%nat); (0, 1%nat); (0, 1%nat); (0, 1%nat); (0, 1%nat); ((-1), 1%nat); (0, 1%nat); (0, 1%nat); (0, 1%nat); (0, 1%nat); (0, 1%nat); (0, 1%nat); (0, 1%nat); (0, 1%nat); (0, 1%nat); (0, 1%nat); (0, 1%nat); (0, 1%nat); (0, 1%nat); (0, 1%nat); (0, 1%nat); (0, 1%nat); (0, 1%nat); (0, 1%nat); (0, 1%nat); (22, 3%nat); (0, 1%nat); (0, 1%nat); (0, 1%nat); (0, 1%nat); (0, 1%nat); (0, 1%nat); (0, 1%nat); (0, 1%nat); (0, 1%nat); ((-16), 1%nat); (0, 1%nat); (0, 1%nat); (0, 1%nat); (32, 3%nat)]) ] ] ].
