(** Transcription of the tables of
    polynomials_on_simplices/calculus/polynomial/monomial_integrals_unit_simplex_cache.py:
    a number [p / q] of the source is the pair of [p] and [q] ([q = 1] for an
    integer). *)
From Coq Require Import List ZArith.
Import ListNotations.
Local Open Scope Z_scope.

(** 6-382: from [(n, r)] to the list of integrals *)
Definition monomial_integrals_unit_simplex_all_cache : list ((nat * nat) * list (Z * Z)) :=
  [ ((1, 1)%nat, [(1, 1); (1, 2)]);
    ((1, 2)%nat, [(1, 1); (1, 2); (1, 3)]);
    ((1, 3)%nat, [(1, 1); (1, 2); (1, 3); (1, 4)]);
    ((1, 4)%nat, [(1, 1); (1, 2); (1, 3); (1, 4); (1, 5)]);
    ((1, 5)%nat, [(1, 1); (1, 2); (1, 3); (1, 4); (1, 5); (1, 6)]);
    ((1, 6)%nat, [(1, 1); (1, 2); (1, 3); (1, 4); (1, 5); (1, 6); (1, 7)]);
    ((2, 1)%nat, [(1, 2); (1, 6); (1, 6)]);
    ((2, 2)%nat, [(1, 2); (1, 6); (1, 12); (1, 6); (1, 24); (1, 12)]);
    ((2, 3)%nat, [(1, 2); (1, 6); (1, 12); (1, 20); (1, 6); (1, 24); (1, 60); (1, 12); (1, 60); (1, 20)]);
    ((2, 4)%nat, [(1, 2); (1, 6); (1, 12); (1, 20); (1, 30); (1, 6); (1, 24); (1, 60); (1, 120); (1, 12); (1, 60); (1, 180); (1, 20); (1, 120); (1, 30)]);
    ((2, 5)%nat, [(1, 2); (1, 6); (1, 12); (1, 20); (1, 30); (1, 42); (1, 6); (1, 24); (1, 60); (1, 120); (1, 210); (1, 12); (1, 60); (1, 180);
      (1, 420); (1, 20); (1, 120); (1, 420); (1, 30); (1, 210); (1, 42)]);
    ((2, 6)%nat, [(1, 2); (1, 6); (1, 12); (1, 20); (1, 30); (1, 42); (1, 56); (1, 6); (1, 24); (1, 60); (1, 120); (1, 210); (1, 336); (1, 12);
      (1, 60); (1, 180); (1, 420); (1, 840); (1, 20); (1, 120); (1, 420); (1, 1120); (1, 30); (1, 210); (1, 840); (1, 42); (1, 336); (1, 56)]);
    ((3, 1)%nat, [(1, 6); (1, 24); (1, 24); (1, 24)]);
    ((3, 2)%nat, [(1, 6); (1, 24); (1, 60); (1, 24); (1, 120); (1, 60); (1, 24); (1, 120); (1, 120); (1, 60)]);
    ((3, 3)%nat, [(1, 6); (1, 24); (1, 60); (1, 120); (1, 24); (1, 120); (1, 360); (1, 60); (1, 360); (1, 120); (1, 24); (1, 120); (1, 360); (1, 120);
      (1, 720); (1, 360); (1, 60); (1, 360); (1, 360); (1, 120)]);
    ((3, 4)%nat, [(1, 6); (1, 24); (1, 60); (1, 120); (1, 210); (1, 24); (1, 120); (1, 360); (1, 840); (1, 60); (1, 360); (1, 1260); (1, 120);
      (1, 840); (1, 210); (1, 24); (1, 120); (1, 360); (1, 840); (1, 120); (1, 720); (1, 2520); (1, 360); (1, 2520); (1, 840); (1, 60); (1, 360);
      (1, 1260); (1, 360); (1, 2520); (1, 1260); (1, 120); (1, 840); (1, 840); (1, 210)]);
    ((3, 5)%nat, [(1, 6); (1, 24); (1, 60); (1, 120); (1, 210); (1, 336); (1, 24); (1, 120); (1, 360); (1, 840); (1, 1680); (1, 60); (1, 360);
      (1, 1260); (1, 3360); (1, 120); (1, 840); (1, 3360); (1, 210); (1, 1680); (1, 336); (1, 24); (1, 120); (1, 360); (1, 840); (1, 1680); (1, 120);
      (1, 720); (1, 2520); (1, 6720); (1, 360); (1, 2520); (1, 10080); (1, 840); (1, 6720); (1, 1680); (1, 60); (1, 360); (1, 1260); (1, 3360);
      (1, 360); (1, 2520); (1, 10080); (1, 1260); (1, 10080); (1, 3360); (1, 120); (1, 840); (1, 3360); (1, 840); (1, 6720); (1, 3360); (1, 210);
      (1, 1680); (1, 1680); (1, 336)]);
    ((3, 6)%nat, [(1, 6); (1, 24); (1, 60); (1, 120); (1, 210); (1, 336); (1, 504); (1, 24); (1, 120); (1, 360); (1, 840); (1, 1680); (1, 3024);
      (1, 60); (1, 360); (1, 1260); (1, 3360); (1, 7560); (1, 120); (1, 840); (1, 3360); (1, 10080); (1, 210); (1, 1680); (1, 7560); (1, 336);
      (1, 3024); (1, 504); (1, 24); (1, 120); (1, 360); (1, 840); (1, 1680); (1, 3024); (1, 120); (1, 720); (1, 2520); (1, 6720); (1, 15120);
      (1, 360); (1, 2520); (1, 10080); (1, 30240); (1, 840); (1, 6720); (1, 30240); (1, 1680); (1, 15120); (1, 3024); (1, 60); (1, 360); (1, 1260);
      (1, 3360); (1, 7560); (1, 360); (1, 2520); (1, 10080); (1, 30240); (1, 1260); (1, 10080); (1, 45360); (1, 3360); (1, 30240); (1, 7560);
      (1, 120); (1, 840); (1, 3360); (1, 10080); (1, 840); (1, 6720); (1, 30240); (1, 3360); (1, 30240); (1, 10080); (1, 210); (1, 1680); (1, 7560);
      (1, 1680); (1, 15120); (1, 7560); (1, 336); (1, 3024); (1, 3024); (1, 504)]) ].

(** 385-end: from [(n, r)] and a multi-index (a plain number when n = 1) to the
    integral *)
Definition monomial_integrals_unit_simplex_individual_cache : list ((nat * nat) * list (list nat * (Z * Z))) :=
  [ ((1, 1)%nat, [([0]%nat, (1, 1)); ([1]%nat, (1, 2))]);
    ((1, 2)%nat, [([0]%nat, (1, 1)); ([1]%nat, (1, 2)); ([2]%nat, (1, 3))]);
    ((1, 3)%nat, [([0]%nat, (1, 1)); ([1]%nat, (1, 2)); ([2]%nat, (1, 3)); ([3]%nat, (1, 4))]);
    ((1, 4)%nat, [([0]%nat, (1, 1)); ([1]%nat, (1, 2)); ([2]%nat, (1, 3)); ([3]%nat, (1, 4)); ([4]%nat, (1, 5))]);
    ((1, 5)%nat, [([0]%nat, (1, 1)); ([1]%nat, (1, 2)); ([2]%nat, (1, 3)); ([3]%nat, (1, 4)); ([4]%nat, (1, 5)); ([5]%nat, (1, 6))]);
    ((1, 6)%nat, [([0]%nat, (1, 1)); ([1]%nat, (1, 2)); ([2]%nat, (1, 3)); ([3]%nat, (1, 4)); ([4]%nat, (1, 5)); ([5]%nat, (1, 6)); ([6]%nat, (1, 7))]);
    ((2, 1)%nat, [([0; 0]%nat, (1, 2)); ([1; 0]%nat, (1, 6)); ([0; 1]%nat, (1, 6))]);
    ((2, 2)%nat, [([0; 0]%nat, (1, 2)); ([1; 0]%nat, (1, 6)); ([2; 0]%nat, (1, 12)); ([0; 1]%nat, (1, 6)); ([1; 1]%nat, (1, 24)); ([0; 2]%nat, (1, 12))]);
    ((2, 3)%nat, [([0; 0]%nat, (1, 2)); ([1; 0]%nat, (1, 6)); ([2; 0]%nat, (1, 12)); ([3; 0]%nat, (1, 20)); ([0; 1]%nat, (1, 6)); ([1;
      1]%nat, (1, 24)); ([2; 1]%nat, (1, 60)); ([0; 2]%nat, (1, 12)); ([1; 2]%nat, (1, 60)); ([0; 3]%nat, (1, 20))]);
    ((2, 4)%nat, [([0; 0]%nat, (1, 2)); ([1; 0]%nat, (1, 6)); ([2; 0]%nat, (1, 12)); ([3; 0]%nat, (1, 20)); ([4; 0]%nat, (1, 30)); ([0;
      1]%nat, (1, 6)); ([1; 1]%nat, (1, 24)); ([2; 1]%nat, (1, 60)); ([3; 1]%nat, (1, 120)); ([0; 2]%nat, (1, 12)); ([1; 2]%nat, (1, 60)); ([2;
      2]%nat, (1, 180)); ([0; 3]%nat, (1, 20)); ([1; 3]%nat, (1, 120)); ([0; 4]%nat, (1, 30))]);
    ((2, 5)%nat, [([0; 0]%nat, (1, 2)); ([1; 0]%nat, (1, 6)); ([2; 0]%nat, (1, 12)); ([3; 0]%nat, (1, 20)); ([4; 0]%nat, (1, 30)); ([5;
      0]%nat, (1, 42)); ([0; 1]%nat, (1, 6)); ([1; 1]%nat, (1, 24)); ([2; 1]%nat, (1, 60)); ([3; 1]%nat, (1, 120)); ([4; 1]%nat, (1, 210)); ([0;
      2]%nat, (1, 12)); ([1; 2]%nat, (1, 60)); ([2; 2]%nat, (1, 180)); ([3; 2]%nat, (1, 420)); ([0; 3]%nat, (1, 20)); ([1; 3]%nat, (1, 120)); ([2;
      3]%nat, (1, 420)); ([0; 4]%nat, (1, 30)); ([1; 4]%nat, (1, 210)); ([0; 5]%nat, (1, 42))]);
    ((2, 6)%nat, [([0; 0]%nat, (1, 2)); ([1; 0]%nat, (1, 6)); ([2; 0]%nat, (1, 12)); ([3; 0]%nat, (1, 20)); ([4; 0]%nat, (1, 30)); ([5;
      0]%nat, (1, 42)); ([6; 0]%nat, (1, 56)); ([0; 1]%nat, (1, 6)); ([1; 1]%nat, (1, 24)); ([2; 1]%nat, (1, 60)); ([3; 1]%nat, (1, 120)); ([4;
      1]%nat, (1, 210)); ([5; 1]%nat, (1, 336)); ([0; 2]%nat, (1, 12)); ([1; 2]%nat, (1, 60)); ([2; 2]%nat, (1, 180)); ([3; 2]%nat, (1, 420)); ([4;
      2]%nat, (1, 840)); ([0; 3]%nat, (1, 20)); ([1; 3]%nat, (1, 120)); ([2; 3]%nat, (1, 420)); ([3; 3]%nat, (1, 1120)); ([0; 4]%nat, (1, 30)); ([1;
      4]%nat, (1, 210)); ([2; 4]%nat, (1, 840)); ([0; 5]%nat, (1, 42)); ([1; 5]%nat, (1, 336)); ([0; 6]%nat, (1, 56))]);
    ((3, 1)%nat, [([0; 0; 0]%nat, (1, 6)); ([1; 0; 0]%nat, (1, 24)); ([0; 1; 0]%nat, (1, 24)); ([0; 0; 1]%nat, (1, 24))]);
    ((3, 2)%nat, [([0; 0; 0]%nat, (1, 6)); ([1; 0; 0]%nat, (1, 24)); ([2; 0; 0]%nat, (1, 60)); ([0; 1; 0]%nat, (1, 24)); ([1; 1; 0]%nat, (1, 120));
      ([0; 2; 0]%nat, (1, 60)); ([0; 0; 1]%nat, (1, 24)); ([1; 0; 1]%nat, (1, 120)); ([0; 1; 1]%nat, (1, 120)); ([0; 0; 2]%nat, (1, 60))]);
    ((3, 3)%nat, [([0; 0; 0]%nat, (1, 6)); ([1; 0; 0]%nat, (1, 24)); ([2; 0; 0]%nat, (1, 60)); ([3; 0; 0]%nat, (1, 120)); ([0; 1; 0]%nat, (1, 24));
      ([1; 1; 0]%nat, (1, 120)); ([2; 1; 0]%nat, (1, 360)); ([0; 2; 0]%nat, (1, 60)); ([1; 2; 0]%nat, (1, 360)); ([0; 3; 0]%nat, (1, 120)); ([0; 0;
      1]%nat, (1, 24)); ([1; 0; 1]%nat, (1, 120)); ([2; 0; 1]%nat, (1, 360)); ([0; 1; 1]%nat, (1, 120)); ([1; 1; 1]%nat, (1, 720)); ([0; 2;
      1]%nat, (1, 360)); ([0; 0; 2]%nat, (1, 60)); ([1; 0; 2]%nat, (1, 360)); ([0; 1; 2]%nat, (1, 360)); ([0; 0; 3]%nat, (1, 120))]);
    ((3, 4)%nat, [([0; 0; 0]%nat, (1, 6)); ([1; 0; 0]%nat, (1, 24)); ([2; 0; 0]%nat, (1, 60)); ([3; 0; 0]%nat, (1, 120)); ([4; 0; 0]%nat, (1, 210));
      ([0; 1; 0]%nat, (1, 24)); ([1; 1; 0]%nat, (1, 120)); ([2; 1; 0]%nat, (1, 360)); ([3; 1; 0]%nat, (1, 840)); ([0; 2; 0]%nat, (1, 60)); ([1; 2;
      0]%nat, (1, 360)); ([2; 2; 0]%nat, (1, 1260)); ([0; 3; 0]%nat, (1, 120)); ([1; 3; 0]%nat, (1, 840)); ([0; 4; 0]%nat, (1, 210)); ([0; 0;
      1]%nat, (1, 24)); ([1; 0; 1]%nat, (1, 120)); ([2; 0; 1]%nat, (1, 360)); ([3; 0; 1]%nat, (1, 840)); ([0; 1; 1]%nat, (1, 120)); ([1; 1;
      1]%nat, (1, 720)); ([2; 1; 1]%nat, (1, 2520)); ([0; 2; 1]%nat, (1, 360)); ([1; 2; 1]%nat, (1, 2520)); ([0; 3; 1]%nat, (1, 840)); ([0; 0;
      2]%nat, (1, 60)); ([1; 0; 2]%nat, (1, 360)); ([2; 0; 2]%nat, (1, 1260)); ([0; 1; 2]%nat, (1, 360)); ([1; 1; 2]%nat, (1, 2520)); ([0; 2;
      2]%nat, (1, 1260)); ([0; 0; 3]%nat, (1, 120)); ([1; 0; 3]%nat, (1, 840)); ([0; 1; 3]%nat, (1, 840)); ([0; 0; 4]%nat, (1, 210))]);
    ((3, 5)%nat, [([0; 0; 0]%nat, (1, 6)); ([1; 0; 0]%nat, (1, 24)); ([2; 0; 0]%nat, (1, 60)); ([3; 0; 0]%nat, (1, 120)); ([4; 0; 0]%nat, (1, 210));
      ([5; 0; 0]%nat, (1, 336)); ([0; 1; 0]%nat, (1, 24)); ([1; 1; 0]%nat, (1, 120)); ([2; 1; 0]%nat, (1, 360)); ([3; 1; 0]%nat, (1, 840)); ([4; 1;
      0]%nat, (1, 1680)); ([0; 2; 0]%nat, (1, 60)); ([1; 2; 0]%nat, (1, 360)); ([2; 2; 0]%nat, (1, 1260)); ([3; 2; 0]%nat, (1, 3360)); ([0; 3;
      0]%nat, (1, 120)); ([1; 3; 0]%nat, (1, 840)); ([2; 3; 0]%nat, (1, 3360)); ([0; 4; 0]%nat, (1, 210)); ([1; 4; 0]%nat, (1, 1680)); ([0; 5;
      0]%nat, (1, 336)); ([0; 0; 1]%nat, (1, 24)); ([1; 0; 1]%nat, (1, 120)); ([2; 0; 1]%nat, (1, 360)); ([3; 0; 1]%nat, (1, 840)); ([4; 0;
      1]%nat, (1, 1680)); ([0; 1; 1]%nat, (1, 120)); ([1; 1; 1]%nat, (1, 720)); ([2; 1; 1]%nat, (1, 2520)); ([3; 1; 1]%nat, (1, 6720)); ([0; 2;
      1]%nat, (1, 360)); ([1; 2; 1]%nat, (1, 2520)); ([2; 2; 1]%nat, (1, 10080)); ([0; 3; 1]%nat, (1, 840)); ([1; 3; 1]%nat, (1, 6720)); ([0; 4;
      1]%nat, (1, 1680)); ([0; 0; 2]%nat, (1, 60)); ([1; 0; 2]%nat, (1, 360)); ([2; 0; 2]%nat, (1, 1260)); ([3; 0; 2]%nat, (1, 3360)); ([0; 1;
      2]%nat, (1, 360)); ([1; 1; 2]%nat, (1, 2520)); ([2; 1; 2]%nat, (1, 10080)); ([0; 2; 2]%nat, (1, 1260)); ([1; 2; 2]%nat, (1, 10080)); ([0; 3;
      2]%nat, (1, 3360)); ([0; 0; 3]%nat, (1, 120)); ([1; 0; 3]%nat, (1, 840)); ([2; 0; 3]%nat, (1, 3360)); ([0; 1; 3]%nat, (1, 840)); ([1; 1;
      3]%nat, (1, 6720)); ([0; 2; 3]%nat, (1, 3360)); ([0; 0; 4]%nat, (1, 210)); ([1; 0; 4]%nat, (1, 1680)); ([0; 1; 4]%nat, (1, 1680)); ([0; 0;
      5]%nat, (1, 336))]);
    ((3, 6)%nat, [([0; 0; 0]%nat, (1, 6)); ([1; 0; 0]%nat, (1, 24)); ([2; 0; 0]%nat, (1, 60)); ([3; 0; 0]%nat, (1, 120)); ([4; 0; 0]%nat, (1, 210));
      ([5; 0; 0]%nat, (1, 336)); ([6; 0; 0]%nat, (1, 504)); ([0; 1; 0]%nat, (1, 24)); ([1; 1; 0]%nat, (1, 120)); ([2; 1; 0]%nat, (1, 360)); ([3; 1;
      0]%nat, (1, 840)); ([4; 1; 0]%nat, (1, 1680)); ([5; 1; 0]%nat, (1, 3024)); ([0; 2; 0]%nat, (1, 60)); ([1; 2; 0]%nat, (1, 360)); ([2; 2;
      0]%nat, (1, 1260)); ([3; 2; 0]%nat, (1, 3360)); ([4; 2; 0]%nat, (1, 7560)); ([0; 3; 0]%nat, (1, 120)); ([1; 3; 0]%nat, (1, 840)); ([2; 3;
      0]%nat, (1, 3360)); ([3; 3; 0]%nat, (1, 10080)); ([0; 4; 0]%nat, (1, 210)); ([1; 4; 0]%nat, (1, 1680)); ([2; 4; 0]%nat, (1, 7560)); ([0; 5;
      0]%nat, (1, 336)); ([1; 5; 0]%nat, (1, 3024)); ([0; 6; 0]%nat, (1, 504)); ([0; 0; 1]%nat, (1, 24)); ([1; 0; 1]%nat, (1, 120)); ([2; 0;
      1]%nat, (1, 360)); ([3; 0; 1]%nat, (1, 840)); ([4; 0; 1]%nat, (1, 1680)); ([5; 0; 1]%nat, (1, 3024)); ([0; 1; 1]%nat, (1, 120)); ([1; 1;
      1]%nat, (1, 720)); ([2; 1; 1]%nat, (1, 2520)); ([3; 1; 1]%nat, (1, 6720)); ([4; 1; 1]%nat, (1, 15120)); ([0; 2; 1]%nat, (1, 360)); ([1; 2;
      1]%nat, (1, 2520)); ([2; 2; 1]%nat, (1, 10080)); ([3; 2; 1]%nat, (1, 30240)); ([0; 3; 1]%nat, (1, 840)); ([1; 3; 1]%nat, (1, 6720)); ([2; 3;
      1]%nat, (1, 30240)); ([0; 4; 1]%nat, (1, 1680)); ([1; 4; 1]%nat, (1, 15120)); ([0; 5; 1]%nat, (1, 3024)); ([0; 0; 2]%nat, (1, 60)); ([1; 0;
      2]%nat, (1, 360)); ([2; 0; 2]%nat, (1, 1260)); ([3; 0; 2]%nat, (1, 3360)); ([4; 0; 2]%nat, (1, 7560)); ([0; 1; 2]%nat, (1, 360)); ([1; 1;
      2]%nat, (1, 2520)); ([2; 1; 2]%nat, (1, 10080)); ([3; 1; 2]%nat, (1, 30240)); ([0; 2; 2]%nat, (1, 1260)); ([1; 2; 2]%nat, (1, 10080)); ([2; 2;
      2]%nat, (1, 45360)); ([0; 3; 2]%nat, (1, 3360)); ([1; 3; 2]%nat, (1, 30240)); ([0; 4; 2]%nat, (1, 7560)); ([0; 0; 3]%nat, (1, 120)); ([1; 0;
      3]%nat, (1, 840)); ([2; 0; 3]%nat, (1, 3360)); ([3; 0; 3]%nat, (1, 10080)); ([0; 1; 3]%nat, (1, 840)); ([1; 1; 3]%nat, (1, 6720)); ([2; 1;
      3]%nat, (1, 30240)); ([0; 2; 3]%nat, (1, 3360)); ([1; 2; 3]%nat, (1, 30240)); ([0; 3; 3]%nat, (1, 10080)); ([0; 0; 4]%nat, (1, 210)); ([1; 0;
      4]%nat, (1, 1680)); ([2; 0; 4]%nat, (1, 7560)); ([0; 1; 4]%nat, (1, 1680)); ([1; 1; 4]%nat, (1, 15120)); ([0; 2; 4]%nat, (1, 7560)); ([0; 0;
      5]%nat, (1, 336)); ([1; 0; 5]%nat, (1, 3024)); ([0; 1; 5]%nat, (1, 3024)); ([0; 0; 6]%nat, (1, 504))]) ].
