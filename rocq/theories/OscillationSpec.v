(** What the expansion of omGcase4 leaves of the Coulomb equation: with x = 2 eta / rho and z = 1 / (2 eta)
    the terms of order 5, 6 and 7 in z, for unit amplitude and the phase phi. *)
From Coq Require Import Reals.
Open Scope R_scope.

Definition left_over (z x phi : R) : R :=
  - z ^ 5 * (sqrt (1 - x) * x ^ 7 * (3 / 32 - 21 / 256 * x + 15 / 512 * x ^ 2 - 9 / 2048 * x ^ 3) / (1 - x) ^ 7 * sin phi)
  - z ^ 6 * (x ^ 5 * (3125 / 2016 + 3125 / 2304 * x) / (1 - x) ^ 8 * cos phi)
  + z ^ 7 * (sqrt (1 - x) * x ^ 6 * (15625 / 4032 + 115625 / 16128 * x + 3125 / 1536 * x ^ 2) / (1 - x) ^ 10 * sin phi).
