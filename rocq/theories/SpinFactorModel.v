(** Statistical spin factors, their sums, and the D table of the older interface.
    Paths are relative to /repo/src/resonanceReconstruction. *)
From Coq Require Import String List ZArith Reals.
From Verif Require Import Outcome QuantumModel.
Import ListNotations.
Open Scope R_scope.

(** The double that a doubled integer stands for. *)
Definition spin_value (a : Z) : R := IZR a / 2.

(** rmatrix/Channel/src/ctor.hpp:29-33; [i], [I] are the doubled spins of the two particles
    of the channel's particle pair, [J] the doubled total angular momentum. *)
Definition statisticalSpinFactor (J i I : Z) : R :=
  (2 * spin_value J + 1) / (2 * spin_value i + 1) / (2 * spin_value I + 1).

(** breitWigner/lvalue/Type/src/statisticalFactorSummation.hpp:1-9 *)
Definition statisticalFactorSummation (I : Z) (l : nat) : R :=
  let targetSpin := spin_value I in
  let orbital := INR l in
  let jmin := Rabs (Rabs (targetSpin - orbital) - 0.5) in
  let jmax := targetSpin + orbital + 0.5 in
  (jmax - jmin + 1) * (jmax + jmin + 1) / (4 * targetSpin + 2).

(** breitWigner/multiLevel/src/D.hpp:25-33.  The entries are the decimal literals of the
    source (the doubles they round to differ by less than one unit in the last place). *)
Definition D_cache : list R :=
  [ 0; 0; 0; 0; 0;
    0; 0.75; 1.25; 1.75; 2.25;
    0; 1; 1.666666666666667; 2.333333333333333; 3;
    0; 1; 1.875; 2.625; 3.375;
    0; 1; 2; 2.8; 3.6;
    0; 1; 2; 2.916666666666667; 3.75;
    0; 1; 2; 3; 3.857142857142858;
    0; 1; 2; 3; 3.9375 ].

(** breitWigner/multiLevel/src/D.hpp:24-36.  std::lround( 10. * I ) is 5 times the doubled
    spin.  Indexing a std::array out of bounds is undefined behaviour. *)
Definition D (I : Z) (l : Z) : outcome R :=
  if (I >? 7)%Z then Ok (IZR l)
  else
    let index := (5 * I + l)%Z in
    if (0 <=? index)%Z then at_or_ub D_cache (Z.to_nat index) "cache[index] out of bounds"
    else UB "cache[index] out of bounds".
