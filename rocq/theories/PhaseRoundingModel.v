(** The hard-sphere phase shift on doubles: the functions of HardSphereModel.v with every operation rounded
    to nearest.  std::atan is a parameter.
    Paths are relative to /repo/src/resonanceReconstruction. *)
From Coq Require Import String List ZArith.
From Flocq Require Import Core.Zaux IEEE754.BinarySingleNaN.
From Verif Require Import Outcome HardSphereModel DoubleModel RoundingModel.
Import ListNotations.
Open Scope Z_scope.

Infix "-" := minus : double_scope.

Section Atan.
Variable atan64 : double -> double.

(** rmatrix/src/calculatePhaseShift.hpp:22-50 *)
Definition phase64 (l : nat) (ratio : double) : outcome double :=
  let squared := (ratio * ratio)%D in
  match l with
  | 0%nat => Ok ratio
  | 1%nat => Ok (ratio - atan64 ratio)%D
  | 2%nat => let offset := (#3 * ratio / (#3 - squared))%D in
             Ok (ratio - atan64 offset)%D
  | 3%nat => let offset := (ratio * (#15 - squared) / (#15 - #6 * squared))%D in
             Ok (ratio - atan64 offset)%D
  | 4%nat => do d <- horner64 [105; -45; 1] squared ;
             let offset := (ratio * (#105 - #10 * squared) / d)%D in
             Ok (ratio - atan64 offset)%D
  | _ => unsupported
  end.

(** src/phaseShift.hpp:1-16 *)
Definition phaseShift64 (L : Z) (channelRatio : double) : outcome double :=
  if L =? 0 then Ok channelRatio
  else
    let rho2 := (channelRatio * channelRatio)%D in
    let result offset := Ok (channelRatio - atan64 (channelRatio * offset))%D in
    if L =? 1 then result (double_of 1)
    else if L =? 2 then result (#3 / (#3 - rho2))%D
    else if L =? 3 then result ((#15 - rho2) / (#15 - #6 * rho2))%D
    else if L =? 4 then result ((#105 - #10 * rho2) / (#105 + rho2 * (rho2 - #45)))%D
    else unsupported.
End Atan.
