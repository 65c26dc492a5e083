(** The hard-sphere penetrability and shift factor on doubles: the functions of HardSphereModel.v
    with every operation rounded to nearest.  Each operation of the source is taken to be one IEEE
    operation (no fused multiply-add, no extended precision).
    Paths are relative to /repo/src/resonanceReconstruction. *)
From Coq Require Import String List ZArith.
From Flocq Require Import Core.Zaux IEEE754.BinarySingleNaN.
From Verif Require Import Outcome HardSphereModel DoubleModel.
Import ListNotations.
Open Scope Z_scope.

Definition mult : double -> double -> double := Bmult (prec := 53) (emax := 1024) (prec_gt_0_ := eq_refl) (prec_lt_emax_ := eq_refl) mode_NE.
Definition div : double -> double -> double := Bdiv (prec := 53) (emax := 1024) (prec_gt_0_ := eq_refl) (prec_lt_emax_ := eq_refl) mode_NE.
Definition opp : double -> double := @Bopp 53 1024.

Declare Scope double_scope.
Delimit Scope double_scope with D.
Infix "+" := plus : double_scope.
Infix "*" := mult : double_scope.
Infix "/" := div : double_scope.
Notation "- x" := (opp x) : double_scope.
Notation "'#' z" := (double_of z) (at level 0, z at level 0) : double_scope.

(** rmatrix/src/horner.hpp:25-35, on the reversed array *)
Definition horner64 (a : list Z) (x : double) : outcome double :=
  match rev a with
  | [] => UB "dereference of an end iterator"
  | c :: r => Ok (fold_left (fun y c => (y * x + #c)%D) r (double_of c))
  end.

(** rmatrix/src/calculatePenetrability.hpp:22-55 *)
Definition penetrability64 (l : nat) (ratio : double) : outcome double :=
  let squared := (ratio * ratio)%D in
  match l with
  | 0%nat => Ok ratio
  | 1%nat => Ok (ratio * squared / (#1 + squared))%D
  | 2%nat => do d <- horner64 [9; 3; 1] squared ; Ok (ratio * squared * squared / d)%D
  | 3%nat => do d <- horner64 [225; 45; 6; 1] squared ; Ok (ratio * squared * squared * squared / d)%D
  | 4%nat => do d <- horner64 [11025; 1575; 135; 10; 1] squared ; Ok (ratio * squared * squared * squared * squared / d)%D
  | _ => unsupported
  end.
(** rmatrix/src/calculateShiftFactor.hpp:18-51 *)
Definition shift64 (l : nat) (ratio : double) : outcome double :=
  let squared := (ratio * ratio)%D in
  match l with
  | 0%nat => Ok (double_of 0)
  | 1%nat => Ok (- #1 / (#1 + squared))%D
  | 2%nat => do n <- horner64 [18; 3] squared ; do d <- horner64 [9; 3; 1] squared ; Ok (- n / d)%D
  | 3%nat => do n <- horner64 [675; 90; 6] squared ; do d <- horner64 [225; 45; 6; 1] squared ; Ok (- n / d)%D
  | 4%nat => do n <- horner64 [44100; 4725; 270; 10] squared ; do d <- horner64 [11025; 1575; 135; 10; 1] squared ; Ok (- n / d)%D
  | _ => unsupported
  end.
(** src/penetrationShift.hpp:6-38 *)
Definition penetrationShift64 (L : Z) (channelRatio : double) : outcome (double * double) :=
  let rho2 := (channelRatio * channelRatio)%D in
  let rho4 := (rho2 * rho2)%D in
  let positive := double_of (if Bltb (double_of 0) channelRatio then 1 else 0) in
  let result r a b := Ok ((positive * channelRatio * a / r)%D, (- b / r)%D) in
  if L =? 0 then result #1%D #1%D #0%D
  else if L =? 1 then result (#1 + rho2)%D rho2 #1%D
  else if L =? 2 then result (#9 + rho2 * (#3 + rho2))%D rho4 (#18 + rho2 * #3)%D
  else if L =? 3 then
    result (#225 + rho2 * (#45 + rho2 * (#6 + rho2)))%D (rho4 * rho2)%D (#675 + rho2 * (#90 + rho2 * #6))%D
  else if L =? 4 then
    result (#11025 + rho2 * (#1575 + rho2 * (#135 + rho2 * (#10 + rho2))))%D (rho4 * rho4)%D
           (#44100 + rho2 * (#4725 + rho2 * (#270 + rho2 * #10)))%D
  else unsupported.
