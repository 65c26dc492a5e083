(** Hard-sphere penetrability, shift factor and phase shift, in both interfaces.
    Paths are relative to /repo/src/resonanceReconstruction. *)
From Coq Require Import String List ZArith Reals.
From Verif Require Import Outcome.
Import ListNotations.
Open Scope R_scope.

(** rmatrix/src/horner.hpp:25-35.  [first] to [last] is the list; the head is dereferenced
    before the loop, so an empty range is undefined behaviour. *)
Definition horner (coefficients : list R) (x : R) : outcome R :=
  match coefficients with
  | [] => UB "dereference of an end iterator"
  | c :: r => Ok (fold_left (fun y c => y * x + c) r c)
  end.

(** horner( std::rbegin( a ), std::rend( a ), x ) *)
Definition horner_r (a : list R) (x : R) : outcome R := horner (rev a) x.

(** std::exception thrown for an orbital angular momentum that is not implemented *)
Definition unsupported {A} : outcome A := Throw (RuntimeError "std::exception").

(** std::atan( n / d ) on doubles when n and d are not both zero: a zero divisor makes an
    infinite argument with the sign of n (the zero d arises as a difference of equal
    doubles, hence is +0), and atan of an infinity is +-pi/2. *)
Definition atan_quotient (n d : R) : R :=
  if Req_EM_T d 0 then (if Rlt_dec n 0 then - (PI / 2) else PI / 2) else atan (n / d).

(** The channel types of rmatrix (rmatrix/ChannelTypes.hpp). *)
Inductive channel_type := Neutron | Photon | ChargedParticle | Fission.

(** rmatrix/src/calculatePenetrability.hpp:22-55 *)
Definition penetrability_neutron (l : nat) (ratio : R) : outcome R :=
  let squared := ratio * ratio in
  match l with
  | 0%nat => Ok ratio
  | 1%nat => Ok (ratio * squared / (1 + squared))
  | 2%nat => do d <- horner_r [9; 3; 1] squared ;
             Ok (ratio * squared * squared / d)
  | 3%nat => do d <- horner_r [225; 45; 6; 1] squared ;
             Ok (ratio * squared * squared * squared / d)
  | 4%nat => do d <- horner_r [11025; 1575; 135; 10; 1] squared ;
             Ok (ratio * squared * squared * squared * squared / d)
  | _ => unsupported
  end.

(** rmatrix/src/calculateShiftFactor.hpp:18-51 *)
Definition shift_neutron (l : nat) (ratio : R) : outcome R :=
  let squared := ratio * ratio in
  match l with
  | 0%nat => Ok 0
  | 1%nat => Ok (- 1 / (1 + squared))
  | 2%nat => do n <- horner_r [18; 3] squared ;
             do d <- horner_r [9; 3; 1] squared ;
             Ok (- n / d)
  | 3%nat => do n <- horner_r [675; 90; 6] squared ;
             do d <- horner_r [225; 45; 6; 1] squared ;
             Ok (- n / d)
  | 4%nat => do n <- horner_r [44100; 4725; 270; 10] squared ;
             do d <- horner_r [11025; 1575; 135; 10; 1] squared ;
             Ok (- n / d)
  | _ => unsupported
  end.

(** rmatrix/src/calculatePhaseShift.hpp:22-50 *)
Definition phase_neutron (l : nat) (ratio : R) : outcome R :=
  let squared := ratio * ratio in
  match l with
  | 0%nat => Ok ratio
  | 1%nat => Ok (ratio - atan ratio)
  | 2%nat => Ok (ratio - atan_quotient (3 * ratio) (3 - squared))
  | 3%nat => Ok (ratio - atan_quotient (ratio * (15 - squared)) (15 - 6 * squared))
  | 4%nat => do d <- horner_r [105; -45; 1] squared ;
             Ok (ratio - atan_quotient (ratio * (105 - 10 * squared)) d)
  | _ => unsupported
  end.

(** src/penetrationShift.hpp:6-38; [(channelRatio > 0)] is a bool used as a number. *)
Definition penetrationShift (L : Z) (channelRatio : R) : outcome (R * R) :=
  let rho2 := channelRatio * channelRatio in
  let rho4 := rho2 * rho2 in
  let positive := if Rlt_dec 0 channelRatio then 1 else 0 in
  let result r a b := Ok (positive * channelRatio * a / r, - b / r) in
  if (L =? 0)%Z then result 1 1 0
  else if (L =? 1)%Z then result (1 + rho2) rho2 1
  else if (L =? 2)%Z then result (9 + rho2 * (3 + rho2)) rho4 (18 + rho2 * 3)
  else if (L =? 3)%Z then
    result (225 + rho2 * (45 + rho2 * (6 + rho2))) (rho4 * rho2) (675 + rho2 * (90 + rho2 * 6))
  else if (L =? 4)%Z then
    result (11025 + rho2 * (1575 + rho2 * (135 + rho2 * (10 + rho2)))) (rho4 * rho4)
           (44100 + rho2 * (4725 + rho2 * (270 + rho2 * 10)))
  else unsupported.

(** std::atan( x * ( n / d ) ) for x > 0 *)
Definition atan_scaled (x n d : R) : R :=
  if Req_EM_T d 0 then (if Rlt_dec n 0 then - (PI / 2) else PI / 2) else atan (x * (n / d)).

(** src/phaseShift.hpp:1-16, for channelRatio > 0 *)
Definition phaseShift (L : Z) (channelRatio : R) : outcome R :=
  let rho2 := channelRatio * channelRatio in
  if (L =? 0)%Z then Ok channelRatio
  else if (L =? 1)%Z then Ok (channelRatio - atan (channelRatio * 1))
  else if (L =? 2)%Z then Ok (channelRatio - atan_scaled channelRatio 3 (3 - rho2))
  else if (L =? 3)%Z then Ok (channelRatio - atan_scaled channelRatio (15 - rho2) (15 - 6 * rho2))
  else if (L =? 4)%Z then
    Ok (channelRatio - atan_scaled channelRatio (105 - 10 * rho2) (105 + rho2 * (rho2 - 45)))
  else unsupported.
