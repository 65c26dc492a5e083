(** The R-matrix picture of one J of the Reich-Moore formalism: an elastic channel with
    penetrability P and phase shift phi, and two fission channels with penetrability 1; reduced
    widths for these three channels, capture eliminated. *)
From Coq Require Import Reals.
From mathcomp Require Import all_ssreflect all_algebra.
From Verif Require Import Cplx RMatrixModel RMatrixSpec.
Set Implicit Arguments.
Unset Strict Implicit.
Unset Printing Implicit Defensive.
Local Open Scope ring_scope.

Definition fission_values : values := Values 1%re 0%re 0%re 0%re 0%re false.
Definition three_channels (P phi : R) : seq values :=
  [:: Values P 0%re 0%re phi 0%re false; fission_values; fission_values].

Section Group.
Variables (E P phi : R) (table : seq resonance).
Let vs := three_channels P phi.
(** R_L = (1 - RL)^-1 R with L = iP *)
Definition RL3 : 'M[cx]_3 :=
  invmx (1%:M - R_spec 3 E table vs *m L_spec 3 ShiftFactor vs) *m R_spec 3 E table vs.
Definition U3 : 'M[cx]_3 := U_spec vs RL3.
(** |1 - U_nn|^2, the fission sum, what the channels do not carry away, 2 (1 - Re U_nn) *)
Definition J_elastic : R := norm2 (1 - U3 ord0 ord0).
Definition J_fission : R := (norm2 (U3 ord0 (inord 1)) + norm2 (U3 ord0 (inord 2)))%re.
Definition J_capture : R := (1 - \big[Rplus/0%re]_j norm2 (U3 ord0 j))%re.
Definition J_total : R := (2 * (1 - re (U3 ord0 ord0)))%re.
End Group.
