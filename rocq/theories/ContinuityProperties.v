(** C68: cross sections as continuous functions of the energy. *)
From Coq Require Import Reals Lra String ZArith.
From mathcomp Require Import all_ssreflect all_algebra.
From Verif Require Import Outcome HardSphereModel KinematicsModel CoulombModel Cplx RMatrixModel RMatrixSpec ChannelModel SpinGroupModel SpinGroupSpec
  SpinGroupChannelProofs ContinuitySpec ContinuityTheorems ContinuityCases.
Set Implicit Arguments.
Unset Strict Implicit.
Unset Printing Implicit Defensive.

(** * The cross sections of a spin group of neutron, photon and fission channels are continuous
    functions of the energy: also where the phase shift jumps by pi, and also at the threshold of
    an exit channel when its boundary condition is -l or the shift factor. *)
Theorem C68_continuous hbar epsilon0 cwf b channels rs g energy factor :
  constructed channels rs g -> (0 < hbar)%re -> (forall c, List.In c channels -> plain b energy c) ->
  regular energy rs -> channelFactor hbar (first_incident g) energy = Some factor ->
  continuous_at hbar epsilon0 cwf b g energy.
Proof. move=> con hb pl reg fac; exact: (continuous epsilon0 cwf hb con pl reg fac). Qed.
Print Assumptions C68_continuous.

(** * With another constant as boundary condition they need not be: the group below can be
    evaluated on both sides of the threshold at 2, but its capture cross section jumps there. *)
Theorem C68_threshold_refuted epsilon0 cwf : exists channels rs g energy factor,
  constructed channels rs g /\ (forall c, List.In c channels -> plain ShiftFactor energy c) /\
  regular energy rs /\ channelFactor 1%re (first_incident g) energy = Some factor /\
  (forall e, (0 < e <= energy)%re -> forall (s : cache (gsize g)) m, exists s' m',
     evaluateGroup 1%re epsilon0 cwf Constant e s m = Ok (Some (s', m'))) /\
  ~ continuous_at 1%re epsilon0 cwf Constant g energy.
Proof.
  have [m1 [m2 m3]] := jp_mu.
  have E := @factor_pos 1%re (first_incident (jp_group 0%re)) 2%re (1/2)%re (1/2)%re ltac:(lra) m1 ltac:(lra) m2 ltac:(rewrite /=; lra).
  exists (jp_channels 0%re), [:: jp_level], (jp_group 0%re), 2%re; eexists.
  split; first exact: jp_constructed.
  split; first by apply: jp_plain; [lra | right; left].
  split; first by move=> r [<-|[]]; right; rewrite /=; lra.
  split; first exact: E.
  by split; [exact: jump_evaluates | exact: jump].
Qed.
Print Assumptions C68_threshold_refuted.

(** the same group with the boundary condition -1: at the threshold, and above *)
Example C68_case epsilon0 cwf energy : energy = 2%re \/ energy = 3%re ->
  continuous_at 1%re epsilon0 cwf Constant (jp_group (-1)%re) energy.
Proof.
  have [m1 [m2 m3]] := jp_mu; move=> H; have e0 : (0 < energy)%re by case: H => ->; lra.
  have E := @factor_pos 1%re (first_incident (jp_group (-1)%re)) energy (1/2)%re (1/2)%re ltac:(lra) m1 ltac:(lra) m2 ltac:(rewrite /=; lra).
  apply: (C68_continuous epsilon0 cwf (jp_constructed (-1)%re) _ _ _ E).
  - lra.
  - by apply: jp_plain => //; right; right.
  - by move=> r [<-|[]]; right; rewrite /=; lra.
Qed.
