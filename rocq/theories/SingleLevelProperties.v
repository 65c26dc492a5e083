(** C69: with one resonance, the matrix code is the single-level Breit-Wigner formula. *)
From Coq Require Import Reals Lra String ZArith.
From mathcomp Require Import all_ssreflect all_algebra.
From Verif Require Import Outcome HardSphereModel KinematicsModel CoulombModel Cplx RMatrixModel RMatrixSpec ChannelModel SpinGroupModel SpinGroupSpec
  SpinGroupChannelProofs SingleLevelSpec SingleLevelProofs ContinuityTheorems ContinuityCases.
Set Implicit Arguments.
Unset Strict Implicit.
Unset Printing Implicit Defensive.

(** * The cross sections of a spin group with one resonance and any number of channels without
    charge are those of the single-level formula with level shift. *)
Theorem C69_single_level hbar epsilon0 cwf b channels r g energy vs factor (s s' : cache (gsize g)) m m' :
  constructed channels [:: r] g -> (forall c, List.In c channels -> c_type c <> ChargedParticle) ->
  groupValues hbar epsilon0 cwf b g energy = Ok (Some vs) -> (forall i : 'I_(gsize g), 0 <= v_P (val_of vs i))%re ->
  channelFactor hbar (first_incident g) energy = Some factor ->
  evaluateGroup hbar epsilon0 cwf b energy s m = Ok (Some (s', m')) ->
  added (written g) (single_level b energy r g vs factor) m m'.
Proof. exact: single. Qed.
Print Assumptions C69_single_level.

(** * It can be evaluated exactly when the denominator of that formula is not zero. *)
Theorem C69_exists hbar epsilon0 cwf b channels r g energy vs factor (s : cache (gsize g)) m :
  constructed channels [:: r] g ->
  groupValues hbar epsilon0 cwf b g energy = Ok (Some vs) ->
  channelFactor hbar (first_incident g) energy = Some factor ->
  ((exists s' m', evaluateGroup hbar epsilon0 cwf b energy s m = Ok (Some (s', m'))) <->
   (rs_energy r <> energy \/ rs_eliminated r <> 0%re) /\ resonant (gsize g) b energy r vs <> 0%re).
Proof. exact: single_exists. Qed.
Print Assumptions C69_exists.

(** two channels, at the threshold of the second: all hypotheses of both theorems hold *)
Example C69_case epsilon0 cwf (s : cache (gsize (jp_group 0%re))) m : exists vs factor s' m',
  groupValues 1%re epsilon0 cwf Constant (jp_group 0%re) 2%re = Ok (Some vs) /\
  (forall i : 'I_(gsize (jp_group 0%re)), 0 <= v_P (val_of vs i))%re /\
  channelFactor 1%re (first_incident (jp_group 0%re)) 2%re = Some factor /\
  evaluateGroup 1%re epsilon0 cwf Constant 2%re s m = Ok (Some (s', m')) /\
  (forall c, List.In c (jp_channels 0%re) -> c_type c <> ChargedParticle).
Proof.
  have [s' [m' E]] := jump_evaluates epsilon0 cwf (ltac:(lra) : (0 < 2 <= 2)%re) s m.
  have [f [Ef _]] := jump_factor (ltac:(lra) : (0 < 2)%re).
  eexists; exists f, s', m'; split; first exact: jump_values.
  split; first by move=> i; apply: jump_P; lra.
  by do 2 (split=> //); move=> c [<-|[<-|[]]].
Qed.
