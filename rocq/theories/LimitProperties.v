(** C67: what flux conservation allows. *)
From Coq Require Import Reals Lra String ZArith.
From mathcomp Require Import all_ssreflect all_algebra.
From Verif Require Import Outcome Cplx KinematicsModel CoulombModel RMatrixModel RMatrixSpec ChannelModel SpinGroupModel SpinGroupSpec SpinGroupExample
  LimitSpec LimitProofs.
Set Implicit Arguments.
Unset Strict Implicit.
Unset Printing Implicit Defensive.

(** * Per incident channel, all reactions other than scattering together stay below pi / k^2 g,
    everything together below 4 pi / k^2 g, and nothing is negative. *)
Theorem C67_limits hbar epsilon0 cwf b channels rs g energy (s s' : cache (gsize g)) m m' :
  constructed channels rs g -> (0 < hbar)%re -> neutral_channels energy g ->
  (0 <= spinFactor (first_incident g))%re ->
  evaluateGroup hbar epsilon0 cwf b energy s m = Ok (Some (s', m')) ->
  exists factor, channelFactor hbar (first_incident g) energy = Some factor /\
  (gain_over (fun k => ~~ scattering g k) g m m' <= factor * entrances g)%re /\
  (gain_over predT g m m' <= 4 * (factor * entrances g))%re /\
  (forall k, 0 <= gain m m' k)%re.
Proof. exact: limits. Qed.
Print Assumptions C67_limits.

(** * With one incident channel, the reactions x and the scattering y, in units of pi / k^2 g, are
    such that ( 1 - sqrt( 1 - x ) )^2 <= y <= ( 1 + sqrt( 1 - x ) )^2: no absorption without
    scattering. *)
Theorem C67_shadow hbar epsilon0 cwf b channels rs g energy (s s' : cache (gsize g)) m m' (c : 'I_(gsize g)) :
  constructed channels rs g -> (0 < hbar)%re -> neutral_channels energy g ->
  (0 < spinFactor (first_incident g))%re ->
  evaluateGroup hbar epsilon0 cwf b energy s m = Ok (Some (s', m')) ->
  (forall i : 'I_(gsize g), isIncidentChannel (chan i) = (i == c)) ->
  (forall i : 'I_(gsize g), c_reaction (chan i) = c_reaction (chan c) -> i = c) ->
  capture_id g <> c_reaction (chan c) ->
  exists factor, channelFactor hbar (first_incident g) energy = Some factor /\ (0 < factor)%re /\
  let x := (gain_over (fun k => ~~ scattering g k) g m m' / factor)%re in
  let y := (gain_over (scattering g) g m m' / factor)%re in
  ((1 - sqrt (1 - x)) * (1 - sqrt (1 - x)) <= y <= (1 + sqrt (1 - x)) * (1 + sqrt (1 - x)))%re.
Proof. move=> con hb nt g0 ev H1 H2 H3; exact: (shadow con hb nt g0 ev H1 H2 H3). Qed.
Print Assumptions C67_shadow.

(** the example of SpinGroupExample, evaluated at 15 eV (see C16_case) *)
Example C67_case : let g := ex_group 1%re in
  (0 < spinFactor (first_incident g))%re /\ entrances g = 1%re /\
  exists c : 'I_(gsize g), (forall i : 'I_(gsize g), isIncidentChannel (chan i) = (i == c)) /\
    (forall i : 'I_(gsize g), c_reaction (chan i) = c_reaction (chan c) -> i = c) /\
    capture_id g <> c_reaction (chan c) /\ ~~ scattering g (c_reaction ex_fission).
Proof.
  split; first by rewrite /first_incident /= ex_spin; lra.
  split; first by [].
  exists ord0; split; first by case=> -[|[|i]] Hi.
  by split; [case=> -[|[|i]] Hi //= _; apply: val_inj | split].
Qed.
