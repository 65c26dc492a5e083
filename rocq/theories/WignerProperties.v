(** C77: threshold laws. *)
From Coq Require Import Reals Lra String ZArith.
From mathcomp Require Import all_ssreflect all_algebra.
From Verif Require Import Outcome QuantumModel HardSphereModel KinematicsModel CoulombModel Cplx RMatrixModel RMatrixSpec ChannelModel SpinGroupModel SpinGroupSpec
  ContinuityCases WignerSpec WignerTheorems WignerCases.
Set Implicit Arguments.
Unset Strict Implicit.
Unset Printing Implicit Defensive.

(** * If l is the smallest orbital angular momentum of the incident channels, cross sections of
    reactions go like E^(l - 1/2) when E tends to zero, and elastic ones like E^(2l); the limits
    are those of R-matrix theory, with R_L taken at energy zero. *)
Theorem C77_threshold_law hbar epsilon0 cwf b channels rs g l :
  (0 < hbar)%re -> constructed channels rs g -> (forall c, List.In c channels -> slow b c) ->
  (forall c, List.In c channels -> isIncidentChannel c -> (l <= ql (c_numbers c))%N) -> regular 0%re rs ->
  exists vs (A : 'M[cx]_(gsize g)) x, groupValues hbar epsilon0 cwf b g 0%re = Ok (Some vs) /\ is_RL b 0%re rs vs A /\
  (exists d, (0 < d)%re /\ forall e, (0 < e < d)%re -> forall s m, exists s' m',
     @evaluateGroup hbar epsilon0 cwf b g e s m = Ok (Some (s', m')) /\ added (written g) (x e) m m') /\
  forall k,
    ((forall j : 'I_(gsize g), c_reaction (chan j) = k -> isIncidentChannel (chan j) = false) ->
       at_zero (fun e => x e k * sqrt e / e ^ l)%re (reaction_limit hbar l vs A k)) /\
    ((forall j : 'I_(gsize g), c_reaction (chan j) = k -> isIncidentChannel (chan j)) -> k <> capture_id g ->
       at_zero (fun e => x e k / e ^ (2 * l))%re (elastic_limit hbar l A k)).
Proof. move=> hb con sl low reg; exact: (wigner epsilon0 cwf hb con sl low reg). Qed.
Print Assumptions C77_threshold_law.

(** * With one incident channel, an s wave, the elastic limit is 4 pi g |a' - a R_L|^2. *)
Theorem C77_scattering_length hbar b channels rs g (c : 'I_(gsize g)) k (A : 'M[cx]_(gsize g)) :
  (0 < hbar)%re -> constructed channels rs g -> (forall c, List.In c channels -> slow b c) ->
  (forall i, isIncidentChannel (chan i) = (i == c)) -> (forall i, (c_reaction (chan i) == k) = (i == c)) ->
  ql (c_numbers (chan c)) = 0%N ->
  elastic_limit hbar 0 A k = (4 * pi_value * spinFactor (chan c) *
    norm2 (rcx (scattering_radius (chan c)) - rcx (channel_radius (chan c)) * A c c)%R)%re.
Proof. move=> hb con sl inc ik l0; exact: (scattering_length A hb con sl inc ik l0). Qed.
Print Assumptions C77_scattering_length.

(** a group with an s wave and a closed inelastic channel: its capture cross section goes like
    1 / sqrt E, with 4 pi / sqrt 2 in front, and its elastic cross section tends to 2 pi *)
Example C77_case epsilon0 cwf : let g := jp_group 0%re in exists x,
  (exists d, (0 < d)%re /\ forall e, (0 < e < d)%re -> forall s m, exists s' m',
     @evaluateGroup 1%re epsilon0 cwf Constant g e s m = Ok (Some (s', m')) /\ added (written g) (x e) m m') /\
  at_zero (fun e => x e (capture_id g) * sqrt e)%re (4 * pi_value / sqrt 2)%re /\
  at_zero (fun e => x e (c_reaction jp_elastic)) (2 * pi_value)%re.
Proof.
  move=> g; have [|vs [A [x [E [rl [ev H]]]]]] := @C77_threshold_law 1%re epsilon0 cwf Constant _ _ g 0%N Rlt_0_1 (jp_constructed 0%re) jp_slow (fun _ _ _ => isT).
    by move=> r [<-|[]]; right; rewrite /=; lra.
  exists x; split=> //; have [L1 L2] := jp_limits E rl.
  split.
  - have [h _] := H (capture_id g); rewrite -L1 => eps h0.
    have [|d [d0 Hd]] := h _ eps h0; first by case=> -[|[|i]] Hi.
    by exists d; split=> // e /Hd; rewrite /= /Rdiv Rinv_1 Rmult_1_r.
  - have [_ h] := H (c_reaction jp_elastic); rewrite -L2 => eps h0.
    have [||d [d0 Hd]] := h _ _ eps h0; [by case=> -[|[|i]] Hi | by [] |].
    by exists d; split=> // e /Hd; rewrite /= /Rdiv Rinv_1 Rmult_1_r.
Qed.
