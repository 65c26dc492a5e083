(** C95: Breit-Wigner cross sections do not jump.  hbar, epsilon0, the neutron mass, the Coulomb wave
    functions and the sort of the older interface are arbitrary. *)
From Coq Require Import String List ZArith Reals.
From Verif Require Import Outcome CoulombModel HardSphereModel KinematicsModel RMatrixModel ChannelModel BreitWignerModel BreitWignerSpec ListFacts BreitWignerProofs BreitWignerSystemProofs BreitWignerTheorems LegacyModel LegacyProofs JumpSpec JumpTheorems JumpCases.
Import ListNotations.
Open Scope R_scope.

(** Wherever the older interface gives cross sections it gives them around that energy, and they
    are continuous there, if the radii are *)
Theorem C95_slbw_old C sort ordered f ch sc s E t : (forall e, settled ch e) -> settled sc E -> bw_build C sort ordered f ch sc = Ok s ->
  slbw_evaluate C s E = Ok (Some t) -> no_jump (slbw_evaluate C s) E.
Proof. exact (slbw_file C sort ordered f ch sc s E t). Qed.
Print Assumptions C95_slbw_old.
Theorem C95_mlbw_old C sort ordered f ch sc s E t : (forall e, settled ch e) -> settled sc E -> bw_build C sort ordered f ch sc = Ok s ->
  mlbw_evaluate C s E = Ok (Some t) -> no_jump (mlbw_evaluate C s) E.
Proof. exact (mlbw_file C sort ordered f ch sc s E t). Qed.
Print Assumptions C95_mlbw_old.

(** The same for the R-matrix interface *)
Theorem C95_slbw_legacy hbar epsilon0 cwf mn incident target f nro naps s E m m' : steady_radii nro ->
  makeLegacyBreitWigner hbar epsilon0 cwf mn incident target f nro naps = Ok (Some s) ->
  legacy_evaluate hbar (legacySLBW hbar epsilon0 cwf) s E m = Ok (Some m') ->
  no_jump_map (fun e => legacy_evaluate hbar (legacySLBW hbar epsilon0 cwf) s e m) E.
Proof. exact (legacy_slbw_file hbar epsilon0 cwf mn incident target f nro naps s E m m'). Qed.
Print Assumptions C95_slbw_legacy.
Theorem C95_mlbw_legacy hbar epsilon0 cwf mn incident target f nro naps s E m m' : steady_radii nro ->
  makeLegacyBreitWigner hbar epsilon0 cwf mn incident target f nro naps = Ok (Some s) ->
  legacy_evaluate hbar (legacyMLBW hbar epsilon0 cwf) s E m = Ok (Some m') ->
  no_jump_map (fun e => legacy_evaluate hbar (legacyMLBW hbar epsilon0 cwf) s e m) E.
Proof. exact (legacy_mlbw_file hbar epsilon0 cwf mn incident target f nro naps s E m m'). Qed.
Print Assumptions C95_mlbw_legacy.

(** Not so the phase shift that goes into them: that of the d wave jumps at sqrt 3 in both interfaces *)
Theorem C95_phase_jumps : ~ settled (phaseShift 2) (sqrt 3) /\ ~ settled (phase_neutron 2) (sqrt 3).
Proof. exact phase_jumps. Qed.
Print Assumptions C95_phase_jumps.

(** A file with a level for each of l = 0, 1 and 2, where k a = sqrt 3: all four give cross sections there *)
Example C95_case_old sort : sorts b_g sort -> k_old (C_new 2 2) 1 12 * 1 = sqrt 3 /\ (forall e, settled (fun _ => Ok 1) e) /\
  (exists s t, bw_build 1 sort false jump_file (fun _ => Ok 1) (fun _ => Ok 1) = Ok s /\ slbw_evaluate 1 s 12 = Ok (Some t)) /\
  (exists s t, bw_build 1 sort true jump_file (fun _ => Ok 1) (fun _ => Ok 1) = Ok s /\ mlbw_evaluate 1 s 12 = Ok (Some t)).
Proof. intros H. split; [exact jump_ratio|]. split; [exact (fixed_settled 1) | exact (jump_old sort H)]. Qed.
Example C95_case_legacy epsilon0 cwf m : steady_radii None /\ exists s, makeLegacyBreitWigner 2 epsilon0 cwf 2 "n" "t" jump_file None 1 = Ok (Some s) /\
  (exists m', legacy_evaluate 2 (legacySLBW 2 epsilon0 cwf) s 12 m = Ok (Some m')) /\ (exists m', legacy_evaluate 2 (legacyMLBW 2 epsilon0 cwf) s 12 m = Ok (Some m')).
Proof. split; [discriminate|]. destruct (jump_made epsilon0 cwf) as (s & S). exists s. split; [exact S | exact (jump_new epsilon0 cwf s m S)]. Qed.
