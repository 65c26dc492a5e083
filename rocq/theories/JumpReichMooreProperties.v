(** C96: Reich-Moore cross sections of the older interface do not jump.  The constant of the wave
    number and the sort are arbitrary. *)
From Coq Require Import String List ZArith Reals Lia Lra.
From Verif Require Import Outcome HardSphereModel KinematicsModel ChannelModel BreitWignerModel ListFacts KMatrixModel ReichMooreModel ReichMooreSpec ReichMooreProofs ReichMooreFile ReichMooreTheory ReichMooreCases
  JumpSpec JumpReichMoore JumpNegative.
Import ListNotations.
Open Scope R_scope.

(** Wherever the interface gives cross sections it gives them around that energy, and they are
    continuous there, if no capture width is negative *)
Theorem C96_reich_moore_old C sort f NRO NAPS table s E t : sorts rm_flagged sort ->
  (forall ls x, In ls (rf_lstates f) -> In x (rs_lines ls) -> 0 <= rl_GG x) -> steady_radii table ->
  rm_apply C sort f NRO NAPS table = Ok s -> rm_evaluate C s E = Ok (Some t) -> no_jump (rm_evaluate C s) E.
Proof. intros H. exact (rm_file_no_jump C sort H f NRO NAPS table s E t). Qed.
Print Assumptions C96_reich_moore_old.

(** With a negative capture width they can jump: the expansion for small arguments has a sign wrong *)
Theorem C96_negative_refuted sort : sorts rm_flagged sort -> exists f s t,
  rm_apply 1 sort f false 1 None = Ok s /\ rm_evaluate 1 s 4 = Ok (Some t) /\ ~ no_jump (rm_evaluate 1 s) 4.
Proof. intros H. exists negative_file. exact (negative_jumps sort H). Qed.
Print Assumptions C96_negative_refuted.

(** Three levels with l = 1, two of them with fission *)
Example C96_case : sorts rm_flagged (insertion_sort rm_flagged) /\
  (forall ls x, In ls (rf_lstates (a_file 1 1 fissile)) -> In x (rs_lines ls) -> 0 <= rl_GG x) /\ steady_radii None /\
  exists s t, rm_apply 1 (insertion_sort rm_flagged) (a_file 1 1 fissile) false 1 None = Ok s /\ rm_evaluate 1 s 1 = Ok (Some t).
Proof.
  split; [apply insertion_sorts|]. split; [intros ls x [<-|[]]; exact (fissile_GG x)|]. split; [discriminate|].
  assert (Hin : rm_input 1 (a_file 1 1 fissile) 1 false 1 None a_radius a_radius) by (apply a_input; [lia | exact fissile_GG]).
  destruct (rm_apply_ok 1 (insertion_sort rm_flagged) _ 1 false 1 None _ _ 1 Hin (insertion_sorts rm_flagged)
    (a_evaluable 1 1 fissile 1 ltac:(lia) ltac:(lra) fissile_fine) Logic.I) as (s & t & Hs & He).
  exists s, t. split; assumption.
Qed.
