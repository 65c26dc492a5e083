(** The Coulomb phase for l = 0: the argument of Gamma (1 + i eta), by Euler's limit. *)
From Coq Require Import Reals.
From Coquelicot Require Import Coquelicot.
Open Scope R_scope.

Definition coulomb_phase (eta sigma : R) : Prop :=
  is_lim_seq (fun n => eta * ln (INR (S n)) - sum_f_R0 (fun k => atan (eta / INR (S k))) n) sigma.
