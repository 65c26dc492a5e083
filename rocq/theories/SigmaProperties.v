(** C76: the Coulomb phase. *)
From Coq Require Import ZArith Reals Lra.
From Coquelicot Require Import Coquelicot.
From Verif Require Import CoulombWaveModel CoulombExactModel SigmaSpec SigmaProofs SigmaTheorems.
Open Scope R_scope.

(** ** C76: whatever the Sommerfeld parameter, the phase the code starts from is the argument of
    Gamma (1 + i eta) to 1 / (1512 * 4 ^ 7), which is less than 5e-8. *)
Theorem C76_phase eta : exists s, sigma0_of exact (Fin eta) = Fin s /\ exists sigma, coulomb_phase eta sigma /\ Rabs (s - sigma) <= / 1512 * / 4 ^ 7.
Proof. exact (phase_code eta). Qed.
Print Assumptions C76_phase.
(** The phase is unique, and odd in the Sommerfeld parameter: attraction turns its sign. *)
Theorem C76_unique eta sigma sigma' : coulomb_phase eta sigma -> coulomb_phase eta sigma' -> sigma = sigma'.
Proof. exact (phase_unique eta sigma sigma'). Qed.
Print Assumptions C76_unique.
Theorem C76_odd eta sigma : coulomb_phase eta sigma -> coulomb_phase (- eta) (- sigma).
Proof. exact (phase_odd eta sigma). Qed.
Print Assumptions C76_odd.
(** Without charges the phase is zero, and the code finds just that. *)
Example C76_neutral : coulomb_phase 0 0 /\ sigma0_of exact (Fin 0) = Fin 0.
Proof. exact phase_none. Qed.
(** The bound is less than 5e-8, and the phase is not always zero. *)
Example C76_case : / 1512 * / 4 ^ 7 < 5 / IZR (10 ^ 8) /\ exists sigma, coulomb_phase 10 sigma /\ 2 < sigma.
Proof. split; [change (10 ^ 8)%Z with 100000000%Z; lra | exact phase_ten]. Qed.
