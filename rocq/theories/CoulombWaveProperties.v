(** C52: the Coulomb wave functions.  The code is modelled over any arithmetic; what it does
    with doubles is an instance, and so is what it would do with exact numbers. *)
From Coq Require Import String List ZArith Reals Lra Lia.
From Verif Require Import Outcome HardSphereSpec CoulombWaveModel CoulombWaveSpec CoulombWaveProofs.
From Verif Require Import CoulombExactModel CoulombExactProofs CoulombNeutralProofs CoulombRefutedProofs CoulombNanProofs CoulombZeroProofs.
Import ListNotations.
Open Scope R_scope.

(** In every arithmetic, for l <= 58: the loops end, no index is out of bounds, and what is
    returned passed the check of the Wronskian, or is zero altogether. *)
Theorem C52_checked (A : arithmetic) l (rho eta : A) : (0 <= l <= 58)%Z ->
  match coulombWaveFunctions A l rho eta with
  | Ok (gf, dgf) => checked gf dgf \/
      (gf = (#0, #0) /\ dgf = (#0, #0) /\ eqb eta #0 = false /\
       exists p, omAsymptotic A rho eta (sigma0_of A eta) = Ok p /\ eqb (fst p) #0 = true /\ eqb (snd p) #0 = true)%num
  | Throw e => e = RuntimeError "std::exception"
  | UB w => overflow w /\ omAsymptotic A rho eta (sigma0_of A eta) = UB w
  | Diverge => False
  end.
Proof. exact (waves_checked A l rho eta). Qed.
Print Assumptions C52_checked.

(** With numbers for which the comparison means something, this is the property. *)
Theorem C52_wronskian l rho eta g f dg df : (0 <= l <= 58)%Z ->
  coulombWaveFunctions exact l rho eta = Ok ((Fin g, Fin f), (Fin dg, Fin df)) ->
  Rabs (df * g - dg * f - 1) <= 1 / 10 ^ 6 \/ (g = 0 /\ f = 0 /\ dg = 0 /\ df = 0).
Proof. exact (waves_wronskian l rho eta g f dg df). Qed.
Print Assumptions C52_wronskian.

(** The bound on l is sharp: for 59 there is a value, but the derivatives were never computed ... *)
Theorem C52_last (A : arithmetic) (rho eta : A) gf dgf :
  coulombWaveFunctions A 59 rho eta = Ok (gf, dgf) -> dgf = (#0, #0)%num.
Proof. exact (waves_last A rho eta gf dgf). Qed.
Print Assumptions C52_last.
(** ... and for any other l, the arrays are read out of their bounds, unless the routine stops before. *)
Theorem C52_beyond (A : arithmetic) l (rho eta : A) : ~ (0 <= l < 60)%Z ->
  coulombWaveFunctions A l rho eta = UB "array index out of bounds" \/
  coulombWaveFunctions A l rho eta = Throw (RuntimeError "std::exception") \/
  exists w, coulombWaveFunctions A l rho eta = UB w /\ overflow w.
Proof. exact (waves_beyond A l rho eta). Qed.
Print Assumptions C52_beyond.

(** The check says nothing on G: with exact arithmetic and any starting values G 0 and G 1, right
    or wrong, F comes out such that the Wronskian is one for every l. *)
Theorem C52_blind e r l G wfn dfn : r <> 0 -> solves e r G -> (forall n, (12 <= n <= 69)%nat -> G n <> 0) ->
  length wfn = 60%nat -> length dfn = 60%nat ->
  exists F wfn' dfn' lmax, omWaves exact l (Fin r) (Fin e) (Fin (G 0%nat)) (Fin (G 1%nat)) wfn dfn = Ok (wfn', dfn') /\
    (1 <= lmax <= 58)%Z /\ (l <= 58 -> l <= lmax)%Z /\
    solves e r F /\ F (Z.to_nat (lmax + 11)) = 0 /\ (forall k, derived e r F k * G k - derived e r G k * F k = 1) /\
    (forall k, (k <= Z.to_nat lmax)%nat -> nth_error wfn' k = Some (Fin (G k), Fin (F k))) /\
    (forall k, (k <= Z.to_nat lmax)%nat -> nth_error dfn' k = Some (Fin (derived e r G k), Fin (derived e r F k))).
Proof. exact (waves_blind e r l G wfn dfn). Qed.
Print Assumptions C52_blind.

(** Without charge and for rho up to one, the four numbers are those of the free particle: G
    and its derivative exactly, F and its derivative to 18 digits. *)
Theorem C52_neutral l r : 0 < r <= 1 -> (0 <= l <= 58)%Z -> let n := Z.to_nat l in
  exists f df, coulombWaveFunctions exact l (Fin r) (Fin 0) = Ok ((Fin (waveG n r), Fin f), (Fin (dG n r), Fin df)) /\
    Rabs (f - waveF n r) <= waveF n r / 10 ^ 18 /\ Rabs (df - dF n r) <= dF n r / 10 ^ 18.
Proof. exact (neutral_accurate l r). Qed.
Print Assumptions C52_neutral.

(** But the check is no proof of accuracy: there are rho where F is 1/2, the routine returns
    more than 3/2, and the Wronskian is exactly one.  The reason is that the downward
    recurrence starts at l = 69 at most, which is no good when rho is larger than that. *)
Theorem C52_accuracy_refuted : exists r f df, 0 < r /\ waveF 0 r = 1 / 2 /\
  coulombWaveFunctions exact 0 (Fin r) (Fin 0) = Ok ((Fin (waveG 0 r), Fin f), (Fin (dG 0 r), Fin df)) /\
  df * waveG 0 r - dG 0 r * f = 1 /\ 3 / 2 < f.
Proof. exact far_wrong. Qed.
Print Assumptions C52_accuracy_refuted.

(** Nor is it a proof that anything was computed: for a strong repulsion and a small rho all four
    numbers are zero, returned before the check ... *)
Theorem C52_zeros_refuted l rho eta : (0 <= l <= 59)%Z -> 800 <= eta -> rho <= 16 ->
  coulombWaveFunctions exact l (Fin rho) (Fin eta) = Ok ((Fin 0, Fin 0), (Fin 0, Fin 0)).
Proof. intros H1 H2 H3. exact (low_zero l rho eta H2 H3 H1). Qed.
Print Assumptions C52_zeros_refuted.
(** ... and at the threshold of a channel, where rho is zero and eta infinite, what is returned
    is not a number, which the check lets through. *)
Theorem C52_nan_refuted l : (0 <= l <= 58)%Z ->
  coulombWaveFunctions exact l (Fin 0) (Inf true) = Ok ((NaN, NaN), (NaN, NaN)).
Proof. exact (threshold_nan l). Qed.
Print Assumptions C52_nan_refuted.

Example C52_cases : (0 <= 58 <= 58)%Z /\ ~ (0 <= 60 < 60)%Z /\ 0 < 1 / 2 <= 1.
Proof. split; [lia|]. split; [lia | lra]. Qed.
(** Sequences as in C52_blind: those of the free particle, at rho = 1/2. *)
Example C52_blind_case : exists G, solves 0 (1 / 2) G /\ forall n, (12 <= n <= 69)%nat -> G n <> 0.
Proof.
  exists (fun n => waveG n (1 / 2)). split; [apply waveG_solves; lra|]. intros n _. destruct (waveG_grows (1 / 2) ltac:(lra) n). lra.
Qed.
