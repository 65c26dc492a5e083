(** The Reich-Moore cross sections the newer interface gives for an ENDF file: a collision
    matrix for each l and signed J of the file, and potential scattering of every other channel
    with l below NLSC.  Only the records of the ENDF input are taken from the model. *)
From Coq Require Import List ZArith Reals Bool.
From Verif Require Import Outcome QuantumSpec HardSphereSpec Cplx RMatrixModel KMatrixSpec ChannelModel ReichMooreModel BreitWignerSpec ReichMooreSpec
  EndfSpec.
Import ListNotations.
Open Scope R_scope.

Section File.
(** wave number; channel radius of an l value of the file at an energy; phase shift of an l value
    of the file at E; phase shift of the channels the file does not have, by l *)
Variables (k : R -> R) (E : R) (I : Z) (a : rm_lstate -> R -> R) (phi : rm_lstate -> R) (phi0 : nat -> R).
(** The widths keep their signs, and P is taken at the resonance energy itself. *)
Definition newer_of (ls : rm_lstate) (x : rm_line) : resonance :=
  Resonance (rl_ER x)
    [signed_sqrt (rl_GN x / (2 * P_rm k a ls (rl_ER x))); signed_sqrt (rl_GFA x / 2); signed_sqrt (rl_GFB x / 2)]
    (signed_sqrt (rl_GG x / 2)).
Definition newer_J (ls : rm_lstate) (F : list resonance -> R) : R :=
  Rsum (map (fun j => g_neutron I (Z.abs j) * F (map (newer_of ls) (lines_of j (rs_lines ls))))
            (signed_J (rs_lines ls))).
(** potential scattering of the channels of one l the file does not have *)
Definition newer_rest (lss : list rm_lstate) (l : nat) : R :=
  (2 * INR l + 1 - Rsum (map (accounted I) (filter (fun ls => Nat.eqb (rs_L ls) l) lss)))
  * scattered (cis (- (2 * phi0 l))).

Definition newer_elastic (nlsc : nat) (lss : list rm_lstate) : R :=
  barns k E * (Rsum (map (fun ls => newer_J ls (J_elastic E (P_rm k a ls E) (phi ls))) lss)
               + Rsum (map (newer_rest lss) (seq 0 nlsc))).
Definition newer_capture (lss : list rm_lstate) : R :=
  barns k E * Rsum (map (fun ls => newer_J ls (J_capture E (P_rm k a ls E) (phi ls))) lss).
Definition newer_fission (lss : list rm_lstate) : R :=
  barns k E * Rsum (map (fun ls => newer_J ls (J_fission E (P_rm k a ls E) (phi ls))) lss).
End File.

(** The resonances of one total angular momentum and parity *)
Definition of_wave (f : rm_file) (J : Z) (even : bool) : list R :=
  concat (map (fun ls => map rl_ER (filter (fun x => Z.eqb (Z.abs (rl_AJ x)) J) (rs_lines ls)))
              (filter (fun ls => Bool.eqb (Nat.even (rs_L ls)) even) (rf_lstates f))).
(** They have different energies. *)
Definition separate (f : rm_file) : Prop := forall J even, NoDup (of_wave f J even).

(** A file with one target, for which the flags NRO and NAPS prescribe positive radii: [rad] for
    its l values and [rad0], from AP, for the channels it does not have *)
Record newer_input (mn : R) (f : rm_file) (A : R) (nro : option (R -> outcome R)) (naps : nat) (rad : rm_lstate -> radii)
    (rad0 : radii) : Prop := mkNewerInput
  { ni_A : 0 < A;
    ni_AWRI : forall ls, In ls (rf_lstates f) -> rs_AWRI ls = A;
    ni_spin : is_spin (rf_SPI f);
    ni_rad : forall ls, In ls (rf_lstates f) -> 0 < or_ap f ls /\ prescribed (or_ap f ls) (A * mn) nro naps (rad ls);
    ni_rad0 : 0 < rf_AP f /\ prescribed (rf_AP f) (A * mn) nro naps rad0;
    ni_table : forall t e r, nro = Some t -> t e = Ok r -> 0 < r;
    ni_separate : separate f }.
