(** The Reich-Moore cross sections of an ENDF file, written with the collision matrix of
    R-matrix theory.  Only the records of the ENDF input are taken from the model. *)
From Coq Require Import List ZArith Reals Bool.
From Verif Require Import Outcome QuantumSpec HardSphereSpec KinematicsModel Cplx RMatrixModel KMatrixSpec ChannelModel
  BreitWignerSpec ReichMooreModel.
Import ListNotations.
Open Scope R_scope.

Section File.
(** wave number; channel radius of an l value at an energy; phase shift of an l value at E *)
Variables (k : R -> R) (E : R) (I : Z) (a : rm_lstate -> R -> R) (phi : rm_lstate -> R).
Definition P_rm (ls : rm_lstate) (e : R) : R := P_spec (rs_L ls) (k e * a ls e).
Definition signed_sqrt (x : R) : R := if Rlt_dec x 0 then - sqrt (- x) else sqrt x.
(** gamma_n = sqrt( Gn / 2P(Er) ), gamma_f = +- sqrt( |Gf| / 2 ), and sqrt( Gg / 2 ) for the
    eliminated capture channels *)
Definition reduced_of (ls : rm_lstate) (x : rm_line) : resonance :=
  Resonance (rl_ER x)
    [sqrt (rl_GN x / (2 * P_rm ls (Rabs (rl_ER x)))); signed_sqrt (rl_GFA x / 2); signed_sqrt (rl_GFB x / 2)]
    (sqrt (rl_GG x / 2)).

(** The groups are the lines with the same AJ, whose sign tells the channel spins apart. *)
Definition signed_J (xs : list rm_line) : list Z := nodup Z.eq_dec (map rl_AJ xs).
Definition lines_of (j : Z) (xs : list rm_line) : list rm_line := filter (fun x => Z.eqb (rl_AJ x) j) xs.
Definition over_J (ls : rm_lstate) (F : list resonance -> R) : R :=
  Rsum (map (fun j => g_neutron I (Z.abs j) * F (map (reduced_of ls) (lines_of j (rs_lines ls))))
            (signed_J (rs_lines ls))).
Definition accounted (ls : rm_lstate) : R :=
  Rsum (map (fun j => g_neutron I (Z.abs j)) (signed_J (rs_lines ls))).
(** potential scattering of the J without resonances, to a total weight 2l+1 *)
Definition rest (ls : rm_lstate) : R :=
  (2 * INR (rs_L ls) + 1 - accounted ls) * scattered (cis (- (2 * phi ls))).

Definition RM_elastic (lss : list rm_lstate) : R :=
  barns k E * Rsum (map (fun ls => over_J ls (J_elastic E (P_rm ls E) (phi ls)) + rest ls) lss).
Definition RM_capture (lss : list rm_lstate) : R :=
  barns k E * Rsum (map (fun ls => over_J ls (J_capture E (P_rm ls E) (phi ls))) lss).
Definition RM_fission (lss : list rm_lstate) : R :=
  barns k E * Rsum (map (fun ls => over_J ls (J_fission E (P_rm ls E) (phi ls))) lss).
(** the optical theorem: 2 g (1 - Re U) *)
Definition RM_total (lss : list rm_lstate) : R :=
  barns k E * Rsum (map (fun ls => over_J ls (J_total E (P_rm ls E) (phi ls))
    + (2 * INR (rs_L ls) + 1 - accounted ls) * (2 * (1 - cos (2 * phi ls)))) lss).
End File.

(** ENDF: which radius goes where.  NRO = 0: AP, or APL of the l value if not zero; NRO = 1: the
    table.  The channel radius is 0.123 A^1/3 + 0.08 for NAPS = 0. *)
Definition or_ap (f : rm_file) (ls : rm_lstate) : R := if Req_EM_T (rs_APL ls) 0 then rf_AP f else rs_APL ls.
Inductive endf_radii (f : rm_file) (A : R) : bool -> Z -> option (R -> outcome R) ->
    (rm_lstate -> R -> outcome R) -> (rm_lstate -> R -> outcome R) -> Prop :=
| NRO0_NAPS0 t : endf_radii f A false 0 t (fun _ _ => Ok (channelRadius A)) (fun ls _ => Ok (or_ap f ls))
| NRO0_NAPS1 t : endf_radii f A false 1 t (fun ls _ => Ok (or_ap f ls)) (fun ls _ => Ok (or_ap f ls))
| NRO1_NAPS0 t : endf_radii f A true 0 (Some t) (fun _ _ => Ok (channelRadius A)) (fun _ => t)
| NRO1_NAPS1 t : endf_radii f A true 1 (Some t) (fun _ => t) (fun _ => t)
| NRO1_NAPS2 t : endf_radii f A true 2 (Some t) (fun ls _ => Ok (or_ap f ls)) (fun _ => t).
