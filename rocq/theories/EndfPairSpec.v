(** What an ENDF particle pair means, without the model's helpers. *)
From Coq Require Import String List ZArith Reals Bool.
From Verif Require Import Outcome KinematicsModel EndfModel EndfSpec.
Import ListNotations.
Open Scope R_scope.

(** A particle of an ENDF file: mass in units of [mn], charge in units of [ec], the parity in
    the sign of the spin unless that is zero *)
Record endf_particle (mn ec : R) (id : string) (mass charge : R) (spin parity : Z) (p : particle) : Prop := mkEP
  { ep_id : p_id p = id;
    ep_mass : p_mass p = mn * mass;
    ep_charge : p_charge p = ec * charge;
    ep_spin : (spin = p_spin p \/ spin = - p_spin p)%Z /\ (0 <= p_spin p)%Z;
    ep_parity : parity_of spin parity (p_parity p) }.
(** The identifiers of the particle, the residual and the pair *)
Definition endf_ids (incident target : string) (products : Z -> outcome (string * string)) (mt : Z) (a b id : string) : Prop :=
  (mt = 2%Z /\ a = incident /\ b = target /\ id = (incident ++ "," ++ target)%string) \/
  (mt = 18%Z /\ a = incident /\ b = target /\ id = "fission"%string) \/
  (mt <> 2%Z /\ mt <> 18%Z /\ products mt = Ok (a, b) /\ id = (a ++ "," ++ b)%string).
(** The pair of a column; [acceptable]: no negative mass or charge *)
Definition acceptable (e : endf_pair) : Prop := 0 <= ep_MA e /\ 0 <= ep_MB e /\ 0 <= ep_ZA e /\ 0 <= ep_ZB e.
Definition endf_pair_of (mn ec : R) (incident target : string) (products : Z -> outcome (string * string))
    (e : endf_pair) (p : particlePair) : Prop :=
  endf_ids incident target products (ep_MT e) (p_id (pp_particle p)) (p_id (pp_residual p)) (pp_id p) /\
  endf_particle mn ec (p_id (pp_particle p)) (ep_MA e) (ep_ZA e) (ep_IA e) (ep_PA e) (pp_particle p) /\
  endf_particle mn ec (p_id (pp_residual p)) (ep_MB e) (ep_ZB e) (ep_IB e) (ep_PB e) (pp_residual p) /\
  (0 < ep_MA e + ep_MB e -> exists mu ratio, pp_reduced p = Some mu /\ pp_ratio p = Some ratio /\
     mu * (ep_MA e + ep_MB e) = mn * ep_MA e * ep_MB e /\ ratio * (ep_MA e + ep_MB e) = ep_MB e).
