(** Systems of the unresolved range without jumps. *)
From Coq Require Import List ZArith Reals Sorted.
From Verif Require Import Outcome QuantumModel SpinFactorModel HardSphereModel KinematicsModel CoulombModel RMatrixModel ChannelModel UnresolvedModel JumpSpec.
Open Scope R_scope.

(** A width that does not start from zero or end there: zero in the whole table or not zero at this energy *)
Definition kept (width : unresolved_resonance -> R) (t : unresolved_table) (E : R) : Prop :=
  (forall r, In r (ut_resonances t) -> width r = 0) \/ forall p, unresolvedAt t E = Ok (Some p) -> width p <> 0.
(** A table with increasing energies on both sides of this one, where no channel opens *)
Definition inside (t : unresolved_table) (E : R) : Prop :=
  StronglySorted (fun x y => ur_energy x < ur_energy y) (ut_resonances t) /\
  (exists r, In r (ut_resonances t) /\ ur_energy r < E) /\ (exists r, In r (ut_resonances t) /\ E < ur_energy r) /\
  kept ur_fission t E /\ kept ur_competition t E.
(** A neutron channel with radii that do not jump and the degrees of freedom that a table can have *)
Definition settled_group (u : unresolved_group) (E : R) : Prop :=
  let c := ug_channel u in let d := ut_degrees (ug_table u) in
  c_type c = Neutron /\ p_charge (pp_particle (c_pair c)) * p_charge (pp_residual (c_pair c)) = 0 /\
  settled (radius_at (r_P (c_radii c))) E /\ settled (radius_at (r_phi (c_radii c))) E /\
  (d_elastic d <= 4)%nat /\ (d_fission d <= 4)%nat /\ (d_competition d <= 4)%nat /\ inside (ug_table u) E.
