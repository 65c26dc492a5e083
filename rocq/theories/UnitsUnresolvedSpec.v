(** Unresolved resonances in other units of energy and length. *)
From Coq Require Import List Reals.
From Verif Require Import Outcome UnresolvedModel UnitsSpec.
Open Scope R_scope.

(** Energies, spacings and widths are multiplied by the square of t, but the reduced neutron width,
    which has the unit of a root of an energy, by t *)
Definition units_average (t : R) (r : unresolved_resonance) : unresolved_resonance :=
  mkUnresolved (t * t * ur_energy r) (t * t * ur_spacing r) (t * ur_elastic r) (t * t * ur_capture r) (t * t * ur_fission r) (t * t * ur_competition r).
Definition units_ugroup (t : R) (g : unresolved_group) : unresolved_group :=
  mkUGroup (units_channel t (ug_channel g)) (mkUTable (map (units_average t) (ut_resonances (ug_table g))) (ut_degrees (ug_table g))).
Definition units_usystem (t : R) (s : unresolved_system) : unresolved_system := mkUSystem (map (units_ugroup t) (uy_groups s)) (uy_lmax s).
