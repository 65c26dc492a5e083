(** Average widths and level spacings in another unit. *)
From Coq Require Import List Reals.
From Verif Require Import UnresolvedModel.
Open Scope R_scope.

(** The level spacing and all average widths multiplied by a number; the energies stay *)
Definition scaled_resonance (k : R) (r : unresolved_resonance) : unresolved_resonance :=
  mkUnresolved (ur_energy r) (k * ur_spacing r) (k * ur_elastic r) (k * ur_capture r) (k * ur_fission r) (k * ur_competition r).
Definition scaled_group (k : R) (g : unresolved_group) : unresolved_group :=
  mkUGroup (ug_channel g) (mkUTable (map (scaled_resonance k) (ut_resonances (ug_table g))) (ut_degrees (ug_table g))).
Definition scaled_system (k : R) (s : unresolved_system) : unresolved_system :=
  mkUSystem (map (scaled_group k) (uy_groups s)) (uy_lmax s).
