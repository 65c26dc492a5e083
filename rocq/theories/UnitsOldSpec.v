(** Breit-Wigner systems of the older interface in other units of energy and length. *)
From Coq Require Import List Reals.
From Verif Require Import Outcome BreitWignerModel UnitsSpec.
Open Scope R_scope.

Definition units_length (t : R) (f : R -> outcome R) : R -> outcome R := fun e => match f (e / (t * t)) with Ok a => Ok (a / t) | o => o end.
Definition units_level (t : R) (r : bw_resonance) : bw_resonance :=
  mkBW (t * t * b_energy r) (t * t * b_neutron r) (t * t * b_capture r) (t * t * b_fission r) (units_width t (b_competitive r)) (b_inverse r) (b_shift r) (b_g r).
Definition units_lvalue (t : R) (lv : bw_lvalue) : bw_lvalue := mkLvalue (map (units_level t) (lv_resonances lv)) (units_width t (lv_q lv)) (lv_l lv) (lv_gsum lv).
Definition units_older (t : R) (s : bw_system) : bw_system :=
  mkSystem (map (units_lvalue t) (s_lvalues s)) (s_ratio s) (s_spin s) (units_length t (s_channel s)) (units_length t (s_scattering s)).
Definition units_triple (t : R) (x : outcome (option triple)) : outcome (option triple) :=
  match x with Ok (Some (a, b, c)) => Ok (Some (a / (t * t), b / (t * t), c / (t * t))) | o => o end.
Definition units_made (t : R) (o : outcome bw_system) : outcome bw_system := match o with Ok s => Ok (units_older t s) | x => x end.
(** What sorts by the statistical factor looks at nothing else *)
Definition keyed (sort : list bw_resonance -> list bw_resonance) : Prop :=
  forall f l, (forall r, b_g (f r) = b_g r) -> sort (map f l) = map f (sort l).
