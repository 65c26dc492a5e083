(** Breit-Wigner systems in other units of energy and length. *)
From Coq Require Import List Reals.
From Verif Require Import Outcome KinematicsModel CoulombModel RMatrixModel ChannelModel BreitWignerModel LegacyModel.
Open Scope R_scope.

(** Lengths divided by t, also where they are tabulated over the energy *)
Definition units_radius (t : R) (r : radius) : radius :=
  match r with
  | Fixed a => Fixed (a / t)
  | Tabulated f => Tabulated (fun e => match f (e / (t * t)) with Ok a => Ok (a / t) | o => o end)
  end.
(** Energies and widths multiplied by the square of t *)
Definition units_channel (t : R) (c : channel) : channel :=
  mkChannel (c_type c) (c_id c) (c_reaction c) (c_incident c) (c_pair c) (t * t * c_q c) (c_numbers c)
    (mkRadii (units_radius t (r_P (c_radii c))) (units_radius t (r_S (c_radii c))) (units_radius t (r_phi (c_radii c)))) (c_boundary c).
Definition units_width (t : R) (w : option R) : option R := match w with Some x => Some (t * t * x) | None => None end.
Definition units_resonance (t : R) (r : legacy_resonance) : legacy_resonance :=
  mkLegacy (t * t * q_energy r) (t * t * q_elastic r) (t * t * q_capture r) (t * t * q_fission r) (t * t * q_competition r)
    (units_width t (q_toP r)) (units_width t (q_toQ r)) (q_shift r).
Definition units_group (t : R) (g : legacy_group) : legacy_group :=
  mkLegacyGroup (units_channel t (lg_channel g)) (map (units_resonance t) (lg_resonances g)) (t * t * lg_qx g).
Definition units_system (t : R) (s : legacy_system) : legacy_system := mkLegacySystem (map (units_group t) (ly_groups s)) (ly_lmax s).
(** Cross sections divided by the square of t *)
Definition units_map (t : R) (m : legacy_map) : legacy_map := fun key => match m key with Some x => Some (x / (t * t)) | None => None end.
Definition units_result (t : R) (x : outcome (option legacy_map)) : outcome (option legacy_map) :=
  match x with Ok (Some m) => Ok (Some (units_map t m)) | o => o end.
(** No Coulomb interaction, whose strength has a unit of its own *)
Definition uncharged (c : channel) : Prop := p_charge (pp_particle (c_pair c)) * p_charge (pp_residual (c_pair c)) = 0.
(** The file in the other units *)
Definition units_line (t : R) (r : bw_line) : bw_line := mkLine (t * t * ln_ER r) (ln_AJ r) (t * t * ln_GN r) (t * t * ln_GG r) (t * t * ln_GF r) (t * t * ln_GX r).
Definition units_lstate (t : R) (ls : bw_lstate) : bw_lstate := mkLState (ls_L ls) (ls_AWRI ls) (ls_LRX ls) (t * t * ls_QX ls) (map (units_line t) (ls_lines ls)).
Definition units_file (t : R) (f : bw_file) : bw_file := mkFile (f_SPI f) (f_AP f / t) (map (units_lstate t) (f_lstates f)).
Definition units_table (t : R) (nro : option (R -> outcome R)) : option (R -> outcome R) :=
  match nro with Some f => Some (fun e => match f (e / (t * t)) with Ok a => Ok (a / t) | o => o end) | None => None end.
