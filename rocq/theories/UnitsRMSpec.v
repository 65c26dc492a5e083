(** Reich-Moore systems of the older interface in other units of energy and length. *)
From Coq Require Import List Reals.
From Verif Require Import Outcome KMatrixModel BreitWignerModel ReichMooreModel UnitsSpec UnitsOldSpec.
Open Scope R_scope.

Definition units_root (t : R) (w : option R) : option R := match w with Some x => Some (t * x) | None => None end.
Definition units_radius_l (t : R) (a : option R) : option R := match a with Some x => Some (x / t) | None => None end.
(** Roots of widths are multiplied by t *)
Definition units_rm (t : R) (r : rm_resonance) : rm_resonance :=
  mkRM (t * t * rm_energy r) (units_root t (rm_rootNeutron r)) (t * t * rm_capture r) (t * rm_rootA r) (t * rm_rootB r) (rm_inverseRoot r) (rm_flagged r).
Definition units_rm_lvalue (t : R) (lv : rm_lvalue) : rm_lvalue := mkRMValue (units_radius_l t (rv_ap lv)) (map (units_rm t) (rv_resonances lv)) (rv_l lv).
Definition units_rm_system (t : R) (s : rm_system) : rm_system :=
  mkRMSystem (map (units_rm_lvalue t) (rt_lvalues s)) (rt_ratio s) (rt_tag s) (units_length t (rt_channel s)) (units_length t (rt_scattering s)).
Definition units_rm_made (t : R) (o : outcome rm_system) : outcome rm_system := match o with Ok s => Ok (units_rm_system t s) | x => x end.
(** The file: widths, not their roots *)
Definition units_rm_line (t : R) (r : rm_line) : rm_line := mkRMLine (t * t * rl_ER r) (rl_AJ r) (t * t * rl_GN r) (t * t * rl_GG r) (t * t * rl_GFA r) (t * t * rl_GFB r).
Definition units_rm_lstate (t : R) (ls : rm_lstate) : rm_lstate := mkRMState (rs_L ls) (rs_AWRI ls) (rs_APL ls / t) (map (units_rm_line t) (rs_lines ls)).
Definition units_rm_file (t : R) (f : rm_file) : rm_file := mkRMFile (rf_SPI f) (rf_AP f / t) (map (units_rm_lstate t) (rf_lstates f)).
Definition rm_keyed (sort : list rm_resonance -> list rm_resonance) : Prop :=
  forall f l, (forall r, rm_flagged (f r) = rm_flagged r) -> sort (map f l) = map f (sort l).
