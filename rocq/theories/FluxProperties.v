(** C92: conservation of flux in the Breit-Wigner formalisms. *)
From Coq Require Import String List ZArith Reals.
From Verif Require Import Outcome QuantumModel QuantumSpec SpinFactorModel SpinFactorProofs HardSphereSpec KinematicsModel CoulombModel Cplx RMatrixModel ChannelModel BreitWignerModel
  BreitWignerSpec ListFacts BreitWignerProofs BreitWignerSystemProofs LegacyModel LegacyProofs LegacySystemProofs BreitWignerTheory BreitWignerTheorems BreitWignerCases FluxSpec FluxTheorems FluxCases.
Import ListNotations.
Open Scope R_scope.

(** The single-level formulas obey the optical theorem for every file; when no two levels share l and J
    and no width is negative, the cross sections keep to the limits of a collision matrix of modulus at most one *)
Theorem C92_slbw_old C sort f A ch sc s E e c fi : input_old C f A ch sc ->
  bw_build C sort false f ch sc = Ok s -> slbw_evaluate C s E = Ok (Some (e, c, fi)) ->
  let k := k_old C A in let a x := oval (ch x) in let lss := f_lstates f in
  e + c + fi + BW_competitive k a E q_old (f_SPI f) lss = optical k a E q_old (oval (sc E)) (f_SPI f) lss /\
  (open_widths f -> isolated f -> (forall ls, In ls lss -> coupled (f_SPI f) ls) ->
    c + fi <= unit_limit k E lss /\ e <= 4 * unit_limit k E lss /\ e + c + fi <= 4 * unit_limit k E lss).
Proof. intros Hin. exact (old_slbw_flux C sort f A ch sc Hin s E e c fi). Qed.
Print Assumptions C92_slbw_old.

(** The multi-level formula exceeds the optical theorem by the interference of the levels *)
Theorem C92_mlbw_old C sort f A ch sc s E e c fi : input_old C f A ch sc -> sorts b_g sort ->
  bw_build C sort true f ch sc = Ok s -> mlbw_evaluate C s E = Ok (Some (e, c, fi)) ->
  let k := k_old C A in let a x := oval (ch x) in let lss := f_lstates f in
  let tiny := barns k E * literal_rounding * Rsum (map (fun ls => scattered (U0_of k E (oval (sc E)) ls)) lss) in
  Rabs (e + c + fi + BW_competitive k a E q_old (f_SPI f) lss
        - (optical k a E q_old (oval (sc E)) (f_SPI f) lss + interference_sum k a E q_old (f_SPI f) lss)) <= tiny /\
  (open_widths f -> isolated f -> (forall ls, In ls lss -> coupled (f_SPI f) ls) ->
    c + fi <= unit_limit k E lss /\ e <= 4 * unit_limit k E lss + tiny /\ e + c + fi <= 4 * unit_limit k E lss + tiny).
Proof. intros Hin. exact (old_mlbw_flux C sort f A ch sc Hin s E e c fi). Qed.
Print Assumptions C92_mlbw_old.

Theorem C92_legacy hbar epsilon0 cwf mn incident target f A nro naps rad n s E m m1 m2 :
  input_new hbar mn f A nro naps rad n -> E <> 0 ->
  makeLegacyBreitWigner hbar epsilon0 cwf mn incident target f nro naps = Ok (Some s) ->
  legacy_evaluate hbar (legacySLBW hbar epsilon0 cwf) s E m = Ok (Some m1) ->
  legacy_evaluate hbar (legacyMLBW hbar epsilon0 cwf) s E m = Ok (Some m2) ->
  let el := elastic_key incident target in let ca := capture_key incident target in let fi := fission_key incident target in
  let k := k_old (C_new hbar mn) A in let a x := oval (radius_at (r_P rad) x) in let ahat := oval (radius_at (r_phi rad) E) in
  let lss := f_lstates f in let added m' key := mval m' key - mval m key in
  added m1 el + added m1 ca + added m1 fi + BW_competitive k a E q_new (f_SPI f) lss = optical k a E q_new ahat (f_SPI f) lss /\
  added m2 el + added m2 ca + added m2 fi + BW_competitive k a E q_new (f_SPI f) lss
    = optical k a E q_new ahat (f_SPI f) lss + interference_sum k a E q_new (f_SPI f) lss /\
  (open_widths f -> isolated f -> forall m', m' = m1 \/ m' = m2 ->
    added m' ca + added m' fi <= unit_limit k E lss /\ added m' el <= 4 * unit_limit k E lss /\
    added m' el + added m' ca + added m' fi <= 4 * unit_limit k E lss).
Proof. intros Hin HE. exact (legacy_flux hbar epsilon0 cwf mn incident target f A nro naps rad n Hin s E m m1 m2 HE). Qed.
Print Assumptions C92_legacy.

(** Two levels of the same l and J exceed the limits in both formats of both interfaces *)
Theorem C92_limits_old_refuted sort : sorts b_g sort -> exists C f A ch sc E s1 e1 c1 f1 s2 e2 c2 f2,
  input_old C f A ch sc /\ open_widths f /\ (forall ls, In ls (f_lstates f) -> coupled (f_SPI f) ls) /\
  bw_build C sort false f ch sc = Ok s1 /\ slbw_evaluate C s1 E = Ok (Some (e1, c1, f1)) /\
  bw_build C sort true f ch sc = Ok s2 /\ mlbw_evaluate C s2 E = Ok (Some (e2, c2, f2)) /\
  unit_limit (k_old C A) E (f_lstates f) < c1 + f1 /\ 4 * unit_limit (k_old C A) E (f_lstates f) < e1 /\
  unit_limit (k_old C A) E (f_lstates f) < c2 + f2 /\ 4 * unit_limit (k_old C A) E (f_lstates f) < e2.
Proof. exact (over_old_refuted sort). Qed.
Print Assumptions C92_limits_old_refuted.
Theorem C92_limits_legacy_refuted epsilon0 cwf : exists hbar mn f A rad n E s m1 m2,
  input_new hbar mn f A None 1 rad n /\ open_widths f /\
  makeLegacyBreitWigner hbar epsilon0 cwf mn "n" "t" f None 1 = Ok (Some s) /\
  legacy_evaluate hbar (legacySLBW hbar epsilon0 cwf) s E (fun _ => None) = Ok (Some m1) /\
  legacy_evaluate hbar (legacyMLBW hbar epsilon0 cwf) s E (fun _ => None) = Ok (Some m2) /\
  forall m, m = m1 \/ m = m2 ->
    unit_limit (k_old (C_new hbar mn) A) E (f_lstates f) < mval m (capture_key "n" "t") + mval m (fission_key "n" "t") /\
    4 * unit_limit (k_old (C_new hbar mn) A) E (f_lstates f) < mval m (elastic_key "n" "t").
Proof. exact (over_new_refuted epsilon0 cwf). Qed.
Print Assumptions C92_limits_legacy_refuted.

(** One level whose capture reaches the limit meets every hypothesis *)
Example C92_case_old sort : sorts b_g sort -> open_widths full_file /\ isolated full_file /\ (forall ls, In ls (f_lstates full_file) -> coupled (f_SPI full_file) ls) /\
  exists s e c fi, input_old 2 full_file 1 (fun _ => Ok (PI / 2)) (fun _ => Ok (PI / 2)) /\
  bw_build 2 sort false full_file (fun _ => Ok (PI / 2)) (fun _ => Ok (PI / 2)) = Ok s /\ slbw_evaluate 2 s 4 = Ok (Some (e, c, fi)) /\
  c = unit_limit (k_old 2 1) 4 (f_lstates full_file).
Proof. intros Hs. exact (Logic.conj full_open (Logic.conj full_isolated (Logic.conj full_coupled (full_old sort Hs)))). Qed.
Example C92_case_legacy epsilon0 cwf : exists s m1 m2,
  input_new 1 2 full_file 1 None 1 (radii1 (Fixed (PI / 2))) 0 /\
  makeLegacyBreitWigner 1 epsilon0 cwf 2 "n" "t" full_file None 1 = Ok (Some s) /\
  legacy_evaluate 1 (legacySLBW 1 epsilon0 cwf) s 4 (fun _ => None) = Ok (Some m1) /\
  legacy_evaluate 1 (legacyMLBW 1 epsilon0 cwf) s 4 (fun _ => None) = Ok (Some m2) /\
  mval m1 (capture_key "n" "t") = unit_limit (k_old (C_new 1 2) 1) 4 (f_lstates full_file).
Proof. exact (full_new epsilon0 cwf). Qed.
