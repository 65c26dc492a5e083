(** Low energies: C91.  hbar, epsilon0, the neutron mass and the Coulomb wave functions are
    arbitrary throughout; the sort of the older interface is any function that sorts. *)
From Coq Require Import String List ZArith Reals Lra Lia Bool.
From Verif Require Import Outcome QuantumModel QuantumSpec SpinFactorProofs KinematicsModel CoulombModel Cplx RMatrixModel ChannelModel BreitWignerModel BreitWignerSpec ListFacts BreitWignerProofs
  BreitWignerSystemProofs BreitWignerTheorems BreitWignerCases LegacyModel LegacyProofs LegacySystemProofs LowEnergySpec LowEnergyTheorems LowEnergyCases.
Import ListNotations.
Open Scope R_scope.

(** With fixed radii and proper widths: near zero energy both formats of the R-matrix interface
    give cross sections; sqrt E times capture and fission, and elastic itself, tend to the values
    of the textbook. *)
Theorem C91_legacy hbar epsilon0 cwf mn incident target f A a ahat nro naps rad n s :
  input_new hbar mn f A nro naps rad n -> (n <= 4)%nat -> proper q_new f -> r_P rad = Fixed a -> r_phi rad = Fixed ahat ->
  makeLegacyBreitWigner hbar epsilon0 cwf mn incident target f nro naps = Ok (Some s) ->
  let kappa := C_new hbar mn * (A / (A + 1)) in
  forall eps, 0 < eps -> exists d, 0 < d /\ forall E, 0 < E < d -> forall m, exists m1 m2,
    legacy_evaluate hbar (legacySLBW hbar epsilon0 cwf) s E m = Ok (Some m1) /\ legacy_evaluate hbar (legacyMLBW hbar epsilon0 cwf) s E m = Ok (Some m2) /\
    let added m' key := mval m' (key incident target) - mval m (key incident target) in
    Rabs (added m1 elastic_key - SL_low q_new kappa ahat (f_SPI f) (f_lstates f)) < eps /\
    Rabs (added m2 elastic_key - ML_low q_new kappa ahat (f_SPI f) (f_lstates f)) < eps /\
    forall m', m' = m1 \/ m' = m2 ->
      Rabs (sqrt E * added m' capture_key - one_over_v q_new kappa (f_SPI f) ln_GG (f_lstates f)) < eps /\
      Rabs (sqrt E * added m' fission_key - one_over_v q_new kappa (f_SPI f) ln_GF (f_lstates f)) < eps.
Proof.
  intros Hin Hn Hp Ea Es Hb. exact (new_low hbar epsilon0 cwf mn incident target f A a ahat nro naps rad n Hin Hn Hp Ea Es s Hb).
Qed.

(** The same in the older interface ... *)
Theorem C91_slbw_old C sort f A a ahat s : input_old C f A (fun _ => Ok a) (fun _ => Ok ahat) -> proper q_old f ->
  (forall ls, In ls (f_lstates f) -> (ls_L ls <= 4)%nat) -> bw_build C sort false f (fun _ => Ok a) (fun _ => Ok ahat) = Ok s ->
  let kappa := C * (A / (A + 1)) in
  forall eps, 0 < eps -> exists d, 0 < d /\ forall E, 0 < E < d -> exists e c fi, slbw_evaluate C s E = Ok (Some (e, c, fi)) /\
    Rabs (e - SL_low q_old kappa ahat (f_SPI f) (f_lstates f)) < eps /\
    Rabs (sqrt E * c - one_over_v q_old kappa (f_SPI f) ln_GG (f_lstates f)) < eps /\
    Rabs (sqrt E * fi - one_over_v q_old kappa (f_SPI f) ln_GF (f_lstates f)) < eps.
Proof. intros Hin Hp Hl Hb. exact (old_slbw_low C sort f A a ahat Hin Hp Hl s Hb). Qed.
(** ... where the multi-level elastic cross section is off by the rounded literals of C38 *)
Theorem C91_mlbw_old C sort f A a ahat s : input_old C f A (fun _ => Ok a) (fun _ => Ok ahat) -> proper q_old f ->
  (forall ls, In ls (f_lstates f) -> (ls_L ls <= 4)%nat) -> sorts b_g sort -> bw_build C sort true f (fun _ => Ok a) (fun _ => Ok ahat) = Ok s ->
  let kappa := C * (A / (A + 1)) in
  forall eps, 0 < eps -> exists d, 0 < d /\ forall E, 0 < E < d -> exists e c fi, mlbw_evaluate C s E = Ok (Some (e, c, fi)) /\
    Rabs (e - ML_low q_old kappa ahat (f_SPI f) (f_lstates f)) < eps + literal_rounding * (4 * pi_value * (ahat * ahat)) * INR (length (s_waves (f_lstates f))) /\
    Rabs (sqrt E * c - one_over_v q_old kappa (f_SPI f) ln_GG (f_lstates f)) < eps /\
    Rabs (sqrt E * fi - one_over_v q_old kappa (f_SPI f) ln_GF (f_lstates f)) < eps.
Proof. intros Hin Hp Hl Hs Hb. exact (old_mlbw_low C sort f A a ahat Hin Hp Hl s Hs Hb). Qed.
Print Assumptions C91_legacy.
Print Assumptions C91_slbw_old.
Print Assumptions C91_mlbw_old.

(** A file with a bound and an unbound s wave resonance, a competitive width and a p wave meets
    the hypotheses of all three; its limits of capture and fission are positive *)
Example C91_case epsilon0 cwf sort : input_new 2 2 low_file 1 None 1 (radii1 (Fixed 1)) 1 /\ proper q_new low_file /\
  (exists s, makeLegacyBreitWigner 2 epsilon0 cwf 2 "n" "t" low_file None 1 = Ok (Some s)) /\
  input_old 2 low_file 1 (fun _ => Ok 1) (fun _ => Ok 1) /\ proper q_old low_file /\
  (forall ordered, exists s, bw_build 2 sort ordered low_file (fun _ => Ok 1) (fun _ => Ok 1) = Ok s) /\
  (forall q kappa, 0 < kappa -> 0 < one_over_v q kappa 0 ln_GG (f_lstates low_file) /\ 0 < one_over_v q kappa 0 ln_GF (f_lstates low_file)).
Proof.
  split; [exact low_input|]. split; [exact low_new|]. split; [apply low_made|]. split; [exact low_old_input|]. split; [exact low_old|].
  split; [apply low_built | exact low_capture].
Qed.
