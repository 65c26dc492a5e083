(** From the file to the cross sections: the theorems behind C60. *)
From Coq Require Import String List ZArith Reals Bool Lra Lia.
From Verif Require Import Outcome QuantumModel QuantumSpec SpinFactorModel HardSphereModel HardSphereSpec KinematicsModel CoulombModel Cplx RMatrixModel ChannelModel SpinGroupModel
  BreitWignerModel BreitWignerSpec ListFacts BreitWignerProofs BreitWignerSystemProofs ReichMooreModel LegacyModel LegacyProofs LegacySystemProofs BreitWignerTheory BreitWignerTheorems BreitWignerCases
  UnresolvedModel UnresolvedSpec UnresolvedProofs UnresolvedSystemProofs UnresolvedTheorems GridModel AssemblyModel EndfModel LegacyCheckTheorems.
Import ListNotations.
Open Scope R_scope.

Section File.
Variables (hbar epsilon0 : R) (cwf : nat -> R -> R -> outcome coulomb) (mn elementaryCharge : R) (incident target : string)
  (products : Z -> outcome (string * string)) (multiRegion : endf_radius -> outcome (R -> outcome R)) (initial : forall g, cache (gsize g)).
Let from := fromENDF hbar epsilon0 cwf mn elementaryCharge incident target products multiRegion initial.
(** The value at a key of what the reconstructor returns *)
Definition returned (o : outcome (option (reconstructor * cross_sections))) (key : legacy_key) (x : R) : Prop :=
  exists rc m, o = Ok (Some (rc, Legacy m)) /\ mval m key = x.
Let value (rc : reconstructor) (e : R) := returned (reconstruct hbar epsilon0 cwf rc e).

Lemma in_range rc e : rc_lower rc <= e <= rc_upper rc -> reconstruct hbar epsilon0 cwf rc e =
  omap (option_map (fun p => (mkReconstructor (rc_lower rc) (rc_upper rc) (fst p), snd p))) (evaluateCompound hbar epsilon0 cwf (rc_system rc) e).
Proof.
  intros [H1 H2]. unfold reconstruct. destruct (Rle_dec (rc_lower rc) e); [|contradiction]. destruct (Rle_dec e (rc_upper rc)); [|contradiction]. reflexivity.
Qed.

(** For every file with sensible constants, and inside its range: what is returned without
    trouble is what the formulae give for the parameters of the file. *)
Theorem from_slbw r f nro rc e o A rad n : er_LRU r = 1%Z -> er_LRF r = 1%Z -> er_parameters r = ParametersSLBW f ->
  makeChannelRadiusTable multiRegion (er_radius r) = Ok nro -> input_new hbar mn f A nro (er_NAPS r) rad n -> e <> 0 ->
  from r = Ok (Some rc) -> er_lower r <= e <= er_upper r -> reconstruct hbar epsilon0 cwf rc e = Ok (Some o) ->
  let k := k_old (C_new hbar mn) A in let a x := oval (radius_at (r_P rad) x) in let ahat := oval (radius_at (r_phi rad) e) in
  value rc e (incident, target, "elastic"%string) (SLBW_elastic k a e q_new ahat (f_SPI f) (f_lstates f)) /\
  value rc e (incident, target, "capture"%string) (BW_capture k a e q_new (f_SPI f) (f_lstates f)) /\
  value rc e (incident, target, "fission"%string) (BW_fission k a e q_new (f_SPI f) (f_lstates f)).
Proof.
  intros H1 H2 H3 H4 Hin He Hf Hr Ho. unfold from, fromENDF in Hf. rewrite H4, H1, H2, H3 in Hf. cbn [bind Z.eqb Pos.eqb] in Hf. unfold reconstructorOf, omap in Hf.
  apply bind_Ok in Hf as (os & Hs & Hf). destruct os as [s|]; [|discriminate]. injection Hf as <-. unfold value, returned. rewrite in_range in * by exact Hr.
  cbn [rc_system evaluateCompound] in *. destruct (legacy_evaluate hbar (legacySLBW hbar epsilon0 cwf) s e (fun _ => None)) as [[m|]| | |] eqn:E; try discriminate.
  destruct (new_slbw hbar epsilon0 cwf mn incident target f A nro (er_NAPS r) rad n Hin s e _ m He Hs E) as (V1 & V2 & V3).
  cbn [omap bind option_map fst snd]. cbv zeta.
  split; [|split]; (eexists; exists m; split; [reflexivity|]).
  - rewrite <- (Rplus_0_l (SLBW_elastic _ _ _ _ _ _ _)). exact V1.
  - rewrite <- (Rplus_0_l (BW_capture _ _ _ _ _ _)). exact V2.
  - rewrite <- (Rplus_0_l (BW_fission _ _ _ _ _ _)). exact V3.
Qed.
Theorem from_mlbw r f nro rc e o A rad n : er_LRU r = 1%Z -> er_LRF r = 2%Z -> er_parameters r = ParametersMLBW f ->
  makeChannelRadiusTable multiRegion (er_radius r) = Ok nro -> input_new hbar mn f A nro (er_NAPS r) rad n -> e <> 0 ->
  from r = Ok (Some rc) -> er_lower r <= e <= er_upper r -> reconstruct hbar epsilon0 cwf rc e = Ok (Some o) ->
  let k := k_old (C_new hbar mn) A in let a x := oval (radius_at (r_P rad) x) in let ahat := oval (radius_at (r_phi rad) e) in
  value rc e (incident, target, "elastic"%string) (MLBW_elastic k a e q_new ahat (f_SPI f) (f_lstates f)) /\
  value rc e (incident, target, "capture"%string) (BW_capture k a e q_new (f_SPI f) (f_lstates f)) /\
  value rc e (incident, target, "fission"%string) (BW_fission k a e q_new (f_SPI f) (f_lstates f)).
Proof.
  intros H1 H2 H3 H4 Hin He Hf Hr Ho. unfold from, fromENDF in Hf. rewrite H4, H1, H2, H3 in Hf. cbn [bind Z.eqb Pos.eqb] in Hf. unfold reconstructorOf, omap in Hf.
  apply bind_Ok in Hf as (os & Hs & Hf). destruct os as [s|]; [|discriminate]. injection Hf as <-. unfold value, returned. rewrite in_range in * by exact Hr.
  cbn [rc_system evaluateCompound] in *. destruct (legacy_evaluate hbar (legacyMLBW hbar epsilon0 cwf) s e (fun _ => None)) as [[m|]| | |] eqn:E; try discriminate.
  destruct (new_mlbw hbar epsilon0 cwf mn incident target f A nro (er_NAPS r) rad n Hin s e _ m He Hs E) as (V1 & V2 & V3).
  cbn [omap bind option_map fst snd]. cbv zeta.
  split; [|split]; (eexists; exists m; split; [reflexivity|]).
  - rewrite <- (Rplus_0_l (MLBW_elastic _ _ _ _ _ _ _)). exact V1.
  - rewrite <- (Rplus_0_l (BW_capture _ _ _ _ _ _)). exact V2.
  - rewrite <- (Rplus_0_l (BW_fission _ _ _ _ _ _)). exact V3.
Qed.
(** The parameters of an unresolved range, with the energies that they go with *)
Definition unresolved_of (p : endf_parameters) (spin : Z) (ap : R) (grid : option (list R)) (uls : list unresolved_lvalue) : Prop :=
  (p = ParametersIndependent spin ap uls /\ grid = None) \/ (exists es, p = ParametersFission spin ap es uls /\ grid = Some es) \/
  (p = ParametersDependent spin ap uls /\ grid = None).
Theorem from_unresolved r spin ap grid uls nro rc e o A rad : er_LRU r = 2%Z -> unresolved_of (er_parameters r) spin ap grid uls ->
  makeChannelRadiusTable multiRegion (er_radius r) = Ok nro -> uinput hbar mn A spin ap nro (er_NAPS r) uls rad ->
  from r = Ok (Some rc) -> (forall y u, rc_system rc = Unresolved y -> In u (uy_groups y) -> well_formed u) ->
  er_lower r <= e <= er_upper r -> reconstruct hbar epsilon0 cwf rc e = Ok (Some o) ->
  let k := k_old (C_new hbar mn) A in let rho := k e * oval (radius_at (r_phi rad) e) in
  let U0 l := hard_sphere_U l rho in let g := g_neutron spin in let lmax := list_max (map fst (file_values uls)) in
  exists us vs, Forall2 (made mn incident target A spin grid (er_lower r) (er_upper r) rad) (file_values uls) us /\
    Forall2 (parameters_of hbar mn A rad e) us vs /\
    value rc e (incident, target, "elastic"%string) (barns k e *
      (Rsum (map (fun v => g (v_J v) * U_elastic pi_value v (U0 (v_l v))) vs)
       + Rsum (map (fun l => (2 * INR l + 1) * optical_total (U0 l)) (seq 0 (S lmax))))) /\
    value rc e (incident, target, "capture"%string) (barns k e * Rsum (map (fun v => g (v_J v) * U_capture pi_value v) vs)) /\
    value rc e (incident, target, "fission"%string) (barns k e * Rsum (map (fun v => g (v_J v) * U_fission pi_value v) vs)).
Proof.
  intros H1 H3 H4 Hin Hf Hw Hr Ho. unfold from, fromENDF in Hf. rewrite H4, H1 in Hf. cbn [bind Z.eqb Pos.eqb] in Hf.
  assert (Hs : exists s, makeLegacyUnresolvedSystem mn incident target spin ap nro (er_NAPS r) grid (er_lower r) (er_upper r) uls = Ok s /\ rc = mkReconstructor (er_lower r) (er_upper r) (Unresolved s)).
  { destruct H3 as [[Ep ->]|[(es & Ep & ->)|[Ep ->]]]; rewrite Ep in Hf; unfold reconstructorOf, omap in Hf; apply bind_Ok in Hf as (os & Hs & Hf);
      apply bind_Ok in Hs as (s & Hs & E); injection E as <-; injection Hf as <-; exists s; split; [exact Hs | reflexivity | exact Hs | reflexivity | exact Hs | reflexivity]. }
  destruct Hs as (s & Hs & ->). unfold value, returned. rewrite in_range in * by exact Hr. cbn [rc_system evaluateCompound] in *.
  destruct (unresolved_system_evaluate hbar epsilon0 cwf s e (fun _ => None)) as [[m|]| | |] eqn:E; try discriminate.
  destruct (file_value hbar epsilon0 cwf mn incident target A spin ap nro (er_NAPS r) grid (er_lower r) (er_upper r) uls rad s e _ m Hin Hs (fun u => Hw s u eq_refl) E) as (us & vs & F1 & F2 & V1 & V2 & V3).
  cbv zeta. exists us, vs. split; [exact F1|]. split; [exact F2|]. cbn [omap bind option_map fst snd].
  split; [|split]; (eexists; exists m; split; [reflexivity|]).
  - etransitivity; [exact V1|]. unfold mval at 1. apply Rplus_0_l.
  - etransitivity; [exact V2|]. unfold mval at 1. apply Rplus_0_l.
  - etransitivity; [exact V3|]. unfold mval at 1. apply Rplus_0_l.
Qed.
End File.
