(** C59 and C60: what the legacy compound systems accept and fill, and the way from the file to
    the cross sections. *)
From Coq Require Import String List ZArith Reals Bool Lra Lia.
From Verif Require Import Outcome QuantumModel QuantumSpec SpinFactorModel HardSphereModel HardSphereSpec KinematicsModel CoulombModel Cplx RMatrixModel ChannelModel SpinGroupModel
  BreitWignerModel BreitWignerSpec ListFacts BreitWignerProofs BreitWignerSystemProofs ReichMooreModel LegacyModel LegacyProofs LegacySystemProofs BreitWignerTheory BreitWignerTheorems BreitWignerCases
  UnresolvedModel UnresolvedSpec UnresolvedProofs UnresolvedSystemProofs UnresolvedTheorems GridModel AssemblyModel EndfModel LegacyCheckTheorems ReconstructionTheorems.
Import ListNotations.
Open Scope R_scope.

(** * C59 *)
(** A legacy system is accepted if it has a group and no two groups have the same l and J;
    otherwise it throws.  The largest l is that of the groups. *)
Theorem C59_resolved gs : let ok := gs <> [] /\ NoDup (map (fun g => (ql (c_numbers (lg_channel g)), qJ (c_numbers (lg_channel g)))) gs) in
  (ok /\ makeLegacySystem gs = Ok (mkLegacySystem gs (list_max (map (fun g => ql (c_numbers (lg_channel g))) gs)))) \/
  (~ ok /\ makeLegacySystem gs = Throw (RuntimeError "std::exception")).
Proof. exact (legacy_system_accepts gs). Qed.
Print Assumptions C59_resolved.
Theorem C59_unresolved gs : let ok := gs <> [] /\ NoDup (map (fun g => (ql (c_numbers (ug_channel g)), qJ (c_numbers (ug_channel g)))) gs) in
  (ok /\ makeUnresolvedSystem gs = Ok (mkUSystem gs (list_max (map (fun g => ql (c_numbers (ug_channel g))) gs)))) \/
  (~ ok /\ makeUnresolvedSystem gs = Throw (RuntimeError "std::exception")).
Proof. exact (unresolved_system_accepts gs). Qed.
Print Assumptions C59_unresolved.
(** A group fills the elastic and the capture cross section, and fission exactly when it adds to it *)
Theorem C59_slbw_keys hbar epsilon0 cwf g e m m' : spinFactor (lg_channel g) <> 0 ->
  legacySLBW hbar epsilon0 cwf g e m = Ok (Some m') -> forall k, m' k <> None <->
    m k <> None \/ k = legacyKey (lg_channel g) "elastic" \/ k = legacyKey (lg_channel g) "capture" \/
    (k = legacyKey (lg_channel g) "fission" /\ mval m' k <> mval m k).
Proof. exact (slbw_keys hbar epsilon0 cwf g e m m'). Qed.
Print Assumptions C59_slbw_keys.
Theorem C59_mlbw_keys hbar epsilon0 cwf g e m m' : spinFactor (lg_channel g) <> 0 ->
  legacyMLBW hbar epsilon0 cwf g e m = Ok (Some m') -> forall k, m' k <> None <->
    m k <> None \/ k = legacyKey (lg_channel g) "elastic" \/ k = legacyKey (lg_channel g) "capture" \/
    (k = legacyKey (lg_channel g) "fission" /\ mval m' k <> mval m k).
Proof. exact (mlbw_keys hbar epsilon0 cwf g e m m'). Qed.
Print Assumptions C59_mlbw_keys.
(** The rows of the unresolved tables and their degrees of freedom are those of the file; what is
    not as long as the rest is cut without a word *)
Theorem C59_unresolved_rows energies j t : makeLegacyUnresolvedTable energies j = Ok t ->
  rows energies (uj_parameters j) (ut_resonances t) /\ (2 <= length (ut_resonances t))%nat /\
  degree (uj_AMUN j) (d_elastic (ut_degrees t)) /\ degree (uj_AMUG j) (d_capture (ut_degrees t)) /\
  degree (uj_AMUF j) (d_fission (ut_degrees t)) /\ degree (uj_AMUX j) (d_competition (ut_degrees t)).
Proof. exact (unresolved_table energies j t). Qed.
Print Assumptions C59_unresolved_rows.

(** * C60 *)
Section C60.
Variables (hbar epsilon0 : R) (cwf : nat -> R -> R -> outcome coulomb) (mn elementaryCharge : R) (incident target : string)
  (products : Z -> outcome (string * string)) (multiRegion : endf_radius -> outcome (R -> outcome R)) (initial : forall g, cache (gsize g)).
Let from := fromENDF hbar epsilon0 cwf mn elementaryCharge incident target products multiRegion initial.
Let value (rc : reconstructor) (e : R) := returned (reconstruct hbar epsilon0 cwf rc e).
(** For every file with sensible constants, and inside its range: what is returned without
    trouble is what the formulae give for the parameters of the file. *)
Theorem C60_slbw r f nro rc e o A rad n : er_LRU r = 1%Z -> er_LRF r = 1%Z -> er_parameters r = ParametersSLBW f ->
  makeChannelRadiusTable multiRegion (er_radius r) = Ok nro -> input_new hbar mn f A nro (er_NAPS r) rad n -> e <> 0 ->
  from r = Ok (Some rc) -> er_lower r <= e <= er_upper r -> reconstruct hbar epsilon0 cwf rc e = Ok (Some o) ->
  let k := k_old (C_new hbar mn) A in let a x := oval (radius_at (r_P rad) x) in let ahat := oval (radius_at (r_phi rad) e) in
  value rc e (incident, target, "elastic"%string) (SLBW_elastic k a e q_new ahat (f_SPI f) (f_lstates f)) /\
  value rc e (incident, target, "capture"%string) (BW_capture k a e q_new (f_SPI f) (f_lstates f)) /\
  value rc e (incident, target, "fission"%string) (BW_fission k a e q_new (f_SPI f) (f_lstates f)).
Proof. exact (from_slbw hbar epsilon0 cwf mn elementaryCharge incident target products multiRegion initial r f nro rc e o A rad n). Qed.
Theorem C60_mlbw r f nro rc e o A rad n : er_LRU r = 1%Z -> er_LRF r = 2%Z -> er_parameters r = ParametersMLBW f ->
  makeChannelRadiusTable multiRegion (er_radius r) = Ok nro -> input_new hbar mn f A nro (er_NAPS r) rad n -> e <> 0 ->
  from r = Ok (Some rc) -> er_lower r <= e <= er_upper r -> reconstruct hbar epsilon0 cwf rc e = Ok (Some o) ->
  let k := k_old (C_new hbar mn) A in let a x := oval (radius_at (r_P rad) x) in let ahat := oval (radius_at (r_phi rad) e) in
  value rc e (incident, target, "elastic"%string) (MLBW_elastic k a e q_new ahat (f_SPI f) (f_lstates f)) /\
  value rc e (incident, target, "capture"%string) (BW_capture k a e q_new (f_SPI f) (f_lstates f)) /\
  value rc e (incident, target, "fission"%string) (BW_fission k a e q_new (f_SPI f) (f_lstates f)).
Proof. exact (from_mlbw hbar epsilon0 cwf mn elementaryCharge incident target products multiRegion initial r f nro rc e o A rad n). Qed.
Theorem C60_unresolved r spin ap grid uls nro rc e o A rad : er_LRU r = 2%Z -> unresolved_of (er_parameters r) spin ap grid uls ->
  makeChannelRadiusTable multiRegion (er_radius r) = Ok nro -> uinput hbar mn A spin ap nro (er_NAPS r) uls rad ->
  from r = Ok (Some rc) -> (forall y u, rc_system rc = Unresolved y -> In u (uy_groups y) -> well_formed u) ->
  er_lower r <= e <= er_upper r -> reconstruct hbar epsilon0 cwf rc e = Ok (Some o) ->
  let k := k_old (C_new hbar mn) A in let rho := k e * oval (radius_at (r_phi rad) e) in
  let U0 l := hard_sphere_U l rho in let g := g_neutron spin in let lmax := list_max (map fst (file_values uls)) in
  exists us vs, Forall2 (made mn incident target A spin grid (er_lower r) (er_upper r) rad) (file_values uls) us /\
    Forall2 (parameters_of hbar mn A rad e) us vs /\
    value rc e (incident, target, "elastic"%string) (barns k e *
      (Rsum (map (fun v => g (v_J v) * U_elastic pi_value v (U0 (v_l v))) vs)
       + Rsum (map (fun l => (2 * INR l + 1) * optical_total (U0 l)) (seq 0 (S lmax))))) /\
    value rc e (incident, target, "capture"%string) (barns k e * Rsum (map (fun v => g (v_J v) * U_capture pi_value v) vs)) /\
    value rc e (incident, target, "fission"%string) (barns k e * Rsum (map (fun v => g (v_J v) * U_fission pi_value v) vs)).
Proof. exact (from_unresolved hbar epsilon0 cwf mn elementaryCharge incident target products multiRegion initial r spin ap grid uls nro rc e o A rad). Qed.
End C60.
Print Assumptions C60_slbw.
Print Assumptions C60_mlbw.
Print Assumptions C60_unresolved.

(** A file of each kind that meets the hypotheses *)
Example C60_case epsilon0 cwf products multiRegion initial : let f := one_l 1 1 false 0 [mkLine 2 1 1 1 1 0] in
  let from := fromENDF 1 epsilon0 cwf 1 1 "n" "t" products multiRegion initial in
  input_new 1 1 f 1 None 1 (radii1 (Fixed 1)) 0 /\
  (exists rc o, from (mkERange 1 10 1 1 1 None (ParametersSLBW f)) = Ok (Some rc) /\ reconstruct 1 epsilon0 cwf rc 3 = Ok (Some o)) /\
  (exists rc o, from (mkERange 1 10 1 2 1 None (ParametersMLBW f)) = Ok (Some rc) /\ reconstruct 1 epsilon0 cwf rc 3 = Ok (Some o)) /\
  uinput 1 1 1 0 1 None 1 case_file (radii1 (Fixed 1)) /\
  (exists rc o, from (mkERange 1 4 2 1 1 None (ParametersIndependent 0 1 case_file)) = Ok (Some rc) /\
     (forall y u, rc_system rc = Unresolved y -> In u (uy_groups y) -> well_formed u) /\ reconstruct 1 epsilon0 cwf rc 2 = Ok (Some o)).
Proof.
  cbv zeta. set (lines := [mkLine 2 1 1 1 1 0]).
  assert (HL : forall x, In x lines -> ln_AJ x = 1%Z /\ ln_ER x <> 0 /\ (false = true -> ln_ER x - 0 <> 0) /\ 0 <= ln_GN x /\ 0 < ln_GG x /\ 0 <= ln_GF x /\ 0 <= ln_GX x).
  { intros x [<-|[]]. cbn. repeat split; lra || discriminate. }
  destruct (one_total 1 epsilon0 cwf 1 "n" "t" 1 1 false 0 lines ltac:(lra) ltac:(lra) ltac:(lra) ltac:(lra) ltac:(discriminate) HL 3 ltac:(lra) ltac:(intros; lra) (fun _ => None)) as (s & Hs & (m1 & H1) & (m2 & H2)).
  split; [apply one_input; first [lra | discriminate]|]. split; [|split; [|split; [exact case_input|]]].
  1, 2: unfold fromENDF, reconstructorOf; cbn [er_radius er_LRU er_LRF er_parameters er_NAPS er_lower er_upper makeChannelRadiusTable bind Z.eqb Pos.eqb];
    rewrite Hs; eexists; eexists; (split; [reflexivity|]); rewrite in_range by (cbn; lra); cbn [rc_system evaluateCompound].
  - rewrite H1. reflexivity.
  - rewrite H2. reflexivity.
  - destruct (case_evaluated 1 epsilon0 cwf (fun _ => None) eq_refl) as (y & m & Hy & Hm).
    unfold fromENDF, reconstructorOf; cbn [er_radius er_LRU er_LRF er_parameters er_NAPS er_lower er_upper makeChannelRadiusTable bind Z.eqb Pos.eqb].
    unfold case_system in Hy. rewrite Hy. eexists; eexists. split; [reflexivity|]. split.
    + cbn [rc_system]. intros y' u E Hu. injection E as <-. apply (case_tables y Hy u Hu).
    + rewrite in_range by (cbn; lra). cbn [rc_system evaluateCompound]. rewrite Hm. reflexivity.
Qed.
Example C59_case : degree 1 1 /\ rows [1; 2; 4] (EnergyIndependent 10 1 1 1 0) [mkUnresolved 1 10 1 1 1 0; mkUnresolved 4 10 1 1 1 0].
Proof. split; [left; cbn; lra|]. exact (rows_independent [1; 2; 4] 10 1 1 1 0 1 [2; 4] eq_refl). Qed.
