(** Properties C45 (fluctuation integrals) and C46 (unresolved cross sections). *)
From Coq Require Import String List ZArith Reals Lra Lia Bool Sorted.
From Verif Require Import Outcome QuantumModel QuantumSpec HardSphereModel HardSphereSpec KinematicsModel CoulombModel Cplx
  RMatrixModel ChannelModel BreitWignerModel LegacyModel BreitWignerSpec ListFacts BreitWignerProofs BreitWignerSystemProofs
  LegacyProofs LegacySystemProofs UnresolvedModel UnresolvedSpec UnresolvedProofs UnresolvedSystemProofs UnresolvedTheorems.
Import ListNotations.
Open Scope R_scope.

(** * C45: the fluctuation integrals *)

(** Undefined behaviour exactly when a number of degrees of freedom that is used is out of
    range *)
Theorem C45_bounds w d : in_unsigned (d_elastic d) -> in_unsigned (d_fission d) -> in_unsigned (d_competition d) ->
  is_ub (calculateFluctuationIntegrals w d) <->
  ~ ((1 <= d_elastic d <= 4)%nat /\ (d_fission w <> 0 -> (d_fission d <= 4)%nat) /\
     (d_competition w <> 0 -> (d_competition d <= 4)%nat)).
Proof. exact (integrals_bounds w d). Qed.
Print Assumptions C45_bounds.

(** The validation of a table: at least two resonances and nothing above 4 *)
Theorem C45_table_accepts rs d t : makeUnresolvedTable rs d = Ok t <->
  t = mkUTable rs d /\ (2 <= length rs)%nat /\
  (d_elastic d <= 4 /\ d_capture d <= 4 /\ d_fission d <= 4 /\ d_competition d <= 4)%nat.
Proof. exact (makeTable_degrees rs d t). Qed.
Print Assumptions C45_table_accepts.

Theorem C45_table_rejects rs d : ((length rs < 2)%nat \/ (4 < d_elastic d)%nat \/ (4 < d_capture d)%nat \/
  (4 < d_fission d)%nat \/ (4 < d_competition d)%nat) <-> throws (makeUnresolvedTable rs d).
Proof. exact (makeTable_rejects rs d). Qed.
Print Assumptions C45_table_rejects.

(** Finding: validation does not rule out undefined behaviour.  No degrees of freedom in the
    elastic channel are accepted, and index 2^32 - 1 of a row of four is read. *)
Theorem C45_validated_refuted : exists rs d t, makeUnresolvedTable rs d = Ok t /\
  forall w, is_ub (calculateFluctuationIntegrals w (ut_degrees t)).
Proof.
  exists [mkUnresolved 1 1 1 1 0 0; mkUnresolved 2 1 1 1 0 0], (mkData 0 0 0 0)%nat.
  eexists. split; [reflexivity|]. intros w. cbn [ut_degrees]. apply integrals_bounds; [unfold in_unsigned; cbn; lia..|].
  cbn. lia.
Qed.
Print Assumptions C45_validated_refuted.

(** Apart from that one case a validated table is safe *)
Theorem C45_validated_partial rs d t w : makeUnresolvedTable rs d = Ok t -> d_elastic d <> 0%nat ->
  ~ is_ub (calculateFluctuationIntegrals w (ut_degrees t)).
Proof.
  intros H Hd U. apply makeTable_degrees in H as (-> & _ & H1 & H2 & H3 & H4). cbn [ut_degrees] in U.
  apply integrals_bounds in U; [|unfold in_unsigned; lia..]. apply U. lia.
Qed.
Print Assumptions C45_validated_partial.

(** Finding: a width with no degrees of freedom gets the Porter-Thomas distribution (one degree
    of freedom) instead of being constant or refused *)
Theorem C45_zero_is_one w n g x :
  calculateFluctuationIntegrals w (mkData n g 0 x)%nat = calculateFluctuationIntegrals w (mkData n g 1 x)%nat /\
  calculateFluctuationIntegrals w (mkData n g x 0)%nat = calculateFluctuationIntegrals w (mkData n g x 1)%nat.
Proof. split; reflexivity. Qed.
Print Assumptions C45_zero_is_one.

(** The capture degrees of freedom are not used: the capture width never fluctuates *)
Theorem C45_capture_constant w n g g' f x :
  calculateFluctuationIntegrals w (mkData n g f x) = calculateFluctuationIntegrals w (mkData n g' f x).
Proof. reflexivity. Qed.
Print Assumptions C45_capture_constant.

(** The integrals are the averages over the width distributions, and are finite exactly when
    no combination of nodes makes the total width vanish *)
Theorem C45_value w d : (1 <= d_elastic d <= 4)%nat ->
  (nonzero (d_fission w) = true -> (d_fission d <= 4)%nat) -> (nonzero (d_competition w) = true -> (d_competition d <= 4)%nat) ->
  let Gn := d_elastic w in let Gg := d_capture w in let Gf := d_fission w in let Gx := d_competition w in
  let rn := chi2_rule (d_elastic d) in
  let rf := if Req_EM_T Gf 0 then constant_rule else chi2_rule (Nat.max 1 (d_fission d)) in
  let rx := if Req_EM_T Gx 0 then constant_rule else chi2_rule (Nat.max 1 (d_competition d)) in
  let vanishes := exists a b c, In a rn /\ In b rf /\ In c rx /\ total_width Gn Gg Gf Gx (snd a) (snd b) (snd c) = 0 in
  (vanishes /\ calculateFluctuationIntegrals w d = Ok None) \/
  (~ vanishes /\ exists i, calculateFluctuationIntegrals w d = Ok (Some i) /\
     d_elastic i = I_elastic Gn Gg Gf Gx rn rf rx /\ d_capture i = I_capture Gn Gg Gf Gx rn rf rx /\
     (Gf <> 0 -> d_fission i = I_fission Gn Gg Gf Gx rn rf rx) /\ (Gf = 0 -> d_fission i = 0) /\
     (Gx <> 0 -> d_competition i = I_competition Gn Gg Gf Gx rn rf rx) /\ (Gx = 0 -> d_competition i = 0)).
Proof. exact (integrals_value_spec w d). Qed.
Print Assumptions C45_value.

(** Width-weighted, the integrals add up to the quadrature mean *)
Theorem C45_conserved w d i : (1 <= d_elastic d <= 4)%nat ->
  (nonzero (d_fission w) = true -> (d_fission d <= 4)%nat) -> (nonzero (d_competition w) = true -> (d_competition d <= 4)%nat) ->
  calculateFluctuationIntegrals w d = Ok (Some i) ->
  d_elastic w * d_elastic i + d_capture w * d_capture i + d_fission w * d_fission i + d_competition w * d_competition i
  = average (chi2_rule (d_elastic d)) (fun x => x)
    * average (if Req_EM_T (d_fission w) 0 then constant_rule else chi2_rule (Nat.max 1 (d_fission d))) (fun _ => 1)
    * average (if Req_EM_T (d_competition w) 0 then constant_rule else chi2_rule (Nat.max 1 (d_competition d))) (fun _ => 1).
Proof. exact (integrals_conserved_spec w d i). Qed.
Print Assumptions C45_conserved.

(** ... which is one to 0.17 per cent *)
Theorem C45_conserved_close w d i : (1 <= d_elastic d <= 4)%nat ->
  (nonzero (d_fission w) = true -> (d_fission d <= 4)%nat) -> (nonzero (d_competition w) = true -> (d_competition d <= 4)%nat) ->
  calculateFluctuationIntegrals w d = Ok (Some i) ->
  Rabs (d_elastic w * d_elastic i + d_capture w * d_capture i + d_fission w * d_fission i + d_competition w * d_competition i - 1)
  <= 1.7e-3.
Proof. exact (integrals_conserved_close w d i). Qed.
Print Assumptions C45_conserved_close.

Theorem C45_nonneg w d i : (1 <= d_elastic d <= 4)%nat ->
  (nonzero (d_fission w) = true -> (d_fission d <= 4)%nat) -> (nonzero (d_competition w) = true -> (d_competition d <= 4)%nat) ->
  0 <= d_elastic w -> 0 <= d_capture w -> 0 <= d_fission w -> 0 <= d_competition w ->
  calculateFluctuationIntegrals w d = Ok (Some i) ->
  0 <= d_elastic i /\ 0 <= d_capture i /\ 0 <= d_fission i /\ 0 <= d_competition i.
Proof. intros H1 H2 H3. exact (integrals_nonneg w d H1 H2 H3 i). Qed.
Print Assumptions C45_nonneg.

Theorem C45_finite w d : (1 <= d_elastic d <= 4)%nat ->
  (nonzero (d_fission w) = true -> (d_fission d <= 4)%nat) -> (nonzero (d_competition w) = true -> (d_competition d <= 4)%nat) ->
  0 <= d_elastic w -> 0 <= d_capture w -> 0 <= d_fission w -> 0 <= d_competition w -> 0 < d_elastic w + d_capture w ->
  exists i, calculateFluctuationIntegrals w d = Ok (Some i).
Proof. exact (integrals_finite w d). Qed.
Print Assumptions C45_finite.

(** The quadrature rules: total weight, mean and second moment of the chi-squared distributions
    of 1 to 4 degrees of freedom *)
Theorem C45_rules n : (1 <= n <= 4)%nat ->
  Rabs (average (chi2_rule n) (fun _ => 1) - 1) <= 2.4e-4 /\
  Rabs (average (chi2_rule n) (fun x => x) - 1) <= 1.2e-3 /\
  Rabs (average (chi2_rule n) (fun x => x * x) - (1 + 2 / INR n)) <= 1.5e-2.
Proof. intros H. exact (Logic.conj (chi2_norm n H) (Logic.conj (chi2_mean n H) (chi2_second n H))). Qed.
Print Assumptions C45_rules.

(** Finding: the rules are not exact; with two degrees of freedom the mean is off by more than
    a tenth of a per cent *)
Theorem C45_mean_refuted : exists n, (1 <= n <= 4)%nat /\ 1.1e-3 < average (chi2_rule n) (fun x => x) - 1.
Proof. exists 2%nat. split; [lia | exact chi2_mean_2]. Qed.
Print Assumptions C45_mean_refuted.

Example C45_case : let w := mkData 1 2 3 4 in let d := (mkData 1 0 2 3)%nat in
  (1 <= d_elastic d <= 4)%nat /\ (nonzero (d_fission w) = true -> (d_fission d <= 4)%nat) /\
  (nonzero (d_competition w) = true -> (d_competition d <= 4)%nat) /\
  exists i, calculateFluctuationIntegrals w d = Ok (Some i).
Proof. cbn [d_elastic d_fission d_competition]. split; [lia|]. split; [lia|]. split; [lia|]. apply integrals_finite; cbn; try lia; lra. Qed.

(** * C46: the cross sections *)
Theorem C46_system hbar epsilon0 cwf mn incident target A I rad E s m m' :
  0 < hbar -> 0 < mn -> 0 < A -> is_spin I -> positive (radius_at (r_P rad)) -> positive (radius_at (r_phi rad)) ->
  (forall u, In u (uy_groups s) ->
     legacy_channel mn incident target A I (ug_channel u) rad /\ well_formed u /\ degrees_in u) ->
  unresolved_system_evaluate hbar epsilon0 cwf s E m = Ok (Some m') ->
  let k := k_old (C_new hbar mn) A in
  let rho := k E * oval (radius_at (r_phi rad) E) in
  let U0 l := hard_sphere_U l rho in
  let g := g_neutron I in
  exists vs, Forall2 (parameters_of hbar mn A rad E) (uy_groups s) vs /\
    mval m' (elastic_key incident target) = mval m (elastic_key incident target) + barns k E *
      (Rsum (map (fun v => g (v_J v) * U_elastic pi_value v (U0 (v_l v))) vs)
       + Rsum (map (fun l => (2 * INR l + 1) * optical_total (U0 l)) (seq 0 (S (uy_lmax s))))) /\
    mval m' (capture_key incident target) = mval m (capture_key incident target)
      + barns k E * Rsum (map (fun v => g (v_J v) * U_capture pi_value v) vs) /\
    mval m' (fission_key incident target) = mval m (fission_key incident target)
      + barns k E * Rsum (map (fun v => g (v_J v) * U_fission pi_value v) vs).
Proof.
  intros Hh Hmn HA HI Hch Hsc Hgs H.
  destruct (system_value hbar epsilon0 cwf mn Hh Hmn incident target A I rad E HA HI Hch Hsc s m m' Hgs H)
    as (vs & P & _ & E1). exists vs. exact (Logic.conj P E1).
Qed.
Print Assumptions C46_system.

(** Every group: the four parts and the interference add up to the optical theorem for the
    average collision function, apart from the error of the quadrature, at most 0.17 per cent
    of the formation cross section *)
Theorem C46_conserved hbar epsilon0 cwf mn incident target A I rad E s m m' :
  0 < hbar -> 0 < mn -> 0 < A -> is_spin I -> positive (radius_at (r_P rad)) -> positive (radius_at (r_phi rad)) ->
  (forall u, In u (uy_groups s) ->
     legacy_channel mn incident target A I (ug_channel u) rad /\ well_formed u /\ degrees_in u) ->
  unresolved_system_evaluate hbar epsilon0 cwf s E m = Ok (Some m') ->
  let k := k_old (C_new hbar mn) A in
  let rho := k E * oval (radius_at (r_phi rad) E) in
  let g := g_neutron I in
  exists vs, Forall2 (parameters_of hbar mn A rad E) (uy_groups s) vs /\
  (mval m' (elastic_key incident target) - mval m (elastic_key incident target))
  + (mval m' (capture_key incident target) - mval m (capture_key incident target))
  + (mval m' (fission_key incident target) - mval m (fission_key incident target))
  + barns k E * Rsum (map (fun v => g (v_J v) * U_competition pi_value v) vs)
  = barns k E * (U_total pi_value rho g (uy_lmax s) vs
                 + Rsum (map (fun v => g (v_J v) * (formation pi_value v * (rule_total v - 1))) vs)) /\
  forall v, In v vs -> Rabs (rule_total v - 1) <= 1.7e-3.
Proof.
  intros Hh Hmn HA HI Hch Hsc Hgs H.
  destruct (system_conserved hbar epsilon0 cwf mn Hh Hmn incident target A I rad E HA HI Hch Hsc s m m' Hgs H)
    as (vs & P & S & E1). exists vs. split; [exact P|]. split; [exact E1|].
  intros v Hv. rewrite Forall_forall in S. destruct (S v Hv) as (_ & H1 & H2 & H3 & _). exact (rule_total_bound v H1 H2 H3).
Qed.
Print Assumptions C46_conserved.

(** If the J values of every l are complete, that total is the sum of the groups' own *)
Theorem C46_complete_total I rho lmax vs : (forall v, In v vs -> (v_l v <= lmax)%nat) ->
  (forall l, (l <= lmax)%nat ->
     Rsum (map (fun v => g_neutron I (v_J v)) (filter (fun v => Nat.eqb (v_l v) l) vs)) = 2 * INR l + 1) ->
  U_total pi_value rho (g_neutron I) lmax vs = Rsum (map (fun v => g_neutron I (v_J v) *
    optical_total (average_collision pi_value (hard_sphere_U (v_l v) rho) (v_Gn v / v_D v))) vs).
Proof. exact (complete_total_rho I rho lmax vs). Qed.
Print Assumptions C46_complete_total.

Theorem C46_nonneg hbar epsilon0 cwf mn incident target A I rad E s m m' :
  0 < hbar -> 0 < mn -> 0 < A -> is_spin I -> 0 < E ->
  positive (radius_at (r_P rad)) -> positive (radius_at (r_phi rad)) -> (exists r, radius_at (r_P rad) E = Ok r) ->
  (forall u, In u (uy_groups s) -> legacy_channel mn incident target A I (ug_channel u) rad /\ well_formed u /\ degrees_in u /\
     (0 <= qJ (c_numbers (ug_channel u)))%Z /\
     (forall r, In r (ut_resonances (ug_table u)) -> 0 < ur_spacing r /\ 0 <= ur_elastic r /\ 0 <= ur_capture r /\
        0 <= ur_fission r /\ 0 <= ur_competition r)) ->
  unresolved_system_evaluate hbar epsilon0 cwf s E m = Ok (Some m') ->
  mval m (capture_key incident target) <= mval m' (capture_key incident target) /\
  mval m (fission_key incident target) <= mval m' (fission_key incident target).
Proof. exact (system_nonneg hbar epsilon0 cwf mn incident target A I rad E s m m'). Qed.
Print Assumptions C46_nonneg.

(** From the file: one group per J value, in the order of the file *)
Theorem C46_file hbar epsilon0 cwf mn incident target A I ap nro naps grid lower upper uls rad s E m m' :
  uinput hbar mn A I ap nro naps uls rad ->
  makeLegacyUnresolvedSystem mn incident target I ap nro naps grid lower upper uls = Ok s ->
  (forall u, In u (uy_groups s) -> well_formed u) ->
  unresolved_system_evaluate hbar epsilon0 cwf s E m = Ok (Some m') ->
  let k := k_old (C_new hbar mn) A in
  let rho := k E * oval (radius_at (r_phi rad) E) in
  let U0 l := hard_sphere_U l rho in
  let g := g_neutron I in
  let lmax := list_max (map fst (file_values uls)) in
  exists us vs, Forall2 (made mn incident target A I grid lower upper rad) (file_values uls) us /\
    Forall2 (parameters_of hbar mn A rad E) us vs /\
    mval m' (elastic_key incident target) = mval m (elastic_key incident target) + barns k E *
      (Rsum (map (fun v => g (v_J v) * U_elastic pi_value v (U0 (v_l v))) vs)
       + Rsum (map (fun l => (2 * INR l + 1) * optical_total (U0 l)) (seq 0 (S lmax)))) /\
    mval m' (capture_key incident target) = mval m (capture_key incident target)
      + barns k E * Rsum (map (fun v => g (v_J v) * U_capture pi_value v) vs) /\
    mval m' (fission_key incident target) = mval m (fission_key incident target)
      + barns k E * Rsum (map (fun v => g (v_J v) * U_fission pi_value v) vs).
Proof. exact (file_value hbar epsilon0 cwf mn incident target A I ap nro naps grid lower upper uls rad s E m m'). Qed.
Print Assumptions C46_file.

(** Energy independent parameters are those of the file at every energy *)
Theorem C46_independent hbar mn incident target A I lower upper rad E l J n g f x D Gn0 Gg Gf Gx u v :
  made mn incident target A I None lower upper rad (l, mkUJ J (INR n) (INR g) (INR f) (INR x) (EnergyIndependent D Gn0 Gg Gf Gx)) u ->
  (n <= 4 /\ g <= 4 /\ f <= 4 /\ x <= 4)%nat ->
  parameters_of hbar mn A rad E u v ->
  let k := k_old (C_new hbar mn) A in let a := oval (radius_at (r_P rad) E) in
  v = Averages l J D (Gn0 * sqrt E * (INR n * P_spec l (k E * a) / (k E * a))) Gg Gf Gx n f x.
Proof. exact (independent_parameters hbar mn incident target A I lower upper rad E l J n g f x D Gn0 Gg Gf Gx u v). Qed.
Print Assumptions C46_independent.

(** On sensible data (l up to 4, energies increasing and around E, positive spacings and capture
    widths, degrees of freedom in range) the evaluation succeeds *)
Theorem C46_succeeds hbar epsilon0 cwf mn incident target A I rad E s m :
  0 < hbar -> 0 < mn -> 0 < A -> is_spin I -> positive (radius_at (r_P rad)) -> positive (radius_at (r_phi rad)) ->
  s = mkUSystem (uy_groups s) (unresolvedLMax (uy_groups s)) -> uy_groups s <> [] ->
  (forall u, In u (uy_groups s) -> legacy_channel mn incident target A I (ug_channel u) rad /\ sensible E u) -> 0 < E ->
  (exists r, radius_at (r_P rad) E = Ok r) -> (exists r, radius_at (r_phi rad) E = Ok r) ->
  exists m', unresolved_system_evaluate hbar epsilon0 cwf s E m = Ok (Some m').
Proof.
  intros Hh Hmn HA HI Hch Hsc.
  exact (system_succeeds hbar epsilon0 cwf mn Hh Hmn incident target A I rad E HA HI Hch Hsc s m).
Qed.
Print Assumptions C46_succeeds.

(** A file with l = 0 and l = 1 meets all of the hypotheses at 2 eV *)
Example C46_case epsilon0 cwf m : exists s m',
  uinput 1 1 1 0 1 None 1 case_file (radii1 (Fixed 1)) /\
  makeLegacyUnresolvedSystem 1 "n" "t" 0 1 None 1 None 1 4 case_file = Ok s /\
  (forall u, In u (uy_groups s) -> well_formed u) /\ length (file_values case_file) = 3%nat /\
  unresolved_system_evaluate 1 epsilon0 cwf s 2 m = Ok (Some m').
Proof.
  destruct (case_evaluated 1 epsilon0 cwf m eq_refl) as (s & m' & Hs & Hm). exists s, m'.
  split; [exact case_input|]. split; [exact Hs|]. split; [intros u Hu; apply (case_tables s Hs u Hu)|]. split; [reflexivity | exact Hm].
Qed.
Example C46_complete_case : let vs := [Averages 0 1 10 1 1 1 0 1 2 0; Averages 1 1 10 1 1 1 0 1 2 0; Averages 1 3 10 1 1 1 0 2 2 0] in
  forall l, (l <= 1)%nat -> Rsum (map (fun v => g_neutron 0 (v_J v)) (filter (fun v => Nat.eqb (v_l v) l) vs)) = 2 * INR l + 1.
Proof. intros vs [|[|l]] H; [| |lia]; unfold vs, Rsum, g_neutron; cbn; lra. Qed.
