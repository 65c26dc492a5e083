{
 "claims": [
  {
   "property": "C01",
   "status": "proved",
   "theorems": [
    "C01_channel_spins"
   ],
   "note": ""
  },
  {
   "property": "C02",
   "status": "proved",
   "theorems": [
    "C02_total_J"
   ],
   "note": ""
  },
  {
   "property": "C03",
   "status": "partial",
   "theorems": [
    "C03_total_J_pair_partial",
    "C03_total_J_pair_sound_partial",
    "C03_total_J_pair_refuted",
    "C03_listed",
    "C03_exact"
   ],
   "note": "The list is characterised for all spins (C03_listed); it is complete exactly when the projectile spin exceeds |l - I| by at most one half or l or I is zero (C03_exact), in particular for spins 0 and 1/2. The general completeness claim is refuted (l=1, i=1, I=1 misses J=0)."
  },
  {
   "property": "C04",
   "status": "proved",
   "theorems": [
    "C04_enumeration"
   ],
   "note": ""
  },
  {
   "property": "C05",
   "status": "proved",
   "theorems": [
    "C05_channel_sum",
    "C05_spin_factor_sum"
   ],
   "note": ""
  },
  {
   "property": "C06",
   "status": "proved",
   "theorems": [
    "C06_retrieve_one",
    "C06_retrieve_throws",
    "C06_retrieve_cases",
    "C06_retrieve_sequence",
    "C06_retrieve_sequence_matches",
    "C06_retrieve_sign"
   ],
   "note": ""
  },
  {
   "property": "C07",
   "status": "proved",
   "theorems": [
    "C07_channel_ids",
    "C07_quantum_number_text",
    "C07_reaction_ids",
    "C07_negative_collision"
   ],
   "note": "Needs pair identifiers without braces and quantum numbers that are not negative; a negative half-integer collides (C07_negative_collision)."
  },
  {
   "property": "C08",
   "status": "proved",
   "theorems": [
    "C08_horner_reversed",
    "C08_horner",
    "C08_horner_empty"
   ],
   "note": ""
  },
  {
   "property": "C09",
   "status": "proved",
   "theorems": [
    "C09_radial_equation",
    "C09_penetrability",
    "C09_shift_factor",
    "C09_phase_shift",
    "C09_recursion",
    "C09_larger_l_throws"
   ],
   "note": "l = 0..4 is the implemented range; larger l throws (C09_larger_l_throws)."
  },
  {
   "property": "C10",
   "status": "proved",
   "theorems": [
    "C10_penetrability_range",
    "C10_shift_range",
    "C10_penetrability_increasing"
   ],
   "note": "l = 0..4"
  },
  {
   "property": "C11",
   "status": "proved",
   "theorems": [
    "C11_interfaces_agree",
    "C11_phases_agree",
    "C11_negative_l"
   ],
   "note": "rho >= 0 (rho > 0 for the phase); for negative rho, which no caller produces, the older penetrability is 0."
  },
  {
   "property": "C12",
   "status": "proved",
   "theorems": [
    "C12_phase_slope",
    "C12_double_angle"
   ],
   "note": ""
  },
  {
   "property": "C13",
   "status": "proved",
   "theorems": [
    "C13_reduced_mass_and_ratio",
    "C13_massless_pair",
    "C13_wave_number",
    "C13_wave_number_zero",
    "C13_below_threshold",
    "C13_threshold_monotone",
    "C13_wave_number_increasing",
    "C13_interfaces_agree",
    "C13_sommerfeld",
    "C13_sommerfeld_neutral",
    "C13_sommerfeld_threshold",
    "C13_reaction_elastic",
    "C13_reaction_distinct"
   ],
   "note": "Two massless particles give no finite value (C13_massless_pair)."
  },
  {
   "property": "C14",
   "status": "proved",
   "theorems": [
    "C14_channel_data",
    "C14_particle_accepted",
    "C14_particle_rejected",
    "C14_resonance_table",
    "C14_spin_group"
   ],
   "note": "Particle, ParticleChannelData, ResonanceTable and SpinGroup constructors. An empty channel list is C51."
  },
  {
   "property": "C15",
   "status": "proved",
   "theorems": [
    "C15_RL",
    "C15_rows",
    "C15_reciprocity"
   ],
   "note": "Exact arithmetic; the Eigen inverse is the exact inverse where it exists."
  },
  {
   "property": "C16",
   "status": "proved",
   "theorems": [
    "C16_optical_theorem",
    "C16_optical_theorem_charged",
    "C16_one_channel"
   ],
   "note": "Summed over all keys of the map and per incident channel; with a Coulomb phase the identity refers to exp(iw)."
  },
  {
   "property": "C17",
   "status": "proved",
   "theorems": [
    "C17_nonnegative",
    "C17_nonnegative_neutral",
    "C17_U_bound",
    "C17_exists",
    "C17_exists_charged",
    "C17_singular"
   ],
   "note": "Non-negativity, |U| <= 1, existence of the inverse, and failure exactly at a resonance without eliminated width."
  },
  {
   "property": "C18",
   "status": "proved",
   "theorems": [
    "C18_unitary"
   ],
   "note": "U is unitary and capture unchanged."
  },
  {
   "property": "C19",
   "status": "proved",
   "theorems": [
    "C19_closed_channels",
    "C19_closed_reaction",
    "C19_as_zero_widths"
   ],
   "note": "Matrix level and map level; closed channels behave as channels of zero width."
  },
  {
   "property": "C20",
   "status": "proved",
   "theorems": [
    "C20_hard_sphere"
   ],
   "note": "Neutron, photon and fission channels."
  },
  {
   "property": "C21",
   "status": "proved",
   "theorems": [
    "C21_adds",
    "C21_group_order"
   ],
   "note": "The increment is independent of the map; group order is irrelevant for evaluations that give finite numbers."
  },
  {
   "property": "C22",
   "status": "proved",
   "theorems": [
    "C22_history",
    "C22_stored_matrices",
    "C22_T_matrix"
   ],
   "note": "R-matrix groups (cross sections and T matrix), any history of calls; Breit-Wigner groups keep no state in the model."
  },
  {
   "property": "C23",
   "status": "proved",
   "theorems": [
    "C23_T_matrix",
    "C23_key_collision",
    "C23_elastic"
   ],
   "note": "Needs channel identifiers without \">\"; C23_key_collision shows the condition is needed."
  },
  {
   "property": "C24",
   "status": "partial",
   "theorems": [
    "C24_coulomb_phase_refuted",
    "C24_coulomb_phase_exceeds",
    "C24_coulomb_phase_neutral",
    "C24_coulomb_phase_partial"
   ],
   "note": "Holds for l = 0 only; refuted otherwise (the code adds cotangents)."
  },
  {
   "property": "C25",
   "status": "partial",
   "theorems": [
    "C25_charged_elastic_refuted",
    "C25_charged_elastic"
   ],
   "note": "Refuted: C25_charged_elastic gives the value computed instead."
  },
  {
   "property": "C26",
   "status": "partial",
   "theorems": [
    "C26_charged_phase_partial",
    "C26_charged_phase_refuted",
    "C26_charged_phase_sign",
    "C26_charged_phase_wave",
    "C26_charged_penetrability_shift"
   ],
   "note": "Holds for F >= 0; refuted for F < 0."
  },
  {
   "property": "C27",
   "status": "proved",
   "theorems": [
    "C27_table",
    "C27_complete",
    "C27_throws",
    "C27_lost_refuted"
   ],
   "note": "C27_lost_refuted: without distinct energies a width is lost."
  },
  {
   "property": "C28",
   "status": "proved",
   "theorems": [
    "C28_system",
    "C28_groups",
    "C28_partition",
    "C28_verify",
    "C28_only_eliminated_refuted"
   ],
   "note": "C28_only_eliminated_refuted: data with only an eliminated channel for some J and parity reads front() of an empty vector."
  },
  {
   "property": "C29",
   "status": "proved",
   "theorems": [
    "C29_consolidate",
    "C29_idempotent"
   ],
   "note": ""
  },
  {
   "property": "C30",
   "status": "proved",
   "theorems": [
    "C30_tables",
    "C30_system",
    "C30_lost_refuted"
   ],
   "note": "C30_lost_refuted: two eliminated channels with a resonance at the same energy; consolidation keeps both widths, the table only the last."
  },
  {
   "property": "C31",
   "status": "proved",
   "theorems": [
    "C31_accepts",
    "C31_both_spins",
    "C31_never",
    "C31_refuted"
   ],
   "note": "C31_refuted: a sensible file with fission widths for J and -J throws. C31_accepts and C31_both_spins give the exact condition for sensible files (l up to 4, positive radii and masses, nonzero energies); C31_never holds for all files."
  },
  {
   "property": "C32",
   "status": "proved",
   "theorems": [
    "C32_positional",
    "C32_exact",
    "C32_truncated_refuted",
    "C32_mistyped_refuted"
   ],
   "note": "C32_truncated_refuted and C32_mistyped_refuted: too few channels, and an elastic channel typed as photon channel. C32_exact is the exact condition under which the channels are right."
  },
  {
   "property": "C33",
   "status": "proved",
   "theorems": [
    "C33_lookup",
    "C33_elastic",
    "C33_capture"
   ],
   "note": "Both lookups end in undefined behaviour when the MT number is absent."
  },
  {
   "property": "C34",
   "status": "proved",
   "theorems": [
    "C34_width",
    "C34_limited",
    "C34_reich_moore"
   ],
   "note": "For one width, for all data of an R-Matrix Limited spin group and for all data of a Reich-Moore l value."
  },
  {
   "property": "C35",
   "status": "proved",
   "theorems": [
    "C35_prescribed",
    "C35_throws",
    "C35_rest",
    "C35_rest_refuted",
    "C35_unique",
    "C35_breit_wigner",
    "C35_reich_moore"
   ],
   "note": "C35_rest_refuted: without a radius table NAPS above 1 does not throw but is taken for 1. The older interface agrees for every combination of flags it knows."
  },
  {
   "property": "C36",
   "status": "proved",
   "theorems": [
    "C36_dispatch",
    "C36_resolved",
    "C36_rest"
   ],
   "note": "Exact correspondence; the parts of the flags that are not implemented throw (for an empty list of particle pairs front() is undefined behaviour)."
  },
  {
   "property": "C37",
   "status": "proved",
   "theorems": [
    "C37_slbw_old",
    "C37_slbw_legacy",
    "C37_signs_old",
    "C37_signs_legacy",
    "C37_elastic_negative_old",
    "C37_elastic_negative_legacy"
   ],
   "note": "Old and legacy interface: cross sections equal the one-level collision matrix formulas; capture, fission >= 0; elastic >= 0 at zero phase; negative elastic witness in both interfaces."
  },
  {
   "property": "C38",
   "status": "proved",
   "theorems": [
    "C38_mlbw_legacy",
    "C38_mlbw_old",
    "C38_elastic_nonneg_legacy",
    "C38_elastic_nonneg_old"
   ],
   "note": "Legacy: elastic is a sum of squares, non-negative with no hypothesis on J (the construction rejects impossible (l,J)). Older interface: within the rounding of its literals, and non-negative for (l,J) that can be formed."
  },
  {
   "property": "C39",
   "status": "proved",
   "theorems": [
    "C39_interference_legacy",
    "C39_isolated_legacy",
    "C39_interference_old",
    "C39_isolated_old"
   ],
   "note": "Legacy exactly; older interface up to the rounded literals of its constant term (exact for I other than 1, 5/2, 3)."
  },
  {
   "property": "C40",
   "status": "proved",
   "theorems": [
    "C40_slbw_agree",
    "C40_mlbw_agree",
    "C40_competitive_refuted"
   ],
   "note": "Agreement without competitive width or with QX = 0 (MLBW up to the rounded literals); C40_competitive_refuted is the witness for the disagreement with a competitive width that the statement announces."
  },
  {
   "property": "C41",
   "status": "proved",
   "theorems": [
    "C41_factor_summation",
    "C41_D_large",
    "C41_D_table",
    "C41_D_outside"
   ],
   "note": "Table entries agree up to one unit in the 15th decimal, exact beyond I = 7/2; outside l <= 4 the lookup reads a wrong row or out of bounds (C41_D_outside)."
  },
  {
   "property": "C42",
   "status": "proved",
   "theorems": [
    "C42_groups",
    "C42_mlbw_order",
    "C42_slbw_order",
    "C42_legacy_order",
    "C42_reich_moore_order"
   ],
   "note": "Breit-Wigner formalisms of both interfaces and the older Reich-Moore interface: grouping after any sort, and the same results for any order of the lines."
  },
  {
   "property": "C43",
   "status": "partial",
   "theorems": [
    "C43_conserved",
    "C43_capture_fission",
    "C43_elastic",
    "C43_elastic_refuted",
    "C43_expansion"
   ],
   "note": "Conservation, capture and fission >= 0, and the dead expansion branch are proved for all files with non-negative capture widths. Elastic >= 0 is proved when the J of the file are ones that the spins couple to (C43_elastic); C43_elastic_refuted gives a file with other J and a negative elastic cross section, since nothing checks J."
  },
  {
   "property": "C44",
   "status": "proved",
   "theorems": [
    "C44_two_interfaces",
    "C44_finite",
    "C44_reduced_widths",
    "C44_file",
    "C44_phases",
    "C44_succeeds"
   ],
   "note": "One J group against the model of the newer code on the same resonances, and whole files against the collision matrix, for every NRO/NAPS case. Exact real arithmetic; capture widths not negative."
  },
  {
   "property": "C45",
   "status": "proved",
   "theorems": [
    "C45_bounds",
    "C45_table_accepts",
    "C45_table_rejects",
    "C45_validated_refuted",
    "C45_validated_partial",
    "C45_zero_is_one",
    "C45_capture_constant",
    "C45_value",
    "C45_conserved",
    "C45_conserved_close",
    "C45_nonneg",
    "C45_finite",
    "C45_rules",
    "C45_mean_refuted"
   ],
   "note": "Undefined behaviour iff a used number of degrees of freedom is out of range (elastic 1..4, fission and competition up to 4 when the width is nonzero); values, flux conservation up to the quadrature mean (within 0.17 %), non-negativity and finiteness for all widths. Findings: validation accepts zero elastic degrees of freedom, which is undefined behaviour (C45_validated_refuted, C45_validated_partial is the rest); zero degrees of freedom for a nonzero width are treated as one; the capture degrees of freedom are ignored; the rule for two degrees of freedom misses its mean by more than 0.1 %."
  },
  {
   "property": "C46",
   "status": "proved",
   "theorems": [
    "C46_system",
    "C46_conserved",
    "C46_complete_total",
    "C46_nonneg",
    "C46_file",
    "C46_independent",
    "C46_succeeds"
   ],
   "note": "Single group, whole system and file level, for all tables and energies: the cross sections are those of the average collision function, the sum over the reactions is the optical theorem up to the quadrature error (at most 0.17 % of the formation cross section), capture and fission are non-negative. The lin-lin table of the interpolation library is modelled from its documentation. Assumes one AWRI in the file (the code only uses the first) and strictly increasing energies."
  },
  {
   "property": "C47",
   "status": "proved",
   "theorems": [
    "C47_refined",
    "C47_positive",
    "C47_unchanged",
    "C47_zero"
   ],
   "note": "All unresolved systems: the refinement loop ends, and its result is strictly increasing, keeps every tabulated energy, adds only decade points inside gaps of more than 25 per cent and leaves no step above 1.25 from a positive energy. Finding: an energy of zero below a positive one is undefined behaviour (C47_zero). Energies are exact reals, log10 and pow exact."
  },
  {
   "property": "C48",
   "status": "proved",
   "theorems": [
    "C48_group",
    "C48_system",
    "C48_group_ok",
    "C48_legacy_group",
    "C48_legacy_system",
    "C48_determined",
    "C48_positive_refuted"
   ],
   "note": "All resolved systems, both representations: the grid is the increasing list of E-G/2, E, E+G/2 over the resonances with positive energy, G the sum of 2 P g^2 plus the eliminated width (or the stored widths). Finding: points may be negative (C48_positive_refuted)."
  },
  {
   "property": "C49",
   "status": "proved",
   "theorems": [
    "C49_outside",
    "C49_inside",
    "C49_grid",
    "C49_grid_increasing"
   ],
   "note": "All reconstructors, energies and compound systems: empty outside the closed range, the compound system's values inside, grid = the system's grid restricted to the range, strictly increasing."
  },
  {
   "property": "C50",
   "status": "proved",
   "theorems": [
    "C50_breit_wigner_no_return",
    "C50_reich_moore_no_return",
    "C50_breit_wigner_defined",
    "C50_reich_moore_defined",
    "C50_refuted"
   ],
   "note": "C50_refuted: flags outside the manual's combinations run off the end of the function; the others are defined."
  },
  {
   "property": "C51",
   "status": "partial",
   "theorems": [
    "C51_empty_group_refuted",
    "C51_empty_group_ub",
    "C51_empty_group_partial"
   ],
   "note": "Refuted for the empty list (undefined behaviour); holds for every other list."
  },
  {
   "property": "C52",
   "status": "partial",
   "theorems": [
    "C52_checked",
    "C52_wronskian",
    "C52_last",
    "C52_beyond",
    "C52_blind",
    "C52_neutral",
    "C52_accuracy_refuted",
    "C52_zeros_refuted",
    "C52_nan_refuted"
   ],
   "note": "Proved for every arithmetic: for l <= 58 the loops end, indices stay in bounds and what is returned passed the check or is zero altogether (the property has no such exception, hence partial: C52_zeros_refuted gives the zeros for eta >= 800 and rho <= 16, C52_nan_refuted a result that is not a number and passes). Also: l = 59 returns derivatives that were never computed, other l read out of bounds, the check cannot detect wrong starting values, and it accepts an F that is three times too large (refuted theorems)."
  },
  {
   "property": "C53",
   "status": "proved",
   "theorems": [
    "C53_complete"
   ],
   "note": ""
  },
  {
   "property": "C54",
   "status": "proved",
   "theorems": [
    "C54_legacy_widths",
    "C54_level_at_resonance",
    "C54_zero_penetrability",
    "C54_old_widths"
   ],
   "note": "Both interfaces; the quotients are not finite when the penetrability at the resonance vanishes."
  },
  {
   "property": "C55",
   "status": "not_applicable",
   "theorems": [],
   "note": "Both #include lines for switchIncidentPair.hpp are commented out (SpinGroup.hpp:97, CompoundSystem.hpp:22), so no class has the function; the CompoundSystem version calls incidentpair(), which does not exist."
  },
  {
   "property": "C56",
   "status": "partial",
   "theorems": [
    "C56_riccati",
    "C56_riccati_refuted",
    "C56_oscillation",
    "C56_oscillation_refuted",
    "C56_riccati_used",
    "C56_oscillation_used"
   ],
   "note": "The exact difference between slope and derivative is proved for both expansions; it is not zero (refuted for both, by more than 2.5 percent for the second). Expansions only, in exact arithmetic."
  },
  {
   "property": "C57",
   "status": "partial",
   "theorems": [
    "C57_order_partial",
    "C57_order_refuted"
   ],
   "note": "Orders 0 to 4 hold (C57_order_partial); order 5 is refuted with its exact residual (a product counted once instead of twice), and so are orders 6 and 7."
  },
  {
   "property": "C58",
   "status": "partial",
   "theorems": [
    "C58_inward",
    "C58_outward_refuted",
    "C58_skipped_refuted"
   ],
   "note": "Holds towards the origin; refuted away from it (steps always longer than the mesh, and none at all between one and two meshes from the turning point). Distances up to 9000, so that the number of steps is an int."
  },
  {
   "property": "C59",
   "status": "proved",
   "theorems": [
    "C59_resolved",
    "C59_unresolved",
    "C59_slbw_keys",
    "C59_mlbw_keys",
    "C59_unresolved_rows"
   ],
   "note": "Verification for both legacy systems, keys of the two Breit-Wigner formalisms, and the rows of all three ENDF representations. For fission, \"there is some\" means that the sum is not zero."
  },
  {
   "property": "C60",
   "status": "proved",
   "theorems": [
    "C60_slbw",
    "C60_mlbw",
    "C60_unresolved"
   ],
   "note": "Whenever reconstruction returns finite numbers, for SLBW, MLBW and unresolved ranges with the same AWRI for all l; the neutral Reich-Moore range is C44/C53."
  },
  {
   "property": "C61",
   "status": "proved",
   "theorems": [
    "C61_decoupled"
   ],
   "note": "Both boundary options; the part succeeds whenever the whole does, and nothing depends on what the calculators have stored."
  },
  {
   "property": "C62",
   "status": "proved",
   "theorems": [
    "C62_file",
    "C62_evaluates",
    "C62_reconstruct",
    "C62_difference",
    "C62_agreement",
    "C62_more_l_refuted",
    "C62_radius_refuted"
   ],
   "note": "Both directions of the evaluation criterion; the agreement holds whenever both interfaces give finite numbers, for resonances of one total angular momentum and parity with different energies. Two refutations show that the conditions for equal elastic cross sections are needed."
  },
  {
   "property": "C63",
   "status": "proved",
   "theorems": [
    "C63_channel_spins",
    "C63_total_J",
    "C63_total_J_pair",
    "C63_numbers",
    "C63_retrieve",
    "C63_text",
    "C63_unbounded_refuted"
   ],
   "note": "Flocq binary64, round to nearest even; justifies the doubled integers of QuantumModel. The bounds are far above any spin; C63_unbounded_refuted shows that some bound is needed."
  },
  {
   "property": "C64",
   "status": "proved",
   "theorems": [
    "C64_penetrability",
    "C64_shift_factor",
    "C64_older",
    "C64_interfaces",
    "C64_unbounded_refuted"
   ],
   "note": "One IEEE operation for each operation of the source: no fused multiply-add and no extended precision. The bound is an upper bound, not the best one."
  },
  {
   "property": "C65",
   "status": "proved",
   "theorems": [
    "C65_phase_shift",
    "C65_older",
    "C65_double_angle",
    "C65_relative_refuted"
   ],
   "note": "std::atan is a parameter that is assumed accurate (one exists: C65_case). One IEEE operation for each operation of the source. C65_relative_refuted: rho - atan(rho) cancels."
  },
  {
   "property": "C66",
   "status": "proved",
   "theorems": [
    "C66_resonances",
    "C66_T_matrix",
    "C66_channels"
   ],
   "note": "Reordering channels needs one entrance pair (the factor is taken from the first incident channel)."
  },
  {
   "property": "C67",
   "status": "proved",
   "theorems": [
    "C67_limits",
    "C67_shadow"
   ],
   "note": "Photon and fission channels included; charged channels excluded, since their elastic term is wrong (C25)."
  },
  {
   "property": "C68",
   "status": "proved",
   "theorems": [
    "C68_continuous",
    "C68_threshold_refuted"
   ],
   "note": "Charged channels excluded (the Coulomb functions are an oracle). The last sentence is the finding C68_threshold_refuted: closed channels are removed from R, but at the threshold their L element is S(0)-B = -l-B."
  },
  {
   "property": "C69",
   "status": "proved",
   "theorems": [
    "C69_single_level",
    "C69_exists"
   ],
   "note": "For all channel types but charged particles, for which the elastic term of the code is wrong (C25)."
  },
  {
   "property": "C70",
   "status": "proved",
   "theorems": [
    "C70_pairs",
    "C70_accepts",
    "C70_fission"
   ],
   "note": "makeParticlePairs in EndfModel.v; the specification is EndfPairSpec.v.  The products of reactions other than elastic scattering and fission are an arbitrary function (the elementary library)."
  },
  {
   "property": "C71",
   "status": "proved",
   "theorems": [
    "C71_detailed_balance"
   ],
   "note": "Constant radii (tables are functions of the incident energy).  ReciprocitySpec.v says what the second description is."
  },
  {
   "property": "C72",
   "status": "proved",
   "theorems": [
    "C72_channel_ratio",
    "C72_channel",
    "C72_older",
    "C72_elastic"
   ],
   "note": "Flocq binary64, round to nearest even, no contraction.  The conversion of units on return from waveNumber belongs to the unit library and is taken to be one multiplication by a double."
  },
  {
   "property": "C73",
   "status": "partial",
   "theorems": [
    "C73_threshold",
    "C73_threshold_refuted"
   ],
   "note": "Proved unless nine digits or more cancel (kappa up to 2^30).  Refuted without that condition, in both directions: below its threshold by 1e-13 eV a channel is taken as open, with wave number zero; another above its threshold is taken as closed."
  },
  {
   "property": "C74",
   "status": "proved",
   "theorems": [
    "C74_steps",
    "C74_error",
    "C74_carried"
   ],
   "note": "In exact arithmetic.  The error of the start values at the turning point enters as given: the digits of omGcase2 are not verified."
  },
  {
   "property": "C75",
   "status": "proved",
   "theorems": [
    "C75_sum",
    "C75_slope",
    "C75_equation"
   ],
   "note": "In exact arithmetic.  Sums made again at rho + 5 with the phase of rho are neither value nor slope at one point; only seen for eta < 0, where the code is not used."
  },
  {
   "property": "C76",
   "status": "proved",
   "theorems": [
    "C76_phase",
    "C76_unique",
    "C76_odd"
   ],
   "note": "In exact arithmetic.  The argument of Gamma is given by Euler's limit, eta ln n - sum atan(eta/k).  The phase is that of l = 0, which is all the code uses."
  },
  {
   "property": "C77",
   "status": "proved",
   "theorems": [
    "C77_threshold_law",
    "C77_scattering_length"
   ],
   "note": "Exact arithmetic.  The boundary condition of channels with threshold zero is -l or the shift factor; incident channels are neutron channels with Q = 0 and l <= 4; no charged channels.  A reaction whose channels are partly incident and partly not is covered by neither law."
  },
  {
   "property": "C78",
   "status": "proved",
   "theorems": [
    "C78_widths",
    "C78_accepts",
    "C78_interpolation"
   ],
   "note": "Only the first channels, as many as there are particle pairs, are covered: the others are dropped by the code (C32).  A width is in its place if its energies are not repeated within the group, and an eliminated width if no other group has the same spin and parity (C27, C29 show the losses otherwise)."
  },
  {
   "property": "C79",
   "status": "partial",
   "theorems": [
    "C79_cross",
    "C79_evaluates",
    "C79_shift_flag_refuted"
   ],
   "note": "The cross sections are those of the formula for the boundary condition the flag of the first pair selects; C79_shift_flag_refuted shows that the flags of the other pairs are ignored: a p wave with SHF 1 behind a capture pair with SHF 0 is computed without a shift.  Spin groups with the same spin and parity, and energies repeated within a group, are excluded (C27, C29 show the losses)."
  },
  {
   "property": "C80",
   "status": "partial",
   "theorems": [
    "C80_solves",
    "C80_wronskian",
    "C80_unique",
    "C80_coefficients_partial",
    "C80_last_refuted"
   ],
   "note": "All coefficients of G and G' agree to the digits given (4e-11 for the orders up to 2, 1e-12 above), but C80_last_refuted shows that the coefficient of eta^(-16/3) in G is 0.000253 where the expansion has 0.000845.  That the irregular function is the one of Bi (and not of Bi plus a multiple of Ai) is part of the specification, as the definition of G_coefficient says; Bi(0) and Bi'(0) are given by the gamma function, defined by Euler's limit."
  },
  {
   "property": "C81",
   "status": "proved",
   "theorems": [
    "C81_exists",
    "C81_unique",
    "C81_terms",
    "C81_code"
   ],
   "note": "Exact arithmetic; the phase is sigma0 of the code (C76). Existence by power series and the asymptotics of solutions, accuracy by an energy argument, number of terms and test of the Wronskian by interval pieces in eta."
  },
  {
   "property": "C82",
   "status": "proved",
   "theorems": [
    "C82_orders",
    "C82_phase",
    "C82_code"
   ],
   "note": "Exact arithmetic. Two slips in the coefficients of the code, at orders 4 of the modulus and 5 of the phase, leave the terms left_over; the bounds of C82_code include their effect."
  },
  {
   "property": "C83",
   "status": "proved",
   "theorems": [
    "C83_made",
    "C83_opposite",
    "C83_evaluates"
   ],
   "note": "Completes C60, which is about what is returned, with when something is returned. Exact arithmetic."
  },
  {
   "property": "C84",
   "status": "proved",
   "theorems": [
    "C84_formats",
    "C84_p_wave_refuted"
   ],
   "note": "C84_formats from the files to the cross sections; C84_p_wave_refuted shows that the condition on the shift is needed. Exact arithmetic."
  },
  {
   "property": "C85",
   "status": "proved",
   "theorems": [
    "C85_conversion"
   ],
   "note": "From the two files to the cross sections. The capture pair must not have the name of the incident pair. All neutron and capture widths are different from zero and each spin group is fissile throughout or not at all. Exact arithmetic."
  },
  {
   "property": "C86",
   "status": "proved",
   "theorems": [
    "C86_distribution",
    "C86_rules",
    "C86_integrals",
    "C86_unique",
    "C86_cross"
   ],
   "note": "The bounds are for exact arithmetic; they are close to sharp for one rule, and add up over the three widths. A width without degrees of freedom is read as having one, as in the code. The elastic width must be positive."
  },
  {
   "property": "C87",
   "status": "proved",
   "theorems": [
    "C87_tables",
    "C87_rounding",
    "C87_accuracy",
    "C87_overflow_refuted"
   ],
   "note": "IEEE double arithmetic, nearest even, one rounding per operation in the order of the source. C87_overflow_refuted: outside the range of widths the result may be infinite."
  },
  {
   "property": "C88",
   "status": "proved",
   "theorems": [
    "C88_single_level",
    "C88_multi_level",
    "C88_reactions",
    "C88_relative_refuted"
   ],
   "note": "IEEE double arithmetic, nearest even, one rounding per operation in the order of the source. C88_relative_refuted: the relative error is not a few roundings in general; a resonance of width 2^-10 eV at 131072 eV has an error above 1e-8."
  },
  {
   "property": "C89",
   "status": "partial",
   "theorems": [
    "C89_single_old_partial",
    "C89_multi_old_partial",
    "C89_single_legacy_partial",
    "C89_multi_legacy_partial",
    "C89_below_threshold_old",
    "C89_below_threshold_legacy",
    "C89_old_refuted",
    "C89_legacy_refuted"
   ],
   "note": "C89_old_refuted, C89_legacy_refuted: a resonance at 40 eV that may excite a level at 16 eV, seen from 4 eV. The R-matrix interface takes P(E - QX) (QX has the wrong sign), the older interface takes E + QX A/(A+1), and both take the square root of the absolute value of the energy, so the width is not zero below the threshold."
  },
  {
   "property": "C90",
   "status": "proved",
   "theorems": [
    "C90_rules",
    "C90_averages"
   ],
   "note": "IEEE double arithmetic, nearest even, one rounding per operation in the order of the source. The interpolation of the average parameters, unit conversions and std::sin are outside."
  },
  {
   "property": "C91",
   "status": "proved",
   "theorems": [
    "C91_legacy",
    "C91_slbw_old",
    "C91_mlbw_old"
   ],
   "note": "Exact arithmetic, fixed radii. The multi-level elastic cross section of the older interface is only within the rounded literals of C38 of its limit."
  },
  {
   "property": "C92",
   "status": "partial",
   "theorems": [
    "C92_slbw_old",
    "C92_mlbw_old",
    "C92_legacy",
    "C92_limits_old_refuted",
    "C92_limits_legacy_refuted"
   ],
   "note": "Exact arithmetic. Proved: the single-level cross sections obey the optical theorem for every file, with the collision matrix of all levels of a J; the multi-level cross sections exceed it by exactly the interference of the levels (in the older interface within the rounded literals of C38); the limits hold when no two levels share l and J. Refuted without that: two equal levels give capture above its limit and elastic scattering above its limit in both formats of both interfaces."
  },
  {
   "property": "C93",
   "status": "proved",
   "theorems": [
    "C93_identifiers",
    "C93_elements",
    "C93_order"
   ],
   "note": "Exact arithmetic. C93_identifiers: acceptance by the system's constructor plus generated identifiers keep the keys of the groups apart. C93_elements: evaluation succeeds, each group's elements are those of its own T matrix, all other keys are unchanged, and the cross sections of the transfer reactions are the sums of |T|^2 over the returned map. C93_order: permuting the groups changes nothing. Found because a mutant that forgot the earlier groups survived."
  },
  {
   "property": "C94",
   "status": "proved",
   "theorems": [
    "C94_steps",
    "C94_below_5",
    "C94_below_15",
    "C94_no_stop"
   ],
   "note": "Exact arithmetic. C94_steps bounds the error of any integration in the norm sqrt(dG^2 + dG'^2), where errors of an oscillator do not grow; the bound of C74 grows with exp(4 (ra - rho)). C94_below_5 and C94_below_15 apply it to the code with the start errors of C81 and C82. C94_no_stop excludes the early return of zeros. Left out: arguments at which the start values are zero, which the code returns unchanged, and those that C81 leaves out."
  },
  {
   "property": "C95",
   "status": "proved",
   "theorems": [
    "C95_slbw_old",
    "C95_mlbw_old",
    "C95_slbw_legacy",
    "C95_mlbw_legacy",
    "C95_phase_jumps"
   ],
   "note": "Exact arithmetic. C68 has the R-matrix spin groups. C95_phase_jumps shows that the phase shift itself does jump, so that the cross sections are continuous only because they depend on it through the sine and cosine of its double."
  },
  {
   "property": "C96",
   "status": "proved",
   "theorems": [
    "C96_reich_moore_old",
    "C96_negative_refuted"
   ],
   "note": "Exact arithmetic. C96_negative_refuted shows that the condition on the capture widths is needed: with a negative one the code can reach its expansion for small arguments, whose first term has the wrong sign, and the total cross section changes sign at the boundary."
  },
  {
   "property": "C97",
   "status": "partial",
   "theorems": [
    "C97_steady_partial",
    "C97_fission_opens",
    "C97_competition_opens",
    "C97_jump_refuted"
   ],
   "note": "Exact arithmetic. Proved where the fission and the competitive width are not zero or zero everywhere (C97_steady_partial). Refuted where such a width starts from zero (C97_jump_refuted): the code changes from no rule to a rule whose ten weights do not add up to one, so the elastic and capture integrals are multiplied by that sum, 1.00024 for 4 degrees of freedom (C97_fission_opens, C97_competition_opens)."
  },
  {
   "property": "C98",
   "status": "proved",
   "theorems": [
    "C98_integrals",
    "C98_system",
    "C98_made"
   ],
   "note": "Exact arithmetic."
  },
  {
   "property": "C99",
   "status": "partial",
   "theorems": [
    "C99_system_partial",
    "C99_file_partial",
    "C99_opening_refuted"
   ],
   "note": "Exact arithmetic. Proved where fission and competition are not zero or zero in the whole table (C99_system_partial, C99_file_partial). Refuted where fission starts from zero at a tabulated energy (C99_opening_refuted): capture jumps by 0.024 % of its value with 4 degrees of freedom, for the reason given with C97."
  },
  {
   "property": "C100",
   "status": "proved",
   "theorems": [
    "C100_slbw",
    "C100_mlbw",
    "C100_made",
    "C100_file",
    "C100_derived"
   ],
   "note": "Exact arithmetic; neutral channels, as in every such file. NAPS = 0 is excepted in C100_made and C100_file: the formula for the radius has fixed units. C100_derived shows that the exception is needed."
  },
  {
   "property": "C101",
   "status": "proved",
   "theorems": [
    "C101_slbw",
    "C101_mlbw",
    "C101_made",
    "C101_file"
   ],
   "note": "Exact arithmetic. That std::sort commutes with a change of the levels that keeps their statistical factors is a hypothesis of C101_made and C101_file for the multilevel formula; insertion sort meets it."
  },
  {
   "property": "C102",
   "status": "proved",
   "theorems": [
    "C102_system",
    "C102_made",
    "C102_file"
   ],
   "note": "Exact arithmetic. That std::sort commutes with a change of the levels that keeps their statistical factors is a hypothesis of C102_made and C102_file; insertion sort meets it."
  },
  {
   "property": "C103",
   "status": "proved",
   "theorems": [
    "C103_system",
    "C103_made",
    "C103_file"
   ],
   "note": "Exact arithmetic; neutral channels, as in every such file."
  }
 ]
}