# Formal model of resonanceReconstruction: design

The source under study is the header-only C++ library in `/repo` (read as text, never built).
Everything below is a Rocq (Coq 8.16.1) model in `rocq/theories`, written function by
function from the headers, with theorems about it. Each definition of a `*Model.v` file
carries the file and lines it was written from.

## Numbers and outcomes

* Floating point numbers are exact reals (`R`), except in DoubleModel, RoundingModel, PhaseRoundingModel, ChannelRoundingModel, FluctuationRoundingModel and BreitWignerRoundingModel. Rounding
  and overflow are not modelled elsewhere, so the order of additions does not matter in the model. Literals of the code that are rounded
  values (tables, pi) are kept as the decimal numbers they are written as.
* A division by zero is never given a meaning: `fdiv` returns `None`, "not finite", and
  `None` propagates. An `outcome (option A)` is a computation that may throw, be undefined or
  return a number that is not finite.
* Exceptions, undefined behaviour (reads out of bounds, `front()` of an empty vector, a missing
  `return`) and loops without end are the distinct outcomes `Throw`, `UB` and `Diverge` of
  `Outcome.v`. A theorem that says `Ok` therefore excludes all of them.
* Spins are stored doubled in `Z`. A double holds half-integers exactly, and the operations of
  the code on them are exact (proved with Flocq: C63).
* Units are dropped: a quantity is the number it has in one coherent system.
* Identifiers are strings. Complex numbers are pairs of reals; matrices are mathcomp
  matrices over them. Eigen's `.inverse()` is the exact inverse where one exists, and
  "not finite" otherwise.
* `std::sort` is any function that returns an ordered permutation (`sorts`).
* The Coulomb wave functions (`CoulombWaveModel.v`) are written over a record of arithmetic
  operations. What is proved for every such record holds for doubles whatever their rounding.
  `CoulombExactModel.v` gives one instance, the reals with infinities and NaN.

## Layout

For each topic: `XModel.v` (the code, no proofs), `XSpec.v` (specification that does not use
the model's functions), `XProofs.v`/`XTheorems.v`/`XCases.v` (lemmas, witnesses) and `XProperties.v` (theorem
statements closed by `exact`, `Print Assumptions`, examples that meet the hypotheses).

| topic | model files | properties |
|---|---|---|
| spins, quantum numbers, identifiers, spin factors | QuantumModel, SpinFactorModel | C01-C07, C41 |
| hard-sphere functions | HardSphereModel | C08-C12 |
| hard-sphere functions, quantum numbers and channel kinematics in IEEE double arithmetic (Flocq, nearest even, no contraction) | DoubleModel, RoundingModel, PhaseRoundingModel, ChannelRoundingModel | C63-C65, C72, C73 |
| particles, pairs, kinematics | KinematicsModel | C13, C14 |
| charged particles | CoulombModel, CoulombWaveModel, CoulombExactModel | C24, C26, C52, C56-C58, C74-C76, C80-C82, C94 |
| R-matrix evaluation | Cplx, RMatrixModel, SpinGroupModel | C15-C23, C25, C61, C66-C69, C71, C77 |
| channels, tables, spin groups, compound systems | ChannelModel, AssemblyModel | C14, C27-C30, C51, C55, C93 |
| ENDF conversion | EndfModel | C31-C36, C50, C53, C60, C62, C70, C78, C79, C84, C85 |
| Breit-Wigner, older interface | BreitWignerModel | C37-C42, C50, C54, C89, C91, C92, C95, C101 |
| Breit-Wigner, R-matrix interface | LegacyModel, BreitWignerRoundingModel (in IEEE double arithmetic) | C37-C42, C54, C59, C60, C83, C84, C88, C89, C91, C92, C95, C100 |
| Reich-Moore, older interface | KMatrixModel, ReichMooreModel | C42-C44, C50, C62, C96, C102 |
| unresolved resonances | UnresolvedModel; FluctuationRoundingModel, UnresolvedRoundingModel (in IEEE double arithmetic) | C45, C46, C59, C60, C86, C87, C90, C97-C99, C103 |
| energy grids, reconstructor | GridModel | C47-C49, C60, C62 |

## What is modelled

Everything under `/repo/src/resonanceReconstruction` that a call can reach, with these
exceptions and oracles.

* The interpolation library. An energy-dependent radius is a function `R -> outcome R`; how
  TAB1 regions become that function (`src/radius.hpp`, `multiRegion` in `EndfModel.v`) is a
  parameter of the theorems. The lin-lin tables of the unresolved
  data are modelled from the documentation of that library.
* ENDFtk. A file is a record of the numbers the code asks it for (`bw_file`, `rm_file`, `endf_range`, ...).
* `elementary` (particle identifiers) is the parameter `products`.
* `hbar`, `epsilon0`, the neutron mass and the elementary charge of the newer interface are parameters,
  positive where a theorem needs it. The older interface's constant is a parameter as well.
* The Coulomb wave functions are a parameter `cwf` of the R-matrix model; `CoulombWaveModel.v`
  models them on their own. `omAsymptoticClosed` and `omExternalClosed` are never called and not modelled.
* Logging, unit conversion (in ChannelRoundingModel one multiplication by a double), the compile-time selection of representations
  (`isTemperature`, CRTP) and the Python bindings.
* `breitWigner/singleLevel/Lvalue/src/evaluated.hpp` is included nowhere. `reichMoore/Lvalue/src/hasFission.hpp`
  holds a second `rMatrixSolve` that is not the one included.
* NAPS is a `nat` in the newer interface and a `Z` in the older, as `unsigned` and `int` would be.
* `log10` and `pow` of the grid refinement are exact.

## Plan and result per property

* C01 Channel spins are exactly the coupled spins (proved). The while loop is a fuelled recursion; its result is characterised by membership. Induction on the loop.
* C02 Total angular momenta are exactly the coupled values (proved). As C01.
* C03 J values for a particle pair are the union over all channel spins (partial). Soundness for all spins, completeness for projectile spin 0 and 1/2, witness for spin 1. The list is characterised for all spins (C03_listed); it is complete exactly when the projectile spin exceeds |l - I| by at most one half or l or I is zero (C03_exact), in particular for spins 0 and 1/2. The general completeness claim is refuted (l=1, i=1, I=1 misses J=0).
* C04 Quantum number enumeration is complete and duplicate free (proved). Membership and NoDup by induction on the nested loops.
* C05 Statistical spin factors sum to 2l+1 (proved). Closed sums by induction.
* C06 Every signed J is given a distinct quantum number set (proved). Lists, filter and erase; call sequences by induction.
* C07 Channel and reaction identifiers never collide (proved). Decimal printing is injective, then string cancellation. Needs pair identifiers without braces and quantum numbers that are not negative; a negative half-integer collides (C07_negative_collision).
* C08 Horner evaluation is the polynomial (proved). Induction on the coefficients.
* C09 Hard-sphere functions obey the defining recursion (proved). Field identities against the recursion and the radial equation. l = 0..4 is the implemented range; larger l throws (C09_larger_l_throws).
* C10 Penetrabilities and shift factors stay in their physical range (proved). Positivity of the rational functions. l = 0..4
* C11 The two hard-sphere implementations agree (proved). Equality of both implementations. rho >= 0 (rho > 0 for the phase); for negative rho, which no caller produces, the older penetrability is 0.
* C12 Phase shift slope equals penetrability over rho (proved). Derivatives with Coquelicot.
* C13 Channel kinematics (proved). Real arithmetic, with the failing divisions explicit. Two massless particles give no finite value (C13_massless_pair).
* C14 Constructors reject exactly the invalid inputs (proved). Boolean checks reflected into propositions. Particle, ParticleChannelData, ResonanceTable and SpinGroup constructors. An empty channel list is C51.
* C15 R_L is symmetric, so reading it by columns is sound (proved). Transpose algebra in mathcomp, any size. Exact arithmetic; the Eigen inverse is the exact inverse where it exists.
* C16 Cross sections of a spin group obey the optical theorem (proved). 1 - W W* = 4 P^1/2 M Im(R) M* P^1/2 for any size. Summed over all keys of the map and per incident channel; with a Coulomb phase the identity refers to exp(iw).
* C17 No R-matrix cross section is negative (proved). Im(R) is a sum of rank-one non-negative terms; invertibility by a trivial kernel. Non-negativity, |U| <= 1, existence of the inverse, and failure exactly at a resonance without eliminated width.
* C18 Without eliminated widths the collision matrix is unitary (proved). From the identity of C16. U is unitary and capture unchanged.
* C19 Closed channels do not contribute (proved). Zero rows and columns propagate. Matrix level and map level; closed channels behave as channels of zero width.
* C20 No resonances means hard-sphere scattering (proved). R = 0 in the model of a group. Neutron, photon and fission channels.
* C21 Evaluation adds to the result map (proved). Explicit map; induction over reactions and groups. The increment is independent of the map; group order is irrelevant for evaluations that give finite numbers.
* C22 Results do not depend on earlier calls (proved). Explicit cache state; induction over histories of calls. R-matrix groups (cross sections and T matrix), any history of calls; Breit-Wigner groups keep no state in the model.
* C23 T matrix and cross sections are consistent (proved). Unfolding plus injective keys. Needs channel identifiers without ">"; C23_key_collision shows the condition is needed.
* C24 Coulomb phase shift is the sum of arctangents (partial). Witness, exact comparison, and the case that holds. Holds for l = 0 only; refuted otherwise (the code adds cotangents).
* C25 Pure Coulomb incident channel without interaction has zero nuclear elastic term (partial). Witness, and the value computed. Refuted: C25_charged_elastic gives the value computed instead.
* C26 Charged particle hard-sphere phase shift (partial). Witness, and the half plane where it holds. Holds for F >= 0; refuted for F < 0.
* C27 Resonance table holds every given width (proved). Finite maps as association lists; induction. C27_lost_refuted: without distinct energies a width is lost.
* C28 Channels are partitioned over spin groups (proved). Partition by (J, parity), induction. C28_only_eliminated_refuted: data with only an eliminated channel for some J and parity reads front() of an empty vector.
* C29 Consolidating eliminated channels loses nothing (proved). Induction over the consolidation loop.
* C30 Consolidated data never has two eliminated channels in a spin group (proved). Composition of C27-C29. C30_lost_refuted: two eliminated channels with a resonance at the same energy; consolidation keeps both widths, the table only the last.
* C31 Reich-Moore data with both channel spins builds a spin group (proved). Exact condition on files, and a witness. C31_refuted: a sensible file with fission widths for J and -J throws. C31_accepts and C31_both_spins give the exact condition for sensible files (l up to 4, positive radii and masses, nonzero energies); C31_never holds for all files.
* C32 R-Matrix Limited channels keep their number and type (proved). Exact condition on the particle pair list, and witnesses. C32_truncated_refuted and C32_mistyped_refuted: too few channels, and an elastic channel typed as photon channel. C32_exact is the exact condition under which the channels are right.
* C33 Missing reactions in the particle pair list (proved). Lookup outcome, iff. Both lookups end in undefined behaviour when the MT number is absent.
* C34 Width to reduced width round trip (proved). Real arithmetic, lifted to all data. For one width, for all data of an R-Matrix Limited spin group and for all data of a Reich-Moore l value.
* C35 Channel radii follow NRO and NAPS (proved). Total decision table against the manual. C35_rest_refuted: without a radius table NAPS above 1 does not throw but is taken for 1. The older interface agrees for every combination of flags it knows.
* C36 fromENDF dispatches on LRU/LRF/KRM and never confuses representations (proved). Total decision table. Exact correspondence; the parts of the flags that are not implemented throw (for an empty list of particle pairs front() is undefined behaviour).
* C37 Single-level Breit-Wigner capture and fission are non-negative; elastic can be negative (proved). Sums over resonances; collision matrix formulae. Old and legacy interface: cross sections equal the one-level collision matrix formulas; capture, fission >= 0; elastic >= 0 at zero phase; negative elastic witness in both interfaces.
* C38 Multi-level Breit-Wigner elastic is never negative (proved). Complete squares. Legacy: elastic is a sum of squares, non-negative with no hypothesis on J (the construction rejects impossible (l,J)). Older interface: within the rounding of its literals, and non-negative for (l,J) that can be formed.
* C39 MLBW reduces to SLBW for isolated levels (proved). Difference of the two formulae is the interference sum. Legacy exactly; older interface up to the rounded literals of its constant term (exact for I other than 1, 5/2, 3).
* C40 Old and new Breit-Wigner interfaces agree (proved). Both interfaces against one specification. Agreement without competitive width or with QX = 0 (MLBW up to the rounded literals); C40_competitive_refuted is the witness for the disagreement with a competitive width that the statement announces.
* C41 Statistical factor sum and D table (proved). Closed form; finite table. Table entries agree up to one unit in the 15th decimal, exact beyond I = 7/2; outside l <= 4 the lookup reads a wrong row or out of bounds (C41_D_outside).
* C42 Each J is one interference group, whatever the file order (proved). Permutation invariance through any sorting function. Breit-Wigner formalisms of both interfaces and the older Reich-Moore interface: grouping after any sort, and the same results for any order of the lines.
* C43 Older Reich-Moore cross sections are conserved and non-negative (partial). 3x3 K matrix, specialisation of C16-C18. Conservation, capture and fission >= 0, and the dead expansion branch are proved for all files with non-negative capture widths. Elastic >= 0 is proved when the J of the file are ones that the spins couple to (C43_elastic); C43_elastic_refuted gives a file with other J and a negative elastic cross section, since nothing checks J.
* C44 Older and R-matrix Reich-Moore agree (proved). K matrix and R matrix give one collision matrix; whole files. One J group against the model of the newer code on the same resonances, and whole files against the collision matrix, for every NRO/NAPS case. Exact real arithmetic; capture widths not negative.
* C45 Fluctuation integrals conserve flux and stay in bounds (proved). Finite sums over the nodes; bounds of every index. Undefined behaviour iff a used number of degrees of freedom is out of range (elastic 1..4, fission and competition up to 4 when the width is nonzero); values, flux conservation up to the quadrature mean (within 0.17 %), non-negativity and finiteness for all widths. Findings: validation accepts zero elastic degrees of freedom, which is undefined behaviour (C45_validated_refuted, C45_validated_partial is the rest); zero degrees of freedom for a nonzero width are treated as one; the capture degrees of freedom are ignored; the rule for two degrees of freedom misses its mean by more than 0.1 %.
* C46 Unresolved cross sections conserve flux (proved). Sums over groups, file level. Single group, whole system and file level, for all tables and energies: the cross sections are those of the average collision function, the sum over the reactions is the optical theorem up to the quadrature error (at most 0.17 % of the formation cross section), capture and fission are non-negative. The lin-lin table of the interpolation library is modelled from its documentation. Assumes one AWRI in the file (the code only uses the first) and strictly increasing energies.
* C47 Unresolved energy grid refinement (proved). The insertion loop with a termination bound. All unresolved systems: the refinement loop ends, and its result is strictly increasing, keeps every tabulated energy, adds only decade points inside gaps of more than 25 per cent and leaves no step above 1.25 from a positive energy. Finding: an energy of zero below a positive one is undefined behaviour (C47_zero). Energies are exact reals, log10 and pow exact.
* C48 Energy grids (proved). Sort and unique by induction. All resolved systems, both representations: the grid is the increasing list of E-G/2, E, E+G/2 over the resonances with positive energy, G the sum of 2 P g^2 plus the eliminated width (or the stored widths). Finding: points may be negative (C48_positive_refuted).
* C49 Reconstructor honours its energy range (proved). Case analysis of the range. All reconstructors, energies and compound systems: empty outside the closed range, the compound system's values inside, grid = the system's grid restricted to the range, strictly increasing.
* C50 NRO/NAPS dispatch of the older interface (proved). Total decision table, iff. C50_refuted: flags outside the manual's combinations run off the end of the function; the others are defined.
* C51 Empty spin groups are rejected (partial). Outcome of the constructor. Refuted for the empty list (undefined behaviour); holds for every other list.
* C52 Coulomb wave functions are checked before use (partial). Loop invariants for every arithmetic; witnesses in the exact one. Proved for every arithmetic: for l <= 58 the loops end, indices stay in bounds and what is returned passed the check or is zero altogether (the property has no such exception, hence partial: C52_zeros_refuted gives the zeros for eta >= 800 and rho <= 16, C52_nan_refuted a result that is not a number and passes). Also: l = 59 returns derivatives that were never computed, other l read out of bounds, the check cannot detect wrong starting values, and it accepts an F that is three times too large (refuted theorems).
* C53 Reich-Moore compound system has complete potential scattering (proved). Composition of C04-C06.
* C54 Legacy resonance widths at the resonance energy (proved). Quotients at the resonance energy. Both interfaces; the quotients are not finite when the penetrability at the resonance vanishes.
* C55 Switching the incident pair (not applicable). No class has the function. Both #include lines for switchIncidentPair.hpp are commented out (SpinGroup.hpp:97, CompoundSystem.hpp:22), so no class has the function; the CompoundSystem version calls incidentpair(), which does not exist.
* C56 Starting slope of the Coulomb functions belongs to the starting value (partial). Derivatives with Coquelicot; Interval for the witnesses. The exact difference between slope and derivative is proved for both expansions; it is not zero (refuted for both, by more than 2.5 percent for the second). Expansions only, in exact arithmetic.
* C57 Riccati expansion solves the Coulomb equation order by order (partial). Polynomial identities order by order. Orders 0 to 4 hold (C57_order_partial); order 5 is refuted with its exact residual (a product counted once instead of twice), and so are orders 6 and 7.
* C58 Integration from the turning point uses steps within the mesh (partial). Division of the distance into steps. Holds towards the origin; refuted away from it (steps always longer than the mesh, and none at all between one and two meshes from the turning point). Distances up to 9000, so that the number of steps is an int.
* C59 Legacy compound systems: what is accepted, filled and tabulated (proved). Induction over groups and rows. Verification for both legacy systems, keys of the two Breit-Wigner formalisms, and the rows of all three ENDF representations. For fission, "there is some" means that the sum is not zero.
* C60 From the file to the cross sections (proved). Composition of dispatch, conversion and evaluation. Whenever reconstruction returns finite numbers, for SLBW, MLBW and unresolved ranges with the same AWRI for all l; the neutral Reich-Moore range is C44/C53.
* C61 Channels that share no resonance decouple (proved). Block matrices, then the code's loops. Both boundary options; the part succeeds whenever the whole does, and nothing depends on what the calculators have stored.
* C62 Reich-Moore files in the newer interface, and the two interfaces compared (proved). Composition of C30, C31, C34, C53 and C61 for the newer interface, and C44 for the older. Both directions of the evaluation criterion; the agreement holds whenever both interfaces give finite numbers, for resonances of one total angular momentum and parity with different energies. Two refutations show that the conditions for equal elastic cross sections are needed.
* C63 Quantum numbers in double arithmetic (proved). DoubleModel repeats the functions on Flocq's binary64; simulation of the integer model, loop by loop. Flocq binary64, round to nearest even; justifies the doubled integers of QuantumModel. The bounds are far above any spin; C63_unbounded_refuted shows that some bound is needed.
* C64 Rounding error of the hard-sphere penetrability and shift factor (proved). RoundingModel repeats the functions on Flocq's binary64; an induction on the operations bounds the relative error of positive quantities by the number of roundings. One IEEE operation for each operation of the source: no fused multiply-add and no extended precision. The bound is an upper bound, not the best one.
* C65 Rounding error of the hard-sphere phase shift (proved). The quotient n/d as a direction (d,n) in the plane: rounding turns the direction by an angle bounded by the size of the terms over the length of (d,n), which is the amplitude of the wave and never small. std::atan is a parameter that is assumed accurate (one exists: C65_case). One IEEE operation for each operation of the source. C65_relative_refuted: rho - atan(rho) cancels.
* C66 Other ways to write down the same spin group (proved). R is a sum over resonances of products of two widths and is unchanged (resonances) or conjugated by a permutation and a diagonal of signs (channels); the solution R_L and U are conjugated likewise, and only squared moduli enter the cross sections. SymmetrySpec defines the rewritings. Reordering channels needs one entrance pair (the factor is taken from the first incident channel).
* C67 Unitarity limits (proved). Sum of the squared moduli of a row of U is at most one (C17); sum over the keys by exchanging the sums; the region of scattering and reaction cross sections from the triangle inequality. Photon and fission channels included; charged channels excluded, since their elastic term is wrong (C25).
* C68 Cross sections are continuous in energy (proved). A closed channel may stay in R if its P and L element are set to zero: the same T matrix results. With that, R, L and P are continuous, the matrix to invert stays regular (C16's argument), and determinants and cofactors of continuous matrices are continuous. The phase enters through cos 2phi and sin 2phi, continuous by C12. Witness for the jump: one resonance, two channels, by C69. Charged channels excluded (the Coulomb functions are an oracle). The last sentence is the finding C68_threshold_refuted: closed channels are removed from R, but at the threshold their L element is S(0)-B = -l-B.
* C69 One resonance: the single-level formula (proved). R has rank one, so R_L = gamma gamma^T / ( E_r - E - i g^2 - sum gamma^2 L ) solves the linear system; T, and with it the squared moduli of U, in closed form. SingleLevelSpec states the textbook formula. For all channel types but charged particles, for which the elastic term of the code is wrong (C25).
* C70 ENDF particle pairs become particle pairs (proved). EndfModel.v models makeParticlePairs.hpp; EndfPairSpec.v states what a column means without the model's helpers; induction over the columns (EndfPairProofs.v). makeParticlePairs in EndfModel.v; the specification is EndfPairSpec.v.  The products of reactions other than elastic scattering and fission are an arbitrary function (the elementary library).
* C71 Detailed balance (proved). The channels give the same values at the corresponding energies and the R matrix is the same; the collision matrix is symmetric (C15), the rest is the factors (ReciprocityProofs.v). Constant radii (tables are functions of the incident energy).  ReciprocitySpec.v says what the second description is.
* C72 Rounding error from the energy to the penetrability (proved). ChannelRoundingModel.v repeats the functions on Flocq's binary64.  Counting of roundings as in C64, a relative perturbation for the cancelling sum, and P(t rho) <= t^(2l+1) P(rho) (ChannelRoundingProofs.v). Flocq binary64, round to nearest even, no contraction.  The conversion of units on return from waveNumber belongs to the unit library and is taken to be one multiplication by a double.
* C73 The threshold test in double arithmetic (partial). The sign survives a relative perturbation less than one; witnesses by computation (ChannelRoundingProofs.v). Proved unless nine digits or more cancel (kappa up to 2^30).  Refuted without that condition, in both directions: below its threshold by 1e-13 eV a channel is taken as open, with wave number zero; another above its threshold is taken as closed.
* C74 The integration of the Coulomb equation (proved). Induction over iterations and steps (NewmarkProofs.v), Taylor bounds by the mean value theorem and a discrete Gronwall argument (NewmarkErrorProofs.v), growth of the solution below the turning point (NewmarkTheorems.v).  The power series of the regular solution shows that there is one (CoulombSeriesProofs.v). In exact arithmetic.  The error of the start values at the turning point enters as given: the digits of omGcase2 are not verified.
* C75 The asymptotic expansion of the Coulomb function (proved). AsymptoticProofs.v: the loops in exact arithmetic by induction, the equation by telescoping. In exact arithmetic.  Sums made again at rho + 5 with the phase of rho are neither value nor slope at one point; only seen for eta < 0, where the code is not used.
* C76 The Coulomb phase (proved). SigmaProofs.v: the code's expression is Stirling's sum at 4 + i eta moved down three steps.  The second derivative of what the sum fails the recurrence by is the imaginary part of a polynomial in 1/(z(z+1)), found and bounded exactly; two integrations from infinity (a convex function that tends to zero is not negative) and a telescoping sum bound the error. In exact arithmetic.  The argument of Gamma is given by Euler's limit, eta ln n - sum atan(eta/k).  The phase is that of l = 0, which is all the code uses.
* C77 Threshold laws (proved). HardSphereThresholdProofs.v: P/rho^(2l+1) and phi/rho^(2l+1) tend to 1/(2l-1)!!^2 and 1/((2l-1)!!(2l+1)!!), the latter by the mean value theorem from C12.  WignerProofs.v: R_L is continuous from above at zero.  WignerTheorems.v: the cross sections divided by the power of E are continuous expressions in these. Exact arithmetic.  The boundary condition of channels with threshold zero is -l or the shift factor; incident channels are neutron channels with Q = 0 and l <= 4; no charged channels.  A reaction whose channels are partly incident and partly not is covered by neither law.
* C78 R-Matrix Limited widths end up in their place (proved). LimitedProofs.v: the data of one group; LimitedTheorems.v: through consolidation (C29) and the tables (C27, C28); LimitedAcceptProofs.v: acceptance. Only the first channels, as many as there are particle pairs, are covered: the others are dropped by the code (C32).  A width is in its place if its energies are not repeated within the group, and an eliminated width if no other group has the same spin and parity (C27, C29 show the losses otherwise).
* C79 From R-Matrix Limited files to the cross sections (partial). LimitedFileProofs.v, LimitedRowProofs.v: the rows of the table are the lines of the file; LimitedCrossProofs.v: through the evaluation of spin groups (C17-C19); LimitedFrom.v: fromENDF and reconstruct; LimitedFlagCases.v: the counterexample, with the single-level formula (C69). The cross sections are those of the formula for the boundary condition the flag of the first pair selects; C79_shift_flag_refuted shows that the flags of the other pairs are ignored: a p wave with SHF 1 behind a capture pair with SHF 0 is computed without a shift.  Spin groups with the same spin and parity, and energies repeated within a group, are excluded (C27, C29 show the losses).
* C80 Starting values at the turning point (partial). TurningProofs.v: the expansion is unique; TurningSolve.v: it solves the equation and keeps the Wronskian up to the next order; TurningExpansion.v: its polynomials up to order 8, checked by computation with rationals; GammaThirds.v, TurningNumbers.v: Gamma(1/3) and Gamma(2/3) to twelve digits by monotone rational bounds, pi by Machin's formula; TurningCode.v: the comparison; AiryProofs.v: Airy functions exist. All coefficients of G and G' agree to the digits given (4e-11 for the orders up to 2, 1e-12 above), but C80_last_refuted shows that the coefficient of eta^(-16/3) in G is 0.000253 where the expansion has 0.000845.  That the irregular function is the one of Bi (and not of Bi plus a multiple of Ai) is part of the specification, as the definition of G_coefficient says; Bi(0) and Bi'(0) are given by the gamma function, defined by Euler's limit.
* C81 The Coulomb functions far from the turning point (proved). Spec IrregularSpec.v: the solution of the Coulomb equation with the phase of C76 at infinity, no reference to the code. IrregularSeries.v: a regular and a logarithmic solution as power series with Wronskian -1. IrregularProofs.v: energy estimate for the difference of a near solution and a solution, every solution is bounded, the limits of the Wronskians with the first term give the combination with the right phase, uniqueness. IrregularFar.v: the remainder of C75 integrated. IrregularCode.v: the terms shrink up to index 18 and fall below 1e-8 (five pieces of eta), the Wronskian test passes, so the first sum is returned. IrregularCases.v: eta = 1, rho = 12 meets the hypotheses; near eta = 2.2 there is an argument that does not. Exact arithmetic; the phase is sigma0 of the code (C76). Existence by power series and the asymptotics of solutions, accuracy by an energy argument, number of terms and test of the Wronskian by interval pieces in eta.
* C82 The Coulomb functions in the oscillating region (proved). Spec OscillationSpec.v: the terms of order 5 to 7 left of the Coulomb equation, and G of C81. OscillationEquation.v: value and slope as modulus and phase, their derivatives, the equation order by order. OscillationBound.v: the sizes of all coefficients and of the rest for rho >= 3 eta. OscillationPhase.v: the limit of the phase against Stirling's series of the Coulomb phase. OscillationFar.v: the rest integrated by the energy argument of C81. OscillationCode.v: the branch of omAsymptotic and the gap between the slope of the code and the derivative. Example: eta = 5, rho = 20. Exact arithmetic. Two slips in the coefficients of the code, at orders 4 of the modulus and 5 of the phase, leave the terms left_over; the bounds of C82_code include their effect.
* C83 Which Breit-Wigner files give cross sections (proved). Spec LegacyTotalSpec.v: the l and J asked for, a channel for each, both signs of a J, resonances that can be used. LegacyTotal.v: a channel for each request is found whatever the order (counting, as for C31), the functions of the channels are finite for l up to 4, the groups are distinct unless both signs are given, and the sums are finite exactly when the denominators are not zero. Completes C60, which is about what is returned, with when something is returned. Exact arithmetic.
* C84 The same resonances in three formats (proved). Spec FormatsSpec.v: when two files hold the same resonances, in terms of the records of the input only. FormatsLevel.v: the collision matrix of one Reich-Moore level with a neutron and two fission channels is the Breit-Wigner form. FormatsProofs.v: sums over l, J and the potential scattering of the J without resonances. FormatsFrom.v: with C60 and C62 from the files. FormatsCases.v: two l values at E = 4, the p-wave resonance at -4 (same cross sections) and at 1 (different). C84_formats from the files to the cross sections; C84_p_wave_refuted shows that the condition on the shift is needed. Exact arithmetic.
* C85 A Reich-Moore file rewritten in the R-Matrix Limited format (proved). Spec ConversionSpec.v: when a file in the second format is the conversion of one in the first, in terms of the records of the input only. ConversionProofs.v: the pairs and channels of the second file have the wave numbers, penetrabilities and names of the channels of the first, and the widths of a group become the same table. ConversionTheorems.v: the data of all groups, in any order and after consolidation by spin and parity, give the Reich-Moore sums of C77. ConversionFrom.v: from the two ranges to the two results. From the two files to the cross sections. The capture pair must not have the name of the incident pair. All neutron and capture widths are different from zero and each spin group is fissile throughout or not at all. Exact arithmetic.
* C86 The fluctuation integrals are close to averages over chi-square distributions (proved). Spec FluctuationSpec.v: the density, its normalised mean as an improper integral, the iterated mean over three widths, the allowed errors. ImproperProofs.v: integrals over the positive axis. ChiSquareProofs.v: existence and uniqueness of means, integration by parts; the mean F(s) of s/(y+s) solves s F' = (b + b s) F - b s, and a comparison theorem: a bounded function that solves it with residual at most e (b + b s) is within e of F. PositivityProofs.v: a test that an integer polynomial is positive on the positive axis, proved sound. RuleErrorProofs.v: the rational functions of the rules satisfy the equation with a small residual, by that test in the kernel. FluctuationTheorems.v, FluctuationSystem.v: the three widths together, the code, the cross sections. The bounds are for exact arithmetic; they are close to sharp for one rule, and add up over the three widths. A width without degrees of freedom is read as having one, as in the code. The elastic width must be positive.
* C87 The fluctuation integrals in double arithmetic (proved). FluctuationRoundingModel.v is the function of UnresolvedModel.v over Flocq's binary64, the tables as mantissas and exponents. FluctuationLiteralProofs.v checks the tables against the decimal numbers in the kernel. FluctuationRoundingProofs.v: n roundings for numbers that may be zero, sums of up to 2000 terms. FluctuationRoundingTheorems.v: the loops over doubles and over reals side by side. FluctuationRoundingSystem.v composes with C45 and C86. IEEE double arithmetic, nearest even, one rounding per operation in the order of the source. C87_overflow_refuted: outside the range of widths the result may be infinite.
* C88 Breit-Wigner cross sections in double arithmetic (proved). BreitWignerRoundingModel.v is the resonance, precompute, evaluate and interference code of LegacyModel.v over Flocq's binary64. CloseProofs.v: n roundings for signed numbers relative to a magnitude, and the spacing of doubles below a difference (a computed distance is zero or not tiny). BreitWignerRoundingProofs.v and BreitWignerRoundingTheorems.v follow one resonance and one pair; BreitWignerRoundingSystem.v does the sums by induction over the resonances. BreitWignerRoundingCases.v has a resonance whose displacement is lost in the addition to its energy. IEEE double arithmetic, nearest even, one rounding per operation in the order of the source. C88_relative_refuted: the relative error is not a few roundings in general; a resonance of width 2^-10 eV at 131072 eV has an error above 1e-8.
* C89 Competitive channel of Breit-Wigner files (partial). CompetitionSpec.v has the rules of ENDF-102 for LRX=1. Theorems of C37-C42 give the cross sections of both interfaces as formulas with their own competitive widths; without a threshold these agree with the rules (CompetitionProofs.v), and for closed channels the total width is larger, which makes each term of the capture cross section smaller. CompetitionTheorems.v has the witnesses. C89_old_refuted, C89_legacy_refuted: a resonance at 40 eV that may excite a level at 16 eV, seen from 4 eV. The R-matrix interface takes P(E - QX) (QX has the wrong sign), the older interface takes E + QX A/(A+1), and both take the square root of the absolute value of the energy, so the width is not zero below the threshold.
* C90 Unresolved resonance cross sections in double arithmetic (proved). UnresolvedRoundingModel.v is lines 20-53 of evaluate.hpp over Flocq's binary64, with the integrals of FluctuationRoundingModel.v (C87). UnresolvedRoundingProofs.v: a change of the neutron width by seven roundings changes each integral by fourteen at most (each term has the width in its positive denominator), and no integral is tiny (each rule has a node with a large weight). UnresolvedRoundingTheorems.v follows the operations with CloseProofs.v and adds the errors of the rules (C86). IEEE double arithmetic, nearest even, one rounding per operation in the order of the source. The interpolation of the average parameters, unit conversions and std::sin are outside.
* C91 Low energy limits of Breit-Wigner cross sections (proved). LowEnergySpec.v has the 1/v law and the scattering length. LowEnergyProofs.v: limits at zero from above; rho^l G_l tends to (2l-1)!! and tan(phi_l) / rho to zero for all l > 0, by induction over l with the Wronskian, so P_l / rho and (1 - exp(-2 i phi_l)) / rho vanish. LowEnergyFile.v passes to the limit in the collision matrix form of C37 and C38. LowEnergyTheorems.v adds that the evaluation succeeds (C83 and the totality lemmas of BreitWignerTheory.v). Exact arithmetic, fixed radii. The multi-level elastic cross section of the older interface is only within the rounded literals of C38 of its limit.
* C92 Conservation of flux in the Breit-Wigner formalisms (partial). FluxSpec.v has the optical theorem and the limits. FluxProofs.v: one level loses 1 - |U|^2 = Gamma_n (Gamma - Gamma_n) / |pole|^2, the real part of the collision matrix is linear in the levels, so the sum over levels is the sum over J. FluxTheorems.v uses C37 and C38. FluxCases.v has the two counterexamples and a level that reaches the limit. Exact arithmetic. Proved: the single-level cross sections obey the optical theorem for every file, with the collision matrix of all levels of a J; the multi-level cross sections exceed it by exactly the interference of the levels (in the older interface within the rounded literals of C38); the limits hold when no two levels share l and J. Refuted without that: two equal levels give capture above its limit and elastic scattering above its limit in both formats of both interfaces.
* C93 The T matrix of a compound system (proved). SystemTSpec.v says what a group's part of the map is and how cross sections follow from a map. SystemTProofs.v goes by induction over the groups: what is written once is not overwritten since identifiers are injective in l, s, J and pi. SystemTCases.v has a system of two groups. Exact arithmetic. C93_identifiers: acceptance by the system's constructor plus generated identifiers keep the keys of the groups apart. C93_elements: evaluation succeeds, each group's elements are those of its own T matrix, all other keys are unchanged, and the cross sections of the transfer reactions are the sums of |T|^2 over the returned map. C93_order: permuting the groups changes nothing. Found because a mutant that forgot the earlier groups survived.
* C94 The irregular Coulomb function towards the origin (proved). InwardSpec.v has the norm and the bound. InwardProofs.v: Taylor's formula with the right constants, the step as a perturbed rotation, induction over the steps, (1 + h eta/x) <= (x/(x - h))^eta. InwardTheorems.v connects it to startAsymptotic and omAsymptotic. InwardCases.v and InwardFive.v: eta = 1 from 12 to 6 to 1/1000, and the conditions at eta = 5. Exact arithmetic. C94_steps bounds the error of any integration in the norm sqrt(dG^2 + dG'^2), where errors of an oscillator do not grow; the bound of C74 grows with exp(4 (ra - rho)). C94_below_5 and C94_below_15 apply it to the code with the start errors of C81 and C82. C94_no_stop excludes the early return of zeros. Left out: arguments at which the start values are zero, which the code returns unchanged, and those that C81 leaves out.
* C95 Breit-Wigner cross sections do not jump (proved). JumpSpec.v has epsilon and delta for radii, triples and maps. JumpProofs.v: penetrability, sin(2 phi) and cos(2 phi) are continuous in k a. JumpSystem.v and JumpLegacy.v: the two interfaces, level by level and l by l. JumpTheorems.v: from files. JumpCases.v: levels for l = 0, 1 and 2 at k a = sqrt 3, where the phase shift of the d wave jumps. Exact arithmetic. C68 has the R-matrix spin groups. C95_phase_jumps shows that the phase shift itself does jump, so that the cross sections are continuous only because they depend on it through the sine and cosine of its double.
* C96 Reich-Moore cross sections of the older interface do not jump (proved). JumpMatrix.v: the K matrix and its inverse are continuous, near an invertible matrix all are invertible; the branch is the same around (C43). JumpReichMoore.v: l values, systems and files. JumpNegative.v: one level with GG = -1 at 4 eV and k a = 0.0003 there. JumpSpec.v is that of C95. Exact arithmetic. C96_negative_refuted shows that the condition on the capture widths is needed: with a negative one the code can reach its expansion for small arguments, whose first term has the wrong sign, and the total cross section changes sign at the boundary.
* C97 Fluctuation integrals do not jump, except where a width starts from zero (partial). OpeningSpec.v: limits in epsilon and delta, the four sums as decimals. OpeningProofs.v: averages of continuous quotients are continuous; with a width of zero the average over its rule is the sum of the weights; the value of the code is that of C45. Exact arithmetic. Proved where the fission and the competitive width are not zero or zero everywhere (C97_steady_partial). Refuted where such a width starts from zero (C97_jump_refuted): the code changes from no rule to a rule whose ten weights do not add up to one, so the elastic and capture integrals are multiplied by that sum, 1.00024 for 4 degrees of freedom (C97_fission_opens, C97_competition_opens).
* C98 Unresolved cross sections depend on the ratios of widths and spacings only (proved). RatioSpec.v: tables with scaled spacings and widths. RatioProofs.v: by induction on the loops, on the interpolation tables and on the groups; all outcomes are compared, also errors and numbers that are not finite. Exact arithmetic.
* C99 Unresolved cross sections do not jump, except where a width starts from zero (partial). JumpUnresolvedSpec.v: tables around an energy; jumps as in C95. JumpUnresolved.v: linear interpolation is continuous at and between points, by induction on the table; the integrals are continuous where they are finite; groups and systems as in C95. JumpOpening.v: one group with fission from 2 eV on. Exact arithmetic. Proved where fission and competition are not zero or zero in the whole table (C99_system_partial, C99_file_partial). Refuted where fission starts from zero at a tabulated energy (C99_opening_refuted): capture jumps by 0.024 % of its value with 4 degrees of freedom, for the reason given with C97.
* C100 The units of energy and length do not matter for Breit-Wigner cross sections (proved). UnitsSpec.v: the file, the system and the cross sections in other units. UnitsProofs.v: wave numbers, penetrabilities, shift factors and phase shifts, then widths, denominators and interference terms; by induction on levels, J values, l values and groups, comparing all outcomes. Exact arithmetic; neutral channels, as in every such file. NAPS = 0 is excepted in C100_made and C100_file: the formula for the radius has fixed units. C100_derived shows that the exception is needed.
* C101 The units of energy and length do not matter for Breit-Wigner cross sections of the older interface (proved). UnitsOldSpec.v: the system in other units. UnitsOldProofs.v: psi and chi, widths, J groups, then by induction on levels and l values, comparing all outcomes. Exact arithmetic. That std::sort commutes with a change of the levels that keeps their statistical factors is a hypothesis of C101_made and C101_file for the multilevel formula; insertion sort meets it.
* C102 The units of energy and length do not matter for Reich-Moore cross sections of the older interface (proved). UnitsRMSpec.v: the system in other units, with roots of widths multiplied by t. UnitsRMProofs.v: the matrix of every level is unchanged, entry by entry; then by induction on levels, J groups and l values, comparing all outcomes. Exact arithmetic. That std::sort commutes with a change of the levels that keeps their statistical factors is a hypothesis of C102_made and C102_file; insertion sort meets it.
* C103 The units of energy and length do not matter for cross sections of the unresolved range (proved). UnitsUnresolvedSpec.v: tables and systems in other units. UnitsUnresolvedProofs.v: interpolation by induction on the table, then widths, integrals (by C98) and cross sections; by induction on the groups, comparing all outcomes. Exact arithmetic; neutral channels, as in every such file.

## Findings

What the model shows the code to do against its documentation or the ENDF formulae. Each is a
theorem (`_refuted` or the one named).

* C03: for a projectile of spin 1 or more J values are missed (l = 1, i = 1, I = 1 misses J = 0).
* C07: channel identifiers of negative half-integers collide; C23: T matrix keys collide for identifiers with `>`.
* C13: two massless particles give NaN; the Sommerfeld parameter is not finite at threshold.
* C24: the Coulomb phase shift adds cotangents instead of arctangents. C25: exp(iw) is compared with exp(2iw).
* C26: the charged phase shift is wrong for F < 0.
* C27, C30: a width is lost when two resonances of a table have the same energy.
* C28, C51: data with only an eliminated channel, and a group without channels, read `front()` of an empty vector.
* C31: a file with fission widths for both channel spins of one J throws.
* C32: R-Matrix Limited channels are matched by position; too few, or a neutron channel typed as photon.
* C33: a missing MT number dereferences `end()`.
* C35: NAPS above 1 without a radius table is accepted. C50: unknown flags run off the end of a function.
* C37, C43: negative elastic cross sections, for single-level Breit-Wigner and for J that the spins do not couple to.
* C40: competitive widths differ between the interfaces. C41: the D lookup reads a wrong row or out of bounds for l > 4.
* C43: the small-argument expansion of the R-function branch uses the wrong sign, but is dead for capture widths >= 0.  With a negative one it makes the cross sections jump (C96_negative_refuted).
* C97: the fluctuation integrals jump, by up to 0.024 %, where a fission or competitive width starts from zero, because the weights of the quadrature do not add up to one (C97_jump_refuted, C97_fission_opens), and with them the cross sections (C99_opening_refuted).
* C45: zero elastic degrees of freedom pass validation and are undefined behaviour; zero for another width is treated as one; those of
  capture are ignored; the quadrature rule for two misses its mean by more than 0.1 %.
* C47: an energy of zero below a positive one is undefined behaviour. C48: grid points may be negative.
* C52: zeros are returned for eta >= 800 and rho <= 16; NaN passes the Wronskian check; the check cannot see wrong starting values
  (a common factor of F cancelled in G) and accepts an F three times too large; l = 59 returns derivatives that were never computed.
* C55: `switchIncidentPair` is commented out in both classes and would not compile in one.
* C56, C57: sign slip in the derivative of one Coulomb expansion, a missing factor and a digit slip in another, a product counted once
  instead of twice in order 5 of the third.
* C58: steps longer than the mesh, and no step at all between one and two meshes beyond the turning point.
* C62: with NLSC above 5 the newer Reich-Moore interface never evaluates; the interfaces differ in the potential scattering of the
  channels a file does not have, and in reading a radius table at a negative resonance energy.
* C63: for spins above 2^52 the loop over channel spins does not end. C64: the penetrability overflows or is NaN for huge ratios.
* C65: the phase shift for l > 0 has no correct digit at small ratios (rho - atan(rho) cancels); its absolute error is small.
* C68: the elastic cross section jumps at the threshold of another channel when the boundary condition is a constant other than -l: closed
  channels are left out of the R matrix, and the limit from above, L = S(0) - B, is not zero.
* C75: when the asymptotic sum is made again at a larger rho, the phase is not, and the caller integrates from the old rho; the test that
  ends the sum compares successive terms, not sums.
* C73: close to a threshold belowThreshold is wrong in double arithmetic, in both directions; a channel may be open with wave number zero.
* C79: the shift factor flag SHF of the first particle pair decides for all pairs; with capture first (SHF 0) an elastic p wave with SHF 1 is
  computed without its shift.
* C80: the last coefficient of the value at the turning point, 0.0002534684115 of eta^(-16/3), is not that of the expansion, 0.00084536200.  The
  effect on G is of the order of 1e-7 at eta = 5, less above.
* C81: the loop of omGcase3 stops when the real parts of two successive terms agree, not when the terms are small.  There are arguments (some eta
  between 2 and 2.25 with rho = 2 eta + 10) where this happens at the third term.
* C82: the expansion of omGcase4 solves the Coulomb equation only to fourth order in 1/(2 eta); what is left of orders 5 to 7 is `left_over`.
* C83: a Breit-Wigner file with both signs of a J for the same l is refused, although the sign is used to choose the channel spin.
* C84: the same p-wave resonance gives different cross sections in the Breit-Wigner and Reich-Moore formats: only the former move it by the
  shift factor.
* C86: the 10 point rules for 2 and 4 degrees of freedom are not Gauss rules: the bounds of their errors are 25 and 250 times those for 1 and 3.
  The bound for a width other than that of the numerator is 2 % for one degree of freedom. (Numerically the bounds are about twice the
  errors; that is not proved.) C87: a neutron width below about 1e-308 eV gives infinite integrals.
* C88: the level shift is added to the resonance energy, so that a small one is lost: 1e-8 of the cross section at a narrow resonance at 131 keV.
* C89: the competitive width does not vanish below its threshold in either interface, the R-matrix interface takes E - QX for E + QX, and the
  older one A/(A+1) for (A+1)/A.
* C92: levels of the same l and J that overlap give capture, fission and elastic cross sections above the limits of a unitary collision matrix, in
  both Breit-Wigner formats; the multi-level cross sections do not add up to the total of the optical theorem.
* Not a theorem: the R-Matrix Limited reader does not look at KRL (relativistic kinematics), PNT, KBK (background R-matrix) and KPS (tabulated
  phase shifts), so a file with them is read as one without.

## Trusted base

* Coq's kernel (8.16.1), and the reading of the C++ sources recorded in the comments of the model files.
* The axioms below. All are from the Coq standard library; the development adds none. Every `XProperties.v`
  prints them for each theorem, and this list was generated from that output.
* `coqchk -o` also lists constants of sealed modules of mathcomp and the standard library's Reals as axioms
  (for example `mathcomp.algebra.matrix` keys and `Coq.Reals.Rdefinitions.RbaseSymbolsImpl`). They are definitions behind an opaque
  module signature, not assumptions.
* Flocq, Coquelicot, Interval and mathcomp are used as proved libraries.

Axioms by theorem (abbreviations: SF `ClassicalDedekindReals.sig_forall_dec`, SN `ClassicalDedekindReals.sig_not_dec`,
FE `FunctionalExtensionality.functional_extensionality_dep`, EM `Classical_Prop.classic`, EP `Epsilon.epsilon_statement`):

* SF, FE: C05_channel_sum, C27_table, C27_complete, C27_throws, C27_lost_refuted, C28_only_eliminated_refuted, C30_tables, C30_lost_refuted, C42_groups, C54_legacy_widths, C54_zero_penetrability, C54_old_widths, C72_elastic, C70_pairs, C70_accepts, C70_fission, C32_positional, C32_exact, C32_truncated_refuted, C32_mistyped_refuted, C35_unique, C48_legacy_group, C48_legacy_system, C48_determined, C48_positive_refuted, C08_horner_reversed, C08_horner, C13_reduced_mass_and_ratio, C13_massless_pair, C13_below_threshold, C13_threshold_monotone, C13_sommerfeld, C13_sommerfeld_neutral, C13_sommerfeld_threshold, C14_particle_accepted, C14_particle_rejected, C05_spin_factor_sum, C41_factor_summation, C41_D_large, C41_D_table, C41_D_outside, C59_unresolved_rows, C45_bounds, C45_validated_refuted, C45_validated_partial, C45_zero_is_one, C45_capture_constant, C45_value, C45_conserved, C45_conserved_close, C45_nonneg, C45_finite, C45_rules, C45_mean_refuted, C97_steady_partial, C97_fission_opens, C97_competition_opens, C97_jump_refuted, C98_integrals, C103_made
* none (closed under the global context): C14_channel_data, C28_verify, C29_consolidate, C29_idempotent, C52_checked, C52_last, C52_beyond, C33_lookup, C13_reaction_elastic, C13_reaction_distinct, C01_channel_spins, C02_total_J, C03_total_J_pair_partial, C03_total_J_pair_sound_partial, C03_total_J_pair_refuted, C04_enumeration, C06_retrieve_one, C06_retrieve_throws, C06_retrieve_cases, C06_retrieve_sequence, C06_retrieve_sequence_matches, C06_retrieve_sign, C07_channel_ids, C07_quantum_number_text, C07_reaction_ids, C07_negative_collision, C59_resolved, C59_unresolved, C14_resonance_table, C14_spin_group, C51_empty_group_refuted, C51_empty_group_ub, C23_key_collision, C03_listed, C03_exact, C45_table_accepts, C45_table_rejects
* SF, EM, FE: C28_system, C28_groups, C28_partition, C30_system, C93_identifiers
* SF, SN, EM, FE: C75_sum, C75_slope, C75_equation, C37_slbw_old, C37_slbw_legacy, C37_signs_old, C37_signs_legacy, C37_elastic_negative_old, C37_elastic_negative_legacy, C38_mlbw_legacy, C38_mlbw_old, C38_elastic_nonneg_legacy, C38_elastic_nonneg_old, C39_interference_legacy, C39_isolated_legacy, C39_interference_old, C39_isolated_old, C40_slbw_agree, C40_mlbw_agree, C40_competitive_refuted, C42_mlbw_order, C42_slbw_order, C42_legacy_order, C88_single_level, C88_multi_level, C88_reactions, C88_relative_refuted, C72_channel_ratio, C72_channel, C72_older, C73_threshold, C73_threshold_refuted, C89_single_old_partial, C89_multi_old_partial, C89_single_legacy_partial, C89_multi_legacy_partial, C89_below_threshold_old, C89_below_threshold_legacy, C89_old_refuted, C89_legacy_refuted, C24_coulomb_phase_refuted, C24_coulomb_phase_exceeds, C26_charged_phase_partial, C26_charged_phase_refuted, C26_charged_phase_sign, C26_charged_phase_wave, C56_riccati, C56_riccati_refuted, C56_oscillation, C56_oscillation_refuted, C56_riccati_used, C56_oscillation_used, C57_order_partial, C57_order_refuted, C58_inward, C58_outward_refuted, C58_skipped_refuted, C52_wronskian, C52_blind, C52_neutral, C52_accuracy_refuted, C52_zeros_refuted, C52_nan_refuted, C63_channel_spins, C63_total_J, C63_total_J_pair, C63_numbers, C63_retrieve, C63_text, C63_unbounded_refuted, C31_accepts, C31_both_spins, C31_never, C31_refuted, C53_complete, C33_capture, C34_limited, C34_reich_moore, C35_prescribed, C35_throws, C35_rest, C35_rest_refuted, C35_breit_wigner, C35_reich_moore, C36_dispatch, C36_resolved, C36_rest, C50_breit_wigner_no_return, C50_reich_moore_no_return, C50_breit_wigner_defined, C50_reich_moore_defined, C50_refuted, C86_distribution, C86_unique, C87_tables, C87_rounding, C87_overflow_refuted, C47_refined, C47_positive, C47_unchanged, C47_zero, C49_grid, C49_grid_increasing, C09_radial_equation, C09_phase_shift, C09_recursion, C09_larger_l_throws, C11_interfaces_agree, C11_phases_agree, C11_negative_l, C12_phase_slope, C12_double_angle, C81_exists, C81_unique, C81_terms, C81_code, C83_made, C83_opposite, C83_evaluates, C78_widths, C78_accepts, C78_interpolation, C91_legacy, C91_slbw_old, C91_mlbw_old, C74_steps, C74_error, C74_carried, C82_orders, C82_phase, C82_code, C65_phase_shift, C65_older, C65_double_angle, C65_relative_refuted, C59_slbw_keys, C59_mlbw_keys, C44_reduced_widths, C64_penetrability, C64_shift_factor, C64_older, C64_interfaces, C64_unbounded_refuted, C76_phase, C76_unique, C76_odd, C80_solves, C80_coefficients_partial, C80_last_refuted, C46_system, C46_conserved, C46_nonneg, C46_file, C46_succeeds, C90_rules, C92_slbw_old, C92_mlbw_old, C92_legacy, C92_limits_old_refuted, C92_limits_legacy_refuted, C94_steps, C94_below_5, C94_below_15, C94_no_stop, C95_slbw_old, C95_mlbw_old, C95_slbw_legacy, C95_mlbw_legacy, C95_phase_jumps, C98_system, C99_system_partial, C99_file_partial, C99_opening_refuted, C100_slbw, C100_mlbw, C100_made, C100_file, C101_slbw, C101_mlbw, C101_file, C102_file, C103_system, C103_file, C100_derived
* SF, SN, FE: C54_level_at_resonance, C24_coulomb_phase_neutral, C26_charged_penetrability_shift, C33_elastic, C34_width, C48_group, C48_system, C48_group_ok, C09_penetrability, C09_shift_factor, C10_penetrability_range, C10_shift_range, C10_penetrability_increasing, C13_wave_number, C13_wave_number_zero, C13_wave_number_increasing, C13_interfaces_agree, C80_wronskian, C80_unique, C46_complete_total, C46_independent, C101_made, C102_made
* SF, SN, EM, EP, FE: C68_continuous, C68_threshold_refuted, C85_conversion, C86_rules, C86_integrals, C86_cross, C87_accuracy, C84_formats, C84_p_wave_refuted, C49_outside, C49_inside, C67_limits, C67_shadow, C79_cross, C79_evaluates, C79_shift_flag_refuted, C62_file, C62_evaluates, C62_reconstruct, C62_difference, C62_agreement, C62_more_l_refuted, C62_radius_refuted, C71_detailed_balance, C60_slbw, C60_mlbw, C60_unresolved, C44_file, C44_phases, C44_succeeds, C43_conserved, C43_capture_fission, C43_elastic, C43_elastic_refuted, C42_reich_moore_order, C69_single_level, C69_exists, C16_optical_theorem, C16_optical_theorem_charged, C17_nonnegative, C17_nonnegative_neutral, C17_exists, C17_exists_charged, C17_singular, C18_unitary, C19_closed_reaction, C20_hard_sphere, C21_adds, C21_group_order, C22_history, C22_stored_matrices, C23_T_matrix, C25_charged_elastic_refuted, C25_charged_elastic, C66_resonances, C66_T_matrix, C66_channels, C90_averages, C77_threshold_law, C77_scattering_length, C93_elements, C93_order, C96_reich_moore_old, C96_negative_refuted, C102_system
* SF: C24_coulomb_phase_partial, C08_horner_empty, C98_made
* SF, SN, EP, FE: C61_decoupled, C44_two_interfaces, C44_finite, C43_expansion, C15_rows, C15_reciprocity, C16_one_channel, C17_U_bound, C19_closed_channels, C22_T_matrix, C23_elastic
* EM: C51_empty_group_partial
* SF, EP, FE: C15_RL, C19_as_zero_widths
