{"id": "C01", "title": "Channel spins are exactly the coupled spins", "statement": "possibleChannelSpinValues(i, I) returns |i-I|, |i-I|+1, ..., i+I: every allowed channel spin, nothing else, strictly increasing.", "quantifier": "for all non-negative integer or half-integer spins i and I", "why_tests_cant": "Tests list a handful of spin pairs; the claim is about every pair, including termination of the while loop.", "anchors": ["src/resonanceReconstruction/rmatrix/src/possibleChannelSpinValues.hpp: possibleChannelSpinValues"]}
{"id": "C02", "title": "Total angular momenta are exactly the coupled values", "statement": "possibleChannelTotalAngularMomentumValues(l, s) returns exactly |l-s|, ..., l+s, strictly increasing.", "quantifier": "for all l >= 0 and all integer or half-integer s >= 0", "why_tests_cant": "Infinite input space, loop termination.", "anchors": ["src/resonanceReconstruction/rmatrix/src/possibleChannelTotalAngularMomentumValues.hpp: possibleChannelTotalAngularMomentumValues(l,s)"]}
{"id": "C03", "title": "J values for a particle pair are the union over all channel spins", "statement": "possibleChannelTotalAngularMomentumValues(l, i, I) returns every J that some channel spin allows and nothing else.", "quantifier": "for all l, i, I with half-integer spins (true for i=1/2; the general claim is refuted)", "why_tests_cant": "Tests only use spin 1/2 projectiles; the closed formula for the minimum hides an error for i >= 1.", "anchors": ["src/resonanceReconstruction/rmatrix/src/possibleChannelTotalAngularMomentumValues.hpp: possibleChannelTotalAngularMomentumValues(l,i,I)"]}
{"id": "C04", "title": "Quantum number enumeration is complete and duplicate free", "statement": "makeQuantumNumbers(incident, lmax) lists every (l, s, J, parity) with l < lmax, s a channel spin, J coupled from l and s and parity (-1)^l exactly once, and nothing else.", "quantifier": "for all spins and all lmax", "why_tests_cant": "Completeness over an unbounded set.", "anchors": ["src/resonanceReconstruction/rmatrix/src/makeQuantumNumbers.hpp: makeQuantumNumbers"]}
{"id": "C05", "title": "Statistical spin factors sum to 2l+1", "statement": "For each l the statistical spin factors (2J+1)/((2i+1)(2I+1)) of all listed channels add up to 2l+1, so potential scattering is complete.", "quantifier": "for all l, i, I", "why_tests_cant": "A sum rule over an unbounded enumeration; each test only checks single numbers.", "anchors": ["src/resonanceReconstruction/rmatrix/src/makeQuantumNumbers.hpp: makeQuantumNumbers", "src/resonanceReconstruction/rmatrix/Channel/src/ctor.hpp: statisticalSpinFactor"]}
{"id": "C06", "title": "Every signed J is given a distinct quantum number set", "statement": "retrieveQuantumNumber(l, j, available) returns a listed set with that l and |j|, removes exactly that set, uses the lower channel spin for a negative j and the higher one otherwise when two remain, and throws exactly when no set is left; a sequence of calls never returns the same set twice.", "quantifier": "for all available lists and all request sequences", "why_tests_cant": "Stateful over arbitrary call histories.", "anchors": ["src/resonanceReconstruction/rmatrix/src/makeQuantumNumbers.hpp: retrieveQuantumNumber"]}
{"id": "C07", "title": "Channel and reaction identifiers never collide", "statement": "Two channels of one particle pair have the same identifier only if all their quantum numbers are equal; two T-matrix keys are equal only if both channel identifiers are.", "quantifier": "for all non-negative integer or half-integer quantum numbers and both parities", "why_tests_cant": "Injectivity over an infinite set.", "anchors": ["src/resonanceReconstruction/rmatrix/ChannelQuantumNumbers/src/toString.hpp: toString", "src/resonanceReconstruction/rmatrix/Channel/src/makeChannelID.hpp: makeChannelID", "src/resonanceReconstruction/rmatrix/SpinGroup/src/evaluateTMatrix.hpp: evaluateTMatrix"]}
{"id": "C08", "title": "Horner evaluation is the polynomial", "statement": "horner(first, last, x) with the highest order coefficient first is the polynomial sum; the reversed range used by the callers makes coefficient k multiply x^k.", "quantifier": "for all coefficient lists and all x", "why_tests_cant": "Unbounded list length.", "anchors": ["src/resonanceReconstruction/rmatrix/src/horner.hpp: horner"]}
{"id": "C09", "title": "Hard-sphere functions obey the defining recursion", "statement": "For neutron channels the penetrability and shift factor for l = 0..4 satisfy P_l = rho^2 P_(l-1)/((l-S_(l-1))^2+P_(l-1)^2), S_l = rho^2 (l-S_(l-1))/((l-S_(l-1))^2+P_(l-1)^2) - l from P_0 = rho, S_0 = 0, and the phase shift satisfies the matching recursion up to multiples of pi; larger l throws.", "quantifier": "for all rho > 0 and all l", "why_tests_cant": "Continuous argument; hand-typed polynomial coefficients.", "anchors": ["src/resonanceReconstruction/rmatrix/src/calculatePenetrability.hpp: calculatePenetrability<Neutron>", "src/resonanceReconstruction/rmatrix/src/calculateShiftFactor.hpp: calculateShiftFactor<Neutron>", "src/resonanceReconstruction/rmatrix/src/calculatePhaseShift.hpp: calculatePhaseShift<Neutron>"]}
{"id": "C10", "title": "Penetrabilities and shift factors stay in their physical range", "statement": "0 < P_l(rho) <= rho, -l <= S_l(rho) <= 0, and P_l is increasing in rho.", "quantifier": "for all rho > 0 and l = 0..4", "why_tests_cant": "Inequalities over a continuum.", "anchors": ["src/resonanceReconstruction/rmatrix/src/calculatePenetrability.hpp: calculatePenetrability<Neutron>", "src/resonanceReconstruction/rmatrix/src/calculateShiftFactor.hpp: calculateShiftFactor<Neutron>"]}
{"id": "C11", "title": "The two hard-sphere implementations agree", "statement": "penetrationShift/phaseShift of the older interface and calculatePenetrability/ShiftFactor/PhaseShift of the R-matrix interface return the same values and fail for the same l.", "quantifier": "for all rho > 0 and all l", "why_tests_cant": "Two independent hand-typed formula sets compared over a continuum.", "anchors": ["src/resonanceReconstruction/src/penetrationShift.hpp: penetrationShift", "src/resonanceReconstruction/src/phaseShift.hpp: phaseShift", "src/resonanceReconstruction/rmatrix/src/calculatePenetrability.hpp", "src/resonanceReconstruction/rmatrix/src/calculateShiftFactor.hpp", "src/resonanceReconstruction/rmatrix/src/calculatePhaseShift.hpp"]}
{"id": "C12", "title": "Phase shift slope equals penetrability over rho", "statement": "Away from the poles of its arctangent argument, d(phi_l)/d(rho) = P_l(rho)/rho; at a pole the phase shift jumps by pi, which no cross section can see.", "quantifier": "for all rho > 0, l = 0..4", "why_tests_cant": "Derivative identity.", "anchors": ["src/resonanceReconstruction/rmatrix/src/calculatePhaseShift.hpp: calculatePhaseShift<Neutron>", "src/resonanceReconstruction/rmatrix/src/calculatePenetrability.hpp: calculatePenetrability<Neutron>"]}
{"id": "C13", "title": "Channel kinematics", "statement": "Reduced mass lies between 0 and each mass, mass ratio in [0,1], the wave number is sqrt(2 mu |E r + Q|)/hbar and zero exactly at threshold, and a channel is reported below threshold exactly when E r + Q is negative.", "quantifier": "for all non-negative masses, energies and Q values", "why_tests_cant": "Continuum.", "anchors": ["src/resonanceReconstruction/rmatrix/ParticlePair/src/ctor.hpp", "src/resonanceReconstruction/rmatrix/Channel/src/waveNumber.hpp: waveNumber", "src/resonanceReconstruction/rmatrix/Channel/src/belowThreshold.hpp: belowThreshold"]}
{"id": "C14", "title": "Constructors reject exactly the invalid inputs", "statement": "Particle rejects negative mass or charge, ParticleChannelData and ResonanceTable reject inconsistent sizes, SpinGroup rejects duplicate channels, mixed J/parity, missing incident channels and tables whose channels differ from its own; everything else is accepted.", "quantifier": "for all inputs", "why_tests_cant": "Iff over all inputs; order of checks matters.", "anchors": ["src/resonanceReconstruction/rmatrix/Particle/src/verifyNotNegative.hpp", "src/resonanceReconstruction/rmatrix/ParticleChannelData/src/verifySize.hpp", "src/resonanceReconstruction/rmatrix/ResonanceTable/src/verifyTable.hpp", "src/resonanceReconstruction/rmatrix/SpinGroup/src/verifyChannels.hpp", "src/resonanceReconstruction/rmatrix/SpinGroup/src/verifyIncidentChannels.hpp", "src/resonanceReconstruction/rmatrix/SpinGroup/src/verifyResonanceChannels.hpp"]}
{"id": "C15", "title": "R_L is symmetric, so reading it by columns is sound", "statement": "The matrix (1 - R L)^-1 R is symmetric, hence the collision matrix row taken from column-major storage is the right row and sigma is reciprocal.", "quantifier": "for any number of channels and resonances, any energies and widths, whenever the inverse exists", "why_tests_cant": "Tests use a few 1-3 channel cases.", "anchors": ["src/resonanceReconstruction/rmatrix/RLMatrixCalculator/ReichMoore/src/call.hpp", "src/resonanceReconstruction/rmatrix/SpinGroup/src/evaluate.hpp: evaluate"]}
{"id": "C16", "title": "Cross sections of a spin group obey the optical theorem", "statement": "For each incident channel the cross sections added to the map sum to 2 pi/k^2 g (1 - Re U_cc).", "quantifier": "for any number of channels and resonances (neutral incident channel)", "why_tests_cant": "Conservation law over all inputs.", "anchors": ["src/resonanceReconstruction/rmatrix/SpinGroup/src/evaluate.hpp: evaluate"]}
{"id": "C17", "title": "No R-matrix cross section is negative", "statement": "Every reaction cross section, including capture computed as 1 - sum |U|^2, is non-negative; the inverse always exists away from a resonance energy with zero eliminated width.", "quantifier": "for any number of channels and resonances, any reduced widths, non-negative penetrabilities", "why_tests_cant": "Contraction property of an n x n complex matrix.", "anchors": ["src/resonanceReconstruction/rmatrix/SpinGroup/src/evaluate.hpp: evaluate", "src/resonanceReconstruction/rmatrix/RLMatrixCalculator/ReichMoore/src/call.hpp", "src/resonanceReconstruction/rmatrix/Resonance/src/rmatrix.hpp"]}
{"id": "C18", "title": "Without eliminated widths the collision matrix is unitary", "statement": "If every eliminated width is zero, capture is exactly zero.", "quantifier": "for any number of channels and resonances", "why_tests_cant": "Universal statement.", "anchors": ["src/resonanceReconstruction/rmatrix/SpinGroup/src/evaluate.hpp: evaluate", "src/resonanceReconstruction/rmatrix/Resonance/src/rmatrix.hpp"]}
{"id": "C19", "title": "Closed channels do not contribute", "statement": "A channel below threshold gets exactly zero cross section and zero T-matrix element from every other channel, and the other channels see the same R_L as if the closed channel's widths were zero.", "quantifier": "for any number of channels and any subset below threshold", "why_tests_cant": "Universal.", "anchors": ["src/resonanceReconstruction/rmatrix/RLMatrixCalculator/ReichMoore/src/call.hpp", "src/resonanceReconstruction/rmatrix/SpinGroup/src/evaluate.hpp", "src/resonanceReconstruction/rmatrix/SpinGroup/src/evaluateTMatrix.hpp"]}
{"id": "C20", "title": "No resonances means hard-sphere scattering", "statement": "With an empty resonance table elastic is 4 pi/k^2 g sin^2(phi) per incident channel and everything else is zero.", "quantifier": "for any channels and energies", "why_tests_cant": "Universal.", "anchors": ["src/resonanceReconstruction/rmatrix/SpinGroup/src/evaluate.hpp"]}
{"id": "C21", "title": "Evaluation adds to the result map", "statement": "evaluate(E, map) adds the spin group's contribution to what the map held and touches no other key; the order of the spin groups does not matter.", "quantifier": "for all prior map contents and all orders", "why_tests_cant": "Frame property.", "anchors": ["src/resonanceReconstruction/rmatrix/SpinGroup/src/evaluate.hpp", "src/resonanceReconstruction/rmatrix/CompoundSystem/src/evaluate.hpp"]}
{"id": "C22", "title": "Results do not depend on earlier calls", "statement": "Although evaluation overwrites matrices and vectors stored in the object, what a call returns depends on its energy only.", "quantifier": "for all finite call histories (resolved R-matrix and Breit-Wigner groups)", "why_tests_cant": "All histories.", "anchors": ["src/resonanceReconstruction/rmatrix/RLMatrixCalculator/ReichMoore/src/call.hpp", "src/resonanceReconstruction/rmatrix/SpinGroup.hpp", "src/resonanceReconstruction/rmatrix/legacy/resolved/SpinGroup/SingleLevelBreitWigner/src/precompute.hpp"]}
{"id": "C23", "title": "T matrix and cross sections are consistent", "statement": "evaluateTMatrix stores P^1/2 R_L P^1/2 for every incident/outgoing pair under its own key, and non-elastic cross sections equal 4 pi/k^2 g |T|^2.", "quantifier": "for any number of channels", "why_tests_cant": "Relation of two functions over all inputs.", "anchors": ["src/resonanceReconstruction/rmatrix/SpinGroup/src/evaluateTMatrix.hpp", "src/resonanceReconstruction/rmatrix/SpinGroup/src/evaluate.hpp"]}
{"id": "C24", "title": "Coulomb phase shift is the sum of arctangents", "statement": "calculateCoulombPhaseShift(l, eta) = sum_{n=1..l} atan(eta/n) as documented (refuted: the code adds 1/tan(eta/n)).", "quantifier": "for all l and eta", "why_tests_cant": "The tests repeat the code's own numbers.", "anchors": ["src/resonanceReconstruction/rmatrix/src/calculateCoulombPhaseShift.hpp: calculateCoulombPhaseShift"]}
{"id": "C25", "title": "Pure Coulomb incident channel without interaction has zero nuclear elastic term", "statement": "With R = 0 and zero hard-sphere phase the elastic cross section from the collision matrix vanishes for a charged incident particle (refuted: exp(i w) is compared with exp(2 i w)).", "quantifier": "for all Coulomb phase shifts", "why_tests_cant": "No test has this limit.", "anchors": ["src/resonanceReconstruction/rmatrix/SpinGroup/src/evaluate.hpp", "src/resonanceReconstruction/rmatrix/SpinGroup/src/omegas.hpp"]}
{"id": "C26", "title": "Charged particle hard-sphere phase shift", "statement": "The phase shift returned for charged particles is arg(G + iF), so that exp(-2 i phi) = (G - iF)/(G + iF) (refuted for F < 0).", "quantifier": "for all F, G", "why_tests_cant": "Sign only visible where F < 0.", "anchors": ["src/resonanceReconstruction/rmatrix/src/calculatePhaseShift.hpp: calculatePhaseShift<ChargedParticle>"]}
{"id": "C27", "title": "Resonance table holds every given width", "statement": "makeResonanceTable yields one row per distinct energy in increasing order, holding each given width in its channel's column and zero elsewhere, provided no channel lists an energy twice (without that proviso widths are lost: refuted).", "quantifier": "for all channel data", "why_tests_cant": "Unbounded.", "anchors": ["src/resonanceReconstruction/rmatrix/SpinGroup/src/makeResonanceTable.hpp: makeResonanceTable"]}
{"id": "C28", "title": "Channels are partitioned over spin groups", "statement": "Every channel ends up in exactly one spin group, the one of its J and parity; groups are ordered by J and parity and are distinct.", "quantifier": "for all channel lists", "why_tests_cant": "Unbounded.", "anchors": ["src/resonanceReconstruction/rmatrix/CompoundSystem/src/makeSpinGroups.hpp", "src/resonanceReconstruction/rmatrix/CompoundSystem/src/verifySpinGroups.hpp"]}
{"id": "C29", "title": "Consolidating eliminated channels loses nothing", "statement": "consolidateChannelData keeps all ordinary channels in order, leaves at most one eliminated channel per J and parity and keeps every (energy, width) pair of the eliminated ones.", "quantifier": "for all channel data lists", "why_tests_cant": "Unbounded.", "anchors": ["src/resonanceReconstruction/rmatrix/src/makeParticleChannelData.hpp: consolidateChannelData"]}
{"id": "C30", "title": "Consolidated data never has two eliminated channels in a spin group", "statement": "A spin group built from consolidated data cannot fail because of multiple eliminated channels.", "quantifier": "for all channel data lists", "why_tests_cant": "Composition of two functions.", "anchors": ["src/resonanceReconstruction/rmatrix/src/makeParticleChannelData.hpp", "src/resonanceReconstruction/rmatrix/SpinGroup/src/makeResonanceTable.hpp"]}
{"id": "C31", "title": "Reich-Moore data with both channel spins builds a spin group", "statement": "A Reich-Moore evaluation that uses +J and -J with fission widths can be reconstructed (refuted: duplicate fission channel identifiers).", "quantifier": "for all l, J", "why_tests_cant": "No test has both signs with fission.", "anchors": ["src/resonanceReconstruction/rmatrix/src/makeReichMooreChannelData.hpp", "src/resonanceReconstruction/rmatrix/SpinGroup/src/verifyChannels.hpp"]}
{"id": "C32", "title": "R-Matrix Limited channels keep their number and type", "statement": "makeParticleChannels returns one channel per channel in the ENDF spin group, typed by the MT number of that channel's particle pair (refuted: positional zip truncates and mistypes).", "quantifier": "for all ENDF spin groups", "why_tests_cant": "Test files happen to list one channel per pair in pair order.", "anchors": ["src/resonanceReconstruction/rmatrix/src/makeParticleChannels.hpp: makeParticleChannels"]}
{"id": "C33", "title": "Missing reactions in the particle pair list", "statement": "Looking up the incident or eliminated pair when its MT number is absent indexes one past the end (undefined behaviour).", "quantifier": "for all MT lists", "why_tests_cant": "Undefined behaviour.", "anchors": ["src/resonanceReconstruction/rmatrix/src/makeParticlePairs.hpp", "src/resonanceReconstruction/rmatrix/src/makeParticleChannelData.hpp"]}
{"id": "C34", "title": "Width to reduced width round trip", "statement": "The reduced width has the sign of the width and 2 P(Er) gamma^2 = |Gamma|.", "quantifier": "for all widths and all P > 0", "why_tests_cant": "Continuum.", "anchors": ["src/resonanceReconstruction/rmatrix/src/makeParticleChannelData.hpp", "src/resonanceReconstruction/rmatrix/src/makeReichMooreChannelData.hpp"]}
{"id": "C35", "title": "Channel radii follow NRO and NAPS", "statement": "makeChannelRadii returns the radii prescribed by ENDF for each NRO/NAPS combination and throws for the rest; the older interface agrees where it is defined.", "quantifier": "for all NRO, NAPS, AWRI, AP, radius tables", "why_tests_cant": "Decision table with two implementations.", "anchors": ["src/resonanceReconstruction/rmatrix/src/makeChannelRadii.hpp", "src/resonanceReconstruction/reichMoore/Inspector.hpp", "src/resonanceReconstruction/breitWigner/singleLevel/Apply/src/call.hpp"]}
{"id": "C36", "title": "fromENDF dispatches on LRU/LRF/KRM and never confuses representations", "statement": "Each accepted combination constructs the matching compound system kind, everything else throws; isResolved is true exactly for the resolved kinds.", "quantifier": "for all flag values", "why_tests_cant": "Total decision table.", "anchors": ["src/resonanceReconstruction/rmatrix/src/fromENDF.hpp", "src/resonanceReconstruction/rmatrix/Reconstructor.hpp: isResolved"]}
{"id": "C37", "title": "Single-level Breit-Wigner capture and fission are non-negative; elastic can be negative", "statement": "Capture, fission (and elastic at zero phase) are non-negative for non-negative widths; elastic including potential scattering can be negative.", "quantifier": "for all resonance lists", "why_tests_cant": "Continuum, existence witness.", "anchors": ["src/resonanceReconstruction/rmatrix/legacy/resolved/SpinGroup/SingleLevelBreitWigner/src/evaluate.hpp", "src/resonanceReconstruction/breitWigner/singleLevel/Resonance/src/call.hpp"]}
{"id": "C38", "title": "Multi-level Breit-Wigner elastic is never negative", "statement": "Elastic including potential scattering equals a sum of squares, so it is non-negative, provided the statistical factors of the groups of each l sum to at most 2l+1.", "quantifier": "for all resonance lists, energies and spins", "why_tests_cant": "Algebraic identity over unbounded lists.", "anchors": ["src/resonanceReconstruction/rmatrix/legacy/resolved/SpinGroup/MultiLevelBreitWigner/src/evaluate.hpp", "src/resonanceReconstruction/rmatrix/legacy/CompoundSystemBase/src/evaluate.hpp", "src/resonanceReconstruction/breitWigner/multiLevel/Lvalue/src/evaluate.hpp"]}
{"id": "C39", "title": "MLBW reduces to SLBW for isolated levels", "statement": "With at most one resonance per spin group MLBW and SLBW give identical cross sections; in general they differ only in elastic, by the interference sum.", "quantifier": "for all resonance lists", "why_tests_cant": "Universal.", "anchors": ["src/resonanceReconstruction/rmatrix/legacy/resolved/SpinGroup/MultiLevelBreitWigner/src/evaluate.hpp", "src/resonanceReconstruction/rmatrix/legacy/resolved/SpinGroup/SingleLevelBreitWigner/src/evaluate.hpp"]}
{"id": "C40", "title": "Old and new Breit-Wigner interfaces agree", "statement": "For the same parameters without competitive width the older breitWigner interface and the legacy R-matrix interface return the same cross sections; with a competitive width they evaluate it at different energies (refuted).", "quantifier": "for all resonance lists, energies, l", "why_tests_cant": "Two implementations.", "anchors": ["src/resonanceReconstruction/breitWigner/singleLevel/Lvalue/src/evaluate.hpp", "src/resonanceReconstruction/breitWigner/multiLevel/Lvalue/src/evaluate.hpp", "src/resonanceReconstruction/rmatrix/legacy/resolved/SpinGroup/SingleLevelBreitWigner/src/evaluate.hpp", "src/resonanceReconstruction/breitWigner/lvalue/Type/src/competitiveWidth.hpp"]}
{"id": "C41", "title": "Statistical factor sum and D table", "statement": "statisticalFactorSummation is the sum of g_J over the distinct J of an l, and D(I, l) + that sum = 2l+1 for l <= 4; out of bounds table access for l > 4 with I <= 7/2.", "quantifier": "for all half-integer I >= 0, l <= 4", "why_tests_cant": "Unbounded I; a hand-typed table of doubles.", "anchors": ["src/resonanceReconstruction/breitWigner/lvalue/Type/src/statisticalFactorSummation.hpp", "src/resonanceReconstruction/breitWigner/multiLevel/src/D.hpp"]}
{"id": "C42", "title": "Each J is one interference group, whatever the file order", "statement": "Ordering and grouping puts all resonances with equal statistical factor in one group, so the cross section does not depend on the order of resonances in the file.", "quantifier": "for all permutations of all resonance lists", "why_tests_cant": "All permutations.", "anchors": ["src/resonanceReconstruction/breitWigner/multiLevel/Base/src/order.hpp", "src/resonanceReconstruction/reichMoore/Base/src/order.hpp", "src/resonanceReconstruction/breitWigner/multiLevel/Lvalue/src/evaluate.hpp", "src/resonanceReconstruction/reichMoore/Lvalue/src/call.hpp"]}
{"id": "C43", "title": "Older Reich-Moore cross sections are conserved and non-negative", "statement": "elastic, capture, fission are non-negative and sum to the total from the optical theorem; the small-argument expansion of the R-function branch is never taken for non-negative widths.", "quantifier": "for all resonance lists and energies", "why_tests_cant": "Universal; dead branch.", "anchors": ["src/resonanceReconstruction/reichMoore/Lvalue/src/call.hpp", "src/resonanceReconstruction/reichMoore/Lvalue/src/solveRmatrix.hpp", "src/resonanceReconstruction/reichMoore/Lvalue/src/solveRfunction.hpp"]}
{"id": "C44", "title": "Older and R-matrix Reich-Moore agree", "statement": "The older 3x3 K-matrix evaluation equals the R_L based evaluation with L = iP and reduced widths gamma = sqrt(Gamma/2P).", "quantifier": "for all resonance lists and energies", "why_tests_cant": "Two implementations.", "anchors": ["src/resonanceReconstruction/reichMoore/Resonance/src/call.hpp", "src/resonanceReconstruction/reichMoore/Lvalue/src/solveRmatrix.hpp", "src/resonanceReconstruction/rmatrix/SpinGroup/src/evaluate.hpp"]}
{"id": "C45", "title": "Fluctuation integrals conserve flux and stay in bounds", "statement": "The integrals are non-negative and width-weighted they sum to the quadrature mean; table indices are in bounds exactly when each used number of degrees of freedom is 1..4 (elastic degrees 0 passes validation and is undefined behaviour).", "quantifier": "for all widths and degrees of freedom", "why_tests_cant": "Continuum; undefined behaviour.", "anchors": ["src/resonanceReconstruction/rmatrix/legacy/unresolved/src/calculateFluctuationIntegrals.hpp", "src/resonanceReconstruction/rmatrix/legacy/unresolved/ResonanceTable/src/verifyTable.hpp"]}
{"id": "C46", "title": "Unresolved cross sections conserve flux", "statement": "For each spin group elastic + capture + fission (+ competition) resonance parts minus the interference term equal the compound formation cross section; capture and fission are non-negative.", "quantifier": "for all tables and energies", "why_tests_cant": "Universal.", "anchors": ["src/resonanceReconstruction/rmatrix/legacy/unresolved/SpinGroup/src/evaluate.hpp"]}
{"id": "C47", "title": "Unresolved energy grid refinement", "statement": "The refined grid terminates, is strictly increasing, keeps every tabulated energy and both ends, and no step is larger than a factor 1.25.", "quantifier": "for all sorted positive energy lists", "why_tests_cant": "Unbounded loop with in-place insertion.", "anchors": ["src/resonanceReconstruction/rmatrix/legacy/unresolved/CompoundSystem/src/grid.hpp"]}
{"id": "C48", "title": "Energy grids", "statement": "The grid of a resolved spin group or compound system is strictly increasing and contains exactly Er and Er +- Gamma/2 for the positive resonance energies.", "quantifier": "for all resonance tables", "why_tests_cant": "Unbounded.", "anchors": ["src/resonanceReconstruction/rmatrix/SpinGroup/src/grid.hpp", "src/resonanceReconstruction/rmatrix/CompoundSystem/src/grid.hpp", "src/resonanceReconstruction/rmatrix/legacy/resolved/SpinGroup/SingleLevelBreitWigner/src/grid.hpp"]}
{"id": "C49", "title": "Reconstructor honours its energy range", "statement": "Outside [lower, upper] the result is empty, inside it is the compound system's; the grid holds exactly the system's points inside the range.", "quantifier": "for all energies and systems", "why_tests_cant": "Universal.", "anchors": ["src/resonanceReconstruction/rmatrix/Reconstructor.hpp"]}
{"id": "C50", "title": "NRO/NAPS dispatch of the older interface", "statement": "Every NRO/NAPS pair either builds a reconstruction object or throws (refuted: some pairs run off the end of a non-void function).", "quantifier": "for all NRO, NAPS", "why_tests_cant": "Undefined behaviour.", "anchors": ["src/resonanceReconstruction/breitWigner/singleLevel/Apply/src/call.hpp", "src/resonanceReconstruction/breitWigner/multiLevel/Apply/src/call.hpp", "src/resonanceReconstruction/reichMoore/Apply/src/call.hpp"]}
{"id": "C51", "title": "Empty spin groups are rejected", "statement": "A spin group without channels is rejected with an exception (refuted: front() of an empty vector is read first).", "quantifier": "for all channel lists", "why_tests_cant": "Undefined behaviour.", "anchors": ["src/resonanceReconstruction/rmatrix/SpinGroup/src/ctor.hpp", "src/resonanceReconstruction/rmatrix/SpinGroup/src/makeReactionIdentifiers.hpp", "src/resonanceReconstruction/rmatrix/SpinGroup/src/verifyChannels.hpp"]}
{"id": "C52", "title": "Coulomb wave functions are checked before use", "statement": "If the Coulomb routine returns normally, the Wronskian of the requested l was within 1e-6 of one, the loop terminated and no array index was out of bounds, for l <= 58.", "quantifier": "for all l, rho, eta", "why_tests_cant": "Loop invariant over numeric search.", "anchors": ["src/resonanceReconstruction/rmatrix/src/coh3-extwave.hpp", "src/resonanceReconstruction/rmatrix/src/coh3-coulomb.hpp"]}
{"id": "C53", "title": "Reich-Moore compound system has complete potential scattering", "statement": "Elastic channels without resonances are added so that the statistical factors of each l below NLSC sum to 2l+1.", "quantifier": "for all spins and resonance lists", "why_tests_cant": "Universal.", "anchors": ["src/resonanceReconstruction/rmatrix/src/makeReichMooreCompoundSystem.hpp"]}
{"id": "C54", "title": "Legacy resonance widths at the resonance energy", "statement": "The energy dependent widths at Er are the given ones, and the shifted energy at Er is Er.", "quantifier": "for all resonances", "why_tests_cant": "Continuum.", "anchors": ["src/resonanceReconstruction/rmatrix/legacy/resolved/Resonance.hpp", "src/resonanceReconstruction/breitWigner/resonance/Type/src/ctor.hpp"]}
{"id": "C55", "title": "Switching the incident pair", "statement": "switchIncidentPair changes only which channels are incident and is rejected when the pair has no channel.", "quantifier": "for all spin groups", "why_tests_cant": "Universal.", "anchors": ["src/resonanceReconstruction/rmatrix/SpinGroup/src/switchIncidentPair.hpp", "src/resonanceReconstruction/rmatrix/CompoundSystem/src/switchIncidentPair.hpp"]}
{"id": "C56", "title": "Starting slope of the Coulomb functions belongs to the starting value", "statement": "Below and above the turning point, the slope that the asymptotic expansions return is the derivative of the value that they return.", "quantifier": "for all rho and eta in the region of each expansion", "why_tests_cant": "Continuum; the check of the Wronskian does not see it.", "anchors": ["src/resonanceReconstruction/rmatrix/src/coh3-asympt.hpp"]}
{"id": "C57", "title": "Riccati expansion solves the Coulomb equation order by order", "statement": "The coefficients of the expansion of the logarithmic derivative satisfy the Riccati equation order by order in 1/(2 eta).", "quantifier": "for all rho below the turning point, orders 0 to 7", "why_tests_cant": "Symbolic identity in rho and eta.", "anchors": ["src/resonanceReconstruction/rmatrix/src/coh3-asympt.hpp"]}
{"id": "C58", "title": "Integration from the turning point uses steps within the mesh", "statement": "The values at the turning point are carried to rho in at least one step, each no longer than the mesh of 0.01.", "quantifier": "for all eta >= 15 and rho", "why_tests_cant": "Continuum; the wrong region is narrow.", "anchors": ["src/resonanceReconstruction/rmatrix/src/coh3-asympt.hpp"]}
{"id": "C59", "title": "Legacy compound systems: what is accepted, filled and tabulated", "statement": "A legacy compound system is accepted exactly when it has a group and no two groups share l and J; a resolved group fills elastic and capture and fission only if there is some; the rows of an unresolved table are those of the file.", "quantifier": "for all lists of spin groups, resonances and J values", "why_tests_cant": "Universal over lists.", "anchors": ["src/resonanceReconstruction/rmatrix/legacy/CompoundSystemBase/src/verifySpinGroups.hpp", "src/resonanceReconstruction/rmatrix/legacy/resolved/SpinGroup/SingleLevelBreitWigner/src/evaluate.hpp", "src/resonanceReconstruction/rmatrix/src/makeLegacyUnresolvedResonanceTable.hpp"]}
{"id": "C60", "title": "From the file to the cross sections", "statement": "Inside the energy range of a Breit-Wigner or unresolved range of a file, the reconstructor made by fromENDF returns the elastic, capture and fission cross sections that the ENDF formulae give for the parameters of the file.", "quantifier": "for all files, energies in range, and constants", "why_tests_cant": "Composition of dispatch, conversion, assembly and evaluation for all inputs.", "anchors": ["src/resonanceReconstruction/rmatrix/src/fromENDF.hpp", "src/resonanceReconstruction/rmatrix/Reconstructor.hpp"]}
{"id": "C61", "title": "Channels that share no resonance decouple", "statement": "If no resonance of a Reich-Moore spin group has a width both in a chosen set of channels and outside it, the cross sections for an incident channel of the set, capture included, are those of the set evaluated alone, and nothing goes to the other channels.", "quantifier": "for all spin groups, sets of channels, energies, boundary options and stored matrices", "why_tests_cant": "Universal over the sizes of the group and the continuum of energies and widths.", "anchors": ["src/resonanceReconstruction/rmatrix/RLMatrixCalculator/ReichMoore/src/call.hpp", "src/resonanceReconstruction/rmatrix/SpinGroup/src/evaluate.hpp"]}
{"id": "C62", "title": "Reich-Moore files in the newer interface, and the two interfaces compared", "statement": "For a Reich-Moore file the compound system of the newer interface adds exactly the elastic, capture and fission cross sections that the collision matrix of every l and signed J of the file gives, and potential scattering of every channel with l below NLSC the file does not have; it evaluates exactly if NLSC is at most five and no resonance at the energy lacks a capture width. The older interface gives the same capture and fission; the elastic cross section is the same if the file has every l below NLSC and one radius for each l with a missing J.", "quantifier": "for all files, energies, radii and constants", "why_tests_cant": "Agreement of two implementations over all files and the continuum of energies.", "anchors": ["src/resonanceReconstruction/rmatrix/src/makeReichMooreCompoundSystem.hpp", "src/resonanceReconstruction/reichMoore/Apply/src/call.hpp"]}
{"id": "C63", "title": "Quantum numbers in double arithmetic", "statement": "In IEEE double arithmetic the loops that list channel spins and total angular momenta end and give exactly the half-integers of the triangle rule, the quantum numbers of a pair, their retrieval and their text are those of exact half-integers, for spins up to 2^49; for spins beyond 2^53 the loop does not end.", "quantifier": "for all doubles that hold half-integers within the bound", "why_tests_cant": "Tests use a few small spins; exactness of repeated addition and termination of the loops are for all of them.", "anchors": ["src/resonanceReconstruction/rmatrix/src/possibleChannelSpinValues.hpp", "src/resonanceReconstruction/rmatrix/src/possibleChannelTotalAngularMomentumValues.hpp", "src/resonanceReconstruction/rmatrix/src/makeQuantumNumbers.hpp"]}
{"id": "C64", "title": "Rounding error of the hard-sphere penetrability and shift factor", "statement": "In IEEE double arithmetic, for every double ratio between 2^-50 and 2^50 and l up to 4, the penetrability and shift factor of both interfaces are finite and within a relative 41*2^-53 of those of the free waves, and so agree with each other within 82*2^-53; outside the range the result can overflow or be NaN.", "quantifier": "for all doubles in the range, all l up to 4", "why_tests_cant": "Tests compare a few arguments with printed digits; a rounding error bound is over all doubles.", "anchors": ["src/resonanceReconstruction/rmatrix/src/calculatePenetrability.hpp", "src/resonanceReconstruction/rmatrix/src/calculateShiftFactor.hpp", "src/resonanceReconstruction/src/penetrationShift.hpp"]}
{"id": "C65", "title": "Rounding error of the hard-sphere phase shift", "statement": "In IEEE double arithmetic, with an arc tangent good to one unit in the last place, for every double ratio between 2^-50 and 2^50 and l up to 4 both interfaces return a finite phase shift within 120*2^-53*(1+rho) of a phase of the free waves, also at the poles of the quotient; the cosine and sine of its double are within 240*2^-53*(1+rho). There is no bound on the relative error: for l=1 and rho=2^-40 it exceeds 100%.", "quantifier": "for all doubles in the range, all l up to 4, all accurate arc tangents", "why_tests_cant": "The neighbourhood of each pole and the cancellation at small ratios are not sampled; the bound is over all doubles.", "anchors": ["src/resonanceReconstruction/rmatrix/src/calculatePhaseShift.hpp", "src/resonanceReconstruction/src/phaseShift.hpp"]}
{"id": "C66", "title": "Other ways to write down the same spin group", "statement": "The cross sections of a spin group do not depend on the order of its resonances or channels, nor on sign conventions: the common sign of the reduced widths of a resonance, the sign of the eliminated width, or the sign of all reduced widths of one channel. For resonances the same holds for the T matrix and for whether a result exists.", "quantifier": "all spin groups accepted by the constructors, all permutations and sign choices, all energies, stored matrices, result maps, Coulomb functions and constants", "why_tests_cant": "The number of orders and signs grows factorially and exponentially with the data; a test fixes one of them.", "anchors": ["src/resonanceReconstruction/rmatrix/SpinGroup/src/evaluate.hpp", "src/resonanceReconstruction/rmatrix/SpinGroup/src/evaluateTMatrix.hpp", "src/resonanceReconstruction/rmatrix/RLMatrixCalculator/ReichMoore/src/call.hpp", "src/resonanceReconstruction/rmatrix/Resonance/src/rmatrix.hpp"]}
{"id": "C67", "title": "Unitarity limits", "statement": "Per incident channel, all reactions other than scattering together add at most pi/k^2 g, everything together at most 4 pi/k^2 g; with one incident channel the scattering y and the reactions x in units of pi/k^2 g satisfy (1-sqrt(1-x))^2 <= y <= (1+sqrt(1-x))^2.", "quantifier": "all spin groups of neutron, photon and fission channels accepted by the constructors, all energies where they evaluate, all resonances", "why_tests_cant": "A bound over all resonance parameters and energies; a test samples a few.", "anchors": ["src/resonanceReconstruction/rmatrix/SpinGroup/src/evaluate.hpp"]}
{"id": "C68", "title": "Cross sections are continuous in energy", "statement": "The cross sections of a spin group of neutron, photon and fission channels are continuous functions of the energy wherever no resonance without eliminated width sits, also where the code's phase shift jumps by pi, and also at the threshold of an exit channel provided its boundary condition is -l or the shift factor. With another constant boundary condition they jump at the threshold.", "quantifier": "all spin groups accepted by the constructors with any number of channels and resonances, l up to 4, all energies, stored matrices and result maps", "why_tests_cant": "Continuity is a statement about all nearby energies; a test compares finitely many, and misses jumps at thresholds and at poles of the phase shift formula.", "anchors": ["src/resonanceReconstruction/rmatrix/SpinGroup/src/evaluate.hpp", "src/resonanceReconstruction/rmatrix/RLMatrixCalculator/ReichMoore/src/call.hpp", "src/resonanceReconstruction/rmatrix/src/calculatePhaseShift.hpp", "src/resonanceReconstruction/rmatrix/Channel/src/belowThreshold.hpp"]}
{"id": "C69", "title": "One resonance: the single-level formula", "statement": "A spin group with one resonance and any number of channels without charge has exactly the cross sections of the single-level Breit-Wigner formula with level shift E_r - sum (S-B) gamma^2 and widths 2 P gamma^2 of the open channels; it can be evaluated exactly when the denominator of the formula is not zero.", "quantifier": "all spin groups accepted by the constructors with one resonance, any number of channels, all energies above and below thresholds, both boundary options", "why_tests_cant": "A formula over all widths, phases and numbers of channels; a test checks a few numbers.", "anchors": ["src/resonanceReconstruction/rmatrix/SpinGroup/src/evaluate.hpp", "src/resonanceReconstruction/rmatrix/RLMatrixCalculator/ReichMoore/src/call.hpp", "src/resonanceReconstruction/rmatrix/LMatrixCalculator/Constant/src/call.hpp"]}
{"id": "C70", "title": "ENDF particle pairs become particle pairs", "statement": "makeParticlePairs returns one particle pair for each column of the ENDF table of particle pairs, in their order.  Each particle has the mass of the column in neutron masses, the charge in elementary charges, the absolute value of the spin, and the parity given by the sign of the spin or, for a zero spin, by the parity field; the reduced mass and the mass ratio follow from these masses; the identifiers are those of the entrance channel for MT 2, those with the pair called fission for MT 18, and otherwise those of the elementary library.  Columns with a negative mass or charge are refused and all others accepted; fission is never taken for elastic scattering although its pair has the same particles.", "quantifier": "for all tables of particle pairs of any length, all identifiers and all tables of reaction products", "why_tests_cant": "The tests use a few files whose pairs are mostly neutron and photon pairs with positive parities; a swapped column, a lost sign or a mass of the wrong particle shows only for particular pairs.", "anchors": ["src/resonanceReconstruction/rmatrix/src/makeParticlePairs.hpp:28-101", "src/resonanceReconstruction/rmatrix/ParticlePair/src/ctor.hpp:13-22", "src/resonanceReconstruction/rmatrix/Particle/src/ctor.hpp:10-20"]}
{"id": "C71", "title": "Detailed balance", "statement": "Let a spin group be written down once with the entrance pair a and once with the entrance pair b (Q values counted from b, energies converted with the two mass ratios, reduced widths with the root of their quotient).  Whenever the first can be evaluated, so can the second at the corresponding energy, and the cross sections a -> b and b -> a satisfy (2 i_a + 1)(2 I_a + 1) k_a^2 sigma_ab = (2 i_b + 1)(2 I_b + 1) k_b^2 sigma_ba.", "quantifier": "for all spin groups with any number of channels and resonances and constant channel radii, charged or not, both boundary options, and all energies at which neither pair is at threshold", "why_tests_cant": "Needs two descriptions of one nucleus and a relation between values at different energies for every group; a wrong spin factor, a wave number from the wrong pair or a frame error in the Q value shows only in the comparison.", "anchors": ["src/resonanceReconstruction/rmatrix/SpinGroup/src/evaluate.hpp:7-108", "src/resonanceReconstruction/rmatrix/Channel/src/waveNumber.hpp:13-19", "src/resonanceReconstruction/rmatrix/Channel/src/belowThreshold.hpp:12-16", "src/resonanceReconstruction/rmatrix/Channel/src/ctor.hpp:29-33", "src/resonanceReconstruction/rmatrix/Resonance/src/rmatrix.hpp:26-47"]}
{"id": "C72", "title": "Rounding error from the energy to the penetrability", "statement": "Computed in double arithmetic from the masses, the Q value, the radius and the energy, the channel ratio k a has a relative error of at most 8.5 + 2.3 kappa half units, and the penetrability and shift factor of a neutron channel one of at most 42 + (2l+1)(9 + 3 kappa), where kappa = |E M/(m+M)| / |E M/(m+M) + Q| is the loss by cancellation (1 for elastic scattering).  In the older interface the bound is 42 + 9 (2l+1).", "quantifier": "for all masses, constants and radii between 2^-100 and 2^100, energies of either sign, Q values up to 2^100, kappa up to 2^30, orbital angular momenta up to 4 and channel ratios between 2^-49 and 2^49", "why_tests_cant": "A bound on the error of floating point code over all inputs, composed of some twenty rounded operations; tests compare a few points with tolerances chosen by hand.", "anchors": ["src/resonanceReconstruction/rmatrix/Channel/src/waveNumber.hpp:13-19", "src/resonanceReconstruction/rmatrix/Channel/src/penetrability.hpp:6-13", "src/resonanceReconstruction/rmatrix/ParticlePair/src/ctor.hpp:13-22", "src/resonanceReconstruction/src/neutronWaveNumber.hpp:11-20"]}
{"id": "C73", "title": "The threshold test in double arithmetic", "statement": "belowThreshold in double arithmetic gives the sign of the exact E M/(m+M) + Q.", "quantifier": "for all masses between 2^-100 and 2^100, energies of either sign and Q values up to 2^100", "why_tests_cant": "The failures are confined to a few units in the last place around the threshold, at energies no test lists.", "anchors": ["src/resonanceReconstruction/rmatrix/Channel/src/belowThreshold.hpp:12-16", "src/resonanceReconstruction/rmatrix/Channel/src/waveNumber.hpp:13-19"]}
{"id": "C74", "title": "The integration of the Coulomb equation", "statement": "omNewmark takes n steps of Newmark's method with beta = 1/10, each with an end acceleration that satisfies G'' = (2 eta/rho - 1) G to ten digits, and gives up, returning zeros, only where the acceleration all but vanishes.  The distance from any solution of the equation is bounded, the part made on the way being of second order in the step.  From the turning point towards the origin omAsymptotic never gives up, and returns values within that bound at rho.", "quantifier": "for all finite n, step, eta, start and start values (no position zero); all solutions and bounds of them; eta >= 15 and 5 eta/3 - 5 < rho < 2 eta for the last part", "why_tests_cant": "A convergence proof of an integrator for all step counts; a test sees one value and cannot tell the error of the method from that of the start values.", "anchors": ["src/resonanceReconstruction/rmatrix/src/coh3-asympt.hpp:188-222", "src/resonanceReconstruction/rmatrix/src/coh3-asympt.hpp:228-271"]}
{"id": "C75", "title": "The asymptotic expansion of the Coulomb function", "statement": "omGcase3 returns the sum of the terms c_k/rho^k with phase rho - eta ln 2 rho + sigma, where 2(k+1) c_(k+1) = ((2k+1) eta + i(eta^2 - k(k+1))) c_k, up to the last that shrinks, and the sum for the slope.  That is the derivative of the value, and the value solves the Coulomb equation but for one term, the next one.  If the Wronskian is off by more than 1e-6, the sums are those at rho + 5, and so on, but with the phase at rho.", "quantifier": "for all rho > 0, eta, sigma and numbers of terms", "why_tests_cant": "An identity in rho, eta and the number of terms; tests compare single values that are right to a few digits even with a wrong term.", "anchors": ["src/resonanceReconstruction/rmatrix/src/coh3-asympt.hpp:88-132"]}
{"id": "C76", "title": "The Coulomb phase", "statement": "The phase sigma0 that coulombWaveFunctions computes is the Coulomb phase for l = 0, the argument of Gamma(1 + i eta), to 1/(1512*4^7) < 5e-8, for every Sommerfeld parameter.  The phase is unique and odd in eta.", "quantifier": "for all real eta", "why_tests_cant": "The bound is uniform in an unbounded real parameter, and against the mathematical function, not against another program.", "anchors": ["src/resonanceReconstruction/rmatrix/src/coh3-coulomb.hpp:18-27"]}
{"id": "C77", "title": "Threshold laws", "statement": "If l is the smallest orbital angular momentum of the incident channels of a spin group, then as the energy tends to zero the cross sections of reactions, capture included, are proportional to E^(l - 1/2) (the 1/v law for l = 0) and the elastic one to E^(2l), with the coefficients of R-matrix theory taken with R_L at energy zero; for one s wave the elastic limit is 4 pi g |a' - a R_L|^2.", "quantifier": "for all spin groups of neutron, photon and fission channels with any number of channels and resonances, none of them at energy zero without an eliminated width", "why_tests_cant": "A limit at zero energy, where the evaluation itself divides by zero; tests evaluate at finite energies only.", "anchors": ["src/resonanceReconstruction/rmatrix/SpinGroup/src/evaluate.hpp:7-108", "src/resonanceReconstruction/rmatrix/src/calculatePenetrability.hpp:22-55", "src/resonanceReconstruction/rmatrix/src/calculatePhaseShift.hpp:22-50"]}
{"id": "C78", "title": "R-Matrix Limited widths end up in their place", "statement": "When R-Matrix Limited parameters become a compound system, every width of the file that is not zero is in the table of the spin group with its spin and parity, in the row of its energy and in the column of its channel (the capture width as the eliminated one), as it is if IFG is not 0 and as the reduced width with 2 P gamma^2 = |Gamma| and the sign of the width if IFG is 0; the tables contain no resonance, width or channel that is not in the file, and incident channels are kept without widths.  Well-formed files are accepted.  Radius tables with an interpolation type other than 1 to 5 are refused.", "quantifier": "for all R-Matrix Limited files with any number of pairs, spin groups, channels and resonances", "why_tests_cant": "The path from the file to the table goes through filtering, consolidation, sorting and regrouping; tests compare a few files.", "anchors": ["src/resonanceReconstruction/rmatrix/src/makeCompoundSystem.hpp:1-30", "src/resonanceReconstruction/rmatrix/src/makeParticleChannelData.hpp:198-338", "src/resonanceReconstruction/rmatrix/SpinGroup/src/makeResonanceTable.hpp", "src/resonanceReconstruction/rmatrix/src/makeChannelRadiusTable.hpp:1-61"]}
{"id": "C79", "title": "From R-Matrix Limited files to the cross sections", "statement": "When a file with R-Matrix Limited parameters (LRU 1, LRF 7) is read and reconstructed inside its energy range, every reaction gets the sum over the spin groups of the file of what the collision matrix of the lines of the group gives: the R matrix is the sum over the lines of gamma_i gamma_j / (E_r - E - i gamma_capture^2) with the reduced widths of the file, for the channels with widths and the incident channels in the order of the file, and the factor pi/k^2 g of an incident channel.  No other reaction appears.  It succeeds for channels without charge unless the energy is that of a line with a width but no capture width.  Intended but refuted: that the shift factor is used for exactly the pairs whose flag SHF asks for it; the code heeds the flag of the first pair only.", "quantifier": "for all R-Matrix Limited files with any number of pairs, spin groups, channels and resonances, and all energies of the range", "why_tests_cant": "Tests compare with stored cross sections of a few evaluations, most with SHF 0 everywhere; the claim relates every file to the formula of the format.", "anchors": ["src/resonanceReconstruction/rmatrix/src/fromENDF.hpp:62-108", "src/resonanceReconstruction/rmatrix/src/makeCompoundSystem.hpp:1-30", "src/resonanceReconstruction/rmatrix/src/makeParticleChannelData.hpp:198-338", "src/resonanceReconstruction/rmatrix/SpinGroup/src/evaluate.hpp:1-80", "src/resonanceReconstruction/rmatrix/CompoundSystem/src/evaluate.hpp"]}
{"id": "C80", "title": "Starting values at the turning point", "statement": "The values omGcase2 returns at rho = 2 eta are those of the expansion of the irregular Coulomb function about its turning point: the coefficients of eta^(1/6 - 2k/3) in G and of eta^(-1/6 - 2k/3) in G' are sqrt(pi) times what the unique series of polynomials that solves the Coulomb equation order by order in (2 eta)^(-2/3), and keeps the Wronskian, makes of Bi(0) = 1/(3^(1/6) Gamma(2/3)) and Bi'(0) = 3^(1/6)/Gamma(1/3).  Intended for all orders, refuted for the last one of G.", "quantifier": "for all eta > 0, orders 0 to 8; the theorems on expansions for all orders, all Airy functions and all rho > 0", "why_tests_cant": "A wrong digit in one of ten coefficients changes the result by less than any tolerance of a test; that the numbers are those of the expansion is a statement about a series, a limit and a differential equation.", "anchors": ["src/resonanceReconstruction/rmatrix/src/coh3-asympt.hpp:73-83"]}
{"id": "C81", "title": "The Coulomb functions far from the turning point", "statement": "For every eta >= 0 there is exactly one irregular Coulomb function G for l = 0: the solution of the Coulomb equation on rho > 0 that approaches cos(rho - eta ln 2 rho + sigma) with the Coulomb phase sigma.  Beyond the turning point the sum of any number of terms of the asymptotic expansion is as near to it as twice the first omitted term.  For eta < 5 and rho >= 2 eta + 10 omAsymptotic, with the phase of the code, therefore returns G to 1e-7 and its slope to 2e-7: the sum runs until its terms are below 1e-8 and passes the test with the Wronskian.  The claim leaves out the arguments at which the real parts of two of the first 18 terms agree to 16 digits, where the loop stops early.", "quantifier": "for all eta >= 0 and rho > 0, all numbers of terms; the code for all 0 <= eta < 5, rho >= 2 eta + 10", "why_tests_cant": "Tests compare a few values with tables; here the reference is the solution of the differential equation itself and the bound holds for all arguments.", "anchors": ["src/resonanceReconstruction/rmatrix/src/coh3-asympt.hpp:88-132", "src/resonanceReconstruction/rmatrix/src/coh3-asympt.hpp:228-271", "src/resonanceReconstruction/rmatrix/src/coh3-coulomb.hpp"]}
{"id": "C82", "title": "The Coulomb functions in the oscillating region", "statement": "Beyond the turning point the formula of omGcase4 solves the Coulomb equation up to fifth order in 1/(2 eta): what is left of orders 5, 6 and 7 is known exactly and the rest is bounded by a constant times (2 eta)^-8.  The formula takes no phase as an argument, yet far away its phase is the Coulomb phase to 5e-8 + 2e-5/eta^3.  For 5 <= eta < 15 and rho >= 2.5 eta + 7.5 omAsymptotic therefore returns the irregular Coulomb function G to 1/1000 and its slope to 1/100.", "quantifier": "for all eta >= 1/2 and rho >= 3 eta; the phase for all eta >= 4; the code for all 5 <= eta < 15 and rho >= 2.5 eta + 7.5", "why_tests_cant": "Tests compare a few values with tables; here the reference is the solution of the differential equation itself and the bound holds for all arguments.", "anchors": ["src/resonanceReconstruction/rmatrix/src/coh3-asympt.hpp:137-180", "src/resonanceReconstruction/rmatrix/src/coh3-asympt.hpp:228-271"]}
{"id": "C83", "title": "Which Breit-Wigner files give cross sections", "statement": "For a file in the single-level or multi-level Breit-Wigner format with sensible constants and l up to 4, in which no resonance (nor its partner in the competitive channel) is at zero energy and every l and J asked for has a channel of its own, the R-matrix interface makes the compound system, unless both signs of some J are given for the same l; then it throws, although the sign was used to look up the channel spin.  A system that was made is evaluated without trouble at E <> 0 exactly when no level has its pole on the real axis at E, in both formats.", "quantifier": "for all files, any number of resonances, all energies except 0 and the threshold of the competitive channel, all radii tables defined where they are read", "why_tests_cant": "Tests run a few evaluated files that work; which files are refused and at which energies the division fails needs all files.", "anchors": ["src/resonanceReconstruction/rmatrix/src/makeLegacyBreitWignerCompoundSystem.hpp:1-40", "src/resonanceReconstruction/rmatrix/src/makeLegacyBreitWignerSpinGroups.hpp:1-119", "src/resonanceReconstruction/rmatrix/legacy/CompoundSystemBase/src/verifySpinGroups.hpp:1-49", "src/resonanceReconstruction/rmatrix/legacy/resolved/SpinGroup/SingleLevelBreitWigner/src/evaluate.hpp"]}
{"id": "C84", "title": "The same resonances in three formats", "statement": "A file with one resonance for each l and J, no competitive width and one radius can be written in the formats LRF 1, 2 and 3; the Reich-Moore format splits the fission width in two parts with signs.  If the Breit-Wigner formats do not move the resonances (l = 0, or no neutron width, or equal shift factors at E and at the resonance) the elastic, capture and fission cross sections that the R-matrix interface gives for the three files are the same.  Without that condition they are not: the Breit-Wigner formats move a resonance with l = 1 by Gamma_n (S(Er) - S(E)) / (2 P(Er)), the Reich-Moore format does not.", "quantifier": "for all files and energies, any number of l values and resonances, all constants", "why_tests_cant": "The tests have separate files for each format and never compare formats.", "anchors": ["src/resonanceReconstruction/rmatrix/legacy/resolved", "src/resonanceReconstruction/rmatrix/src/makeLegacyBreitWignerSpinGroups.hpp:1-119", "src/resonanceReconstruction/rmatrix/src/makeReichMooreCompoundSystem.hpp", "src/resonanceReconstruction/rmatrix/SpinGroup/src/evaluateTMatrix.hpp", "src/resonanceReconstruction/rmatrix/src/fromENDF.hpp"]}
{"id": "C85", "title": "A Reich-Moore file rewritten in the R-Matrix Limited format", "statement": "A Reich-Moore file (LRF 3) can be rewritten in the R-Matrix Limited format (LRF 7): an elastic, a capture and possibly a fission pair, a spin group for every l and signed J with the same resonance energies and widths, and groups without resonances that bring the statistical weights of every l to 2l+1.  Wherever the first file gives cross sections, so does the second, and they are equal for every reaction.", "quantifier": "for all files with one fission width per resonance, any number of l values, J and resonances, any order of the groups, all energies and constants", "why_tests_cant": "The tests have separate files for the two formats and compare each with reference numbers; none converts a file.", "anchors": ["src/resonanceReconstruction/rmatrix/src/makeReichMooreCompoundSystem.hpp", "src/resonanceReconstruction/rmatrix/src/makeReichMooreChannelData.hpp", "src/resonanceReconstruction/rmatrix/src/makeCompoundSystem.hpp", "src/resonanceReconstruction/rmatrix/src/makeParticleChannelData.hpp", "src/resonanceReconstruction/rmatrix/src/makeParticlePairs.hpp", "src/resonanceReconstruction/rmatrix/src/fromENDF.hpp"]}
{"id": "C86", "title": "The fluctuation integrals are close to averages over chi-square distributions", "statement": "The fluctuation integrals stand for averages of Gamma_n Gamma_i / Gamma over independent widths that follow chi-square distributions with 1 to 4 degrees of freedom.  Times the average width, each integral of the code (three nested 10 point rules) differs from the improper triple integral by at most an explicit amount: the sum of a term for the neutron width (1e-4, 2.5e-3, 2.5e-6, 6.7e-4 for 1, 2, 3, 4 degrees of freedom) and, for fission and competition when they are there, a term for that width (2e-2, 2.3e-3, 1e-4, 5e-4).  The exact values add up to one.  The unresolved cross sections differ from the exact Hauser-Feshbach averages by at most these errors times the formation cross sections.", "quantifier": "for all widths (positive elastic, non-negative otherwise), all degrees of freedom that are accepted, all unresolved systems and energies", "why_tests_cant": "The tests compare with numbers computed by the same rules; the error of the rules is never measured, and its supremum over all ratios of widths is a continuum.", "anchors": ["src/resonanceReconstruction/rmatrix/legacy/unresolved/src/calculateFluctuationIntegrals.hpp", "src/resonanceReconstruction/rmatrix/legacy/unresolved/SpinGroup/src/evaluate.hpp", "src/resonanceReconstruction/rmatrix/legacy/unresolved/CompoundSystem.hpp"]}
{"id": "C87", "title": "The fluctuation integrals in double arithmetic", "statement": "The tables of the quadrature rules hold the doubles nearest to the decimal numbers.  Each fluctuation integral computed in double arithmetic, with up to 1000 terms added one by one, is the sum of the rules to a relative error of 1.2e-13, and times its width it is the average over chi-square distributions to the error of the rules (C86) plus 1.3e-13.  Nothing overflows, underflows harmfully or becomes NaN.", "quantifier": "for all doubles as widths between 2^-200 and 2^200, or zero except for the neutron width, and all degrees of freedom that are accepted", "why_tests_cant": "The tests compare a few results with reference values to 1e-6; rounding errors over all widths are a continuum of cases.", "anchors": ["src/resonanceReconstruction/rmatrix/legacy/unresolved/src/calculateFluctuationIntegrals.hpp", "src/resonanceReconstruction/rmatrix/legacy/Data.hpp"]}
{"id": "C88", "title": "Breit-Wigner cross sections in double arithmetic", "statement": "From the penetrabilities, shift factors and sines on, the single-level and multi-level Breit-Wigner cross sections computed in double arithmetic are finite, and up to rounding they are the exact formulas for levels whose distances from the energy are changed by at most 9*2^-53 (|E|+|Er|+|displacement|).  Capture and fission have the relative error 2(N+37)*2^-53 for N resonances, elastic scattering 2(N+50)*2^-53 relative to the sum of the magnitudes of its terms, and the interference of N(N-1)/2 pairs 2(N^2+83)*2^-53 relative to that of its terms.  Fission is left out only if it is zero.  With the exact distances the relative error of capture and fission is at most 4(N+37)*2^-53+5y if the change of each distance is at most y times the total width.", "quantifier": "for all doubles in the stated ranges (energies to 2^40, widths from 2^-40 to 2^40 or zero, penetrabilities from 2^-80 to 2^80; for the interference widths from 2^-30 to 2^30 and penetrabilities from 2^-35 to 2^35) and all numbers of resonances up to 2^40 (2^20 for the interference)", "why_tests_cant": "The tests compare cross sections at a few energies with reference values to 1e-5 or so; no test shows how far from a formula the results may be, or that intermediate results never overflow or cancel harmfully.", "anchors": ["src/resonanceReconstruction/rmatrix/legacy/resolved/Resonance.hpp", "src/resonanceReconstruction/rmatrix/legacy/resolved/SpinGroup/SingleLevelBreitWigner/src/evaluate.hpp", "src/resonanceReconstruction/rmatrix/legacy/resolved/SpinGroup/SingleLevelBreitWigner/src/precompute.hpp", "src/resonanceReconstruction/rmatrix/legacy/resolved/SpinGroup/MultiLevelBreitWigner/src/evaluate.hpp"]}
{"id": "C89", "title": "Competitive channel of Breit-Wigner files", "statement": "The single-level and multi-level Breit-Wigner cross sections of both interfaces are those of the ENDF rules for the competitive width: GX P_l(|E'|)/P_l(|Er'|) with E' = E + QX (A+1)/A where E' is positive, and zero below that threshold.  Provable part: they are if no resonance has a competitive width or QX is zero.  Below the threshold both interfaces still count the width, and the capture cross section they give is always smaller than that of the rules.", "quantifier": "for all Breit-Wigner files that the constructors accept, all energies and radii; for the inequality all files whose competitive channels are closed at the energy and one of whose resonances has a positive neutron, capture and competitive width", "why_tests_cant": "No test has a competitive width with a threshold between the energies that are tested; a wrong sign of QX or a missing threshold changes no reference value.", "anchors": ["src/resonanceReconstruction/breitWigner/singleLevel/Apply/src/lvalue.hpp", "src/resonanceReconstruction/breitWigner/lvalue/Type/src/competitiveWidth.hpp", "src/resonanceReconstruction/rmatrix/legacy/resolved/SpinGroup/SingleLevelBreitWigner/src/precompute.hpp", "src/resonanceReconstruction/rmatrix/legacy/resolved/SpinGroup/SingleLevelBreitWigner/src/evaluate.hpp", "src/resonanceReconstruction/rmatrix/src/makeLegacyBreitWignerSpinGroups.hpp"]}
{"id": "C90", "title": "Unresolved resonance cross sections in double arithmetic", "statement": "From the penetrability, the phase shift and the average parameters at an energy on, the unresolved resonance cross sections computed in double arithmetic are finite and those of the quadrature rules for the exact average neutron width up to a relative error of 1.2e-13; for elastic scattering the error is relative to the sum of the magnitudes of the fluctuation term and the interference with potential scattering.  They are those of averages over chi-square distributed widths up to 1.3e-13 plus 1.01 times the errors of the rules, relative to the cross section for compound nucleus formation.  Fission is left out only if its width is zero.", "quantifier": "for all doubles in the stated ranges (energies, level spacings and widths from 2^-40 to 2^40, widths other than the neutron width may be zero, penetrabilities from 2^-80 to 2^80, wave numbers from 2^-30 to 2^30, radii from 2^-20 to 2^20) and 1 to 4 degrees of freedom", "why_tests_cant": "The tests compare a few cross sections with reference values; none shows how far from the averages the results may be, or that the many intermediate results (up to 1000 terms for each integral) never overflow or accumulate error.", "anchors": ["src/resonanceReconstruction/rmatrix/legacy/unresolved/SpinGroup/src/evaluate.hpp", "src/resonanceReconstruction/rmatrix/legacy/unresolved/src/calculateFluctuationIntegrals.hpp"]}
{"id": "C91", "title": "Low energy limits of Breit-Wigner cross sections", "statement": "With fixed radii, both Breit-Wigner formats of both interfaces give cross sections at all small enough energies, with the limits of the textbook: sqrt(E) times capture and fission tend to the 1/v law of the s wave levels (reduced neutron width times the partial width over E_r^2 + Gamma(0)^2/4), elastic scattering tends to the square of the scattering length that potential and s wave levels have together, level by level in the single-level format and coherently for each J in the multi-level format, and levels with l > 0 do not count.", "quantifier": "for every file with non-negative widths, a positive sum of capture and fission width for each level, no level at zero energy or at the threshold of its competitive channel, and fixed radii; any number of l values, of levels and of groups; energies tend to zero from above", "why_tests_cant": "A limit is about infinitely many energies; the tests stop at a lowest energy where several terms still contribute.", "anchors": ["src/resonanceReconstruction/rmatrix/legacy/resolved/SpinGroup/SingleLevelBreitWigner/src/evaluate.hpp", "src/resonanceReconstruction/rmatrix/legacy/resolved/SpinGroup/MultiLevelBreitWigner/src/evaluate.hpp", "src/resonanceReconstruction/rmatrix/legacy/CompoundSystemBase/src/evaluate.hpp", "src/resonanceReconstruction/breitWigner/singleLevel/Resonance/src/call.hpp", "src/resonanceReconstruction/breitWigner/multiLevel/Lvalue/src/evaluate.hpp"]}
{"id": "C92", "title": "Conservation of flux in the Breit-Wigner formalisms", "statement": "The Breit-Wigner cross sections conserve flux: elastic scattering, capture, fission and the competitive reaction add up to the total cross section of the optical theorem, 2 pi/k^2 times the sum of g (1 - Re U), and they keep to the limits of a collision matrix of modulus one at most: capture and fission together pi/k^2 times the sum of 2l + 1, elastic scattering and the sum of all reactions four times that.", "quantifier": "for every file that either interface accepts, both formats, and every energy at which the cross sections are finite; any number of l values and of levels; the limits for files without negative widths", "why_tests_cant": "The competitive cross section is not returned, so tests cannot add up the reactions; the limits are about all files, and the files of the tests have well separated levels.", "anchors": ["src/resonanceReconstruction/rmatrix/legacy/resolved/SpinGroup/SingleLevelBreitWigner/src/evaluate.hpp", "src/resonanceReconstruction/rmatrix/legacy/resolved/SpinGroup/MultiLevelBreitWigner/src/evaluate.hpp", "src/resonanceReconstruction/rmatrix/legacy/CompoundSystemBase/src/evaluate.hpp", "src/resonanceReconstruction/breitWigner/singleLevel/Resonance/src/call.hpp", "src/resonanceReconstruction/breitWigner/multiLevel/Lvalue/src/evaluate.hpp"]}
{"id": "C93", "title": "The T matrix of a compound system", "statement": "The T matrix that a compound system returns is complete and unambiguous: no two spin groups write the same key when the channel identifiers are the generated ones, every group's entries are the elements of its own T matrix with the right channel pair, every other key of the caller's map is left as it was, the order of the groups does not matter, and the cross sections that the system returns at the same energy for reactions other than elastic scattering and capture are the sums of 4|T|^2 over the returned elements.", "quantifier": "for every accepted system of spin groups whose channels carry the generated identifiers, every energy at which every group's matrix is regular and every map handed in by the caller; any number of groups, channels and resonances", "why_tests_cant": "Keys are strings and a clash would silently overwrite an element; tests have one or two groups and never compare the T matrix of a system with its cross sections.", "anchors": ["src/resonanceReconstruction/rmatrix/CompoundSystem/src/evaluateTMatrix.hpp", "src/resonanceReconstruction/rmatrix/CompoundSystem/src/evaluate.hpp", "src/resonanceReconstruction/rmatrix/CompoundSystem/src/verifySpinGroups.hpp", "src/resonanceReconstruction/rmatrix/SpinGroup/src/evaluateTMatrix.hpp", "src/resonanceReconstruction/rmatrix/Channel/src/ctor.hpp"]}
{"id": "C94", "title": "The irregular Coulomb function towards the origin", "statement": "Between the origin and the point from which its expansions are used, omAsymptotic integrates the Coulomb equation inwards from the values of the expansion.  What it returns is the irregular Coulomb function and its slope at rho: the error at the start grows at most by the factor (ra/rho)^eta, by which the equation differs from an oscillator, and a factor exp of the distance times the step of 0.01; the error made on the way is of second order in the step (at most 3/10 of the third and 1/10 of the fourth derivative per unit of distance).  It returns zeros instead only if the acceleration vanishes on the way, which it does not while the function keeps away from zero.", "quantifier": "for all 0 <= eta < 5 and rho < 2 eta + 10, and all 5 <= eta < 15 and 2 eta < rho < 2.5 eta + 7.5, with 2 eta/rho - 1 at most 10, start values larger than the error of the expansion there, and no two consecutive terms of the expansion equal to sixteen digits below eta = 5; any number of steps", "why_tests_cant": "Tests compare a few points with tables; they do not say how an error at the start reaches rho, and the constants of the bound hold for all arguments.", "anchors": ["src/resonanceReconstruction/rmatrix/src/coh3-asympt.hpp"]}
{"id": "C95", "title": "Breit-Wigner cross sections do not jump", "statement": "Wherever the single-level or multi-level Breit-Wigner format of either interface gives finite cross sections, it gives finite ones at all energies around, and elastic scattering, capture and fission are continuous there: also at the threshold of a competitive channel, and where the hard-sphere phase shift jumps by pi because std::atan only has values between -pi/2 and pi/2.", "quantifier": "for every file that the interface accepts, radii that are fixed or tabulated without jumps, and every energy with finite cross sections; any number of l values and of levels", "why_tests_cant": "Continuity is about all energies around a point; tests compare single energies, and a jump between two of them goes unseen.", "anchors": ["src/resonanceReconstruction/breitWigner/singleLevel/Resonance/src/call.hpp", "src/resonanceReconstruction/breitWigner/multiLevel/Lvalue/src/evaluate.hpp", "src/resonanceReconstruction/src/phaseShift.hpp", "src/resonanceReconstruction/rmatrix/legacy/resolved/SpinGroup/SingleLevelBreitWigner/src/evaluate.hpp", "src/resonanceReconstruction/rmatrix/legacy/resolved/SpinGroup/MultiLevelBreitWigner/src/evaluate.hpp"]}
{"id": "C96", "title": "Reich-Moore cross sections of the older interface do not jump", "statement": "Wherever the older Reich-Moore interface gives finite cross sections, it gives finite ones at all energies around, and elastic scattering, capture and fission are continuous there, with or without fission, although the code changes between formulas and the hard-sphere phase shift jumps by pi.", "quantifier": "for every file without negative capture widths that the interface accepts, each NRO and NAPS, radii that are fixed or tabulated without jumps, and every energy with finite cross sections; any number of l values, of levels and of groups", "why_tests_cant": "Continuity is about all energies around a point; tests compare single energies, and a jump between two of them goes unseen.", "anchors": ["src/resonanceReconstruction/reichMoore/Lvalue/src/call.hpp", "src/resonanceReconstruction/reichMoore/Lvalue/src/solveRmatrix.hpp", "src/resonanceReconstruction/reichMoore/Lvalue/src/solveRfunction.hpp", "src/resonanceReconstruction/reichMoore/Resonance/src/call.hpp", "src/resonanceReconstruction/reichMoore/Base/src/evaluate.hpp"]}
{"id": "C97", "title": "Fluctuation integrals do not jump, except where a width starts from zero", "statement": "With widths that change continuously with the energy the fluctuation integrals of the unresolved range change continuously, also where a fission or competitive channel opens.", "quantifier": "for all widths that are not negative, with a positive neutron width, and all degrees of freedom from 1 to 4", "why_tests_cant": "The jump at an opening channel is between 2.7e-9 and 2.4e-4 of the integrals; tests evaluate either with or without the channel, never the limit between both.", "anchors": ["src/resonanceReconstruction/rmatrix/legacy/unresolved/src/calculateFluctuationIntegrals.hpp"]}
{"id": "C98", "title": "Unresolved cross sections depend on the ratios of widths and spacings only", "statement": "Multiplying the level spacings and all average widths of all spin groups by the same number changes neither the cross sections nor the errors; the fluctuation integrals are divided by that number.", "quantifier": "for every system, any number of groups and of tabulated energies, every energy and every number but zero", "why_tests_cant": "Tests use single tables and never the same table in two units; a width that is left unscaled in one branch of the integrals changes only files with fission or competition.", "anchors": ["src/resonanceReconstruction/rmatrix/legacy/unresolved/src/calculateFluctuationIntegrals.hpp", "src/resonanceReconstruction/rmatrix/legacy/unresolved/SpinGroup/src/evaluate.hpp", "src/resonanceReconstruction/rmatrix/legacy/CompoundSystemBase/src/evaluate.hpp"]}
{"id": "C99", "title": "Unresolved cross sections do not jump, except where a width starts from zero", "statement": "Wherever the interface for unresolved resonances gives finite cross sections, at or between tabulated energies, it gives finite ones at all energies around, and each cross section is continuous there, although interpolation, fluctuation integrals and hard-sphere phase shift change between formulas.", "quantifier": "for every file the interface accepts, each representation, NRO and NAPS, radii that are fixed or tabulated without jumps, increasing energies, and every positive energy inside all tables; any number of l values, J values and energies", "why_tests_cant": "Continuity is about all energies around a point; tests compare single energies, and a jump between two of them goes unseen.", "anchors": ["src/resonanceReconstruction/rmatrix/legacy/unresolved/SpinGroup/src/evaluate.hpp", "src/resonanceReconstruction/rmatrix/legacy/unresolved/ResonanceTable/src/call.hpp", "src/resonanceReconstruction/rmatrix/legacy/unresolved/src/calculateFluctuationIntegrals.hpp", "src/resonanceReconstruction/rmatrix/legacy/CompoundSystemBase/src/evaluate.hpp"]}
{"id": "C100", "title": "The units of energy and length do not matter for Breit-Wigner cross sections", "statement": "In the R-matrix interface, multiplying all energies, widths and Q values of a Breit-Wigner file by the square of t and dividing its radii by t divides every cross section by the square of t at the corresponding energy, for single level and multilevel formulas alike, and leaves errors as they are; only NAPS = 0 is excepted, where the radius is derived from the mass in fixed units.", "quantifier": "for every file, any number of l values, J values and levels, constant or tabulated radii, every energy, every previous map of cross sections and every t > 0", "why_tests_cant": "Tests compare with tabulated numbers in eV; a quantity of the wrong dimension (a width where its square is due, an energy taken for a radius) still gives plausible numbers, and no test evaluates one file in two systems of units.", "anchors": ["src/resonanceReconstruction/rmatrix/legacy/resolved/SpinGroup/SingleLevelBreitWigner/src/evaluate.hpp", "src/resonanceReconstruction/rmatrix/legacy/resolved/SpinGroup/SingleLevelBreitWigner/src/precompute.hpp", "src/resonanceReconstruction/rmatrix/legacy/resolved/SpinGroup/MultiLevelBreitWigner/src/evaluate.hpp", "src/resonanceReconstruction/rmatrix/legacy/CompoundSystemBase/src/evaluate.hpp"]}
{"id": "C101", "title": "The units of energy and length do not matter for Breit-Wigner cross sections of the older interface", "statement": "Multiplying all energies, widths and Q values of a Breit-Wigner file by the square of t and dividing its radii by t divides every cross section of the older interface by the square of t at the corresponding energy, for single level and multilevel formulas alike, and leaves errors as they are; only NAPS = 0 is excepted, where the radius is derived from the mass in fixed units.", "quantifier": "for every file, any number of l values and levels, constant or tabulated radii, every energy and every t > 0; every sort that looks at the statistical factors only", "why_tests_cant": "Tests compare with tabulated numbers in eV; a quantity of the wrong dimension still gives plausible numbers, and no test evaluates one file in two systems of units.", "anchors": ["src/resonanceReconstruction/breitWigner/singleLevel/Resonance/src/call.hpp", "src/resonanceReconstruction/breitWigner/multiLevel/Lvalue/src/evaluate.hpp", "src/resonanceReconstruction/breitWigner/singleLevel/Base/src/evaluate.hpp", "src/resonanceReconstruction/breitWigner/singleLevel/Apply/src/resonance.hpp"]}
{"id": "C102", "title": "The units of energy and length do not matter for Reich-Moore cross sections of the older interface", "statement": "Multiplying all energies and widths of a Reich-Moore file by the square of t and dividing AP, APL and the tabulated radius by t divides every cross section of the older interface by the square of t at the corresponding energy and leaves errors as they are; only NAPS = 0 is excepted, where the radius is derived from the mass in fixed units.", "quantifier": "for every file, any number of l values and levels, constant or tabulated radii, every energy and every t > 0; every sort that looks at the statistical factors only", "why_tests_cant": "Tests compare with tabulated numbers in eV; a quantity of the wrong dimension still gives plausible numbers, and no test evaluates one file in two systems of units.", "anchors": ["src/resonanceReconstruction/reichMoore/Resonance/src/call.hpp", "src/resonanceReconstruction/reichMoore/Lvalue/src/call.hpp", "src/resonanceReconstruction/reichMoore/Base/src/evaluate.hpp", "src/resonanceReconstruction/reichMoore/Apply/src/lvalue.hpp"]}
{"id": "C103", "title": "The units of energy and length do not matter for cross sections of the unresolved range", "statement": "Multiplying the energies, level spacings and average widths of the unresolved resonances by the square of t, the reduced neutron widths (whose unit is the root of an energy) by t, and dividing the radii by t divides every cross section by the square of t at the corresponding energy and leaves errors as they are.", "quantifier": "for every system, any number of groups and of tabulated energies, every energy, every previous map of cross sections and every t > 0", "why_tests_cant": "Tests compare with tabulated numbers in eV; a missing root of the energy or a radius of the wrong channel still gives plausible numbers, and no test evaluates one table in two systems of units.", "anchors": ["src/resonanceReconstruction/rmatrix/legacy/unresolved/SpinGroup/src/evaluate.hpp", "src/resonanceReconstruction/rmatrix/legacy/unresolved/ResonanceTable/src/call.hpp", "src/resonanceReconstruction/rmatrix/legacy/unresolved/src/calculateFluctuationIntegrals.hpp", "src/resonanceReconstruction/rmatrix/legacy/CompoundSystemBase/src/evaluate.hpp"]}
