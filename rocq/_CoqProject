-Q theories Verif
theories/Outcome.v
theories/QuantumModel.v
theories/QuantumSpec.v
theories/QuantumProofs.v
theories/QuantumIdProofs.v
theories/SpinFactorModel.v
theories/SpinFactorProofs.v
theories/QuantumProperties.v
theories/HardSphereModel.v
theories/HardSphereSpec.v
theories/HardSphereProofs.v
theories/HardSphereProperties.v
theories/KinematicsModel.v
theories/KinematicsProofs.v
theories/KinematicsProperties.v
theories/CoulombModel.v
theories/CoulombProofs.v
theories/CoulombProperties.v
theories/Cplx.v
theories/RMatrixModel.v
theories/RMatrixSpec.v
theories/RMatrixProofs.v
theories/RMatrixCodeProofs.v
theories/RMatrixObservableProofs.v
theories/ChannelModel.v
theories/SpinGroupModel.v
theories/SpinGroupSpec.v
theories/SpinGroupProofs.v
theories/SpinGroupEvalProofs.v
theories/SpinGroupSystemProofs.v
theories/SpinGroupChannelProofs.v
theories/SpinGroupTheorems.v
theories/SpinGroupExample.v
theories/SpinGroupCoulombProofs.v
theories/SpinGroupProperties.v
theories/BreitWignerModel.v
theories/LegacyModel.v
theories/BreitWignerSpec.v
theories/ListFacts.v
theories/BreitWignerProofs.v
theories/BreitWignerSystemProofs.v
theories/LegacyProofs.v
theories/LegacySystemProofs.v
theories/BreitWignerTheory.v
theories/BreitWignerTheorems.v
theories/BreitWignerCases.v
theories/BreitWignerWitness.v
theories/BreitWignerProperties.v
theories/KMatrixModel.v
theories/KMatrixSpec.v
theories/KMatrixProofs.v
theories/KMatrixMore.v
theories/ReichMooreModel.v
theories/ReichMooreSpec.v
theories/ReichMooreProofs.v
theories/ReichMooreFile.v
theories/ReichMooreWeights.v
theories/ReichMooreTheory.v
theories/ReichMooreCases.v
theories/ReichMooreProperties.v
theories/UnresolvedModel.v
theories/UnresolvedSpec.v
theories/UnresolvedProofs.v
theories/UnresolvedSystemProofs.v
theories/UnresolvedTheorems.v
theories/UnresolvedProperties.v
theories/GridModel.v
theories/GridSpec.v
theories/GridProofs.v
theories/GridTheorems.v
theories/GridProperties.v
theories/AssemblyModel.v
theories/AssemblySpec.v
theories/AssemblyProofs.v
theories/AssemblyTheorems.v
theories/AssemblyProperties.v
theories/CoulombWaveModel.v
theories/CoulombWaveSpec.v
theories/CoulombWaveProofs.v
theories/CoulombExactModel.v
theories/CoulombExactProofs.v
theories/CoulombNeutralProofs.v
theories/CoulombRefutedProofs.v
theories/CoulombNanProofs.v
theories/CoulombRealProofs.v
theories/CoulombRiccatiProofs.v
theories/CoulombOscillationProofs.v
theories/CoulombMeshProofs.v
theories/CoulombZeroProofs.v
theories/CoulombWaveProperties.v
theories/CoulombStartProperties.v
theories/EndfModel.v
theories/EndfSpec.v
theories/EndfProofs.v
theories/EndfFlagProofs.v
theories/EndfReichMooreProofs.v
theories/EndfTheorems.v
theories/EndfProperties.v
theories/LegacyCheckTheorems.v
theories/ReconstructionTheorems.v
theories/ReconstructionProperties.v
theories/DecoupleSpec.v
theories/DecoupleProofs.v
theories/DecoupleTheorems.v
theories/DecoupleProperties.v
theories/NewerBlock.v
theories/NewerItems.v
theories/NewerGroup.v
theories/NewerSystem.v
theories/NewerRMSpec.v
theories/NewerFacts.v
theories/NewerSuccess.v
theories/NewerFile.v
theories/NewerWhole.v
theories/NewerTheorems.v
theories/NewerAgreement.v
theories/NewerFrom.v
theories/NewerCases.v
theories/NewerProperties.v
theories/DoubleModel.v
theories/DoubleSpec.v
theories/DoubleProofs.v
theories/DoubleProperties.v
theories/RoundingModel.v
theories/RoundingSpec.v
theories/RoundingProofs.v
theories/RoundingProperties.v
theories/PhaseRoundingModel.v
theories/PhaseRoundingSpec.v
theories/PhaseRoundingProofs.v
theories/PhaseRoundingCases.v
theories/PhaseRoundingProperties.v
theories/SymmetrySpec.v
theories/SymmetryProofs.v
theories/SymmetryChannelProofs.v
theories/SymmetryTheorems.v
theories/SymmetryProperties.v
theories/LimitSpec.v
theories/LimitProofs.v
theories/LimitProperties.v
theories/ContinuityProofs.v
theories/ContinuityMatrixProofs.v
theories/ContinuitySpec.v
theories/ContinuityChannelProofs.v
theories/ContinuityTheorems.v
theories/SingleLevelSpec.v
theories/SingleLevelProofs.v
theories/ContinuityCases.v
theories/ContinuityProperties.v
theories/SingleLevelProperties.v
theories/EndfPairSpec.v
theories/EndfPairProofs.v
theories/EndfPairProperties.v
theories/TripleProofs.v
theories/TripleProperties.v
theories/ReciprocitySpec.v
theories/ReciprocityProofs.v
theories/ReciprocityProperties.v
theories/ChannelRoundingModel.v
theories/ChannelRoundingSpec.v
theories/ChannelRoundingProofs.v
theories/ChannelRoundingProperties.v
theories/NewmarkSpec.v
theories/NewmarkProofs.v
theories/NewmarkErrorProofs.v
theories/NewmarkTheorems.v
theories/CoulombSeriesProofs.v
theories/NewmarkProperties.v
theories/AsymptoticSpec.v
theories/AsymptoticProofs.v
theories/AsymptoticProperties.v
theories/SigmaSpec.v
theories/SigmaProofs.v
theories/SigmaTheorems.v
theories/SigmaProperties.v
theories/WignerSpec.v
theories/HardSphereThresholdProofs.v
theories/WignerProofs.v
theories/WignerTheorems.v
theories/WignerCases.v
theories/WignerProperties.v
theories/LimitedSpec.v
theories/LimitedProofs.v
theories/LimitedTheorems.v
theories/LimitedAcceptProofs.v
theories/LimitedCases.v
theories/LimitedProperties.v
theories/LimitedFileSpec.v
theories/LimitedFileProofs.v
theories/LimitedRowProofs.v
theories/LimitedCrossSpec.v
theories/LimitedCrossProofs.v
theories/LimitedFrom.v
theories/LimitedFlagProofs.v
theories/LimitedFlagCases.v
theories/LimitedCrossProperties.v
theories/TurningSpec.v
theories/TurningSeries.v
theories/TurningProofs.v
theories/TurningSolve.v
theories/TurningExpansion.v
theories/GammaThirds.v
theories/TurningNumbers.v
theories/TurningCode.v
theories/AiryProofs.v
theories/TurningProperties.v
theories/IrregularSpec.v
theories/IrregularSeries.v
theories/IrregularProofs.v
theories/IrregularFar.v
theories/IrregularCode.v
theories/IrregularCases.v
theories/IrregularProperties.v
theories/OscillationSpec.v
theories/OscillationEquation.v
theories/OscillationBound.v
theories/OscillationPhase.v
theories/OscillationFar.v
theories/OscillationCode.v
theories/OscillationProperties.v
theories/FormatsLevel.v
theories/FormatsSpec.v
theories/FormatsProofs.v
theories/FormatsFrom.v
theories/LegacyTotalSpec.v
theories/LegacyTotal.v
theories/FormatsCases.v
theories/LegacyTotalProperties.v
theories/FormatsProperties.v
theories/ConversionSpec.v
theories/ConversionProofs.v
theories/ConversionTheorems.v
theories/ConversionFrom.v
theories/ConversionCases.v
theories/ConversionProperties.v
theories/FluctuationSpec.v
theories/ImproperProofs.v
theories/ChiSquareProofs.v
theories/PositivityProofs.v
theories/RuleErrorProofs.v
theories/FluctuationProofs.v
theories/FluctuationTheorems.v
theories/FluctuationSystem.v
theories/FluctuationCases.v
theories/FluctuationProperties.v
theories/FluctuationRoundingModel.v
theories/FluctuationRoundingSpec.v
theories/FluctuationRoundingProofs.v
theories/FluctuationLiteralProofs.v
theories/FluctuationRoundingTheorems.v
theories/FluctuationRoundingSystem.v
theories/FluctuationRoundingProperties.v
theories/CloseProofs.v
theories/BreitWignerRoundingModel.v
theories/BreitWignerRoundingSpec.v
theories/BreitWignerRoundingProofs.v
theories/BreitWignerRoundingTheorems.v
theories/BreitWignerRoundingSystem.v
theories/BreitWignerRoundingCases.v
theories/BreitWignerRoundingProperties.v
theories/CompetitionSpec.v
theories/CompetitionProofs.v
theories/CompetitionTheorems.v
theories/CompetitionProperties.v
theories/UnresolvedRoundingModel.v
theories/UnresolvedRoundingSpec.v
theories/UnresolvedRoundingProofs.v
theories/UnresolvedRoundingTheorems.v
theories/UnresolvedRoundingCases.v
theories/UnresolvedRoundingProperties.v
theories/LowEnergySpec.v
theories/LowEnergyProofs.v
theories/LowEnergyFile.v
theories/LowEnergyTheorems.v
theories/LowEnergyCases.v
theories/LowEnergyProperties.v
theories/FluxSpec.v
theories/FluxProofs.v
theories/FluxTheorems.v
theories/FluxCases.v
theories/FluxProperties.v
theories/SystemTSpec.v
theories/SystemTProofs.v
theories/SystemTCases.v
theories/SystemTProperties.v
theories/InwardSpec.v
theories/InwardProofs.v
theories/InwardTheorems.v
theories/InwardCases.v
theories/InwardFive.v
theories/InwardProperties.v
theories/JumpSpec.v
theories/JumpProofs.v
theories/JumpSystem.v
theories/JumpLegacy.v
theories/JumpTheorems.v
theories/JumpCases.v
theories/JumpProperties.v
theories/JumpMatrix.v
theories/JumpReichMoore.v
theories/JumpNegative.v
theories/JumpReichMooreProperties.v
theories/OpeningSpec.v
theories/OpeningProofs.v
theories/OpeningProperties.v
theories/RatioSpec.v
theories/RatioProofs.v
theories/RatioProperties.v
theories/JumpUnresolvedSpec.v
theories/JumpUnresolved.v
theories/JumpOpening.v
theories/JumpUnresolvedProperties.v
theories/UnitsSpec.v
theories/UnitsProofs.v
theories/UnitsDerived.v
theories/UnitsProperties.v
theories/UnitsOldSpec.v
theories/UnitsOldProofs.v
theories/UnitsOldProperties.v
theories/UnitsRMSpec.v
theories/UnitsRMProofs.v
theories/UnitsRMProperties.v
theories/UnitsUnresolvedSpec.v
theories/UnitsUnresolvedProofs.v
theories/UnitsUnresolvedProperties.v
