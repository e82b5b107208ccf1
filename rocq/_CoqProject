-Q theories Verif

theories/Model/Base.v
theories/Model/Coeffs.v
theories/Model/Collocation.v
theories/Model/CyclicBuffer.v
theories/Model/Enums.v
theories/Model/Erk.v
theories/Model/ErkCoeffs.v
theories/Model/Examples.v
theories/Model/IntFuns.v
theories/Model/Irk.v
theories/Model/IrkCoeffs.v
theories/Model/LinAlg.v
theories/Model/Multistep.v
theories/Model/Newton.v
theories/Model/Options.v
theories/Model/Scalar.v
theories/Model/StabRegion.v
theories/Model/TestEquations.v
theories/Model/Timer.v
theories/Spec/AbStabilitySpec.v
theories/Spec/BdfLinearSpec.v
theories/Spec/BdfStabilitySpec.v
theories/Spec/CollocationSpec.v
theories/Spec/ComplexSpec.v
theories/Spec/ConvergenceSpec.v
theories/Spec/Covariance.v
theories/Spec/Determinism.v
theories/Spec/ErkSame.v
theories/Spec/ErkSpec.v
theories/Spec/ExamplesSpec.v
theories/Spec/F64Spec.v
theories/Spec/IrkRunSpec.v
theories/Spec/IrkSpec.v
theories/Spec/IrkTotalSpec.v
theories/Spec/JacobianSpec.v
theories/Spec/LocalitySpec.v
theories/Spec/Methods.v
theories/Spec/MsLocalitySpec.v
theories/Spec/MultistepSpec.v
theories/Spec/NewtonLocalSpec.v
theories/Spec/NewtonSpec.v
theories/Spec/Observe.v
theories/Spec/OscillatorSpec.v
theories/Spec/Prefix.v
theories/Spec/Reported.v
theories/Spec/RkSpec.v
theories/Spec/Shift.v
theories/Spec/SignSpec.v
theories/Spec/SmallSpecs.v
theories/Spec/StabilitySpec.v
theories/Spec/Sums.v
theories/Spec/TestEquationsSpec.v
theories/Spec/Trees.v
theories/Spec/Units.v
theories/Proofs/AbCovariance.v
theories/Proofs/AbCovarianceExamples.v
theories/Proofs/AbStability.v
theories/Proofs/AbStabilityExamples.v
theories/Proofs/AlgStable.v
theories/Proofs/AlgStableTables.v
theories/Proofs/BdfDamping.v
theories/Proofs/BdfDampingExamples.v
theories/Proofs/BdfDependence.v
theories/Proofs/BdfLinear.v
theories/Proofs/BdfLinearExamples.v
theories/Proofs/BdfStability.v
theories/Proofs/BdfStabilityExamples.v
theories/Proofs/BroydenReal.v
theories/Proofs/ChoiceInstance.v
theories/Proofs/ChoiceLU.v
theories/Proofs/CoeffsProofs.v
theories/Proofs/Coercive.v
theories/Proofs/CoerciveExamples.v
theories/Proofs/CoerciveRuns.v
theories/Proofs/CoerciveTables.v
theories/Proofs/CollocationGeneric.v
theories/Proofs/CollocationProofs.v
theories/Proofs/Convergence.v
theories/Proofs/ConvergenceAb.v
theories/Proofs/ConvergenceAdaptive.v
theories/Proofs/ConvergenceBdf.v
theories/Proofs/ConvergenceErk.v
theories/Proofs/ConvergenceExamples.v
theories/Proofs/ConvergenceIrk.v
theories/Proofs/ConvergenceIrkExamples.v
theories/Proofs/Covariance.v
theories/Proofs/CovarianceExamples.v
theories/Proofs/CyclicBufferProofs.v
theories/Proofs/DenseExact.v
theories/Proofs/DenseProofs.v
theories/Proofs/DeterminismExamples.v
theories/Proofs/EmbeddedError.v
theories/Proofs/EnumsProofs.v
theories/Proofs/Equilibrium.v
theories/Proofs/ErkBounded.v
theories/Proofs/ErkClock.v
theories/Proofs/ErkCoeffsProofs.v
theories/Proofs/ErkExact.v
theories/Proofs/ErkExamples.v
theories/Proofs/ErkF64.v
theories/Proofs/ErkF64Fixed.v
theories/Proofs/ErkF64Times.v
theories/Proofs/ErkFinal.v
theories/Proofs/ErkFsal.v
theories/Proofs/ErkGeneric.v
theories/Proofs/ErkNan.v
theories/Proofs/ErkProofs.v
theories/Proofs/ErkReal.v
theories/Proofs/ErkRun.v
theories/Proofs/ErkShift.v
theories/Proofs/ErkTimes.v
theories/Proofs/ErkTotal.v
theories/Proofs/ErkUnits.v
theories/Proofs/ExactInstance.v
theories/Proofs/ExamplesExamples.v
theories/Proofs/ExamplesFile.v
theories/Proofs/ExamplesMain.v
theories/Proofs/ExamplesParse.v
theories/Proofs/F64Clock.v
theories/Proofs/F64Steps.v
theories/Proofs/F64Stuck.v
theories/Proofs/IntFunsProofs.v
theories/Proofs/IrkBounded.v
theories/Proofs/IrkCoeffsProofs.v
theories/Proofs/IrkDependence.v
theories/Proofs/IrkDependenceExamples.v
theories/Proofs/IrkEmbedded.v
theories/Proofs/IrkExact.v
theories/Proofs/IrkExamples.v
theories/Proofs/IrkF64Final.v
theories/Proofs/IrkF64Times.v
theories/Proofs/IrkFacts.v
theories/Proofs/IrkFactsC85.v
theories/Proofs/IrkFinal.v
theories/Proofs/IrkGeneric.v
theories/Proofs/IrkInverse.v
theories/Proofs/IrkLipschitz.v
theories/Proofs/IrkLipschitzExamples.v
theories/Proofs/IrkMaster.v
theories/Proofs/IrkMerge.v
theories/Proofs/IrkProofs.v
theories/Proofs/IrkReal.v
theories/Proofs/IrkRefresh.v
theories/Proofs/IrkResults.v
theories/Proofs/IrkReturns.v
theories/Proofs/IrkRun.v
theories/Proofs/IrkShort.v
theories/Proofs/IrkShortNear.v
theories/Proofs/IrkSmall.v
theories/Proofs/IrkStages.v
theories/Proofs/IrkStart.v
theories/Proofs/IrkSteps.v
theories/Proofs/IrkTimes.v
theories/Proofs/IrkTotal.v
theories/Proofs/IrkTotalExamples.v
theories/Proofs/JacobianProofs.v
theories/Proofs/JacobianReal.v
theories/Proofs/LinearKernel.v
theories/Proofs/Locality.v
theories/Proofs/LocalityExamples.v
theories/Proofs/LocalityFinal.v
theories/Proofs/Lockstep.v
theories/Proofs/LockstepFinal.v
theories/Proofs/LoopProofs.v
theories/Proofs/MatchTac.v
theories/Proofs/Mesh.v
theories/Proofs/MsWindow.v
theories/Proofs/MsWindowExamples.v
theories/Proofs/MultistepConvExamples.v
theories/Proofs/MultistepCopy.v
theories/Proofs/MultistepExamples.v
theories/Proofs/MultistepF64.v
theories/Proofs/MultistepOrders.v
theories/Proofs/MultistepProofs.v
theories/Proofs/MultistepReal.v
theories/Proofs/MultistepResults.v
theories/Proofs/MultistepTotal.v
theories/Proofs/NaiveInstance.v
theories/Proofs/Neumann.v
theories/Proofs/NewtonCounts.v
theories/Proofs/NewtonExamples.v
theories/Proofs/NewtonFinal.v
theories/Proofs/NewtonLocal.v
theories/Proofs/NewtonLocalExamples.v
theories/Proofs/NewtonLocality.v
theories/Proofs/NewtonLog.v
theories/Proofs/NewtonProofs.v
theories/Proofs/NewtonReal.v
theories/Proofs/NewtonTotal.v
theories/Proofs/Nodes.v
theories/Proofs/OptionsProofs.v
theories/Proofs/OrderProofs.v
theories/Proofs/OrderTheory.v
theories/Proofs/Oscillator.v
theories/Proofs/OscillatorExamples.v
theories/Proofs/Perturb.v
theories/Proofs/PerturbExamples.v
theories/Proofs/Picard.v
theories/Proofs/PrefixExamples.v
theories/Proofs/QuadField.v
theories/Proofs/RVec.v
theories/Proofs/RelProofs.v
theories/Proofs/Release.v
theories/Proofs/ReportedOrders.v
theories/Proofs/RkExact.v
theories/Proofs/ShortSteps.v
theories/Proofs/SignErk.v
theories/Proofs/SignExamples.v
theories/Proofs/SignMultistep.v
theories/Proofs/StabExamples.v
theories/Proofs/StabPoly.v
theories/Proofs/StabProgram.v
theories/Proofs/StabRegionProofs.v
theories/Proofs/StabilityErk.v
theories/Proofs/StabilityExamples.v
theories/Proofs/StabilityRuns.v
theories/Proofs/SumsProofs.v
theories/Proofs/TablesFinal.v
theories/Proofs/TablesGeneric.v
theories/Proofs/TestEquationsProofs.v
theories/Proofs/TestEquationsRuns.v
theories/Proofs/ThreeBody.v
theories/Proofs/TimerProofs.v
theories/Proofs/TreesProofs.v
theories/Proofs/Truncate.v
theories/Proofs/TruncateMs.v
theories/Proofs/Unsupported.v
theories/Proofs/Window.v
theories/Proofs/ZScaled.v
theories/Proofs/ZeroStable.v
theories/Props/AbDependenceProps.v
theories/Props/AbStabilityProps.v
theories/Props/BdfDampingProps.v
theories/Props/BdfLinearProps.v
theories/Props/BdfStabilityProps.v
theories/Props/CollocationProps.v
theories/Props/ConvergenceProps.v
theories/Props/CovarianceProps.v
theories/Props/CyclicBufferProps.v
theories/Props/DenseProps.v
theories/Props/DependenceProps.v
theories/Props/DeterminismProps.v
theories/Props/EnumsProps.v
theories/Props/EquilibriumProps.v
theories/Props/ErkProps.v
theories/Props/ExamplesProps.v
theories/Props/F64Props.v
theories/Props/IntFunsProps.v
theories/Props/IrkDependenceProps.v
theories/Props/IrkLipschitzProps.v
theories/Props/IrkProps.v
theories/Props/IrkTotalProps.v
theories/Props/LocalityProps.v
theories/Props/MsLocalityProps.v
theories/Props/MultistepConvergenceProps.v
theories/Props/MultistepProps.v
theories/Props/NewtonLocalProps.v
theories/Props/NewtonProps.v
theories/Props/NonlinearStabilityProps.v
theories/Props/OptionsProps.v
theories/Props/OscillatorProps.v
theories/Props/PrefixProps.v
theories/Props/SignProps.v
theories/Props/StabRegionProps.v
theories/Props/StabilityProps.v
theories/Props/TableauProps.v
theories/Props/TestEquationsProps.v
theories/Props/TimerProps.v
theories/Props/UnitsProps.v
theories/Props/UnsupportedProps.v
