-Q theories Verif
theories/PyBase.v
theories/PyLemmas.v
theories/Numbers.v
theories/Constraint.v
theories/LogicalModel.v
theories/Select.v
theories/Spec.v
theories/LogicalProofs.v
theories/EnergyProofs.v
theories/ConvertProofs.v
theories/ConstraintProofs.v
theories/MergeProofs.v
theories/PhysicalProofs.v
theories/ToPhysicalProofs.v
theories/Indep.v
theories/InteractionProofs.v
theories/Samples.v
theories/PropsPhysical.v
theories/PropsInteractions.v
theories/PropsState.v
theories/PropsDeclare.v
theories/PropsVariables.v
theories/PropsConvert.v
theories/PropsMerge.v
theories/PropsConstraints.v
theories/PropsPyqubo.v
theories/History.v
theories/PropsHistory.v
theories/Physical.v
theories/BqmProofs.v
theories/PropsBqm.v
theories/Solver.v
theories/SolverSpec.v
theories/SolverProofs.v
theories/PropsSolver.v
theories/Npp.v
theories/NppSpec.v
theories/PropsNpp.v
theories/Stream.v
theories/StreamSpec.v
theories/PropsStream.v
theories/PropsPipeline.v
theories/PropsAttenuation.v
theories/Services.v
theories/ServicesSpec.v
theories/PropsServices.v
theories/PropsSolvers.v
theories/NppStream.v
theories/NppStreamSpec.v
theories/PropsNppStream.v
theories/PropsNppSolve.v
theories/Tsp.v
theories/TspSpec.v
theories/TspProofs.v
theories/TspTours.v
theories/PropsTsp.v
theories/PropsHandover.v
theories/PropsNppAttenuation.v
theories/PropsNppPipeline.v
theories/EqualitySpec.v
theories/ModelEq.v
theories/ProperProofs.v
theories/ConstrKeeps.v
theories/PropsEquality.v
theories/AlikeProofs.v
theories/PropsAlike.v
theories/PropsClass.v
theories/PropsOffset.v
theories/ConstrFrame.v
theories/Heap.v
theories/HeapSpec.v
theories/HeapProofs.v
theories/PropsPrograms.v
theories/ReachProofs.v
theories/ReachSolve.v
theories/SeqReach.v
theories/PropsReach.v
theories/PropsPenalty.v
theories/PropsNppPartial.v
theories/SampleModels.v
theories/PropsEntered.v
theories/PropsSampleModels.v
theories/PropsDetermined.v
theories/PropsConverts.v
theories/PropsNHotSample.v
theories/PropsFixing.v
theories/PropsMergeSum.v
theories/PropsRetry.v
theories/PropsSelect.v
theories/PropsRejected.v
theories/PropsUndeclared.v
theories/PropsExactStream.v
theories/PropsExactConvert.v
theories/PropsExactSolvers.v
theories/PropsRagged.v
theories/PropsExactNames.v
theories/PropsUnits.v
theories/PropsLandscape.v
theories/Text.v
theories/PropsText.v
theories/PropsOrder.v
theories/PropsBranch.v
theories/FillProofs.v
theories/PropsFill.v
theories/PropsReads.v
theories/PropsExpression.v
theories/PropsCommute.v
theories/PropsUncoupled.v
theories/PropsGauge.v
theories/PropsEager.v
theories/PropsErrors.v
theories/Entry.v
theories/Conformance.v
theories/ConformanceModel.v
theories/ConformanceRun.v
theories/PropsEntry.v
theories/PropsEscape.v
theories/PropsRebuild.v
theories/Launch.v
theories/PropsLaunch.v
theories/Layout.v
theories/PropsLayout.v
theories/PropsFiles.v
theories/Rounded.v
theories/PropsRounded.v
theories/PropsError.v
theories/PropsLoad.v
theories/PropsDirect.v
theories/RoundedLogical.v
theories/PropsLogicalError.v
theories/PropsIntegers.v
theories/PropsCooling.v
theories/SampleCalls.v
theories/PropsSampleCalls.v
theories/PropsRandomModel.v
theories/PropsLookup.v
