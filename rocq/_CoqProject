-Q theories Verif
theories/Base.v
theories/SpecGrid.v
theories/Cart.v
theories/CartFacts.v
theories/Comm.v
theories/GhostGeo.v
theories/SpecGhost.v
theories/Ghost2D.v
theories/Ghost3D.v
theories/GhostProofs.v
theories/Refute1.v
theories/Blocking.v
theories/Spmd.v
theories/SpecBlocking.v
theories/BlockFacts.v
theories/FieldComm.v
theories/SpecFields.v
theories/FieldProofs.v
theories/Lagrangian.v
theories/SpecLag.v
theories/LagProofs.v
theories/MasterSlave.v
theories/LagComm.v
theories/Stencil.v
theories/SpecStencil.v
theories/StencilProofs.v
theories/HaloProofs.v
theories/HaloKernels.v
theories/HaloThms.v
theories/CurlProofs.v
theories/KernelList.v
theories/KernelProofs.v
theories/Refute2.v
theories/TimeStep.v
theories/SpecStep.v
theories/StepProofs.v
theories/StepHistory.v
theories/Refute3.v
theories/WideGhost.v
theories/PropsGhost.v
theories/PropsFields.v
theories/SpecMap.v
theories/MapExact.v
theories/PropsLag.v
theories/SpecAdd.v
theories/AddExact.v
theories/PropsStencil.v
theories/SpecPassive.v
theories/PassiveThms.v
theories/PropsStep.v
theories/SpecPenalise.v
theories/PyNum.v
theories/Penalise.v
theories/PenaliseProofs.v
theories/PropsPenalise.v
theories/SpecFilter.v
theories/Filter.v
theories/FilterProofs.v
theories/FilterZero.v
theories/PropsFilter.v
theories/SpecDouble.v
theories/Doubling.v
theories/DoublingProofs.v
theories/PoissonProofs.v
theories/PropsPoisson.v
theories/SpecGhostSum.v
theories/GhostSum.v
theories/StageRun.v
theories/GhostSumProofs.v
theories/GhostSumHops.v
theories/GhostSumThms.v
theories/PropsGhostSum.v
theories/RunsTo.v
theories/SpecIB.v
theories/EulLag.v
theories/EulLagProofs.v
theories/EulLagThms.v
theories/SpreadProofs.v
theories/IBThms.v
theories/IBProg.v
theories/Adjoint.v
theories/Refute4.v
theories/SpecDelta.v
theories/Delta.v
theories/DeltaProofs.v
theories/DeltaQ.v
theories/PropsIB.v
theories/SpecVbf.v
theories/Vbf.v
theories/Bodies.v
theories/SpecBodies.v
theories/VbfProofs.v
theories/LocalProofs.v
theories/VbfThms.v
theories/BodiesProofs.v
theories/VelFrame.v
theories/SpecReduce.v
theories/ReduceProofs.v
theories/Deviation.v
theories/DeviationProofs.v
theories/Refute5.v
theories/PropsVbf.v
theories/PropsMoreCases.v
theories/SpecIO.v
theories/IoEul.v
theories/IoEulProofs.v
theories/IoLag.v
theories/SpecIOLag.v
theories/IoLagProofs.v
theories/Xdmf.v
theories/SpecXdmf.v
theories/XdmfProofs.v
theories/PropsXdmf.v
theories/IoRod.v
theories/IoRodProofs.v
theories/Refute6.v
theories/PropsIO.v
theories/Logger.v
theories/SpecLogger.v
theories/LoggerProofs.v
theories/PropsLogger.v
theories/Diagnostics.v
theories/SpecDiag.v
theories/DiagProofs.v
theories/Construct.v
theories/Coords.v
theories/ConstructProofs.v
theories/PropsSim.v
theories/SpecNS.v
theories/NavierStokes.v
theories/NSBase.v
theories/NSHalo.v
theories/NSSteps.v
theories/NS2D.v
theories/NS3D.v
theories/NSThms.v
theories/Writes.v
theories/PropsNS.v
theories/SpecFourier.v
theories/FourierThms.v
theories/SpecGreens.v
theories/Greens.v
theories/GreensProofs.v
theories/GreensMean.v
theories/GreensThms.v
theories/PropsGreens.v
theories/SpecCoupled.v
theories/Coupled.v
theories/SpecTracks.v
theories/CoupledProofs.v
theories/CoupledThms.v
theories/GhostRefute.v
theories/PropsCoupled.v
theories/PropsCoupled3.v
theories/Pointwise.v
theories/PointwiseProofs.v
theories/PropsPointwise.v
theories/SpecRounding.v
theories/Rounding.v
theories/RoundingProofs.v
theories/RoundingRefute.v
theories/PropsRounding.v
theories/SpecLoop.v
theories/Loop.v
theories/LoopProofs.v
theories/PropsLoop.v
theories/SpecInteractor.v
theories/Interactor.v
theories/InteractorProofs.v
theories/PropsInteractor.v
theories/RestartSerial.v
theories/Restart.v
theories/SpecRestart.v
theories/RestartProofs.v
theories/RestartRefute.v
theories/PropsRestart.v
theories/VbfBook.v
theories/SpecResume.v
theories/Resume.v
theories/ResumeSerial.v
theories/ResumeProofs.v
theories/ResumeThms.v
theories/PropsResume.v
theories/ResumeRefute.v
theories/PropsResumeCases.v
theories/PropsResumeCases3.v
theories/SpecPlotter.v
theories/Plotter.v
theories/PlotterProofs.v
theories/PropsPlotter.v
theories/SpecAdaptive.v
theories/Adaptive.v
theories/AdaptiveProofs.v
theories/AdaptiveThms.v
theories/AdaptiveReals.v
theories/PropsAdaptive.v
theories/SpecDriver.v
theories/Driver.v
theories/OffEdge.v
theories/DriverProofs.v
theories/PropsDriver.v
theories/SpecRoundoff.v
theories/SpecReady.v
theories/Simulate.v
theories/Exec.v
theories/RoundoffProofs.v
theories/RoundoffRefute.v
theories/PropsRoundoff.v
theories/SpecRelative.v
theories/RoundedNorm.v
theories/RoundedNormProofs.v
theories/PropsRoundedNorm.v
theories/Checkpoint.v
theories/SpecCheckpoint.v
theories/CheckpointProofs.v
theories/PropsCheckpoint.v
theories/Origin.v
theories/OriginProofs.v
theories/PropsOrigin.v
theories/SpecVerify.v
theories/Verify.v
theories/VerifyProofs.v
theories/VerifyRuns.v
theories/PropsVerify.v
theories/RoundedTimeProofs.v
theories/RoundedTimeRefute.v
theories/PropsRoundedTime.v
theories/PropsRoundedTime3.v
theories/SpecLogFile.v
theories/LogFile.v
theories/LogFileProofs.v
theories/PropsLogFile.v
theories/SpecDrag.v
theories/Drag.v
theories/DragProofs.v
theories/PropsDrag.v
theories/SpecFixed.v
theories/FixedProofs.v
theories/PropsFixed.v
theories/PropsFixed3.v
theories/SpecMoving.v
theories/MovingProofs.v
theories/PropsMoving.v
theories/SpecSubstep.v
theories/Substep.v
theories/SubstepProofs.v
theories/PropsSubstep.v
theories/SpecRod.v
theories/Rod.v
theories/RodProofs.v
theories/PropsRod.v
theories/SpecRodRestart.v
theories/RodRestartProofs.v
theories/PropsRodRestart.v
theories/SpecFileNames.v
theories/FileNames.v
theories/FileNamesProofs.v
theories/PropsFileNames.v
