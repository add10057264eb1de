-Q theories Verif

theories/Arith.v
theories/Res.v
theories/KFModel.v
theories/ListLemmas.v
theories/KF1Proof.v
theories/Spec.v
theories/Gauss.v
theories/Emb.v
theories/KF1R.v
theories/History.v
theories/KF1X.v
theories/InitProof.v
theories/OUpd.v
theories/SimProof.v
theories/KF1Main.v
theories/KF1More.v
theories/KF1Refute.v
theories/KF1Hist.v
theories/PropsKF1.v
theories/Cx.v
theories/KFpModel.v
theories/KFpProof.v
theories/SpecCarma.v
theories/CLin.v
theories/CarmaKernel.v
theories/KFpR.v
theories/KFpX.v
theories/KFpMain.v
theories/KFpTop.v
theories/KFpMore.v
theories/PropsKFp.v
theories/SpecModel.v
theories/CarpackModel.v
theories/RootsProof.v
theories/PriorProof.v
theories/LogLikProof.v
theories/LogLikMain.v
theories/CarpackTop.v
theories/CarpackRefute.v
theories/PropsCarpack.v
theories/EngineModel.v
theories/StartModel.v
theories/EngineSpec.v
theories/EngineProof.v
theories/EngineInv.v
theories/CholProof.v
theories/RamProof.v
theories/EngineHist.v
theories/EngineClass.v
theories/EngineDriver.v
theories/EngineTop.v
theories/Balance.v
theories/ProposalProof.v
theories/StartProof.v
theories/TotalProof.v
theories/TotalClass.v
theories/TotalTop.v
theories/EngineAX.v
theories/Start1Proof.v
theories/SeedProof.v
theories/EngineRuns.v
theories/StaleProof.v
theories/SeedRefute.v
theories/EngineReal.v
theories/StartTop.v
theories/PropsEngine.v
theories/DupTimes.v
theories/PropsMore.v
theories/PyModel.v
theories/PyData.v
theories/PyMLE.v
theories/PySim.v
theories/PyFuns.v
theories/PyDerive.v
theories/PyPredict.v
theories/PyLoglik.v
theories/PyMore.v
theories/PyBox.v
theories/PyExtra.v
theories/PropsPy.v
theories/Det.v
theories/LogFact.v
theories/LogDens.v
theories/DetUniq.v
theories/ZeroProof.v
theories/Sym.v
theories/SymTime.v
theories/PropsDens.v
theories/EndToEnd.v
theories/PropsEnd.v
theories/Spectrum.v
theories/SpectrumTop.v
theories/PropsSpec.v
theories/PyKFModel.v
theories/PyKFProof.v
theories/PyKFTop.v
theories/PyKFSim.v
theories/PropsPyKF.v
theories/Float64.v
theories/Float64KF.v
theories/Float64LD.v
theories/Float64Top.v
theories/Float64Pred.v
theories/PropsFloat.v
theories/PySampleModel.v
theories/PyQuant.v
theories/PyPsd.v
theories/PySampleProof.v
theories/PyFitProof.v
theories/PyFit2.v
theories/PySum.v
theories/PyAssessModel.v
theories/HistProof.v
theories/PyAssess.v
theories/PropsSample.v
theories/PropsAssess.v
theories/Kappa.v
theories/Switch.v
theories/SymWit.v
theories/PropsSym.v
theories/RandModel.v
theories/RandProof.v
theories/PropsRand.v
theories/PredLaw.v
theories/PropsPred.v
theories/PropsOrder.v
theories/PromptModel.v
theories/PropsPrompt.v
theories/PyPlotModel.v
theories/PlotProof.v
theories/KdeProof.v
theories/PropsPlot.v
theories/StartLaw.v
theories/StartRun.v
theories/PropsStart.v
theories/Float64Var.v
theories/VarRun.v
theories/PropsVar.v
theories/Insert.v
theories/InsertTop.v
theories/PropsInsert.v
theories/FarProof.v
theories/PropsFar.v
theories/ThinProof.v
theories/ThinTop.v
theories/PropsThin.v
theories/ShiftProof.v
theories/ShiftTop.v
theories/ShiftRun.v
theories/PropsShift.v
theories/PropsShuffle.v
theories/IntModel.v
theories/IntProof.v
theories/PropsInt.v
theories/UnitRun.v
theories/PropsUnit.v
theories/UnitStart.v
theories/PropsUnitStart.v
theories/CtorModel.v
theories/CtorProof.v
theories/PropsCtor.v
theories/Stationary.v
theories/PropsStat.v
theories/ScaleRun.v
theories/PropsScale.v
theories/SpecIdent.v
theories/IdentProof.v
theories/PropsIdent.v
theories/PropsSched.v
theories/Reach.v
theories/PropsReach.v
theories/LLBound.v
theories/Proper.v
theories/PropsProper.v
theories/Influence.v
theories/PropsInfluence.v
theories/PropsMask.v
theories/PrintModel.v
theories/PrintProof.v
theories/PropsPrint.v
theories/FloatErr.v
theories/FloatErrKF.v
theories/PropsFloatErr.v
theories/FloatErrLD.v
theories/PropsFloatLD.v
theories/FloatErrAcc.v
theories/PropsFloatAcc.v
theories/FloatVar.v
theories/PropsFloatVar.v
theories/RunStates.v
theories/PropsFloatRun.v
theories/PyFileModel.v
theories/PropsFile.v
theories/PropsTight.v
theories/PyIntModel.v
theories/PyIntProof.v
theories/PropsIntTime.v
theories/PropsIntPred.v
theories/PropsPredPy.v
theories/PropsPredUnits.v
theories/PropsSimUnits.v
theories/PropsHistView.v
theories/PropsSpecUnits.v
theories/PropsUnitSim.v
theories/GaussInt.v
theories/MetropStat.v
theories/PropsMetrop.v
theories/AdaptProof.v
theories/PropsAdapt.v
