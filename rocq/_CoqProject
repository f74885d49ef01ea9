-Q theories Verif
theories/Num.v
theories/Py.v
theories/ListFacts.v
theories/Ewma.v
theories/EwmaTot.v
theories/EwmaPrefix.v
theories/EwmaEquiv.v
theories/XRFacts.v
theories/Spec.v
theories/EwmaReal.v
theories/EwmaTab.v
theories/EwmaFin.v
theories/SpecEwma.v
theories/EwmaProps.v
theories/EwmaProps2.v
theories/EwmaProps3.v
theories/EwmaProps4.v
theories/EwmaProps5.v
theories/ExEwma.v
theories/EwmaClosed.v
theories/EwmaAny.v
theories/EwmaFirst.v
theories/PropEwma.v
theories/Combination.v
theories/SpecComb.v
theories/CombFacts.v
theories/CombBuild.v
theories/CombSolve.v
theories/CombRun.v
theories/CombProps.v
theories/CombItems.v
theories/RStruct.v
theories/MatR.v
theories/Simplex.v
theories/RealLA.v
theories/SpecCombR.v
theories/CombReal.v
theories/CombObj.v
theories/CombOpt.v
theories/CombExact.v
theories/CombExist.v
theories/CombOk.v
theories/CombPerm.v
theories/CombScale.v
theories/CombDegen.v
theories/CombEx.v
theories/PropCombR.v
theories/FromEwmas.v
theories/SpecFrom.v
theories/FromEwmasProps.v
theories/PropComb.v
theories/F64.v
theories/Fixtures.v
theories/Conform.v
theories/ConformComb.v
theories/Compact.v
theories/Spectral.v
theories/Regularization.v
theories/SpecReg.v
theories/RegProps.v
theories/RegOpt.v
theories/RegMain.v
theories/PropReg.v
theories/EmFacts.v
theories/EmProps.v
theories/EmOpt.v
theories/EmMain.v
theories/PropEm.v
theories/ExpUtils.v
theories/SpecExp.v
theories/ExpRoll.v
theories/ExpPack.v
theories/ExpDiag.v
theories/ExpLL.v
theories/ExpStats.v
theories/ExpMain.v
theories/PropExp.v
theories/VecEwma.v
theories/SpecVec.v
theories/VecProps.v
theories/PropVec.v
theories/LowRankEwma.v
theories/SpecLowRank.v
theories/LowRankProps.v
theories/PropLowRank.v
theories/LowRankStages.v
theories/LowRankPipe.v
theories/LowRankPipeProps.v
theories/LowRankPrefix.v
theories/LowRankPipeEx.v
theories/PropLowRank2.v
theories/Trader.v
theories/SpecTrader.v
theories/TraderLists.v
theories/TraderOpt.v
theories/TraderBt.v
theories/TraderCalc.v
theories/TraderPort.v
theories/TraderUnique.v
theories/TraderParity.v
theories/TraderBt2.v
theories/TraderHist.v
theories/TraderMain.v
theories/TraderFinal.v
theories/PropTrader.v
theories/TraderEx.v
theories/Ccp.v
theories/SpecCcp.v
theories/CcpProps.v
theories/CcpOpt.v
theories/CcpMain.v
theories/CcpEx.v
theories/PropCcp.v
theories/Backtests.v
theories/SpecBt.v
theories/BacktestProps.v
theories/BacktestMain.v
theories/BacktestKinds.v
theories/BacktestFinal.v
theories/BtLook.v
theories/PropBt.v
theories/BtEx.v
theories/RetComb.v
theories/SpecRet.v
theories/RetEwm.v
theories/RetRidge.v
theories/RetFit.v
theories/RetMain.v
theories/RetInv.v
theories/RetPred.v
theories/RetLasso.v
theories/RetExist.v
theories/RetTune.v
theories/RetFinal.v
theories/PropRet.v
theories/RetEx.v
theories/FactorModel.v
theories/SpecFactor.v
theories/FactorCov.v
theories/FactorCov2.v
theories/FactorMain.v
theories/FactorLoop.v
theories/FactorItems.v
theories/FactorItem.v
theories/FactorPrefix.v
theories/FactorFull.v
theories/FactorLive.v
theories/FactorFinal.v
theories/FactorEx.v
theories/FactorWrap.v
theories/PropFactor.v
theories/EmLL.v
theories/EmLLProps.v
theories/PropEmLL.v
theories/Rho.v
theories/SpecRho.v
theories/RhoProps.v
theories/PropRho.v
theories/YearlySR.v
theories/SpecSR.v
theories/SRProps.v
theories/PropSR.v
theories/VecReg.v
theories/SpecVecReg.v
theories/VecRegProps.v
theories/PropVecReg.v
theories/Smooth.v
theories/SpecSmooth.v
theories/SmoothProps.v
theories/PropSmooth.v
theories/Signals.v
theories/SpecSignals.v
theories/SignalQuant.v
theories/SignalTune.v
theories/SignalSign.v
theories/SignalAuto.v
theories/SignalEx.v
theories/PropSignals.v
theories/Gen.v
theories/SpecGen.v
theories/GenProps.v
theories/GenMain.v
theories/GenEx.v
theories/PropGen.v
theories/Prescient.v
theories/SpecPrescient.v
theories/PrescientProps.v
theories/PrescientEx.v
theories/PropPrescient.v
theories/SpecRank.v
theories/SpecRankR.v
theories/RankFacts.v
theories/IewmaRank.v
theories/FromRank.v
theories/RankEx.v
theories/PropRank.v
theories/PropRankR.v
theories/SpecMove.v
theories/CombMove.v
theories/CombMoveRun.v
theories/CombOrder.v
theories/PropMove.v
theories/FromRun.v
theories/SpecFromR.v
theories/FromUnits.v
theories/FromExRun.v
theories/FromEx.v
theories/PropFromRun.v
theories/PropFromR.v
theories/SpecActive.v
theories/FromFinite.v
theories/CmIewma.v
theories/CmRun.v
theories/CmReal.v
theories/CmPos.v
theories/CmEx.v
theories/PropCmRun.v
theories/PropCm.v
theories/SpecCross.v
theories/FromFiniteMean.v
theories/SpecDemo.v
theories/Demo.v
theories/DemoRun.v
theories/DemoUnits.v
theories/DemoFin.v
theories/DemoReal.v
theories/DemoExRun.v
theories/DemoExR.v
theories/PropDemoRun.v
theories/PropDemo.v
theories/PropFromMean.v
theories/SpecNear.v
theories/CombBest.v
theories/CombMore.v
theories/CombNear.v
theories/PropBest.v
theories/Ieee.v
theories/SpecRound.v
theories/RoundStep.v
theories/RoundReal.v
theories/RoundRun.v
theories/RoundLip.v
theories/RoundDecay.v
theories/RoundFrame.v
theories/RoundSign.v
theories/RoundVol.v
theories/RoundEx.v
theories/RoundCov.v
theories/RoundDiag.v
theories/RoundDiagEx.v
theories/PropRound.v
theories/RoundScale.v
theories/SpecRound2.v
theories/RoundPipe.v
theories/RoundPipe2.v
theories/RoundPipe3.v
theories/RoundPipeEx.v
theories/RoundPsd.v
theories/PropRound2.v
theories/SpecClip.v
theories/ClipMono.v
theories/ClipEx.v
theories/PropClip.v
theories/SpecForget.v
theories/ForgetReal.v
theories/ForgetRun.v
theories/ForgetMain.v
theories/ForgetEx.v
theories/PropForget.v
theories/CovCsv.v
theories/SpecCsv.v
theories/CovCsvProps.v
theories/PropCsv.v
theories/LipRun.v
theories/LipMain.v
theories/PropLip.v
theories/Sampling.v
theories/SamplingProps.v
theories/SamplingFin.v
theories/SamplingReal.v
theories/PropSampling.v
theories/Choleskys.v
theories/CholeskysProps.v
theories/PropChol.v
theories/StableTop.v
theories/SpecStable.v
theories/CombStable1.v
theories/CombStable.v
theories/CombStableRun.v
theories/PropStable.v
theories/SpecCont.v
theories/FromCont1.v
theories/FromCont.v
theories/FromJump.v
theories/PropCont.v
theories/TraderLip.v
theories/PropTraderLip.v
theories/TraderLipEx.v
theories/ChainLip.v
theories/PropChainLip.v
theories/TraderRelist.v
theories/PropTraderRelist.v
theories/TraderRelistEx.v
theories/SpecFrontier.v
theories/TraderFrontier.v
theories/PropFrontier.v
theories/FrontierEx.v
