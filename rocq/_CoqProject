-Q theories Verif

theories/Base.v
theories/Num.v
theories/F64.v
theories/XReal.v
theories/LinAlg.v
theories/Mode.v
theories/Weights.v
theories/Options.v
theories/Params.v
theories/Env.v
theories/State.v
theories/Sampling.v
theories/History.v
theories/Termination.v
theories/Plot.v
theories/Cmaes.v
theories/Functions.v
theories/Restart.v
theories/RestartSetters.v
theories/Lib.v
theories/Order.v
theories/Sort.v
theories/NextInv.v
theories/Spec.v
theories/LogLemmas.v
theories/TraceLemmas.v
theories/Toy.v
theories/F64Lemmas.v
theories/BuildLemmas.v
theories/PropBuild.v
theories/SamplingLemmas.v
theories/PanicLemmas.v
theories/NextSafe.v
theories/CastLemmas.v
theories/RelLemmas.v
theories/ToyLemmas.v
theories/PropSampling.v
theories/StateLemmas.v
theories/CeilLemmas.v
theories/PropPanic.v
theories/PropResample.v
theories/HistoryLemmas.v
theories/MedianLemmas.v
theories/PropHistory.v
theories/TermSpec.v
theories/TermLemmas.v
theories/AxisLemmas.v
theories/PropTermination.v
theories/PropRun.v
theories/Session.v
theories/ParLemmas.v
theories/PropParallel.v
theories/SimLemmas.v
theories/XRound.v
theories/XLe.v
theories/NegLemmas.v
theories/ClockLemmas.v
theories/CalmLemmas.v
theories/PropRanking.v
theories/TransLemmas.v
theories/XToy.v
theories/PropInvariance.v
theories/ScaleLemmas.v
theories/PropScale.v
theories/Draw.v
theories/PlotLemmas.v
theories/PropPlot.v
theories/DrawLemmas.v
theories/DrawAxis.v
theories/PropDraw.v
theories/Format.v
theories/FormatSpec.v
theories/FormatLemmas.v
theories/PropFormat.v
theories/PropFunctions.v
theories/RestartLemmas.v
theories/PropRestart.v
theories/RunLemmas.v
theories/PropRestartRuns.v
theories/PropRepro.v
theories/PropSetters.v
theories/PropRestartConfig.v
theories/PropStrategy.v
theories/PropBudget.v
theories/PropRestartParallel.v
theories/PropRestartSafe.v
theories/RSum.v
theories/WeightLemmas.v
theories/PropWeights.v
theories/ExactStep.v
theories/ExactEigen.v
theories/ExactInv.v
theories/ExactPos.v
theories/ExactToy.v
theories/PropExact.v
theories/PropDrawExact.v
theories/PropCollapse.v
theories/PropParams.v
theories/PropShape.v
theories/F64Acc.v
theories/F64Weights.v
theories/F64Rates.v
theories/F64Raw.v
theories/F64Final.v
theories/PropFloatParams.v
theories/F64Mean.v
theories/F64Rel.v
theories/F64Published.v
theories/F64Sigma.v
theories/PropFloatMean.v
theories/PropFloatSigma.v
theories/PropFloatPublished.v
theories/F64Cov.v
theories/PropFloatCov.v
theories/F64CovErr.v
theories/PropFloatCovErr.v
theories/F64Path.v
theories/PropFloatPath.v
theories/F64Step.v
theories/PropFloatStep.v
theories/F64Conj.v
theories/PropFloatConj.v
theories/F64Stall.v
theories/PropFloatStall.v
theories/F64Axes.v
theories/PropFloatAxes.v
theories/Checked.v
theories/PropOverflow.v
theories/PropFloatSample.v
theories/PropFloatFinite.v
theories/PropFloatStable.v
theories/PropFloatDrawn.v
theories/Report.v
theories/ReportSpec.v
theories/ReportLemmas.v
theories/PropReport.v
theories/PropOpening.v
theories/DrawFloat.v
theories/PropDrawFloat.v
