-Q theories Verif
theories/Base.v
theories/Num.v
theories/Common.v
theories/PoissonPmf.v
theories/FFTConv.v
theories/Ecdf2.v
theories/Ecdf1New.v
theories/Ecdf1Mns.v
theories/StringUtils.v
theories/TinyMT.v
theories/MonteCarlo.v
theories/Cli.v
theories/QNum.v
theories/RunTests.v
theories/Hoare.v
theories/Spec.v
theories/SpecFacts.v
theories/RSum.v
theories/Cells.v
theories/Events.v
theories/XReal.v
theories/XPmf.v
theories/XEcdf2.v
theories/XCommon.v
theories/XEcdf2Main.v
theories/Dft.v
theories/XFft.v
theories/NewMath.v
theories/XEcdf1New.v
theories/Reflect.v
theories/XEcdf1NewMain.v
theories/MnsMath.v
theories/XMns.v
theories/ProbFacts.v
theories/ExactEnv.v
theories/ExactFacts.v
theories/SafeFft.v
theories/SafeEcdf2.v
theories/SafeNew.v
theories/SafeMns.v
theories/ComponentFacts.v
theories/Cases.v
theories/ExactMore.v
theories/SafeMore.v
theories/StringSpec.v
theories/StringFacts.v
theories/LineFacts.v
theories/NoIos.v
theories/CliSpec.v
theories/CliFacts.v
theories/PyFacts.v
theories/TextMore.v
theories/NanFacts.v
theories/PropsExact.v
theories/PropsSafe.v
theories/PropsComponents.v
theories/PropsText.v
theories/PropsCli.v
theories/McSpec.v
theories/McFacts.v
theories/McLoop.v
theories/TinyMTFacts.v
theories/McMore.v
theories/PropsMc.v
theories/Binary64.v
theories/Binary64Facts.v
theories/Binary64Main.v
theories/Binary64Cases.v
theories/PropsBinary64.v
theories/Mersenne.v
theories/TinyMTPeriod.v
theories/McEdge.v
theories/ErrBound.v
theories/B64Round.v
theories/AccPmf.v
theories/AccConv.v
theories/FftMath.v
theories/AccProd.v
theories/AccFft.v
theories/AccFftConv.v
theories/AccGrow.v
theories/AccStep.v
theories/AccEcdf2.v
theories/AccMain.v
theories/AccCases.v
theories/PropsAccuracy.v
theories/TinyMTVisits.v
theories/TinyMTBinary64.v
theories/TinyMTSeeds.v
theories/PropsMcEdge.v
theories/OrderVol.v
theories/UniformWalk.v
theories/ProbSums.v
theories/McProbSpec.v
theories/McPoissonProb.v
theories/McEcdfProb.v
theories/McEstimate.v
theories/McPoissonEstimate.v
theories/McProbCases.v
theories/PropsMcProb.v
theories/AccNewPmf.v
theories/AccNewConv.v
theories/AccNewMath.v
theories/AccNewStep.v
theories/AccNewLoop.v
theories/AccNewMain.v
theories/ProbLipschitz.v
theories/AccNewFinal.v
theories/ExactClose.v
theories/PropsAccuracyNew.v
theories/LongDouble.v
theories/LdRound.v
theories/MnsErr.v
theories/MnsRun.v
theories/AccMnsEval.v
theories/AccMnsStep.v
theories/AccMnsTail.v
theories/AccMns.v
theories/AccMnsCase.v
theories/MnsNan.v
theories/AccMnsMain.v
theories/PropsAccuracyMns.v
theories/StrtodSpec.v
theories/AccCli.v
theories/AccCliCase.v
theories/PropsAccuracyCli.v
theories/UsageSpec.v
theories/UsageFacts.v
theories/PropsUsage.v
theories/ShowSpec.v
theories/ShowFacts.v
theories/ShowMore.v
theories/ShowCli.v
theories/ShowCases.v
theories/PropsShow.v
theories/Cost.v
theories/CostFacts.v
theories/CostMain.v
theories/CostNew.v
theories/CostJump.v
theories/PropsCost.v
theories/RatProb.v
theories/McChernoff.v
theories/TestSpec.v
theories/TestProb.v
theories/TestCli.v
theories/TestMc.v
theories/TestCase.v
theories/PropsTests.v
theories/GofSpec.v
theories/GofKs.v
theories/GofBeta.v
theories/ExactBj.v
theories/BjFacts.v
theories/BjSearch.v
theories/BjMain.v
theories/BjCase.v
theories/GofAcc.v
theories/GofCase.v
theories/PropsGof.v
theories/McB64Spec.v
theories/McB64.v
theories/McB64Est.v
theories/McB64Case.v
theories/PropsMcB64.v
theories/McB64Pois.v
theories/McB64PProb.v
theories/McB64PCase.v
theories/PropsMcPois.v
theories/AgreeB64.v
theories/PropsAgree.v
theories/FastNum.v
theories/FastGrow.v
theories/FastPmf.v
theories/FastConv.v
theories/FastFft.v
theories/FastStep.v
theories/FastEcdf2.v
theories/FastMath.v
theories/FastInst.v
theories/FastFftInst.v
theories/FastMain.v
theories/PropsFast.v
theories/FastFftMain.v
theories/PropsFastFft.v
theories/FastNewNum.v
theories/FastNewInst.v
theories/FastNewPmf.v
theories/FastNewConv.v
theories/FastNewStep.v
theories/FastNewLoop.v
theories/FastNewMain.v
theories/FastNewFinal.v
theories/FastNewLower.v
theories/PropsFastNew.v
theories/FastCli.v
theories/PropsFastCli.v
theories/McFast.v
theories/McFastEst.v
theories/McFastPois.v
theories/McFastCase.v
theories/PropsMcFast.v
theories/FastLong.v
theories/FastMnsSum.v
theories/FastMnsEval.v
theories/FastMnsStep.v
theories/FastMnsTail.v
theories/FastMnsMain.v
theories/FastMnsCase.v
theories/FastMnsCli.v
theories/PropsFastMns.v
theories/CostMc.v
theories/PropsCostMc.v
theories/FastSuite.v
theories/PropsFastSuite.v
theories/FastMcCli.v
theories/FastMcCase.v
theories/PropsFastMc.v
theories/B64McCli.v
theories/B64McCase.v
theories/PropsB64Mc.v
theories/GofFast.v
theories/FastShow.v
theories/PropsFastGof.v
theories/BjBench.v
theories/BjBenchFacts.v
theories/BjBench64.v
theories/BjPipeline.v
theories/PropsBjBench.v
