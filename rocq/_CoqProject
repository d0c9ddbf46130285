-Q theories Verif
theories/Base.v
theories/ModelTerm.v
theories/ModelGctx.v
theories/ModelSubst.v
theories/ModelReduce.v
theories/ModelCommand.v
theories/ModelInfer.v
theories/SpecTerm.v
theories/SpecConv.v
theories/SpecConvFacts.v
theories/SpecTyping.v
theories/RefMachine.v
theories/LibMono.v
theories/RefMono.v
theories/RefSafe.v
theories/RefSound.v
theories/Erase.v
theories/SimReduce.v
theories/Inv.v
theories/SoundInfer.v
theories/SpecBidir.v
theories/SoundBidir.v
theories/RefInfer.v
theories/KernelFacts.v
theories/RefSym.v
theories/SpecWhnf.v
theories/RefWhnf.v
theories/SpecRed.v
theories/RedConfl.v
theories/EtaConfl.v
theories/EtaTyped.v
theories/EtaTerm.v
theories/TotEta.v
theories/RedStuck.v
theories/RedCheck.v
theories/RefStuck.v
theories/RefComplete.v
theories/ModelMono.v
theories/SpecQuery.v
theories/MainKernel.v
theories/MainGctx.v
theories/MainConv.v
theories/ModelSyntax.v
theories/ModelSymbols.v
theories/SpecSymbols.v
theories/MainSymbols.v
theories/ModelShare.v
theories/SpecShare.v
theories/MainShare.v
theories/ModelLex.v
theories/ModelParse.v
theories/ParseAuto.v
theories/SpecParse.v
theories/SpecSyntax.v
theories/SpecLex.v
theories/ParseLex.v
theories/ParseTerm.v
theories/ParseCmd.v
theories/ParseScope.v
theories/ParsePrint.v
theories/MainLex.v
theories/ModelFmt.v
theories/MainFmt.v
theories/MainLines.v
theories/ModelMake.v
theories/SpecMake.v
theories/MainMake.v
theories/ModelPath.v
theories/MainPath.v
theories/SamplesParse.v
theories/PropParse.v
theories/PropLex.v
theories/PropFiles.v
theories/MainParse.v
theories/ModelProcess.v
theories/SpecProcess.v
theories/SpecFails.v
theories/MainProcess.v
theories/MainFails.v
theories/MainRun.v
theories/MainChannel.v
theories/MainVerify.v
theories/Samples.v
theories/SamplesConv.v
theories/MainBidir.v
theories/SamplesProcess.v
theories/MainReads.v
theories/ModelMain.v
theories/SpecProgram.v
theories/MainProgram.v
theories/SamplesProgram.v
theories/PropKernel.v
theories/PropConv.v
theories/PropBidir.v
theories/PropShare.v
theories/PropProcess.v
theories/PropProgram.v
theories/SpecType.v
theories/TypeFacts.v
theories/TypePres.v
theories/RefTyped.v
theories/SoundSorted.v
theories/MainTyped.v
theories/SamplesTyped.v
theories/PropTyped.v
theories/SpecSN.v
theories/RedSN.v
theories/RefRed.v
theories/TotReduce.v
theories/TotConv.v
theories/RedEnum.v
theories/MainTerm.v
theories/SamplesTerm.v
theories/PropTerm.v
theories/TestParse.v
theories/TestExamples.v
theories/SpecDomain.v
theories/DomFacts.v
theories/SoundDom.v
theories/TotInfer.v
theories/SpecTotal.v
theories/DomUnique.v
theories/MainTotal.v
theories/MainProgTotal.v
theories/SnVec.v
theories/SamplesTotal.v
theories/PropTotal.v
theories/SamplesProg.v
theories/PropProgTotal.v
theories/SpecDerive.v
theories/DeriveFacts.v
theories/RefDecide.v
theories/SpecDecide.v
theories/MainDecide.v
theories/PropDecide.v
theories/ModelLib.v
theories/SpecLib.v
theories/MainLib.v
theories/SamplesLib.v
theories/PropLib.v
theories/ModelUtf8.v
theories/SpecUtf8.v
theories/MainUtf8.v
theories/PropUtf8.v
theories/SnBase.v
theories/SpecRec.v
theories/SpecDef.v
theories/SnRec.v
theories/SnDef.v
theories/MainDef.v
theories/SpecRecProg.v
theories/SpecInd.v
theories/IndRed.v
theories/SnInd.v
theories/SnIndFun.v
theories/MainRec.v
theories/SamplesDef.v
theories/PropDef.v
theories/SpecWhole.v
theories/SpecFault.v
theories/SpecWholeRec.v
theories/MainAlike.v
theories/MainWhole.v
theories/SamplesWhole.v
theories/PropWhole.v
theories/ModelTools.v
theories/SpecTools.v
theories/MainTools.v
theories/SamplesTools.v
theories/PropTools.v
theories/CompCheck.v
theories/RecCheck.v
theories/SamplesRec.v
theories/PropRec.v
theories/MainWholeRec.v
theories/RecTest.v
theories/SamplesWholeRec.v
theories/PropWholeRec.v
theories/SpecMention.v
theories/MainMention.v
theories/PropMention.v
theories/SpecEta.v
theories/EtaMono.v
theories/MainEta.v
theories/SamplesEta.v
theories/PropEta.v
theories/IndCheck.v
theories/SamplesInd.v
theories/PropInd.v
theories/PropWholeInd.v
theories/ModelShow.v
theories/SpecShow.v
theories/MainShow.v
theories/PropShow.v
theories/SamplesExamples.v
theories/PropExamples.v
theories/SpecWork.v
theories/MainWork.v
theories/SamplesWork.v
theories/PropWork.v
theories/ModelBench.v
theories/SpecBench.v
theories/Bench.v
theories/MainBench.v
theories/PropBench.v
theories/MainInf.v
theories/SamplesInf.v
theories/PropInf.v
theories/ModelDot.v
theories/SpecDot.v
theories/MainDot.v
theories/PropDot.v
theories/ModelRead.v
theories/SpecRead.v
theories/MainRead.v
theories/PropRead.v
theories/ModelKofmt.v
theories/SpecKofmt.v
theories/MainKofmt.v
theories/PropKofmt.v
theories/SpecFormat.v
theories/MainFormat.v
theories/PropFormat.v
theories/RefExt.v
theories/MainAlpha.v
theories/SpecAlpha.v
theories/MainAlphaSyn.v
theories/MainAlphaProg.v
theories/SamplesAlpha.v
theories/PropAlpha.v
theories/SpecRename.v
theories/MainRename.v
theories/SamplesRename.v
theories/PropRename.v
theories/SpecSem.v
theories/SemFacts.v
theories/MainSem.v
theories/SamplesSem.v
theories/PropSem.v
theories/SpecEmbed.v
theories/RefMap.v
theories/MainEmbed.v
theories/MainEmbedProg.v
theories/SamplesEmbed.v
theories/PropEmbed.v
theories/SpecOrder.v
theories/MainOrder.v
theories/MainOrderProg.v
theories/SamplesOrder.v
theories/PropOrder.v
theories/SpecInterp.v
theories/MainInterp.v
theories/SamplesInterp.v
theories/PropInterp.v
theories/SpecReorder.v
theories/MainReorder.v
theories/SamplesReorder.v
theories/PropReorder.v
theories/RefFault.v
theories/FaultFacts.v
theories/MainFault.v
theories/SpecBlame.v
theories/MainBlame.v
theories/MainFirst.v
theories/SamplesBlame.v
theories/PropBlame.v
theories/MainClosed.v
theories/SamplesFault.v
theories/PropFault.v
theories/MainThreads.v
theories/SamplesThreads.v
theories/PropThreads.v
