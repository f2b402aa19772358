-Q theories Verif
theories/AdvClassProof.v
theories/AdvEmbedProof.v
theories/AdvFaultProof.v
theories/AdvLexProof.v
theories/AdvLoadProof.v
theories/AdvLoadProof2.v
theories/AdvLoadProof3.v
theories/AdvLoadProof4.v
theories/AdvModel.v
theories/AdvNamesProof.v
theories/AdvParseProof.v
theories/AdvRegexProof.v
theories/AdvTextProof.v
theories/AdvTokensProof.v
theories/Base.v
theories/BitSetModel.v
theories/CfgModel.v
theories/CfgProof.v
theories/CfgProof2.v
theories/ChainModel.v
theories/ClassifyModel.v
theories/ClosureModel.v
theories/Conformance.v
theories/CyclesProof.v
theories/DistModel.v
theories/DistNoPanic.v
theories/DistProof.v
theories/DistProof2.v
theories/DistSem.v
theories/DistTotal.v
theories/DistUpper.v
theories/DistUpper2.v
theories/ElimModel.v
theories/ElimProof.v
theories/ElimTree.v
theories/ElimTree2.v
theories/ExampleModel.v
theories/ExampleProof.v
theories/FiniteNull.v
theories/FiniteProof.v
theories/FloatModel.v
theories/FloatProof.v
theories/FloatProof2.v
theories/FollowProof.v
theories/GenModel.v
theories/GenProof.v
theories/GenProof2.v
theories/GenProof3.v
theories/GenProof4.v
theories/GenProof5.v
theories/GenProof6.v
theories/GenProof7.v
theories/GrammarFacts.v
theories/HistProof.v
theories/HistoryModel.v
theories/LLModel.v
theories/LLProof.v
theories/LLTree.v
theories/LRModel.v
theories/LRProof.v
theories/LRProof2.v
theories/LRProof3.v
theories/LengthProof.v
theories/LexProof.v
theories/ListFacts.v
theories/LoadLexProof.v
theories/LoadModel.v
theories/LoadParseProof.v
theories/LoadPrintProof.v
theories/LoadProof.v
theories/LoadProof2.v
theories/LoopFacts.v
theories/LoopModel.v
theories/MacroModel.v
theories/MacroProof.v
theories/MatrixModel.v
theories/MatrixProof.v
theories/NamedModel.v
theories/OpsModel.v
theories/OpsProof.v
theories/PipeProof.v
theories/PrecModel.v
theories/PrecProof.v
theories/PrecTree.v
theories/PrecTree2.v
theories/PrecView.v
theories/PropsAdv.v
theories/PropsAdv2.v
theories/PropsAdvMany.v
theories/PropsAdvPipe.v
theories/PropsAgree.v
theories/PropsBuilder.v
theories/PropsBytes.v
theories/PropsChain.v
theories/PropsClassify.v
theories/PropsDist.v
theories/PropsDist2.v
theories/PropsElim.v
theories/PropsElimSets.v
theories/PropsElimSize.v
theories/PropsElimTree.v
theories/PropsExample.v
theories/PropsExtend.v
theories/PropsFair.v
theories/PropsFile.v
theories/PropsFinite.v
theories/PropsGen.v
theories/PropsGenChars.v
theories/PropsGenLimit.v
theories/PropsGenLocal.v
theories/PropsGrammar.v
theories/PropsHist.v
theories/PropsHistory.v
theories/PropsInfinite.v
theories/PropsLL.v
theories/PropsLLTree.v
theories/PropsLR.v
theories/PropsLength.v
theories/PropsLoad.v
theories/PropsMacro.v
theories/PropsNamed.v
theories/PropsNegAgree.v
theories/PropsOps.v
theories/PropsOrder.v
theories/PropsPipe.v
theories/PropsPipeRoots.v
theories/PropsPipeSize.v
theories/PropsPrec.v
theories/PropsPrecSize.v
theories/PropsPrecTree.v
theories/PropsPredict.v
theories/PropsProper.v
theories/PropsRegex.v
theories/PropsRegexNames.v
theories/PropsRegexPipe.v
theories/PropsRegexRefuse.v
theories/PropsRegexSize.v
theories/PropsRemap.v
theories/PropsRenumber.v
theories/PropsRetry.v
theories/PropsReverse.v
theories/PropsSeq.v
theories/PropsSeqHist.v
theories/PropsSeqTree.v
theories/PropsSerial.v
theories/PropsSerial2.v
theories/PropsSets.v
theories/PropsSize.v
theories/PropsSplit.v
theories/PropsSymbol.v
theories/PropsText.v
theories/PropsTopDown.v
theories/PropsTree.v
theories/PropsTwice.v
theories/PropsWeight.v
theories/PropsWrapTree.v
theories/RegexModel.v
theories/RegexNames.v
theories/RegexProof.v
theories/RegexProof2.v
theories/RemapModel.v
theories/RemapProof.v
theories/RemapProof2.v
theories/SeqExact.v
theories/SeqModel.v
theories/SeqProof.v
theories/SeqProof2.v
theories/SeqProof3.v
theories/SeqSize.v
theories/SeqTree.v
theories/SeqTree2.v
theories/SerialModel.v
theories/SerialModel2.v
theories/SetProof.v
theories/SetView.v
theories/SetsModel.v
theories/SetsProof.v
theories/Spec.v
theories/SpecAdv.v
theories/SpecAdv2.v
theories/SpecClassify.v
theories/SpecDist.v
theories/SpecExample.v
theories/SpecFloats.v
theories/SpecGen.v
theories/SpecHist.v
theories/SpecLR.v
theories/SpecLoad.v
theories/SpecMacro.v
theories/SpecOps.v
theories/SpecPrec.v
theories/SpecPredict.v
theories/SpecRegex.v
theories/SpecRemap.v
theories/SpecSeq.v
theories/SpecText.v
theories/SpecTopDown.v
theories/SpecTree.v
theories/SplitProof.v
theories/SymbolModel.v
theories/SymbolProof.v
theories/TopDownProof.v
theories/TreeLang.v
theories/TreeLimit.v
theories/TreeMap.v
theories/TreeOps.v
theories/TreeProof.v
theories/TreeWrap.v
theories/UsefulProof.v
theories/ValueProof.v
theories/View.v
