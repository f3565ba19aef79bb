-Q theories Verif
theories/Lib.v
theories/Hir.v
theories/NfaModel.v
theories/NfaPath.v
theories/NfaSem.v
theories/NfaProofs.v
theories/NfaCorrect.v
theories/NfaTop.v
theories/NfaExact.v
theories/TokNfa.v
theories/DfaModel.v
theories/DfaEdges.v
theories/DfaProofs.v
theories/DfaTop.v
theories/MinModel.v
theories/MinProofs.v
theories/MinTop.v
theories/TokModel.v
theories/TokSpec.v
theories/TokProofs.v
theories/TokTop.v
theories/TokMore.v
theories/MinSafe.v
theories/TokExamples.v
theories/PropTok.v
theories/PropBuild.v
theories/PropDfa.v
theories/Grammar.v
theories/LrModel.v
theories/LrSpec.v
theories/LrSets.v
theories/LrClosure.v
theories/LrStates.v
theories/LrTable.v
theories/LrNew.v
theories/LrTop.v
theories/LrMono.v
theories/ParseModel.v
theories/Trees.v
theories/ParseSpec.v
theories/ParseInv.v
theories/ParseComplete.v
theories/GramFacts.v
theories/ParseTerm.v
theories/LoopSpec.v
theories/ParseLoop.v
theories/LoopCheck.v
theories/ParseTop.v
theories/ParseMore.v
theories/ParseOrigin.v
theories/ParseCover.v
theories/ParseFloat.v
theories/ParseRecTerm.v
theories/MachSpec.v
theories/MachProofs.v
theories/ParseAmb.v
theories/ParseHash.v
theories/ParseExamples.v
theories/PropParse.v
theories/PropRecover.v
theories/PropMach.v
theories/PropLr.v
theories/GramRename.v
theories/GenModel.v
theories/GenSpec.v
theories/GenProofs.v
theories/GenTop.v
theories/PropGen.v
theories/ExModel.v
theories/ExSpec.v
theories/ExLex.v
theories/ExTok.v
theories/ExParse.v
theories/PropEx.v
theories/PropComp.v
theories/ParseLin.v
theories/PropRule.v
theories/RuleMap.v
theories/OrderSpec.v
theories/PropOrder.v
theories/PropLin.v
theories/PropLoop.v
theories/PropAmb.v
theories/TraitModel.v
theories/PropTrait.v
theories/SynModel.v
theories/SynSpec.v
theories/SynProofs.v
theories/PropSyn.v
theories/ActualSpec.v
theories/PropActual.v
theories/PullModel.v
theories/PullSpec.v
theories/PullProofs.v
theories/PropPull.v
theories/ParseRel.v
theories/EffModel.v
theories/EffSpec.v
theories/EffProofs.v
theories/PropEff.v
theories/MixModel.v
theories/MixSpec.v
theories/MixProofs.v
theories/PropMix.v
theories/TestsParse.v
theories/TestsTok.v
theories/TokLive.v
theories/PropPatOrder.v
theories/NfaLive.v
theories/PropLook.v
theories/AnyTokModel.v
theories/AnyTokSpec.v
theories/AnyTokProofs.v
theories/PropAnyTok.v
theories/PropCost.v
theories/PropPanic.v
theories/ChoiceSpec.v
theories/ChoiceProofs.v
theories/PropChoice.v
theories/RecFamily.v
theories/PropRecCost.v
theories/SkipSpec.v
theories/ParseSkip.v
theories/PropSkip.v
theories/SteadySpec.v
theories/ParseSteady.v
theories/PropSteady.v
theories/Lr1Spec.v
theories/Lr1Proofs.v
theories/PropLr1.v
theories/NumSpec.v
theories/ParseNum.v
theories/PropNum.v
theories/StmtSpec.v
theories/ParseStmt.v
theories/ProdCheck.v
theories/PropStmt.v
theories/ValueProofs.v
theories/OpSpec.v
theories/OpProofs.v
theories/OpTop.v
theories/OpGroup.v
theories/PropOp.v
theories/ListSpec.v
theories/NestSpec.v
theories/NestProofs.v
theories/NestCyc.v
theories/OuterGrams.v
theories/PropNest.v
theories/ValueSpec.v
theories/PropValue.v
theories/ReadSpec.v
theories/PropRead.v
theories/InlineSpec.v
theories/PropInline.v
theories/LayoutSpec.v
theories/PropLayout.v
theories/MemModel.v
theories/MemProofs.v
theories/MemRep.v
theories/MemNfa.v
theories/MemTok.v
theories/PropMem.v
theories/PlaceSpec.v
theories/PlaceProofs.v
theories/PlaceTop.v
theories/PropPlace.v
theories/MakeSpec.v
theories/PropMakes.v
theories/PropEdit.v
theories/PropWhole.v
theories/IntModel.v
theories/IntProofs.v
theories/PropInt.v
theories/BoxModel.v
theories/BoxSpec.v
theories/BoxNfa.v
theories/BoxDfa.v
theories/BoxMin.v
theories/BoxTop.v
theories/PropBox.v
theories/GrowSpec.v
theories/GrowProofs.v
theories/GrowSim.v
theories/PropGrow.v
theories/AmbigSpec.v
theories/AmbigProofs.v
theories/PropAmbig.v
theories/TextModel.v
theories/TextSpec.v
theories/PropText.v
theories/DepthSpec.v
theories/DepthProofs.v
theories/PropDepth.v
theories/ErrModel.v
theories/ErrSpec.v
theories/PropErr.v
theories/FlatSpec.v
theories/FlatProofs.v
theories/PropFlat.v
theories/LoopListSpec.v
theories/PropLists.v
theories/BlockSpec.v
theories/ParseBlock.v
theories/PropBlock.v
theories/BrackSpec.v
theories/ParseBrack.v
theories/PropBrack.v
theories/SepRecSpec.v
theories/ParseSepRec.v
theories/PropSepRec.v
theories/LeftRecSpec.v
theories/ParseLeftRec.v
theories/PropLeftRec.v
theories/WaysSpec.v
theories/PropWays.v
theories/ListEditSpec.v
theories/PropListEdit.v
theories/TextRecSpec.v
theories/PropTextRec.v
theories/ParseAmort.v
theories/ListTimeSpec.v
theories/PropListTime.v
theories/TextTimeSpec.v
theories/PropTextTime.v
