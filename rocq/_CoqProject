-Q theories Verif
theories/Base.v
theories/Stream.v
theories/Encoding.v
theories/Value.v
theories/Token.v
theories/FloatFmt.v
theories/Message.v
theories/Parser.v
theories/Serializer.v
theories/SpecUnicode.v
theories/EncodingProofs.v
theories/Feeds.v
theories/ListMachine.v
theories/Simulation.v
theories/SimParse.v
theories/EncodingFacts.v
theories/PropEncoding.v
theories/SpecGrammar.v
theories/SpecPos.v
theories/SpecGap.v
theories/SpecText.v
theories/SpecRfc.v
theories/SpecDump.v
theories/GrammarLex.v
theories/ObjFacts.v
theories/GrammarTok.v
theories/GrammarProofs.v
theories/PosProofs.v
theories/PosSound.v
theories/Mono.v
theories/Context.v
theories/GrammarFacts.v
theories/NumberFacts.v
theories/FloatFacts.v
theories/TextFacts.v
theories/RfcFacts.v
theories/SepFacts.v
theories/PropGrammar.v
theories/DumpText.v
theories/DumpProofs.v
theories/DumpFacts.v
theories/RoundTrip.v
theories/DumpFail.v
theories/DumpMore.v
theories/OptionFacts.v
theories/SpecReal.v
theories/RealRound.v
theories/RealText.v
theories/RoundErr.v
theories/Accuracy.v
theories/Echo.v
theories/SpecPartial.v
theories/PartialProofs.v
theories/PropDump.v
theories/ValueOps.v
theories/Compare.v
theories/Iterator.v
theories/SpecValue.v
theories/ValueProofs.v
theories/SpecIter.v
theories/IterProofs.v
theories/SpecCompare.v
theories/CompareProofs.v
theories/CompareOrder.v
theories/CompareMore.v
theories/SpecBuilt.v
theories/BuiltProofs.v
theories/PropValue.v
theories/PropCompare.v
theories/PropIter.v
theories/Heap.v
theories/SpecHeap.v
theories/HeapGhost.v
theories/HeapPaths.v
theories/HeapOps.v
theories/HeapProofs.v
theories/HeapMain.v
theories/PropHeap.v
theories/Cpp.v
theories/Convert.v
theories/SpecConv.v
theories/ConvOrder.v
theories/ConvFloat.v
theories/ConvTo.v
theories/ConvFrom.v
theories/ConvRead.v
theories/ConvSafe.v
theories/ConvMain.v
theories/ConvRound.v
theories/ConvThm.v
theories/SpecCpp.v
theories/CppFacts.v
theories/PropConvert.v
theories/SpecStream.v
theories/StreamProofs.v
theories/NulProofs.v
theories/PropStream.v
theories/Wrapper.v
theories/Reach.v
theories/WrapProofs.v
theories/WrapMore.v
theories/WrapTyped.v
theories/PropWrap.v
theories/SpecAlloc.v
theories/Alloc.v
theories/AllocRules.v
theories/AllocProofs.v
theories/AllocMain.v
theories/PropAlloc.v
theories/Target.v
theories/SpecTarget.v
theories/TargetProofs.v
theories/TargetMain.v
theories/PropTarget.v
theories/Read.v
theories/SpecRead.v
theories/ReadProofs.v
theories/PropRead.v
theories/ParseHeap.v
theories/SpecParseHeap.v
theories/ParseHeapText.v
theories/ParseHeapProofs.v
theories/SpecParseDoc.v
theories/ParseDoc.v
theories/ParseHeapMain.v
theories/PropParseHeap.v
theories/SpecMessage.v
theories/MessageLex.v
theories/MessageNum.v
theories/MessageStr.v
theories/MessageScan.v
theories/MessageProofs.v
theories/MessageFacts.v
theories/PropMessage.v
theories/SpecErrors.v
theories/ErrorProofs.v
theories/PropErrors.v
theories/Cost.v
theories/SpecCost.v
theories/CostProofs.v
theories/CostCompare.v
theories/CostFirst.v
theories/CostParse.v
theories/CostBound.v
theories/CostTop.v
theories/PropCost.v
theories/ThrowProofs.v
theories/CutProofs.v
theories/ThrowFacts.v
theories/PropThrow.v
theories/Container.v
theories/SpecContainer.v
theories/ContainerProofs.v
theories/ContainerRound.v
theories/PropContainer.v
theories/Reuse.v
theories/SpecReuse.v
theories/ReuseParse.v
theories/ReuseDump.v
theories/ReuseMain.v
theories/PropReuse.v
theories/Options.v
theories/SpecOptions.v
theories/OptionsProofs.v
theories/PropOptions.v
theories/NumType.v
theories/SpecNumType.v
theories/NumLex.v
theories/NumParse.v
theories/NumInst.v
theories/NumParam.v
theories/NumIty.v
theories/NumDump.v
theories/SpecNumRound.v
theories/NumRound.v
theories/SpecNumDump.v
theories/NumDumpText.v
theories/NumSingle.v
theories/SpecNumSingle.v
theories/NumSingleProofs.v
theories/PropNumType.v
theories/ConvHeap.v
theories/SpecConvHeap.v
theories/ConvHeapProofs.v
theories/PropConvHeap.v
theories/ConvMem.v
theories/SpecConvMem.v
theories/ConvMemStep.v
theories/ConvMemSound.v
theories/ConvMemReach.v
theories/ConvMemMain.v
theories/PropConvMem.v
theories/DumpMem.v
theories/SpecDumpMem.v
theories/DumpMemProofs.v
theories/DumpMemEnds.v
theories/DumpMemWhen.v
theories/DumpMemMain.v
theories/PropDumpMem.v
theories/StreamUse.v
theories/SpecStreamUse.v
theories/StreamUseProofs.v
theories/StreamUseMain.v
theories/PropStreamUse.v
theories/ConvUser.v
theories/SpecConvUser.v
theories/ConvUserProofs.v
theories/ConvUserMore.v
theories/PropConvUser.v
theories/Refs.v
theories/SpecRefs.v
theories/RefsFacts.v
theories/RefsProofs.v
theories/RefsMain.v
theories/PropRefs.v
theories/IterUse.v
theories/SpecIterUse.v
theories/IterUseProofs.v
theories/IterUseMain.v
theories/IterUseWalk.v
theories/IterUseLoops.v
theories/IterUseIdioms.v
theories/PropIterUse.v
theories/IterUseMore.v
theories/SpecIterUseMore.v
theories/IterUseMoreProofs.v
theories/PropIterUseMore.v
theories/Content.v
theories/SpecContent.v
theories/ContentProofs.v
theories/PropContent.v
