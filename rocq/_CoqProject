-Q theories Verif
theories/Base.v
theories/Heap.v
theories/ValidFlags.v
theories/InputGraph.v
theories/PrepGraph.v
theories/Witness.v
theories/Contractor.v
theories/FastGraph.v
theories/Builder.v
theories/ShortestPath.v
theories/PathCalc.v
theories/Unwind.v
theories/FastGraph32.v
theories/Lib.v
theories/HeapImpl.v
theories/Text.v
theories/BufWriter.v
theories/FileIO.v
theories/BaseFacts.v
theories/Spec.v
theories/PathFacts.v
theories/PrepFacts.v
theories/FlagFacts.v
theories/WitnessFacts.v
theories/ContractFacts.v
theories/HierFacts.v
theories/RepFacts.v
theories/SimpleFacts.v
theories/FgOk.v
theories/BuilderFacts.v
theories/UnpackFacts.v
theories/QueryFacts.v
theories/QueryResult.v
theories/UnwindFacts.v
theories/SpecGraph.v
theories/InputGraphFacts.v
theories/SpecText.v
theories/TextFacts.v
theories/HeapFacts.v
theories/BinHeap.v
theories/BinHeapFacts.v
theories/ModeMono.v
theories/HistoryFacts.v
theories/SpecApi.v
theories/ApiFacts.v
theories/AnswerFacts.v
theories/Examples.v
theories/QueryProps.v
theories/SelfQuery.v
theories/PropQuery.v
theories/PrepareProps.v
theories/OrderProps.v
theories/GraphProps.v
theories/WriterFacts.v
theories/ReaderFacts.v
theories/FileProps.v
theories/FileTrunc.v
theories/ReleaseProps.v
theories/MetaProps.v
theories/PropPrepare.v
theories/PropCalculator.v
theories/PropGraph.v
theories/PropRelations.v
theories/PropMeta.v
theories/SpecShortcut.v
theories/ExactFacts.v
theories/ShortcutProps.v
theories/RelLinear.v
theories/PropShortcut.v
theories/ReplayFacts.v
theories/ReplayProps.v
theories/PropReplay.v
theories/Spec32.v
theories/Fg32Props.v
theories/Prop32.v
theories/PropFile.v
theories/FlagProps.v
theories/PropFlags.v
theories/Dijkstra.v
theories/FloydWarshall.v
theories/SpecOracle.v
theories/DijkstraFacts.v
theories/FloydFacts.v
theories/OracleProps.v
theories/PropOracle.v
theories/Serial.v
theories/SpecSerial.v
theories/SerialFacts.v
theories/SerialProps.v
theories/SerialExt.v
theories/PropSerial.v
theories/TestOutput.v
theories/SpecOutput.v
theories/OutputProps.v
theories/PropOutput.v
theories/SpecOverlay.v
theories/OverlayFacts.v
theories/TraceFacts.v
theories/OverlayProps.v
theories/PropOverlay.v
theories/SpecFill.v
theories/FillFacts.v
theories/FillProps.v
theories/PropFill.v
theories/SpecUnwind.v
theories/UnwindProps.v
theories/PropUnwind.v
theories/PipelineProps.v
theories/PropPipeline.v
theories/SpecTerm.v
theories/TermFacts.v
theories/TermProps.v
theories/PropTerm.v
theories/SpecRel.v
theories/RelContract.v
theories/RelFacts.v
theories/RelProps.v
theories/Shape.v
theories/PropRel.v
theories/SpecSens.v
theories/SensProps.v
theories/PropSens.v
theories/SpecSession.v
theories/SessionProps.v
theories/PropSession.v
theories/Effort.v
theories/SpecEffort.v
theories/EffortFacts.v
theories/PropEffort.v
theories/EffortPrep.v
theories/SpecEffortPrep.v
theories/EffortPrepFacts.v
theories/PropEffortPrep.v
theories/SpecWitness.v
theories/WitnessProps.v
theories/PropWitness.v
theories/SpecValid.v
theories/ValidProps.v
theories/PropValid.v
theories/BuildProps.v
theories/PropBuild.v
theories/RandomTest.v
theories/SpecRandom.v
theories/RandomProps.v
theories/PropRandom.v
theories/PerfTest.v
theories/SpecPerf.v
theories/PerfProps.v
theories/PropPerf.v
theories/SpecChain.v
theories/ChainProps.v
theories/PropChain.v
theories/PropLimits.v
theories/LimitFacts.v
theories/SpecLadder.v
theories/LadderProps.v
theories/PropLadder.v
theories/UnitTests.v
theories/Stack.v
theories/StackFacts.v
theories/StackChain.v
theories/PropStack.v
theories/SpecStar.v
theories/StarProps.v
theories/PropStar.v
theories/PropDocs.v
theories/PropParams.v
theories/CertFacts.v
theories/PropCert.v
theories/SpecChars.v
theories/CharFacts.v
theories/PropChars.v
theories/Rel32Facts.v
theories/PropRel32.v
theories/PropItems.v
theories/OrderRel.v
theories/PropOrderRel.v
theories/OracleRel.v
theories/PropOracleRel.v
theories/OracleReuse.v
theories/PropReuse.v
theories/PlatformFacts.v
theories/PropPlatform.v
theories/BinPq.v
theories/BinPqFacts.v
theories/SpecProgram.v
theories/ProgramFacts.v
theories/PropProgram.v
theories/SpecSaved.v
theories/SavedFacts.v
theories/PropSaved.v
theories/SpecCompat.v
theories/CompatFacts.v
theories/PropCompat.v
theories/SpecTextProgram.v
theories/TextProgramFacts.v
theories/PropTextProgram.v
theories/ProgramRelFacts.v
theories/PropProgramRel.v
theories/NoneFacts.v
theories/PropNone.v
