-Q theories Verif
theories/Base.v
theories/Vec.v
theories/EncodingModel.v
theories/EncodingProofs.v
theories/Syntax.v
theories/FactoryModel.v
theories/FactoryInv.v
theories/FactoryBasics.v
theories/FactoryProofs.v
theories/FactorySpecs.v
theories/FactoryNary.v
theories/FactoryOps.v
theories/EvalProofs.v
theories/InvariantSpec.v
theories/HashConsProofs.v
theories/InvariantProofs.v
theories/HistoryModel.v
theories/HistoryProofs.v
theories/ConstraintModel.v
theories/ConstraintProofs.v
theories/OpsModel.v
theories/OpsProofs.v
theories/CcModel.v
theories/EncBasics.v
theories/AmoProofs.v
theories/TotalizerProofs.v
theories/ModTotProofs.v
theories/SorterProofs.v
theories/CcFrontProofs.v
theories/PbModel.v
theories/PbProofs.v
theories/CacheModel.v
theories/TransModel.v
theories/TreeSpec.v
theories/WorldProofs.v
theories/MetricsProofs.v
theories/EncodeProofs.v
theories/NnfProofs.v
theories/CnfProofs.v
theories/HandlerProofs.v
theories/DefBasics.v
theories/TseitinProofs.v
theories/PgProofs.v
theories/EncoderProofs.v
theories/PureProofs.v
theories/AnonProofs.v
theories/AssignmentModel.v
theories/HeapModel.v
theories/HeapProofs.v
theories/UbTreeModel.v
theories/UbTreeProofs.v
theories/SubsumptionProofs.v
theories/XHistory.v
theories/XHistoryProofs.v
theories/XReplay.v
theories/Properties_Encoding.v
theories/Properties_Factory.v
theories/Properties_Cc.v
theories/Properties_Pb.v
theories/Properties_Constraint.v
theories/Properties_Ops.v
theories/Properties_Trans.v
theories/Properties_Metrics.v
theories/Properties_Assignment.v
theories/Properties_Heap.v
theories/Properties_Ubtree.v
theories/SatSpec.v
theories/SatModel.v
theories/SatBasics.v
theories/SatHeap.v
theories/SatInv.v
theories/SatProp.v
theories/SatAnalyze.v
theories/SatDb.v
theories/SatSearch.v
theories/SatSolve.v
theories/SatFront.v
theories/SatExact.v
theories/Properties_Sat.v
theories/SatState.v
theories/SatLoad.v
theories/SatReplay.v
theories/SatHistory.v
theories/Properties_State.v
theories/MiniModel.v
theories/MiniProofs.v
theories/EnumProofs.v
theories/BackboneProofs.v
theories/OptModel.v
theories/MiniHistory.v
theories/Properties_Mini.v
theories/OptProofs.v
theories/Properties_Opt.v
theories/ConcModel.v
theories/ConcProofs.v
theories/ConcCache.v
theories/Properties_Conc.v
theories/BddSpec.v
theories/BddModel.v
theories/BddLink.v
theories/BddTable.v
theories/BddMake.v
theories/BddRep.v
theories/BddOps.v
theories/BddBuild.v
theories/BddNew.v
theories/BddQuant.v
theories/BddDen.v
theories/BddCount.v
theories/BddEnum.v
theories/BddHist.v
theories/Properties_Bdd.v
theories/DnnfSpec.v
theories/DnnfModel.v
theories/DnnfProofs.v
theories/Properties_Dnnf.v
theories/ParserModel.v
theories/ParserText.v
theories/ParserGrammar.v
theories/ParserRebuild.v
theories/ParserSpec.v
theories/ParserProofs.v
theories/Properties_Parser.v
theories/IoModel.v
theories/IoSpec.v
theories/IoProofs.v
theories/Properties_Io.v
theories/PgSolverModel.v
theories/PgSolverProofs.v
theories/PgAddProofs.v
theories/BbSimpModel.v
theories/SatPredModel.v
theories/PgHistory.v
theories/PgTakeProofs.v
theories/BbSimpProofs.v
theories/PgHistoryProofs.v
theories/PgReplay.v
theories/Properties_PgSolver.v
theories/Properties_BbSimp.v
theories/DnnfCompModel.v
theories/DnnfCompTree.v
theories/DnnfCompVal.v
theories/DnnfCompSat.v
theories/DnnfCompProofs.v
theories/DnnfCompLoad.v
theories/DnnfCompNames.v
theories/DnnfCompMain.v
theories/Properties_DnnfComp.v
theories/OrderModel.v
theories/OrderProofs.v
theories/Properties_Order.v
theories/CountModel.v
theories/CountProofs.v
theories/CountBdd.v
theories/CountMain.v
theories/Properties_Count.v
theories/CountNary.v
theories/CountConjModel.v
theories/CountConj.v
theories/CountConjMain.v
theories/Properties_CountConj.v
theories/PrimeFermat.v
theories/PrimeModel.v
theories/PrimeProofs.v
theories/PrimeGrow.v
theories/Properties_Prime.v
theories/PrimeKernelModel.v
theories/Properties_PrimeKernel.v
theories/CountDnnfModel.v
theories/DnnfPrep.v
theories/Properties_DnnfCount.v
theories/HashSetModel.v
theories/Properties_HashSet.v
theories/NQueensModel.v
theories/NQueensProofs.v
theories/Properties_NQueens.v
theories/ParserHistory.v
theories/Properties_ParserHistory.v
theories/FileAnonModel.v
theories/Properties_FileAnon.v
theories/XFrame.v
theories/XRebuild.v
theories/Properties_Rebuild.v
