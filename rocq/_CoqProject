-Q theories Verif
theories/Base.v
theories/Param.v
theories/ParamProofs.v
theories/CastProofs.v
theories/Vtree.v
theories/VtreeProofs.v
theories/Props_Param.v
theories/Props_Vtree.v
theories/Spec.v
theories/SpecProofs.v
theories/Heap.v
theories/Manager.v
theories/HeapProofs.v
theories/SerProofs.v
theories/RepProofs.v
theories/OrderProofs.v
theories/CanonProofs.v
theories/HeapExamples.v
theories/ContentProofs.v
theories/Props_Heap.v
theories/LoadProofs.v
theories/MulProofs.v
theories/ReplayProofs.v
theories/ManagerExamples.v
theories/Props_Manager.v
theories/Query.v
theories/TreeProofs.v
theories/QueryProofs.v
theories/MpeProofs.v
theories/SampleProofs.v
theories/QueryExamples.v
theories/Props_Query.v
theories/Learn.v
theories/LearnProofs.v
theories/CountProofs.v
theories/LearnExamples.v
theories/Props_Learn.v
theories/Sdd.v
theories/SddProofs.v
theories/SddExamples.v
theories/Props_Sdd.v
theories/Text.v
theories/IO.v
theories/IOProofs.v
theories/FixedProofs.v
theories/IOExamples.v
theories/Props_IO.v
theories/Cnf.v
theories/CnfProofs.v
theories/RefLib.v
theories/InferProofs.v
theories/CnfExamples.v
theories/Props_Cnf.v
theories/Pgm.v
theories/PgmLayout.v
theories/PgmProofs.v
theories/PgmFail.v
theories/PgmNet.v
theories/PgmExamples.v
theories/Props_Pgm.v
theories/Csv.v
theories/CsvProofs.v
theories/CsvExamples.v
theories/Props_Csv.v
theories/Data.v
theories/DataProofs.v
theories/DataExamples.v
theories/Props_Data.v
theories/Uai.v
theories/UaiProofs.v
theories/UaiExamples.v
theories/Props_Uai.v
theories/VtreeGen.v
theories/VtreeGenProofs.v
theories/JointreeProofs.v
theories/HyperProofs.v
theories/Props_VtreeGen.v
theories/Compiler.v
theories/CompilerProofs.v
theories/CompilerExamples.v
theories/Props_Compiler.v
theories/Bench.v
theories/BenchProofs.v
theories/Props_Bench.v
theories/ApproxMpe.v
theories/ApproxRep.v
theories/ApproxMul.v
theories/ApproxExamples.v
theories/Props_Approx.v
theories/BoxProofs.v
theories/Props_Sample.v
theories/LikeProofs.v
theories/LikeExamples.v
theories/Props_Like.v
theories/Round.v
theories/RoundProofs.v
theories/RoundEval.v
theories/RoundMpe.v
theories/RoundMarg.v
theories/RoundRep.v
theories/RoundMul.v
theories/RoundLearn.v
theories/RoundSample.v
theories/RoundExamples.v
theories/Props_Round.v
theories/TransferProofs.v
theories/TransferOps.v
theories/TransferNet.v
theories/TransferCode.v
theories/Props_Transfer.v
theories/NumProofs.v
theories/Props_Text.v
theories/FileProofs.v
theories/FileExamples.v
theories/Props_File.v
theories/ProductTrees.v
theories/ProductNodes.v
theories/ProductProofs.v
theories/ProductExamples.v
theories/Props_Product.v
theories/AgainProofs.v
theories/Props_Again.v
theories/OneNode.v
theories/OneFile.v
theories/OneExamples.v
theories/Props_OneNode.v
theories/AgreeProofs.v
theories/Props_Agree.v
theories/Elsewhere.v
theories/Props_Elsewhere.v
theories/SameShape.v
theories/HistoryExamples.v
theories/Props_History.v
theories/SizeProofs.v
theories/Props_Size.v
theories/NodeHash.v
theories/Props_Hash.v
theories/Cut.v
theories/DataCut.v
theories/CutLine.v
theories/CutExamples.v
theories/Props_Cut.v
theories/FormatProofs.v
theories/Props_Format.v
theories/LongFile.v
theories/Props_Long.v
theories/Kahypar.v
theories/KahyparProofs.v
theories/Props_Kahypar.v
theories/SetTable.v
theories/SetTableExamples.v
theories/Props_SetTable.v
theories/Threads.v
theories/ThreadsProofs.v
theories/ThreadsExamples.v
theories/Props_Threads.v
theories/BitQuery.v
theories/BitProofs.v
theories/BitData.v
theories/Props_Bits.v
theories/Args.v
theories/ArgsProofs.v
theories/ProgProofs.v
theories/PipeProofs.v
theories/Props_Args.v
theories/NearCertain.v
theories/NearKept.v
theories/NetCode.v
theories/Props_NearCertain.v
theories/MleProofs.v
theories/LearnTrue.v
theories/MleExamples.v
theories/Props_Mle.v
theories/MulRel.v
theories/MulRelProofs.v
theories/MulNan.v
theories/Props_MulRel.v
theories/MulExact.v
theories/MulTrue.v
theories/Props_MulExact.v
theories/MulCost.v
theories/CostProofs.v
theories/ExpProofs.v
theories/Props_Cost.v
theories/PgmZero.v
theories/CompilerZero.v
theories/Props_Zero.v
theories/QueryCode.v
theories/ProgCode.v
theories/ProgCodeEx.v
theories/Props_ProgCode.v
theories/RepoTests.v
theories/MinFillProofs.v
theories/Props_MinFill.v
theories/TogetherProofs.v
theories/Props_Together.v
theories/Race.v
theories/RaceProofs.v
theories/Props_Race.v
theories/SizeAtProofs.v
theories/SizeNet.v
theories/SizeFactor.v
theories/SizeTrue.v
theories/SizeCut.v
theories/Props_SizeAt.v
