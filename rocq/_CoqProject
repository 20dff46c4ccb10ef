-Q theories Verif
theories/Base.v
theories/BaseProofs.v
theories/PoolModel.v
theories/PoolSpec.v
theories/PoolProofs.v
theories/PoolLive.v
theories/PoolWitness.v
theories/PoolTheorems.v
theories/NumOps.v
theories/RLemmas.v
theories/HelperModel.v
theories/HelperSpec.v
theories/HelperProofs.v
theories/HelperTheorems.v
theories/DistModel.v
theories/DistSpec.v
theories/DistProofs.v
theories/DistTheorems.v
theories/EngineModel.v
theories/EngineSpec.v
theories/EngineProofs.v
theories/EngineInv.v
theories/EngineCount.v
theories/EngineResults.v
theories/EngineTheorems.v
theories/ProductModel.v
theories/ProductProofs.v
theories/ProductTheorems.v
theories/MapModel.v
theories/MapProofs.v
theories/PickSpec.v
theories/PickProofs.v
theories/AlgoModel.v
theories/AlgoProofs.v
theories/AlgoFinish.v
theories/AlgoTheorems.v
theories/EngineBound.v
theories/UctModel.v
theories/UctSpec.v
theories/UctProofs.v
theories/UctInv.v
theories/UctSelect.v
theories/UctRun.v
theories/UctResults.v
theories/UctTheorems.v
theories/MentsModel.v
theories/SoftSpec.v
theories/SoftProofs.v
theories/AlgoNodes.v
theories/AlgoSafe.v
theories/MentsSpec.v
theories/MentsProofs.v
theories/MentsPolicy.v
theories/MentsRun.v
theories/SoftResults.v
theories/SoftTheorems.v
theories/RecSpec.v
theories/RecProofs.v
theories/MentsResults.v
theories/MentsTheorems.v
theories/LoggerModel.v
theories/LoggerSpec.v
theories/LoggerProofs.v
theories/LoggerTheorems.v
theories/EvalModel.v
theories/EvalSpec.v
theories/EvalProofs.v
theories/EvalTheorems.v
theories/TypesModel.v
theories/TypesTheorems.v
theories/ContextModel.v
theories/ContextTheorems.v
theories/EnvModel.v
theories/EnvTheorems.v
theories/NodeModel.v
theories/NodeSpec.v
theories/NodeProofs.v
theories/NodeTheorems.v
theories/LockModel.v
theories/LockSpec.v
theories/LockProofs.v
theories/LockTheorems.v
theories/TTModel.v
theories/TTSpec.v
theories/TTProofs.v
theories/TTTheorems.v
theories/ArgsHist.v
theories/AlgoHist.v
theories/EngineEnds.v
theories/FamilyRun.v
theories/WeightProofs.v
theories/DentsSpec.v
theories/DpRun.v
theories/DbRun.v
theories/DentsRun.v
theories/DentsResults.v
theories/DentsNan.v
theories/DentsTheorems.v
theories/WeightTheorems.v
theories/QuietSpec.v
theories/AlgoQuiet.v
theories/QuietResults.v
theories/QuietTheorems.v
theories/TentsSpec.v
theories/TentsProofs.v
theories/AlgoTrail.v
theories/TentsRun.v
theories/TentsStale.v
theories/TentsResults.v
theories/TentsTheorems.v
theories/MirrorSpec.v
theories/MirrorProofs.v
theories/MirrorAlgos.v
theories/MirrorTheorems.v
theories/ExploreSpec.v
theories/ExploreProofs.v
theories/ExploreTheorems.v
theories/TreeSpec.v
theories/TreeProofs.v
theories/TreeResults.v
theories/MixedProofs.v
theories/MixedResults.v
theories/TreeTheorems.v
theories/PrintModel.v
theories/PrintSpec.v
theories/PrintProofs.v
theories/PrintTheorems.v
theories/AccessModel.v
theories/AccessSpec.v
theories/AccessProofs.v
theories/AccessTheorems.v
theories/SerialModel.v
theories/SerialSpec.v
theories/SerialProofs.v
theories/SerialTheorems.v
theories/DoubleSpec.v
theories/DoubleProofs.v
theories/EngineAfter.v
theories/RoundModel.v
theories/RoundSpec.v
theories/RoundProofs.v
theories/RoundDouble.v
theories/RoundRun.v
theories/RoundRange.v
theories/RoundResults.v
theories/RoundExamples.v
theories/RoundTheorems.v
theories/LseModel.v
theories/LseSpec.v
theories/LseReal.v
theories/LseProofs.v
theories/AvgDouble.v
theories/LseExamples.v
theories/LseTheorems.v
theories/Ments64Model.v
theories/Ments64Spec.v
theories/Ments64Proofs.v
theories/Ments64Close.v
theories/Ments64Theorems.v
theories/EngineMade.v
theories/WorldSpec.v
theories/WorldProofs.v
theories/WorldResults.v
theories/WorldExamples.v
theories/WorldTheorems.v
theories/EngineVisits.v
theories/ReachSpec.v
theories/ReachProofs.v
theories/ReachFollow.v
theories/ReachFamily.v
theories/ReachTheorems.v
theories/EngineLedger.v
theories/ConvSpec.v
theories/ConvCount.v
theories/ConvProofs.v
theories/ConvMain.v
theories/ConvTheorems.v
theories/ConvCoin.v
theories/Dp64Model.v
theories/Dp64Spec.v
theories/Dp64Proofs.v
theories/Dp64Close.v
theories/Dp64Pick.v
theories/Dp64Theorems.v
theories/OddsSpec.v
theories/OddsCover.v
theories/OddsStep.v
theories/OddsVille.v
theories/OddsAvg.v
theories/OddsFair.v
theories/OddsNodes.v
theories/OddsLaw.v
theories/OddsDraws.v
theories/OddsReads.v
theories/OddsRuns.v
theories/OddsTheorems.v
theories/OddsTry.v
theories/OddsOften.v
theories/OddsGrow.v
theories/OddsBoldSpec.v
theories/OddsFamily.v
theories/OddsSpread.v
theories/OddsBoldResults.v
theories/OddsBoldTheorems.v
theories/SizeSpec.v
theories/SizeProofs.v
theories/SizeTheorems.v
theories/Dp64World.v
theories/Ments64World.v
theories/World64Theorems.v
theories/TableSpec.v
theories/TableFair.v
theories/TableProofs.v
theories/TableResults.v
theories/TableTheorems.v
theories/SureSpec.v
theories/SureProofs.v
theories/SureResults.v
theories/SureExamples.v
theories/SureTheorems.v
theories/BoundSpec.v
theories/BoundProofs.v
theories/BoundResults.v
theories/BoundTheorems.v
theories/ReproSpec.v
theories/ReproProofs.v
theories/ReproTheorems.v
theories/ScaleSpec.v
theories/ScaleProofs.v
theories/ScaleAlgos.v
theories/ScaleUct.v
theories/ScaleTheorems.v
theories/RcModel.v
theories/RcSpec.v
theories/RcProofs.v
theories/RcTheorems.v
theories/Emp64Model.v
theories/Emp64Spec.v
theories/Emp64Proofs.v
theories/Emp64Theorems.v
theories/DefaultModel.v
theories/DefaultSpec.v
theories/DefaultTheorems.v
theories/RentsSpec.v
theories/RentsProofs.v
theories/RentsTheorems.v
theories/TboundSpec.v
theories/TboundProofs.v
theories/TboundTheorems.v
