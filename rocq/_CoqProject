-Q theories Verif
theories/Outcome.v
theories/CheckedIntModel.v
theories/CheckedIntSpec.v
theories/CheckedIntProofs.v
theories/CheckedIntProps.v
theories/Loop.v
theories/IntUtilsModel.v
theories/IntUtilsSpec.v
theories/Pocklington.v
theories/IntUtilsProofs.v
theories/IntUtilsProps.v
theories/RationalModel.v
theories/RationalSpec.v
theories/RationalProofs.v
theories/RationalProps.v
theories/IntFloatModel.v
theories/IntFloatSpec.v
theories/IntFloatProofs.v
theories/IntFloatProps.v
theories/SpanModel.v
theories/SpanSpec.v
theories/SpanProofs.v
theories/SpanProps.v
theories/CustomTypeModel.v
theories/CustomTypeSpec.v
theories/CustomTypeProofs.v
theories/CustomTypeProps.v
theories/ConsumerModel.v
theories/ConsumerSpec.v
theories/ConsumerProofs.v
theories/ConsumerProps.v
theories/AllocatorModel.v
theories/AllocatorSpec.v
theories/AllocatorProofs.v
theories/AllocatorProps.v
theories/RangesModel.v
theories/RangesSpec.v
theories/RangesProofs.v
theories/RangesProps.v
theories/FactorModel.v
theories/FactorSpec.v
theories/FactorProofs.v
theories/FactorProps.v
theories/IrModel.v
theories/IrSpec.v
theories/IrProofs.v
theories/IrPassProofs.v
theories/IrProps.v
theories/PassModel.v
theories/PassProofs.v
theories/PassFactorProofs.v
theories/PassBinarizeProofs.v
theories/PassProps.v
theories/ExprModel.v
theories/BuildModel.v
theories/ExprSpec.v
theories/ValProofs.v
theories/ExprProofs.v
theories/NumProofs.v
theories/BuildProofs.v
theories/PowProofs.v
theories/FuelProofs.v
theories/BuildProps.v
theories/OrderSpec.v
theories/OrderProofs.v
theories/OrderProps.v
theories/SumSpec.v
theories/SumProofs.v
theories/MulOrderProofs.v
theories/SumProps.v
theories/FuncModel.v
theories/FuncProofs.v
theories/FuncProps.v
theories/DerivModel.v
theories/DerivSpec.v
theories/CalcProofs.v
theories/DerivZeroProofs.v
theories/DerivFnProofs.v
theories/DerivProofs.v
theories/DerivProps.v
theories/MapModel.v
theories/MapSpec.v
theories/MapProofs.v
theories/MemoProofs.v
theories/MapProps.v
theories/QuatModel.v
theories/QuatSpec.v
theories/QuatProofs.v
theories/QuatJacProofs.v
theories/QuatProps.v
theories/MatrixModel.v
theories/MatOpsModel.v
theories/MatrixSpec.v
theories/MatrixProofs.v
theories/StackProofs.v
theories/MatrixProps.v
theories/LuModel.v
theories/LuSpec.v
theories/DetProofs.v
theories/LuProofs.v
theories/LuMatProofs.v
theories/LuProps.v
theories/LowerModel.v
theories/LowerSpec.v
theories/ZeroProofs.v
theories/LowerProofs.v
theories/LowerSortProofs.v
theories/LowerProps.v
theories/ClosureProofs.v
theories/TransSpec.v
theories/CollectModel.v
theories/CollectProofs.v
theories/CollectProps.v
theories/MapRunProofs.v
theories/CseModel.v
theories/CseSpec.v
theories/CseProofs.v
theories/CseRunProofs.v
theories/CseProps.v
theories/DistModel.v
theories/DistSpec.v
theories/DistProofs.v
theories/DistProps.v
theories/CfgModel.v
theories/CfgSpec.v
theories/MergeProofs.v
theories/CountProofs.v
theories/CfgProps.v
theories/ConvModel.v
theories/ConvShape.v
theories/ConvSpec.v
theories/ConvBlocks.v
theories/ConvGroup.v
theories/ConvInv.v
theories/ConvBranch.v
theories/ConvProcess.v
theories/ConvOptional.v
theories/ConvConvert.v
theories/ConvCopies.v
theories/ConvRun.v
theories/ConvProofs.v
theories/ConvTotal.v
theories/ConvFinish.v
theories/ConvProps.v
theories/ConvTotalProps.v
theories/CppSpec.v
theories/CppParse.v
theories/AstModel.v
theories/AstSpec.v
theories/AstProofs.v
theories/AstTree.v
theories/AstProps.v
theories/StmtModel.v
theories/StmtSpec.v
theories/StmtStore.v
theories/StmtRegion.v
theories/StmtRun.v
theories/StmtBlock.v
theories/StmtProofs.v
theories/StmtConv.v
theories/StmtTotal.v
theories/StmtProps.v
theories/StmtTotalProps.v
theories/PipeModel.v
theories/PipeSpec.v
theories/PipeProofs.v
theories/PipeConv.v
theories/PipeLower.v
theories/PipeProps.v
theories/OnceSpec.v
theories/OnceProofs.v
theories/OnceProps.v
theories/PySpec.v
theories/PyParse.v
theories/PlainModel.v
theories/PlainSpec.v
theories/PlainLex.v
theories/PlainProofs.v
theories/PlainProps.v
theories/PyCodeModel.v
theories/PyCodeSpec.v
theories/PyCodeProofs.v
theories/PyCodeTree.v
theories/PyCodeProps.v
theories/RustSpec.v
theories/RustParse.v
theories/RustModel.v
theories/RustCodeSpec.v
theories/RustProofs.v
theories/RustTree.v
theories/RustProps.v
theories/CppStmtSpec.v
theories/CppStmtModel.v
theories/CppBodySpec.v
theories/CppStmtProofs.v
theories/StmtText.v
theories/CppStmtProps.v
theories/RustStmtSpec.v
theories/RustStmtModel.v
theories/RustBodySpec.v
theories/RustStmtProofs.v
theories/StmtReturn.v
theories/RustStmtProps.v
theories/PyStmtSpec.v
theories/PyStmtModel.v
theories/PyBodySpec.v
theories/PyStmtProofs.v
theories/PyStmtProps.v
theories/PyRunSpec.v
theories/PyRunProofs.v
theories/PyRunProps.v
