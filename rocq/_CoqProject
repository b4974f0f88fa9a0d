-Q theories Verif
theories/Algorithms.v
theories/AlgorithmsSpec.v
theories/Arith.v
theories/ArithSpec.v
theories/Asp.v
theories/AspNamesSpec.v
theories/AspProofs1.v
theories/AspProofs2.v
theories/AspProofs3.v
theories/AspProofs4.v
theories/AspSpec.v
theories/AspText.v
theories/AspTextProofs1.v
theories/AspTextProofs2.v
theories/AspTextProofs3.v
theories/AspTextProofs4.v
theories/AspTextProofs5.v
theories/AspTextProofs6.v
theories/AspTextSpec.v
theories/Base.v
theories/Bfs.v
theories/BfsProofs.v
theories/Blocks.v
theories/BlocksProofs.v
theories/BlocksProofs2.v
theories/BlocksProofs3.v
theories/BlocksSpec.v
theories/Build.v
theories/BuildProofs.v
theories/Cnf.v
theories/CnfProofs.v
theories/CompileSpec.v
theories/Containers.v
theories/ContainersSpec.v
theories/Costs.v
theories/CostsProofs.v
theories/CostsSpec.v
theories/Counters.v
theories/CountersProofs.v
theories/CountersProofs2.v
theories/CountersSpec.v
theories/Csp.v
theories/CspSchema.v
theories/CspSchemaProofs.v
theories/CspSchemaSpec.v
theories/CspSpec.v
theories/CspText.v
theories/CspTextProofs.v
theories/CspTextSpec.v
theories/Dl.v
theories/DlSpec.v
theories/Effects.v
theories/Eval.v
theories/EvalProofs.v
theories/EvalSpec.v
theories/FBlocks.v
theories/FBlocksLangProofs.v
theories/FBlocksProofs.v
theories/FBlocksProofs2.v
theories/FBlocksSpec.v
theories/Fluents.v
theories/FluentsProofs.v
theories/FluentsProofs2.v
theories/FluentsSpec.v
theories/FolSpec.v
theories/FolSpec2.v
theories/FormulaText.v
theories/FormulaTextLink.v
theories/FormulaTextProofs.v
theories/FormulaTextSpec.v
theories/FreeVars.v
theories/FreeVarsProofs.v
theories/GroundAtoms.v
theories/GroundAtomsSpec.v
theories/Grounding.v
theories/GroundingSpec.v
theories/HashBytes.v
theories/HashBytesSpec.v
theories/HashEq.v
theories/HashEqProofs.v
theories/HypergraphSpec.v
theories/Index.v
theories/Lang.v
theories/LangProofs.v
theories/LangProofs2.v
theories/LangProofs3.v
theories/LangSpec.v
theories/ListUtil.v
theories/LpGround.v
theories/LpGroundProofs.v
theories/LpGroundProofs2.v
theories/LpGroundProofs3.v
theories/LpGroundSpec.v
theories/Ltl.v
theories/LtlProofs.v
theories/LtlSpec.v
theories/Matrix.v
theories/MatrixProofs.v
theories/MatrixSpec.v
theories/ModelProofs.v
theories/ModelSpec.v
theories/ModelState.v
theories/ModelText.v
theories/ModelTextProofs.v
theories/ModelTextSpec.v
theories/NaiveGround.v
theories/NaiveGroundProofs.v
theories/NaiveGroundProofs2.v
theories/NaiveGroundSpec.v
theories/Ndl.v
theories/NdlSpec.v
theories/NegBuiltin.v
theories/NegBuiltinProofs.v
theories/Nnf.v
theories/NnfProofs.v
theories/Nodes.v
theories/NodesSpec.v
theories/Numeric.v
theories/NumericSpec.v
theories/OpNames.v
theories/OpNamesSpec.v
theories/OperatorProofs.v
theories/OperatorSpec.v
theories/ParseAtom.v
theories/ParseAtomProofs.v
theories/ParseAtomSpec.v
theories/PddlAction.v
theories/PddlActionProofs.v
theories/PddlActionSpec.v
theories/PddlDerived.v
theories/PddlDerivedSpec.v
theories/PddlExpr.v
theories/PddlExprProofs.v
theories/PddlExprProofs2.v
theories/PddlExprProofs3.v
theories/PddlExprProofs4.v
theories/PddlExprProofs5.v
theories/PddlExprProofs6.v
theories/PddlExprSpec.v
theories/PddlInstance.v
theories/PddlInstanceProofs.v
theories/PddlInstanceProofs2.v
theories/PddlInstanceProofs3.v
theories/PddlInstanceProofs4.v
theories/PddlInstanceProofs5.v
theories/PddlInstanceSpec.v
theories/PddlLex.v
theories/PddlLexProofs.v
theories/PddlLexProofs2.v
theories/PddlLexSpec.v
theories/PddlProblem.v
theories/PddlProblemProofs.v
theories/PddlProblemProofs2.v
theories/PddlProblemProofs3.v
theories/PddlProblemProofs4.v
theories/PddlProblemProofs5.v
theories/PddlProblemProofs6.v
theories/PddlProblemSpec.v
theories/PddlProofs.v
theories/PddlProofs2.v
theories/PddlRead.v
theories/PddlReq.v
theories/PddlReqSpec.v
theories/PddlSpec.v
theories/PddlText.v
theories/Prenex.v
theories/PrenexProofs.v
theories/PrenexSpec.v
theories/ProgressProofs.v
theories/ProgressSpec.v
theories/ProjectSpec.v
theories/PropsAlgorithms.v
theories/PropsArith.v
theories/PropsAsp.v
theories/PropsAspNames.v
theories/PropsAspText.v
theories/PropsBlocks.v
theories/PropsCompile.v
theories/PropsContainers.v
theories/PropsCosts.v
theories/PropsCounters.v
theories/PropsCsp.v
theories/PropsCspSchema.v
theories/PropsCspText.v
theories/PropsDl.v
theories/PropsFBlocks.v
theories/PropsFluents.v
theories/PropsFol.v
theories/PropsFol2.v
theories/PropsFormulaText.v
theories/PropsGround.v
theories/PropsGrounding.v
theories/PropsHashBytes.v
theories/PropsHypergraph.v
theories/PropsIndex.v
theories/PropsLang.v
theories/PropsLang2.v
theories/PropsLpGround.v
theories/PropsLpGround2.v
theories/PropsLtl.v
theories/PropsLtl2.v
theories/PropsMatrix.v
theories/PropsModel.v
theories/PropsNaiveGround.v
theories/PropsNdl.v
theories/PropsNodes.v
theories/PropsNumeric.v
theories/PropsOpNames.v
theories/PropsOperators.v
theories/PropsParseAtom.v
theories/PropsPddl.v
theories/PropsPddlAction.v
theories/PropsPddlDerived.v
theories/PropsPddlExpr.v
theories/PropsPddlInstance.v
theories/PropsPddlLex.v
theories/PropsPddlProblem.v
theories/PropsPddlReq.v
theories/PropsPrenex.v
theories/PropsProgress.v
theories/PropsProject.v
theories/PropsRddl.v
theories/PropsRddl2.v
theories/PropsRddlDoc.v
theories/PropsRddlDoc2.v
theories/PropsRddlInit.v
theories/PropsRddlRead.v
theories/PropsRddlRound.v
theories/PropsRddlRound2.v
theories/PropsRelax.v
theories/PropsRepresent.v
theories/PropsSas.v
theories/PropsSasText.v
theories/PropsSearch.v
theories/PropsSimplify.v
theories/PropsSimplifyEx.v
theories/PropsTermOps.v
theories/PropsTermOps2.v
theories/PropsTheories.v
theories/PropsVisitors.v
theories/PropsWalker.v
theories/PropsWalker2.v
theories/QElim.v
theories/QElimProofs.v
theories/Rddl.v
theories/RddlDoc.v
theories/RddlDocProofs.v
theories/RddlDocProofs2.v
theories/RddlDocProofs3.v
theories/RddlDocSpec.v
theories/RddlInit.v
theories/RddlInitProofs.v
theories/RddlInitProofs2.v
theories/RddlInitProofs3.v
theories/RddlInitSpec.v
theories/RddlProofs.v
theories/RddlProofs2.v
theories/RddlProofs3.v
theories/RddlRead.v
theories/RddlReadProofs.v
theories/RddlReadProofs2.v
theories/RddlReadProofs3.v
theories/RddlReadProofs4.v
theories/RddlReadSpec.v
theories/RddlRoundProofs.v
theories/RddlRoundProofs2.v
theories/RddlRoundSpec.v
theories/RddlSpec.v
theories/RelaxSpec.v
theories/Represent.v
theories/RepresentSpec.v
theories/Sas.v
theories/SasProofs.v
theories/SasSpec.v
theories/SasText.v
theories/SasTextProofs.v
theories/SasTextSpec.v
theories/SearchModel.v
theories/SearchModelProofs.v
theories/SemLemmas.v
theories/Semantics.v
theories/Simplify.v
theories/SimplifyEx.v
theories/SimplifyExSpec.v
theories/SimplifyProofs.v
theories/SimplifyProofs2.v
theories/SimplifyProofs3.v
theories/SimplifyProofs4.v
theories/SimplifySpec.v
theories/SortIds.v
theories/SortIdsProofs.v
theories/StateLemmas.v
theories/Subst.v
theories/SubstProofs.v
theories/SubstSpec.v
theories/Syntax.v
theories/Theories.v
theories/TheoriesProofs.v
theories/TheoriesProofs2.v
theories/TheoriesProofs3.v
theories/TheoriesSpec.v
theories/Visitors.v
theories/VisitorsSpec.v
theories/Walker.v
theories/WalkerProofs.v
theories/WalkerProofs2.v
theories/WalkerProofs3.v
theories/WalkerSpec.v
