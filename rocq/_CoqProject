-Q theories Verif
theories/Base.v
theories/Term.v
theories/Field.v
theories/Sem.v
theories/Sorting.v
theories/Rules.v
theories/R_Taut.v
theories/R_Claus.v
theories/P_Taut.v
theories/R_Resolution.v
theories/P_Resolution.v
theories/Utils.v
theories/Refute.v
theories/Num.v
theories/R_Eq.v
theories/R_Extras.v
theories/R_LA.v
theories/P_Eq.v
theories/P_LA.v
theories/Polyeq.v
theories/PolyeqTerm.v
theories/Std.v
theories/PolyeqSound.v
theories/PolyeqRefute.v
theories/P_Polyeq.v
theories/Model.v
theories/Checker.v
theories/CheckerSound.v
theories/CheckerSem.v
theories/Table.v
theories/CheckerRefute.v
theories/P_Checker.v
theories/R_Simp.v
theories/R_SimpArith.v
theories/R_AC.v
theories/P_Simp.v
theories/Scheduler.v
theories/SchedSound.v
theories/Parallel.v
theories/ParallelMain.v
theories/P_Parallel.v
theories/R_ResExact.v
theories/Subst.v
theories/SubstSound.v
theories/SubstClean.v
theories/SubstRefute.v
theories/P_Subst.v
theories/Context.v
theories/ContextSound.v
theories/P_Context.v
theories/AlphaSound.v
theories/R_Binder.v
theories/BinderRefute.v
theories/BinderSound.v
theories/OnepointSound.v
theories/P_Binder.v
theories/R_Quant.v
theories/QuantSound.v
theories/QuantRefute.v
theories/P_Quant.v
theories/R_Bfun.v
theories/BfunSound.v
theories/P_Bfun.v
theories/R_CP.v
theories/CPSound.v
theories/CPRefute.v
theories/P_CP.v
theories/R_Drup.v
theories/DrupSound.v
theories/DrupOrder.v
theories/P_Drup.v
theories/R_Poly.v
theories/PolySound.v
theories/PolyOrder.v
theories/P_Poly.v
theories/R_Eval.v
theories/EvalSound.v
theories/P_Eval.v
theories/Parser.v
theories/ParserSound.v
theories/P_Parser.v
theories/Pool.v
theories/P_Pool.v
theories/Nodes.v
theories/P_Nodes.v
theories/R_Bv.v
theories/BvSound.v
theories/P_Bv.v
theories/R_PB.v
theories/PBSound.v
theories/PBRefute.v
theories/P_PB.v
theories/Slice.v
theories/SliceRefute.v
theories/SliceSound.v
theories/SliceCopy.v
theories/SliceMain.v
theories/P_Slice.v
theories/R_Str.v
theories/StrSound.v
theories/StrSound2.v
theories/StrRefute.v
theories/P_Strings.v
theories/Elab.v
theories/ElabSound.v
theories/ElabCong.v
theories/ElabFlip.v
theories/ElabTrans.v
theories/ElabCongr.v
theories/ElabRes.v
theories/ElabLocal.v
theories/ElabRefute.v
theories/P_Elab.v
theories/HashOrder.v
theories/P_Hash.v
theories/NoPanic.v
theories/NoPanicBv.v
theories/NoPanicPoly.v
theories/NoPanicMore.v
theories/NoPanicCtx.v
theories/NoPanicCheck.v
theories/P_Panic.v
theories/Lexer.v
theories/LexerSound.v
theories/TermIO.v
theories/P_Lexer.v
theories/TermIOSound.v
theories/TermIOPanic.v
theories/P_TermIO.v
theories/R_Rare.v
theories/RareSound.v
theories/FullTable.v
theories/P_Rare.v
theories/ElabUncrowd.v
theories/ElabReorder.v
theories/ElabUncrowdSound.v
theories/P_ElabUncrowd.v
theories/ElabReorderSound.v
theories/P_ElabReorder.v
theories/ElabPolyeq.v
theories/ElabPolyeqSound.v
theories/ElabGraph.v
theories/P_ElabPolyeq.v
theories/ElabIds.v
theories/ElabSolver.v
theories/ElabSolverSound.v
theories/GraphAccept.v
theories/SolverInsert.v
theories/P_ElabSolver.v
theories/ElabSubproof.v
theories/P_ElabSubproof.v
theories/P_ElabIds.v
theories/CheckMono.v
theories/ParserRename.v
theories/P_CheckMono.v
theories/GraphCheck.v
theories/GraphTree.v
theories/GraphWf.v
theories/GraphDone.v
theories/GraphReplace.v
theories/GraphInsert.v
theories/GraphOwn.v
theories/SolverList.v
theories/P_SolverList.v
theories/GraphPass.v
theories/ElabOver.v
theories/P_LocalList.v
theories/P_UncrowdList.v
theories/ProofIO.v
theories/ProofIOSound.v
theories/ProofIOPanic.v
theories/P_ProofIO.v
theories/WellSorted.v
theories/P_WellSorted.v
theories/ProblemIO.v
theories/ProblemWt.v
theories/P_Problem.v
theories/ProblemIOSound.v
theories/P_ProblemPrint.v
theories/ProblemPanic.v
theories/P_ProblemPanic.v
theories/P_Define.v
theories/Bench.v
theories/P_Bench.v
theories/P_ProblemMeaning.v
theories/SolverProblem.v
theories/P_SolverProblem.v
theories/ParallelAccept.v
theories/Cli.v
theories/P_Cli.v
theories/RareIO.v
theories/DefsApart.v
theories/P_RareIO.v
theories/ElabRules.v
theories/P_ElabRules.v
theories/NoPanicRules.v
theories/NoPanicStr.v
theories/NoPanicPrem.v
theories/NoPanicFull.v
theories/RarePanic.v
theories/ParsedText.v
theories/P_PanicText.v
theories/CliRules.v
theories/P_CliRules.v
theories/P_CliPanic.v
theories/NoPanicPar.v
theories/CliFiles.v
theories/P_CliFiles.v
