-Q theories Verif
theories/Syntax.v
theories/Spec.v
theories/Utf8.v
theories/Num.v
theories/Term.v
theories/Printer.v
theories/Slots.v
theories/PropTerm.v
theories/Gll.v
theories/GllUniv.v
theories/Bsr.v
theories/BsrProof.v
theories/BsrTerm.v
theories/LowerProof.v
theories/LowerLang.v
theories/LowerBudget.v
theories/PrintInj.v
theories/Check.v
theories/Occ.v
theories/Sppf.v
theories/SppfProof.v
theories/TreeSpec.v
theories/Tree.v
theories/TreeProof.v
theories/TreeSound.v
theories/TreeComplete.v
theories/TreeLang.v
theories/Apart.v
theories/Between.v
theories/Marked.v
theories/PropGll.v
theories/ForestUnique.v
theories/TreeCount.v
theories/PropTree.v
theories/Deps.v
theories/Errors.v
theories/Furthest.v
theories/PropSem.v
theories/Tape.v
theories/PropTape.v
theories/Eval.v
theories/EvalProof.v
theories/PropEval.v
theories/Dag.v
theories/Cycle.v
theories/PropDag.v
theories/LeftRec.v
theories/PropLeftRec.v
theories/Recog.v
theories/RecogProof.v
theories/RecogComplete.v
theories/RecogGlue.v
theories/RecogCheck.v
theories/PropRecog.v
theories/Generate.v
theories/PropGenerate.v
theories/Ast.v
theories/AstProof.v
theories/AstSpec.v
theories/AstCost.v
theories/AstVisit.v
theories/AstTerm.v
theories/PropAst.v
theories/Regex.v
theories/RegexSpec.v
theories/RegexRead.v
theories/RegexSimp.v
theories/RegexBuild.v
theories/PropRegex.v
theories/Graph.v
theories/GraphSpec.v
theories/GraphRun.v
theories/GraphClone.v
theories/GraphRep.v
theories/GraphRepeat.v
theories/GraphLive.v
theories/GraphBuild.v
theories/GraphTotal.v
theories/PropGraph.v
theories/GraphLabel.v
theories/Walk.v
theories/WalkProof.v
theories/PropWalk.v
theories/PropLive.v
theories/NearMiss.v
theories/PropNear.v
theories/Reader.v
theories/ReaderProof.v
theories/PropReader.v
theories/Compact.v
theories/CompactProof.v
theories/PropCompact.v
theories/Expect.v
theories/ExpectProof.v
theories/PropExpect.v
theories/ReadSpec.v
theories/AbnfDen.v
theories/AbnfUnique.v
theories/AbnfRead.v
theories/AbnfForward.v
theories/AbnfEval.v
theories/PropRead.v
theories/PrintText.v
theories/PropPrint.v
theories/AbnfLocal.v
theories/ParseAbnf.v
theories/PropParse.v
theories/Codegen.v
theories/CodegenStmt.v
theories/CodegenProof.v
theories/CodegenGlue.v
theories/GoScope.v
theories/CodegenScope.v
theories/PropCodegen.v
theories/RecogUpper.v
theories/MarkCore.v
theories/RecogLower.v
theories/PropBetween.v
theories/BsrTree.v
theories/BsrCount.v
theories/BsrTable.v
theories/BsrTreeProof.v
theories/PropBsrTree.v
theories/BsrOrder.v
theories/PropOrder.v
theories/BsrTreeSim.v
theories/PropCodegenTree.v
theories/PropNodes.v
theories/BsrSppf.v
theories/PropEngines.v
theories/PropInvariants.v
theories/PropWritten.v
theories/PropFromAbnf.v
theories/PropComments.v
theories/Mermaid.v
theories/PropMermaid.v
theories/Front.v
theories/PropReport.v
theories/PropHint.v
theories/PropRedefine.v
theories/Pap.v
theories/PropPap.v
theories/Cost.v
theories/CostProof.v
theories/CostLow.v
theories/PropCost.v
theories/PropSelf.v
theories/ErrText.v
theories/PropErrText.v
theories/QueryCost.v
theories/QueryCostProof.v
theories/QueryCostLow.v
theories/PropQueryCost.v
theories/LowerSize.v
theories/CounterCost.v
theories/PropBudget.v
theories/RecogCost.v
theories/RecogCostProof.v
theories/RecogCostLow.v
theories/PropRecogCost.v
theories/RegexCost.v
theories/RegexCostProof.v
theories/RegexCostLow.v
theories/PropRegexCost.v
theories/AnaCost.v
theories/AnaCostProof.v
theories/AnaCostLow.v
theories/PropAnaCost.v
theories/Names.v
theories/NamesProof.v
theories/PropNames.v
theories/BsrQueryCost.v
theories/BsrQueryCostProof.v
theories/BsrQueryCostSim.v
theories/BsrTower.v
theories/PropBsrQueryCost.v
theories/Spell.v
theories/SpellProof.v
theories/PropSpell.v
theories/Part.v
theories/PartProof.v
theories/PartRecog.v
theories/AstOrder.v
theories/PropPart.v
theories/PropAstOrder.v
theories/RuleOrder.v
theories/PropRuleOrder.v
theories/PropJoin.v
theories/PropLayout.v
theories/PropSame.v
theories/Evaluate.v
theories/PropEvaluate.v
theories/PropText.v
theories/GraphAlloc.v
theories/PropAlloc.v
theories/GraphSimple.v
theories/PropSimple.v
theories/PropOnce.v
theories/PropServed.v
theories/PropRenumber.v
theories/PropRenumberWalk.v
theories/PropLimits.v
