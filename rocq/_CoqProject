-Q theories Verif
theories/Base.v
theories/BaseProofs.v
theories/Utf8.v
theories/Quote.v
theories/QuoteProofs.v
theories/QuotePrint.v
theories/QuoteSpec.v
theories/QuoteGrammar.v
theories/PropQuote.v
theories/Labels.v
theories/LabelsProofs.v
theories/PropLabels.v
theories/Order.v
theories/Ast.v
theories/StrList.v
theories/StrListSpec.v
theories/StrListProofs.v
theories/StrListSort.v
theories/PropStrList.v
theories/Walk.v
theories/WalkSpec.v
theories/WalkProofs.v
theories/WalkGen.v
theories/PropWalk.v
theories/Rewrite.v
theories/CallSpec.v
theories/CallProofs.v
theories/PropCall.v
theories/LitSpec.v
theories/LitProofs.v
theories/PropLit.v
theories/ParenSpec.v
theories/PropParen.v
theories/LabelRwSpec.v
theories/LabelRwProofs.v
theories/PropLabelRw.v
theories/ListRwSpec.v
theories/ListRwProofs.v
theories/PropListRw.v
theories/SortMarksSpec.v
theories/PropSortMarks.v
theories/Loads.v
theories/LoadsSpec.v
theories/LoadsProofs.v
theories/LoadsOrder.v
theories/PropLoads.v
theories/Pipeline.v
theories/LayoutSpec.v
theories/PipelineProofs.v
theories/PropRewrite.v
theories/RuleApi.v
theories/RuleSpec.v
theories/RuleProofs.v
theories/PropRule.v
theories/RulesSpec.v
theories/PropRules.v
theories/EditList.v
theories/EditListSpec.v
theories/EditResolve.v
theories/EditListProofs.v
theories/PropEditList.v
theories/PropResolve.v
theories/EditFile.v
theories/EditFileSpec.v
theories/PropEditFile.v
theories/PropEditLoad.v
theories/Lint.v
theories/LintSpec.v
theories/PropLint.v
theories/Cli.v
theories/CliSpec.v
theories/PropCli.v
theories/PropTables.v
theories/Bzlmod.v
theories/BzlmodSpec.v
theories/BzlmodProofs.v
theories/PropBzlmod.v
theories/PropInclude.v
theories/Buildifier.v
theories/BuildifierSpec.v
theories/PropBuildifier.v
theories/Buildozer.v
theories/BuildozerSpec.v
theories/PropBuildozer.v
theories/Flow.v
theories/FlowSpec.v
theories/FlowProofs.v
theories/PropFlow.v
theories/Lex.v
theories/LexSpec.v
theories/LexProofs.v
theories/PropLex.v
theories/Attach.v
theories/AttachSpec.v
theories/AttachProofs.v
theories/AttachTree.v
theories/PropAttach.v
theories/LRTables.v
theories/LRCert.v
theories/Parse.v
theories/LRProofs.v
theories/LRItems.v
theories/LRComplete.v
theories/LRSim.v
theories/ParseSpec.v
theories/ShapeSpec.v
theories/ParseLex.v
theories/ParseProofs.v
theories/ParseRules.v
theories/ParseStmts.v
theories/ParseSound.v
theories/PropParse.v
theories/ParseComplete.v
theories/ParseEmbed.v
theories/PropComplete.v
theories/ParseFile.v
theories/CommentSpec.v
theories/CommentProofs.v
theories/CommentStmts.v
theories/CommentParse.v
theories/PropComments.v
theories/Print.v
theories/PrintSpec.v
theories/PrintLex.v
theories/PrintTok.v
theories/PrintState.v
theories/PrintSeq.v
theories/PrintExpr.v
theories/PrintPrim.v
theories/PrintTest.v
theories/PrintGood.v
theories/PrintStmt.v
theories/PrintBlock.v
theories/PrintMove.v
theories/PrintFile.v
theories/PrintSource.v
theories/PropPrint.v
theories/GroupSpec.v
theories/Group.v
theories/GroupTidy.v
theories/GroupBuilt.v
theories/PropGroup.v
theories/Scope.v
theories/ScopeSpec.v
theories/ScopeProofs.v
theories/ScopeFlow.v
theories/PropScope.v
theories/Used.v
theories/UsedSpec.v
theories/UsedProofs.v
theories/PropUsed.v
theories/Fix.v
theories/PropTop.v
theories/PropFixAttr.v
theories/PropFixText.v
theories/PropFixLists.v
theories/Macro.v
theories/MacroSpec.v
theories/MacroProofs.v
theories/MacroLink.v
theories/PropMacro.v
theories/Config.v
theories/PropConfig.v
theories/DictSort.v
theories/PropDictSort.v
theories/AttrParams.v
theories/PropAttr.v
theories/NotLoaded.v
theories/PropNotLoaded.v
theories/KwParams.v
theories/PropKw.v
theories/CtxActions.v
theories/PropCtx.v
theories/Wspace.v
theories/PropWspace.v
theories/RuleCmd.v
theories/PropRuleCmd.v
theories/PropCopy.v
theories/RuleComment.v
theories/PropRuleComment.v
theories/UnusedDeps.v
theories/PropUnused.v
theories/MoveCmd.v
theories/PropMove.v
theories/CallLints.v
theories/PropCallLints.v
theories/Docstring.v
theories/PropDocstring.v
theories/StmtLints.v
theories/PropStmtLints.v
theories/ApiLints.v
theories/PropApiLints.v
theories/Types.v
theories/PropTypes.v
theories/PropTypeLints.v
theories/NoEffect.v
theories/PropNoEffect.v
theories/UnusedVar.v
theories/PropUnusedVar.v
theories/DictCmd.v
theories/PropDict.v
theories/Skylark.v
theories/PropSkylark.v
theories/SelectCmd.v
theories/PropSelectCmd.v
theories/SubstCmd.v
theories/PropSubst.v
theories/Expand.v
theories/PropExpand.v
