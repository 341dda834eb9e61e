-Q theories Verif
theories/Base.v
theories/Float.v
theories/Literal.v
theories/Syn.v
theories/Ast.v
theories/Derive.v
theories/Grammar.v
theories/Spec.v
theories/SynFacts.v
theories/Lawful.v
theories/Mono.v
theories/Digits.v
theories/DecText.v
theories/Combinators.v
theories/GrammarBeh.v
theories/Assoc.v
theories/Origin.v
theories/Furthest.v
theories/ManyFacts.v
theories/Examples.v
theories/PropParse.v
theories/FloatFacts.v
theories/LitSpec.v
theories/LiteralFacts.v
theories/Conv.v
theories/ConvFacts.v
theories/PropLit.v
theories/Reprint.v
theories/LitDenote.v
theories/Sound.v
theories/Sim.v
theories/RoundFacts.v
theories/PropRoundtrip.v
theories/Term.v
theories/TermCheck.v
theories/PropTerm.v
theories/NoPanic.v
theories/Typed.v
theories/LL1.v
theories/LL1Facts.v
theories/LL1Check.v
theories/PropLL1.v
theories/Punctuated.v
theories/PropSeq.v
theories/Fmt.v
theories/FmtFacts.v
theories/PropFmt.v
theories/Lexer.v
theories/Offsets.v
theories/PropSpan.v
theories/EitherIter.v
theories/PropEither.v
theories/Bounds.v
theories/PropBounds.v
theories/LexFacts.v
theories/LexWf.v
theories/LexOut.v
theories/LexRun.v
theories/PropLex.v
theories/LexPrint.v
theories/LexLit.v
theories/Writable.v
theories/PropStr.v
theories/FloatNear.v
theories/FloatText.v
theories/PropFloat.v
theories/ParsedTyped.v
theories/PropAgain.v
theories/ToTokens.v
theories/PropTokens.v
theories/LitText.v
theories/PropLitText.v
theories/Usage.v
theories/TypedWritable.v
theories/PropUsage.v
theories/Tree.v
theories/NodeSpan.v
theories/PropNode.v
theories/PropQc.v
theories/PropLayout.v
theories/Expand.v
theories/PropExpand.v
theories/PropMsg.v
theories/NodeEq.v
theories/PropEq.v
theories/PropOrder.v
theories/Display.v
theories/PropDisplay.v
theories/Cost.v
theories/CostFacts.v
theories/Depth.v
theories/CostLow.v
theories/Linear.v
theories/LinearCheck.v
theories/PropCost.v
theories/PropPlace.v
theories/PropCostText.v
theories/Build.v
theories/PropBuild.v
theories/FloatShort.v
theories/PropShort.v
theories/Laid.v
theories/PropLaid.v
theories/SimSpan.v
theories/PropSame.v
theories/Refactor.v
theories/PropRefactor.v
theories/PropExtend.v
theories/Open.v
theories/PropOpen.v
theories/PropTree.v
theories/Lang.v
theories/PropLang.v
theories/Prefix.v
theories/PropPrefix.v
theories/HashCalls.v
theories/HashFacts.v
theories/PropKeys.v
theories/Debug.v
theories/DebugFacts.v
theories/DebugTree.v
theories/PropDebug.v
theories/Size.v
theories/PropSize.v
theories/PropContext.v
theories/Joined.v
theories/PropJoin.v
