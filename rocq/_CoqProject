-Q theories Verif
theories/Base.v
theories/Utf8.v
theories/Stream.v
theories/ParseState.v
theories/RuntimeFacts.v
theories/PropertiesRuntime.v
theories/PropertiesState.v
theories/Grammar.v
theories/PegSpec.v
theories/Target.v
theories/Blind.v
theories/Compile.v
theories/TargetFacts.v
theories/ScopeFacts.v
theories/CompileShape.v
theories/RecOnly.v
theories/EvalRules.v
theories/CompileCorrect.v
theories/ScopeGen.v
theories/RustcCheck.v
theories/RustcRefs.v
theories/RustcMoves.v
theories/ScopeExact.v
theories/GenTotal.v
theories/PegFacts.v
theories/Running.v
theories/WellFormed.v
theories/WfFacts.v
theories/WfSound.v
theories/WfTerm.v
theories/WfFuel.v
theories/PegRun.v
theories/SumGrammar.v
theories/Behave.v
theories/WfSyntax.v
theories/Values.v
theories/PropertiesPeg.v
theories/PropertiesWf.v
theories/CharClass.v
theories/PropertiesGen.v
theories/Names.v
theories/NoShadow.v
theories/PropertiesNames.v
theories/Analysis.v
theories/Errors.v
theories/AnalysisFacts.v
theories/ChainFacts.v
theories/PropertiesAnalysis.v
theories/Typing.v
theories/TypeRules.v
theories/SurfaceFacts.v
theories/RefFacts.v
theories/DepthFacts.v
theories/TypingSound.v
theories/TypingFit.v
theories/GenAgree.v
theories/TypingTop.v
theories/TypingVerdict.v
theories/TypingTotal.v
theories/TypingAnswer.v
theories/TypingFuel.v
theories/MiddleFuel.v
theories/PropertiesTyping.v
theories/PropertiesRules.v
theories/RType.v
theories/PropertiesSignature.v
theories/CodeSize.v
theories/PropertiesSize.v
theories/Front.v
theories/FrontFacts.v
theories/FrontSpec.v
theories/FrontSound.v
theories/FrontRound.v
theories/FrontGrammar.v
theories/PropertiesFront.v
theories/RustReader.v
theories/RepoGrammars.v
theories/Agree.v
theories/Linking.v
theories/TreeSpec.v
theories/TreeFacts.v
theories/Literals.v
theories/Pipeline.v
theories/PropertiesMain.v
theories/Oak.v
theories/OakFacts.v
theories/PropertiesOak.v
theories/WfExact.v
theories/WfDiag.v
theories/TreeWf.v
theories/PropertiesVerdict.v
theories/PropertiesModule.v
theories/PropertiesRustc.v
theories/PropertiesLink.v
theories/Checks.v
theories/PropertiesRepo.v
theories/TreeValues.v
theories/TreeEp.v
theories/PropertiesSource.v
theories/TreeKinds.v
theories/KindFacts.v
theories/KindTrees.v
theories/TreeNames.v
theories/FrontPrint.v
theories/PropertiesParsers.v
theories/TreeShapes.v
theories/PropertiesShapes.v
theories/SourceChecks.v
theories/PropertiesRepoSource.v
theories/Mutual.v
theories/MutualEnds.v
theories/PropertiesMutual.v
theories/LocationExact.v
theories/PropertiesExact.v
theories/SourceNames.v
theories/PropertiesScope.v
theories/CodeTypes.v
theories/TypesGen.v
theories/PropertiesCode.v
theories/TypesSound.v
theories/PropertiesSound.v
theories/PropertiesMacroSize.v
theories/PropertiesErrors.v
theories/TypeSpec.v
theories/TypeDen.v
theories/TypeSurface.v
theories/TypeDepth.v
theories/TypeExact.v
theories/Warnings.v
theories/PropertiesTypes.v
theories/PropertiesWarnings.v
theories/PropertiesWritten.v
theories/PropertiesAdvice.v
theories/UnitActions.v
theories/UnitDepth.v
theories/UnitTop.v
theories/ActionCalls.v
theories/PropertiesUnit.v
theories/PropertiesLocality.v
