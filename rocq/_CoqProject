-Q theories Verif
theories/Base.v
theories/Kind.v
theories/Ints.v
theories/Str.v
theories/Literal.v
theories/Arity.v
theories/Union.v
theories/SpecLit.v
theories/IntsProofs.v
theories/StrProofs.v
theories/LiteralProofs.v
theories/LiteralProofs2.v
theories/UnionProofs.v
theories/LiteralProofs3.v
theories/PropLit.v
theories/Term.v
theories/Match.v
theories/SpecTerm.v
theories/TermProofs.v
theories/FlagsProofs.v
theories/VarsProofs.v
theories/MatchProofs.v
theories/ProgProofs.v
theories/PropTerm.v
theories/Eval.v
theories/SpecEval.v
theories/EvalProofs.v
theories/EvalProofs2.v
theories/EvalProofs3.v
theories/EvalProofs4.v
theories/PropEval.v
theories/ListOps.v
theories/Typing.v
theories/SpecList.v
theories/ListProofs.v
theories/ListProofs2.v
theories/PropList.v
theories/Build.v
theories/SpecBuild.v
theories/BuildProofs.v
theories/BuildProofs2.v
theories/PropBuild.v
theories/Store.v
theories/SpecStore.v
theories/StoreProofs.v
theories/PropStore.v
theories/Scope.v
theories/SpecScope.v
theories/ScopeProofs.v
theories/PropScope.v
theories/Lexer.v
theories/SpecLex.v
theories/LexProofs.v
theories/LexProofs2.v
theories/PropLex.v
theories/Parse.v
theories/Check.v
theories/SpecCheck.v
theories/FrontProofs.v
theories/CheckProofs.v
theories/CheckProofs2.v
theories/ClosureProofs.v
theories/MonoProofs.v
theories/SpecType.v
theories/TypeProofs.v
theories/BuildProofs3.v
theories/InvProofs.v
theories/InvProofs2.v
theories/StepProofs.v
theories/RuleProofs.v
theories/BoolProofs.v
theories/RefProofs.v
theories/SoundProofs.v
theories/PropCheck.v
theories/PropStep.v
theories/PropRule.v
theories/PropRef.v
theories/PropBuild2.v
theories/PropType.v
theories/SpecRead.v
theories/SpecLocal.v
theories/Encode.v
theories/ReadProofs.v
theories/LocalProofs.v
theories/PropRead.v
theories/PropLocal.v
theories/SpecCmd.v
theories/SpecRun.v
theories/CmdProofs.v
theories/CmdProofs2.v
theories/CmdProofs3.v
theories/CmdProofs4.v
theories/CmdProofs5.v
theories/CmdProofs6.v
theories/CmdProofs7.v
theories/CmdProofs8.v
theories/CmdProofs9.v
theories/CmdProofs10.v
theories/CmdProofs11.v
theories/PropCmd.v
theories/Print.v
theories/SpecPrint.v
theories/PrintProofs.v
theories/PrintProofs2.v
theories/PrintProofs3.v
theories/PrintProofs4.v
theories/PrintProofs5.v
theories/PropPrint.v
theories/SpecBack.v
theories/BackProofs.v
theories/BackProofs2.v
theories/BackProofs3.v
theories/PropBack.v
theories/Main.v
theories/SpecMain.v
theories/MainProofs.v
theories/PropMain.v
theories/Cache.v
theories/SpecCache.v
theories/CacheProofs.v
theories/PropCache.v
theories/SpecSym.v
theories/SymProofs.v
theories/PropSym.v
theories/SpecData.v
theories/DataProofs.v
theories/PropData.v
theories/SpecEnv.v
theories/EnvProofs.v
theories/SpecHide.v
theories/HideProofs.v
theories/PropEnv.v
theories/SpecMade.v
theories/SpecUsed.v
theories/MadeProofs.v
theories/AgreeProofs.v
theories/MadeProofs2.v
theories/UsedProofs.v
theories/UsedProofs2.v
theories/PropMade.v
theories/SpecPreserve.v
theories/PreserveProofs.v
theories/PropPreserve.v
theories/SpecNames.v
theories/NameProofs.v
theories/PropNames.v
theories/SpecDerived.v
theories/DerivedProofs.v
theories/DerivedProofs2.v
theories/DefinitionsText.v
theories/PropDerived.v
theories/SpecBuiltin.v
theories/BuiltinProofs.v
theories/SpecRunEnv.v
theories/RunEnvProofs.v
theories/PropRunEnv.v
theories/SpecSafe.v
theories/SafeProofs.v
theories/PropSafe.v
theories/SpecDerived2.v
theories/DerivedProofs3.v
theories/PropDerived2.v
theories/SpecNumber.v
theories/NumberProofs.v
theories/PropNumber.v
theories/SpecString.v
theories/StringProofs.v
theories/PropString.v
theories/SpecLaws.v
theories/LawsProofs.v
theories/PropLaws.v
theories/PropPrinted.v
theories/AlgebraProofs.v
theories/PropAlgebra.v
theories/PropOrder.v
theories/PropOperators.v
