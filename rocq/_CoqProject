-Q theories Verif
theories/Bytes.v
theories/BytesFacts.v
theories/Bytecode.v
theories/BytecodeFacts.v
theories/P_Code.v
theories/Definitions.v
theories/FlagFacts.v
theories/DefinitionsSpec.v
theories/DefinitionsFacts.v
theories/P_Definitions.v
theories/Bundle.v
theories/BundleFacts.v
theories/BundleSpec.v
theories/BundleLayout.v
theories/BundleLoad.v
theories/BundleThms.v
theories/P_Bundle.v
theories/Ast.v
theories/TypeNames.v
theories/TypeNamesSpec.v
theories/TypeNamesFacts.v
theories/P_TypeNames.v
theories/Search.v
theories/Cursor.v
theories/CursorSpec.v
theories/CursorFacts.v
theories/P_Cursor.v
theories/Pool.v
theories/Scope.v
theories/TypeCheck.v
theories/TypingSpec.v
theories/TypingFacts.v
theories/MemberFacts.v
theories/P_Typing.v
theories/OverloadSpec.v
theories/OverloadFacts.v
theories/P_Overload.v
theories/PoolSpec.v
theories/PoolFacts.v
theories/TypeIndexSpec.v
theories/TypeIndexFacts.v
theories/P_TypeIndex.v
theories/Scc.v
theories/P_Scc.v
theories/Backup.v
theories/P_Backup.v
theories/Symbols.v
theories/SymbolsSpec.v
theories/P_Symbols.v
theories/Report.v
theories/P_Report.v
theories/Diagnostics.v
theories/PartsSpec.v
theories/P_Checks.v
theories/SourceMap.v
theories/P_SourceMap.v
theories/Assembler.v
theories/AssemblerFacts.v
theories/LabelSpec.v
theories/LabelFacts.v
theories/P_Assembler.v
theories/Semantics.v
theories/BodySpec.v
theories/Machine.v
theories/GrowFacts.v
theories/ShapeFacts.v
theories/MachineFacts.v
theories/BodyFacts.v
theories/DefinedFacts.v
theories/P_Flow.v
theories/P_Machine.v
theories/Desugar.v
theories/SweetSpec.v
theories/SweetFacts.v
theories/P_Sweet.v
theories/SugarSpec.v
theories/DesugarFacts.v
theories/SugarFacts.v
theories/SugarSim.v
theories/SugarRun.v
theories/SugarDemo.v
theories/P_Sugar.v
theories/Decompiler.v
theories/MergeSpec.v
theories/MergeFacts.v
theories/DecompilerFacts.v
theories/P_Decompiler.v
theories/Mapper.v
theories/Cleanup.v
theories/CleanupSpec.v
theories/CleanupFacts.v
theories/CleanupSort.v
theories/CleanupDone.v
theories/P_Cleanup.v
theories/Printer.v
theories/Parser.v
theories/PrintSpec.v
theories/ParserFacts.v
theories/TextFacts.v
theories/PrintSteps.v
theories/PrintFacts.v
theories/P_Print.v
theories/ParserSafe.v
theories/P_Parser.v
theories/Wrappers.v
theories/WrapSpec.v
theories/WrapFacts.v
theories/WrapSteps.v
theories/P_Wrap.v
theories/RecoverSpec.v
theories/NormalFacts.v
theories/ReadFacts.v
theories/RecoverFacts.v
theories/RecoverFlow.v
theories/RecoverBody.v
theories/P_RoundTrip.v
theories/TermSpec.v
theories/TermFacts.v
theories/AheadFacts.v
theories/P_Term.v
theories/WellTypedSpec.v
theories/WellTypedFacts.v
theories/WellTypedSound.v
theories/P_WellTyped.v
theories/Unit.v
theories/TidyFacts.v
theories/UnitSpec.v
theories/UnitSteps.v
theories/UnitFacts.v
theories/P_Unit.v
theories/DisabledSpec.v
theories/P_Disabled.v
theories/P_Reproducible.v
theories/EffectSpec.v
theories/EffectFacts.v
theories/EffectDefine.v
theories/EffectDeclare.v
theories/EffectFinish.v
theories/EffectBare.v
theories/EffectNoted.v
theories/EffectStages.v
theories/P_Effect.v
theories/Refs.v
theories/RefSpec.v
theories/RefFacts.v
theories/P_Refs.v
theories/LexicalSpec.v
theories/LexicalFacts.v
theories/OwnFacts.v
theories/P_Lexical.v
theories/RuleSpec.v
theories/RuleFacts.v
theories/P_Rules.v
theories/Grammar.v
theories/GrammarFacts.v
theories/P_Grammar.v
theories/StatementSpec.v
theories/StatementFacts.v
theories/P_Statement.v
theories/Dump.v
theories/DumpSpec.v
theories/DumpFacts.v
theories/DumpWritten.v
theories/P_Dump.v
theories/DumpFiles.v
theories/DumpFilesSpec.v
theories/DumpFilesFacts.v
theories/P_DumpFiles.v
theories/PlaceSpec.v
theories/PlaceCheck.v
theories/PlaceBody.v
theories/PlaceFacts.v
theories/Display.v
theories/P_Place.v
theories/Args.v
theories/P_Args.v
theories/TempSpec.v
theories/P_Temps.v
theories/Failure.v
theories/P_Failure.v
theories/Positions.v
theories/PositionSpec.v
theories/PositionErase.v
theories/PositionFacts.v
theories/P_Positions.v
theories/InterpolationSpec.v
theories/P_Interpolation.v
theories/Sources.v
theories/SourcesSpec.v
theories/P_Sources.v
theories/LiteralSpec.v
theories/LiteralFacts.v
theories/P_Literal.v
theories/FunctionFacts.v
theories/Cli.v
theories/P_Cli.v
theories/SccCompile.v
theories/SccCompileSpec.v
theories/SccCompileFacts.v
theories/P_SccCompile.v
theories/LoadSpec.v
theories/LoadFacts.v
theories/P_Load.v
theories/TextLiteralSpec.v
theories/TextLiteralFacts.v
theories/P_TextLiteral.v
theories/GapSpec.v
theories/GapFacts.v
theories/P_Gap.v
theories/InterpolatedSpec.v
theories/P_Interpolated.v
theories/TypeTextSpec.v
theories/P_TypeText.v
theories/ParamTextSpec.v
theories/P_ParamText.v
theories/ImportTextSpec.v
theories/P_ImportText.v
theories/EnumTextSpec.v
theories/P_EnumText.v
theories/DeclTextSpec.v
theories/P_DeclText.v
