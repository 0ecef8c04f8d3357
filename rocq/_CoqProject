-Q theories Verif
theories/Base.v
theories/OrdMap.v
theories/SymbolSetModel.v
theories/SymbolSetSpec.v
theories/SymbolSetProofs.v
theories/SymbolSetProps.v
theories/SymbolMapModel.v
theories/SymbolMapSpec.v
theories/SymbolMapProofs.v
theories/DedupProofs.v
theories/SymbolMapProps.v
theories/NdfaModel.v
theories/NdfaSpec.v
theories/NdfaProofs.v
theories/ToDfaProofs.v
theories/NdfaProps.v
theories/NdfaReduceModel.v
theories/NdfaReduceSpec.v
theories/CompactProofs.v
theories/MergeProofs.v
theories/NdfaRunProofs.v
theories/NdfaReduceProps.v
theories/SymbolTableModel.v
theories/SymbolTableSpec.v
theories/SymbolTableProofs.v
theories/HardTableProofs.v
theories/SymbolTableProps.v
theories/BinSearch.v
theories/StateMachineModel.v
theories/StateMachineSpec.v
theories/StateMachineProofs.v
theories/StateMachineProps.v
theories/LexerModel.v
theories/LexerSpec.v
theories/LexerProofs.v
theories/LexerDfaProofs.v
theories/LexerProps.v
theories/TextModel.v
theories/CaseTables.v
theories/TextSpec.v
theories/TextProofs.v
theories/TextProps.v
theories/ContainerModel.v
theories/ContainerSpec.v
theories/ContainerProofs.v
theories/ContainerProps.v
theories/TransitionProps.v
theories/RuleDataModel.v
theories/RuleDataSpec.v
theories/RuleDataProofs.v
theories/RuleDataProps.v
theories/RegexModel.v
theories/RegexSpec.v
theories/RegexGraph.v
theories/RegexBuildProofs.v
theories/RegexParseProofs.v
theories/RegexProofs.v
theories/RegexDefsProofs.v
theories/RegexTokenProofs.v
theories/RegexProps.v
theories/ItemSetModel.v
theories/ItemSetSpec.v
theories/ItemSetProofs.v
theories/ItemSetProps.v
theories/GrammarModel.v
theories/GrammarSpec.v
theories/GrammarProofs.v
theories/GrammarProps.v
theories/TermDictModel.v
theories/TermDictSpec.v
theories/TermDictProofs.v
theories/TermDictProps.v
theories/FirstModel.v
theories/FirstSpec.v
theories/FirstProofs.v
theories/FirstProps.v
theories/FollowModel.v
theories/FollowSpec.v
theories/FollowProofs.v
theories/FollowProps.v
theories/LrItemModel.v
theories/LrItemProofs.v
theories/LrItemProps.v
theories/ClosureModel.v
theories/ClosureSpec.v
theories/ClosureProofs.v
theories/ClosureTermProofs.v
theories/ClosureProps.v
theories/MachineModel.v
theories/MachineProofs.v
theories/MachineProps.v
theories/BuilderModel.v
theories/BuilderSpec.v
theories/BuilderProofs.v
theories/BuilderLookProofs.v
theories/BuilderTermProofs.v
theories/BuilderProps.v
theories/ActionModel.v
theories/ActionSpec.v
theories/ActionProofs.v
theories/ActionProps.v
theories/TableModel.v
theories/TableProofs.v
theories/TableProps.v
theories/RunModel.v
theories/RunSpec.v
theories/RunProofs.v
theories/RunTableProofs.v
theories/RunTool.v
theories/RunProps.v
theories/RewriteModel.v
theories/RewriteSpec.v
theories/RewriteProofs.v
theories/RunFuelProofs.v
theories/RewriteProps.v
theories/RewriteRunProps.v
theories/ConflictModel.v
theories/ConflictSpec.v
theories/ConflictProofs.v
theories/ConflictProps.v
theories/DriveProofs.v
theories/CompleteProofs.v
theories/CompleteProps.v
theories/PrecSpec.v
theories/PrecProofs.v
theories/PrecProps.v
theories/LookSourceModel.v
theories/LookSourceSpec.v
theories/LookSourceProofs.v
theories/LookSourceProps.v
theories/RegexCheckModel.v
theories/RegexCheckSpec.v
theories/RegexCheckProofs.v
theories/RegexCheckProps.v
theories/UnicodeTables.v
theories/UnicodeModel.v
theories/UnicodeSpec.v
theories/UnicodeProofs.v
theories/UnicodeProps.v
theories/FormatModel.v
theories/FormatSpec.v
theories/FormatProofs.v
theories/FormatProps.v
theories/BootModel.v
theories/BootSpec.v
theories/BootProofs.v
theories/BootProps.v
theories/TerminateProofs.v
theories/TerminateProps.v
theories/CanReduceSpec.v
theories/CanReduceProofs.v
theories/CanReduceProps.v
theories/StackModel.v
theories/StackSpec.v
theories/StackProofs.v
theories/StackProps.v
theories/SessionModel.v
theories/SessionSpec.v
theories/SessionProofs.v
theories/SessionProps.v
theories/StageModel.v
theories/StageSpec.v
theories/IgnoreTableProofs.v
theories/BuilderFuelProofs.v
theories/StageProofs.v
theories/StageMessageProofs.v
theories/StageProps.v
theories/ReachProofs.v
theories/LexStageModel.v
theories/LexStageSpec.v
theories/LexStageProofs.v
theories/LexPipeProofs.v
theories/LexStageProps.v
theories/WeakLexModel.v
theories/WeakLexSpec.v
theories/WeakLexProofs.v
theories/WeakPipeProofs.v
theories/WeakRecordProofs.v
theories/WeakLexProps.v
theories/LangModel.v
theories/LangSpec.v
theories/LangItemProofs.v
theories/LangGramProofs.v
theories/LangLexProofs.v
theories/LangStageProofs.v
theories/LangWordProofs.v
theories/LangProps.v
theories/LangParseProofs.v
theories/LangTextSpec.v
theories/LangTextProofs.v
theories/LangTextProps.v
theories/EmitModel.v
theories/EmitSpec.v
theories/EmitProofs.v
theories/EmitProps.v
theories/NamesModel.v
theories/NamesSpec.v
theories/NamesProofs.v
theories/NamesProps.v
theories/AstGenModel.v
theories/AstGenSpec.v
theories/AstGenProofs.v
theories/AstGenProps.v
theories/ImportModel.v
theories/ImportSpec.v
theories/ImportProofs.v
theories/ImportProps.v
theories/TestModel.v
theories/TestSpec.v
theories/TestProofs.v
theories/TestProps.v
theories/GuardCheckModel.v
theories/GuardCheckSpec.v
theories/GuardCheckProofs.v
theories/GuardCheckProps.v
theories/PipelineModel.v
theories/PipelineSpec.v
theories/PipelineProofs.v
theories/PipelineProps.v
theories/SourceModel.v
theories/SourceSpec.v
theories/SourceProofs.v
theories/SourceProps.v
theories/DefCopyModel.v
theories/DefCopySpec.v
theories/DefCopyProofs.v
theories/DefCopyProps.v
theories/SpanModel.v
theories/SpanSpec.v
theories/SpanProofs.v
theories/SpanProps.v
theories/OrderModel.v
theories/OrderSpec.v
theories/OrderProofs.v
theories/OrderProps.v
theories/TableOwnModel.v
theories/TableOwnSpec.v
theories/TableOwnProofs.v
theories/TableOwnProps.v
theories/LexClassModel.v
theories/LexClassSpec.v
theories/LexClassProofs.v
theories/LexClassProps.v
theories/RegexOddProps.v
theories/AskModel.v
theories/AskSpec.v
theories/AskProofs.v
theories/AskProps.v
theories/StartFunModel.v
theories/StartFunSpec.v
theories/StartFunProofs.v
theories/StartFunProps.v
theories/ConsoleModel.v
theories/ConsoleSpec.v
theories/ConsoleProofs.v
theories/ConsoleProps.v
theories/JsonModel.v
theories/JsonSpec.v
theories/JsonProofs.v
theories/JsonProps.v
theories/AnbncModel.v
theories/AnbncProofs.v
theories/AnbncProps.v
theories/CommentModel.v
theories/CommentSpec.v
theories/CommentProofs.v
theories/CommentProps.v
theories/PascalModel.v
theories/PascalSpec.v
theories/PascalProofs.v
theories/PascalProps.v
