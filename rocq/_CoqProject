-Q theories Verif
theories/Base.v
theories/Ast.v
theories/CoercionTypes.v
theories/Coercion.v
theories/CoercionSpec.v
theories/CoercionProofs.v
theories/CoercionErrors.v
theories/CoercionProps.v
theories/Graph.v
theories/Maps.v
theories/InputCycles.v
theories/InputCyclesSpec.v
theories/InputCyclesProofs.v
theories/FragmentCycles.v
theories/FragmentsSpec.v
theories/FragmentCyclesProofs.v
theories/CyclesProps.v
theories/Doc.v
theories/DocSpec.v
theories/DocProofs.v
theories/DocRules.v
theories/DocRulesSpec.v
theories/DocRulesProofs.v
theories/DocTypingProofs.v
theories/Examples.v
theories/DocRulesProps.v
theories/DocVariables.v
theories/DocVariablesSpec.v
theories/DocVariablesProofs.v
theories/DocVariablesProps.v
theories/Decimal10.v
theories/Operation.v
theories/OperationSpec.v
theories/OperationProofs.v
theories/OperationValuesProofs.v
theories/OperationProps.v
theories/DeprecationProps.v
theories/Lexer.v
theories/LexerSpec.v
theories/LexerProofs.v
theories/LexerBlockProofs.v
theories/LexerTokenProofs.v
theories/LexerStreamProofs.v
theories/Printer.v
theories/LexerProps.v
theories/Parser.v
theories/DefParser.v
theories/DefParserSpec.v
theories/ParserSpec.v
theories/ParserProofs.v
theories/ParserDocProofs.v
theories/RoundTripSpec.v
theories/RoundTripProofs.v
theories/ParserProps.v
theories/BlockPrintProofs.v
theories/BlockPrintProps.v
theories/DefParserProofs.v
theories/DefParserProps.v
theories/Resolve.v
theories/ResolveSpec.v
theories/ResolveProofs.v
theories/ResolveProps.v
theories/DefPrinter.v
theories/DefPrinterSpec.v
theories/DefPrinterProofs.v
theories/DefPrinterReadProofs.v
theories/DefPrinterProps.v
theories/ValueEq.v
theories/ValueEqSpec.v
theories/ValueEqProofs.v
theories/ValueEqProps.v
theories/Compare.v
theories/CompareSpec.v
theories/CompareProofs.v
theories/CompareProps.v
theories/Visibility.v
theories/VisibilitySpec.v
theories/VisibilityProofs.v
theories/VisibilityProps.v
theories/Complexity.v
theories/ComplexitySpec.v
theories/ComplexityProofs.v
theories/ComplexityProps.v
theories/ComplexityCases.v
theories/Merging.v
theories/MergingSpec.v
theories/MergingTermination.v
theories/MergingProofs.v
theories/MergingSound.v
theories/MergingComplete.v
theories/MergingProps.v
theories/MergingCheck.v
theories/MergingCases.v
theories/DefRules.v
theories/DefRulesProps.v
theories/Json.v
theories/Typegen.v
theories/TypegenDe.v
theories/TypegenSpec.v
theories/TypegenProofs.v
theories/TypegenBorrow.v
theories/TypegenShapes.v
theories/TypegenProps.v
theories/TypegenCompiles.v
theories/TypegenCodeProps.v
theories/TypegenCases.v
theories/TypegenResponses.v
theories/TypegenResponseProps.v
theories/TypegenInput.v
theories/TypegenInputSpec.v
theories/TypegenInputProofs.v
theories/TypegenInputProps.v
theories/TypegenInputAccepted.v
theories/TypegenInputCases.v
theories/Validator.v
theories/ValiditySpec.v
theories/ValidatorProofs.v
theories/EndToEndProofs.v
theories/ValidatorProps.v
theories/ValidatorCases.v
theories/TypegenMacro.v
theories/TypegenMacroProps.v
theories/TypegenMacroCases.v
theories/LocationSpec.v
theories/Location.v
theories/LocationProofs.v
theories/StringSpanProofs.v
theories/LocationProps.v
theories/ParserAt.v
theories/ParserAtSpec.v
theories/ParserAtProofs.v
theories/SpanProofs.v
theories/SpanProps.v
theories/ParserErrorProofs.v
theories/ParserErrorAtProofs.v
theories/ParserErrorTextProofs.v
theories/ParserErrorProps.v
theories/CompatSpec.v
theories/CompatProofs.v
theories/CompatProps.v
theories/ResponsesKept.v
theories/ResponseCompatProps.v
theories/ClientCompat.v
theories/ClientCompatProps.v
theories/ChangeText.v
theories/ChangeTextSpec.v
theories/ChangeTextProofs.v
theories/ChangeMessageProofs.v
theories/ChangeTextProps.v
theories/ReadSchemaSpec.v
theories/ReadSchemaProofs.v
theories/ReadSchemaProps.v
theories/DefParserErrorProofs.v
theories/DefParserAt.v
theories/DefParserAtSpec.v
theories/DefParserAtProofs.v
theories/DefParserErrorAtProofs.v
theories/DefParserErrorProps.v
theories/DefSpanSpec.v
theories/DefSpanProofs.v
theories/DefSpanProps.v
theories/ResolveAt.v
theories/ResolveAtSpec.v
theories/ResolveAtProofs.v
theories/ResolveErrorProofs.v
theories/ResolveErrorProps.v
theories/CoercionAt.v
theories/ValidatorAt.v
theories/ValidatorAtSpec.v
theories/ValidatorAtProofs.v
theories/MergingErrorProofs.v
theories/ValidatorErrorProofs.v
theories/TokenValueProofs.v
theories/ValidatorMarkProofs.v
theories/ValidatorErrorProps.v
theories/DefRulesAt.v
theories/DefRulesAtSpec.v
theories/DefRulesAtProofs.v
theories/DefRulesAtProps.v
theories/TypegenAt.v
theories/TypegenAtSpec.v
theories/TypegenAtProofs.v
theories/TypegenAtProps.v
theories/TypegenPanicProps.v
theories/InputSizeProps.v
theories/VariableUsageProps.v
theories/ScopedSpec.v
theories/ScopedProofs.v
theories/ScopedDocProofs.v
theories/ScopedProps.v
theories/ScopedCases.v
theories/FloatPrinter.v
theories/FloatSpec.v
theories/FloatProofs.v
theories/FloatProps.v
theories/Pieces.v
theories/PiecesSpec.v
theories/PiecesProps.v
theories/DefPieces.v
theories/DefPiecesSpec.v
theories/DefPiecesProps.v
theories/SchemaValiditySpec.v
theories/SchemaValidityProps.v
theories/FilesSpec.v
theories/FilesProps.v
theories/DocOrderProofs.v
theories/DocOrderProps.v
theories/InliningSpec.v
theories/InliningProps.v
theories/FormatProps.v
theories/CompareStepsProps.v
theories/QueryPartProps.v
theories/ValidAnalysisProps.v
theories/TrimSpec.v
theories/TrimProofs.v
theories/TrimProps.v
theories/AloneSpec.v
theories/AloneProofs.v
theories/AloneProps.v
theories/AloneAnalysisProps.v
theories/RenameSpec.v
theories/RenameProofs.v
theories/RenameProps.v
theories/VariableNamesSpec.v
theories/VariableNamesProofs.v
theories/VariableNamesProps.v
theories/WrittenOutSpec.v
theories/WrittenOutProps.v
theories/WrittenValidProps.v
theories/SkippedSpec.v
theories/SkippedProps.v
theories/AliasSpec.v
theories/AliasProps.v
theories/AliasProofs.v
theories/AliasValidProps.v
theories/Assumptions.v
theories/TypegenReadSpec.v
theories/TypegenReadProps.v
