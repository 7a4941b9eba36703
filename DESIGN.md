# A Rocq model of adampetro/bluejay

Sources: `/repo` (Rust, read as text only, never built or run). Model and proofs: `rocq/theories` (logical name `Verif`),
Coq 8.16.1. The list of properties is `properties.jsonl`; `MANIFEST.json` maps each one to theorem names; `seeded/LOG.jsonl`
records the wrong programs the theorems were tested against.

## 1. Layout

For each area `X` of the code:

* `X.v` holds the model: total, computable Gallina functions; each definition cites the Rust lines it models;
* `XSpec.v` holds the small independent specification (relations and predicates that do not use the model's helpers);
* `XProofs.v` holds lemmas;
* `XProps.v` (and `XCases.v`) holds the property theorems, cases that meet their hypotheses, refutation witnesses and
  `Print Assumptions` for each theorem.

| area of the code | model | specification | theorems |
|---|---|---|---|
| bluejay-parser: lexer (tokens, strings, block strings, spans) | `Lexer.v` | `LexerSpec.v` | `LexerProps.v` |
| bluejay-parser: errors, conversion of spans to lines and columns | `Location.v` | `LocationSpec.v` | `LocationProps.v` (`LocationProofs.v`, `StringSpanProofs.v`: proofs) |
| bluejay-parser: executable documents | `Parser.v` | `ParserSpec.v` | `ParserProps.v` |
| bluejay-parser: executable documents with the ranges of their parts, parse errors | `ParserAt.v` | `ParserAtSpec.v` | `SpanProps.v` (`ParserAtProofs.v`: agreement with `Parser.v`; `SpanProofs.v`: proofs), `ParserErrorProps.v` (`ParserErrorProofs.v`: where each parser function stops, and that what was read can go on; `ParserErrorAtProofs.v`: the same with ranges, and the recovery loop; `ParserErrorTextProofs.v`: from tokens to texts) |
| bluejay-parser: definition documents with the ranges of their parts, parse errors | `DefParserAt.v` | `DefParserAtSpec.v`, `DefSpanSpec.v` | `DefSpanProps.v` (`DefSpanProofs.v`), `DefParserErrorProps.v` (`DefParserAtProofs.v`: agreement with `DefParser.v`; `DefParserErrorProofs.v`: where each parser function stops, and that what was read can go on; `DefParserErrorAtProofs.v`: the same with ranges, and the loop over definitions) |
| bluejay-parser: definition documents | `DefParser.v` | `DefParserSpec.v` | `DefParserProps.v` |
| bluejay-parser: schema resolution, built-in definitions | `Resolve.v` | `ResolveSpec.v` | `ResolveProps.v` |
| bluejay-parser: schema resolution with the ranges of its errors | `ResolveAt.v` | `ResolveAtSpec.v` | `ResolveErrorProps.v` (`ResolveAtProofs.v`: agreement with `Resolve.v`; `ResolveErrorProofs.v`: proofs) |
| bluejay-parser: pieces parsed by themselves | `Pieces.v`, `DefPieces.v` | `PiecesSpec.v`, `DefPiecesSpec.v` | `PiecesProps.v`, `DefPiecesProps.v` |
| bluejay-validator: the errors of documents and values, their messages and annotations | `CoercionAt.v`, `ValidatorAt.v` | `ValidatorAtSpec.v` | `ValidatorErrorProps.v` (`ValidatorAtProofs.v`: agreement with `Validator.v`; `ValidatorErrorProofs.v`, `MergingErrorProofs.v`, `TokenValueProofs.v`, `ValidatorMarkProofs.v`: proofs) |
| bluejay-validator: the errors of definitions, their messages and annotations | `DefRulesAt.v` | `DefRulesAtSpec.v` | `DefRulesAtProps.v` (`DefRulesAtProofs.v`: proofs) |
| bluejay-typegen-macro: the errors of its own rules, their messages and annotations | `TypegenAt.v` | `TypegenAtSpec.v` | `TypegenAtProps.v` (`TypegenAtProofs.v`: proofs) |
| bluejay-printer: values, executable documents | `Printer.v` | `RoundTripSpec.v` | `LexerProps.v`, `ParserProps.v` |
| bluejay-printer: floats | `FloatPrinter.v` | `FloatSpec.v` | `FloatProps.v` (`FloatProofs.v`: proofs) |
| bluejay-printer: definitions, block strings | `DefPrinter.v`, `Printer.v` | `DefPrinterSpec.v` | `DefPrinterProps.v`, `BlockPrintProps.v` |
| bluejay-core: value and argument equality | `ValueEq.v` | `ValueEqSpec.v` | `ValueEqProps.v` |
| bluejay-validator: input coercion | `CoercionTypes.v`, `Coercion.v` | `CoercionSpec.v` | `CoercionProps.v` |
| bluejay-validator: input object cycles, fragment cycles | `InputCycles.v`, `FragmentCycles.v` | `InputCyclesSpec.v`, `FragmentsSpec.v` | `CyclesProps.v` |
| bluejay-validator: document visitor and its rules | `Doc.v`, `DocRules.v`, `DocVariables.v` | `DocSpec.v`, `DocRulesSpec.v`, `DocVariablesSpec.v` | `DocRulesProps.v`, `DocVariablesProps.v` |
| bluejay-validator: field selection merging | `Merging.v` | `MergingSpec.v` | `MergingProps.v`, `MergingCases.v` (`MergingTermination.v`, `MergingSound.v`, `MergingComplete.v`: proofs; `MergingCheck.v`: decides the hypotheses of cases) |
| bluejay-validator: operation visitor, depth, sizes, variable values, deprecations | `Operation.v` | `OperationSpec.v` | `OperationProps.v`, `DeprecationProps.v` |
| bluejay-validator: complexity cost | `Complexity.v` | `ComplexitySpec.v` | `ComplexityProps.v`, `ComplexityCases.v` |
| bluejay-schema-comparator | `Compare.v`, `ChangeText.v` | `CompareSpec.v`, `CompatSpec.v`, `ChangeTextSpec.v`, `ReadSchemaSpec.v` | `ReadSchemaProps.v`, `CompareProps.v`, `CompatProps.v`, `ResponseCompatProps.v`, `ClientCompatProps.v`, `ChangeTextProps.v` (`CompareProofs.v`, `CompatProofs.v`, `ResponsesKept.v`, `ClientCompat.v`, `ChangeTextProofs.v`, `ChangeMessageProofs.v`: proofs) |
| bluejay-visibility | `Visibility.v` | `VisibilitySpec.v` | `VisibilityProps.v` |
| bluejay-visibility with bluejay-validator: documents validated through the layer | `Visibility.v`, `Validator.v` | `ScopedSpec.v` | `ScopedProps.v`, `ScopedCases.v` (`ScopedProofs.v`, `ScopedDocProofs.v`: proofs) |
| bluejay-validator: definition rules | `DefRules.v` | (in the statements) | `DefRulesProps.v` |
| bluejay-typegen-macro: validation rules, conversion of documents to types | `Typegen.v` | `TypegenSpec.v` | `TypegenProps.v`, `TypegenCodeProps.v`, `TypegenCases.v` (`TypegenBorrow.v`, `TypegenShapes.v`, `TypegenCompiles.v`: proofs) |
| bluejay-typegen-macro: deserializers of the generated types; bluejay-core: JSON as values | `TypegenDe.v`, `Json.v` | `TypegenSpec.v` | `TypegenResponseProps.v` (`TypegenResponses.v`: proofs) |
| bluejay-typegen-macro: custom scalars, enums and input types, their serializers | `TypegenInput.v` | `TypegenInputSpec.v` | `TypegenInputProps.v`, `TypegenInputAccepted.v`, `TypegenInputCases.v` |
| bluejay-validator: the rules as one validator, from texts | `Validator.v` | `ValiditySpec.v` | `ValidatorProps.v`, `ValidatorCases.v` (`ValidatorProofs.v`, `EndToEndProofs.v`: proofs) |
| bluejay-parser and bluejay-validator: which rules on schemas are checked | (as for resolution and the definition rules) | `SchemaValiditySpec.v` | `SchemaValidityProps.v` |
| bluejay-parser: documents spread over several texts | (as for the lexer, parser and resolution) | `FilesSpec.v` | `FilesProps.v` |
| bluejay-validator: definitions in another order | (as for the validator) | (in the statements) | `DocOrderProps.v` (`DocOrderProofs.v`: proofs) |
| bluejay-validator: fragments written out | (as for the analyses) | `InliningSpec.v` | `InliningProps.v` |
| bluejay-printer and bluejay-validator: formatting queries | (as for the printer, the validator and the analyses) | `RoundTripSpec.v` | `FormatProps.v` |
| bluejay-schema-comparator: several versions | (as for the comparator) | `CompareSpec.v` | `CompareStepsProps.v` |
| bluejay-validator: parts of operations | (as for the analyzers) | `OperationSpec.v`, `ComplexitySpec.v` | `QueryPartProps.v` |
| bluejay-validator: analyses of valid operations | (as for the analyzers) | `ValiditySpec.v`, `ComplexitySpec.v` | `ValidAnalysisProps.v` |
| bluejay-validator: parts of documents | (as for the rules) | `TrimSpec.v`, `ValiditySpec.v` | `TrimProofs.v`, `TrimProps.v` |
| bluejay-validator: operations taken out of documents | (as for the rules) | `AloneSpec.v`, `ValiditySpec.v` | `AloneProofs.v`, `AloneProps.v`, `AloneAnalysisProps.v` |
| bluejay-validator: other names for fragments and operations | (as for the rules and the analyses) | `RenameSpec.v`, `ValiditySpec.v` | `RenameProofs.v`, `RenameProps.v` |
| bluejay-validator: other names for variables | (as for the rules and the analyses) | `VariableNamesSpec.v`, `ValiditySpec.v` | `VariableNamesProofs.v`, `VariableNamesProps.v` |
| bluejay-validator: values written in the query | (as for the analyses) | `WrittenOutSpec.v` | `WrittenOutProps.v`, `WrittenValidProps.v` |
| bluejay-validator: what is skipped | (as for the analyses) | `SkippedSpec.v`, `OperationSpec.v` | `SkippedProps.v` |
| bluejay-validator: other response names | (as for the analyses) | `AliasSpec.v`, `ValiditySpec.v` | `AliasProps.v`, `AliasProofs.v`, `AliasValidProps.v` |
| bluejay-typegen-macro: what is read from any JSON | `TypegenDe.v` | `TypegenReadSpec.v` | `TypegenReadProps.v` |
| bluejay-typegen-macro: the macro as a whole, from texts | `TypegenMacro.v` | (in the statements) | `TypegenMacroProps.v`, `TypegenMacroCases.v` |

## 2. Modelling conventions

* Text is `list N` of Unicode scalar values. Names are texts. `tx "..."` turns a Coq string into a text.
* `Option<Arguments>`, `Option<Directives>`, `Option<SelectionSet>` are lists; `None` is `[]` (the parser never builds an empty `Some`).
* `HashMap`/`BTreeMap` are association lists; iteration order is modelled only where it is observable (`BTreeMap`: sorted by
  key). Where the order of a hash map is observable it is a parameter of the theorem.
* A panic is an explicit result value. Loops are structural recursion, folds, or recursion on fuel with an explicit
  out-of-fuel value; the theorems show it is never returned.
* Floats are 64 bit patterns (`N`); reading floats and the digits of floats that are no integers are parameters with stated hypotheses (`platform`).
* Custom scalar coercion hooks, wardens and cost computers are user supplied: they are universally quantified parameters.
* Spans are modelled in the lexer (C04) and by second models of the parsers (`ParserAt.v`, `DefParserAt.v`); elsewhere they are dropped from syntax trees. `usize` and `u64` are unbounded, except where the code
  checks a range (`i32` literals).

## 3. Plan per property

| property | modelled | method |
|---|---|---|
| C01 C07 | string lexer automaton, string printer | induction over the string; longest-match lemmas |
| C02 C03 C10 C11 | outer lexer, recursive descent parser, printers | round trip by induction over trees; soundness and completeness of the parser against a grammar relation |
| C04 C05 C06 | outer lexer | well-founded recursion on remaining length; span invariants; layouts as a relation |
| C08 C09 | block string lexer, value and printer | refinement to the specification's algorithm |
| C12 C13 C14 C15 | definition document to schema resolution, schema printer | invariants of the index maps; refutation for C15 |
| C16 C17 C18 | input coercion | inductive `conforms` specification, equivalence by induction over the value |
| C19 | value equality | equivalence laws by induction |
| C20 C21 | both depth-first searches | reachability: sound and complete for transitive closure |
| C22 | possible types | set intersection |
| C23 C24 C25 | variable rules with fragment closure | reachability and type compatibility semantics |
| C26 | field merging with its cache of results and its recursion over fragments, for every hash map order | termination by a measure on cached sets and fragments; soundness by induction over the depth of a conflict with an invariant on the cache; completeness by an invariant; refutations |
| C27-C33 C50 C51 | the per-node rules and the orchestrating visitor | iff statements against specifications over all positions |
| C34 C35 C36 C37 C38 C39 C48 C49 | operation orchestrator and analyzers | stateful fold refined to a relational specification |
| C40-C43 | visibility cache, filtered views, reachability visitor | invariants over all lookup histories |
| C44-C47 | schema diff, criticality, result ordering | iff statements, semantic safety of type changes |
| C52 | the definition rules and their validator | iff statement over all types of the schema |
| C53 C54 | type generator: its validation rule and the conversion of documents to types, panics explicit | induction over selections with an invariant that validation establishes at every nested set; refutations |
| C55 | deserializers of the generated types (both codecs), responses as an inductive specification of execution | induction over the JSON of the response |
| C56 C57 | reachability searches of the type generator (fragments; input types) | graph search correctness |
| C58 | serializers of the generated input types, input coercion (C16) | induction over values |
| C59 C60 | `validate`: all rules in the order of the tuple; `valid_document`: section 5 of the specification as one record | composition of the theorems on the single rules with those on parsing and resolution (C10 to C14) |
| C61 | `typegen_macro`: parse, resolve, validate, convert, with every error and panic | composition of C53 to C60; when it succeeds, when it panics and which query decides, exactly (TypegenPanicProps.v) |
| C62 | the byte to character cache, the line table as a parameter, errors of the lexer | invariant of the cache (sorted, every entry the beginning of a character); induction over texts |
| C63 | the parser again, now with the range of every token and part (`ParserAt.v`) | simulation of `Parser.v` (forgetting ranges commutes with every function); induction over the parser with the invariant that the parts of the tokens read so far are well placed and their beginnings per kind increase |
| C64 | the errors of the parser with ranges, the loop that skips to the next definition, the conversion to GraphQL errors | per parser function: an error marks the token at which no continuation of the tokens read is accepted (extension lemma: the result does not depend on what follows the marked token) and before it one is (constructed); then over the document loop; then from tokens to texts by the lexer's round trip (C05); locations by C62 |
| C65 | `compare` and the classification of changes, against GraphQL validity (`ValiditySpec.v`) | a relation `keeps` between schemas says that all that documents can name is kept and that nothing more has to be given; simulation: what a document selects from the new schema it selects from the old one at related types, so every clause of validity carries over; `keeps` from the reported changes by C45 |
| C66 | `compare`, the responses of a schema (`TypegenSpec.v`) and the types that the macro generates | a relation `same_results` between schemas says that nothing new can come out of old fields; induction on the response of the new schema, with the invariant that every collected field is one that the document selects on a type of the old schema (fields of the same response key are the same field by merging); `same_results` from the reported changes by C45, clients by C55 |
| C67 | `compare`, the responses of the new schema and the types that the macro generates from the old one | the proof of C55 is for two schemas, that of the client and that of the server, related by `serves` (`TypegenSpec.v`): fields have results that suit the old types, objects stay what they were, there may be more of everything; values are compared by `shows_but`, which allows Other for enum values that only the server has; `serves` from the reported changes by C45 |
| C68 | `Change::path`, `Change::message` (`ChangeText.v`) | a specification of what a path leads to in a schema (`leads`) and of what each kind of change does (`effect_of`), from `real` of C45; paths are read by splitting at full stops, messages at backquotes: the first two fixed parts tell the kind of change, whatever the quoted parts contain |
| C69 | lexer, definition parser, resolution (as for C05, C10 to C14), comparison | a specification of what a well made schema is (`well_made`, `ReadSchemaSpec.v`); every token of a text that is read is well formed (C05), hence what the tokens of the definitions write (C10), hence the schema (C12 to C14); C44, C45, C65 to C68 then follow from texts |
| C70 | lexer, definition parser with positions (`DefParserAt.v`), errors (as for C62, C64) | as for C64: every error of the parser of one definition leaves the tokens before the offending one a beginning of some definition (`viab`), and does not depend on later tokens (`extends`); a definition may end only where the next begins, so what was read is re-read for every continuation; from tokens to texts with the lemmas of C64 |
| C71 | definition parser with positions (`DefParserAt.v`); a grammar with positions as specification (`DefSpanSpec.v`) | each function of the parser reads the piece of its result, by composition (`DefSpanProofs.v`); the range of a piece from the order of the ranges of tokens (C04); pieces to texts with the lemmas of C63 |
| C72 | resolution on definitions with positions, the built-in definitions read from the library's own texts, the errors it makes (`ResolveAt.v`) | without positions it is `Resolve.v` (`ResolveAtProofs.v`); each error is matched with a mistake and each mistake with an error (`ResolveErrorProofs.v`); places from C71 |
| C73 | validation on documents with positions, the errors it makes and their conversion to messages with annotations (`CoercionAt.v`, `ValidatorAt.v`) | without positions it is `Validator.v` (`ValidatorAtProofs.v`); each converted error is matched with a constructor of `told` (`ValidatorErrorProofs.v`, `MergingErrorProofs.v`), whose ranges are ranges of parts (`ValidatorMarkProofs.v`); places from C62 and C63 |
| C74 | validation of the types of a schema document with positions, and the conversion of its errors (`DefRulesAt.v`) | without positions it is `DefRules.v`; the search for references finds each needed type once and all references to the first type in them (`visit_at_spec` in `DefRulesAtProofs.v`, by induction on the types not yet seen); parts and places from C71 |
| C75 | the rules of the type generator on documents with positions, and the conversion of their errors (`TypegenAt.v`) | without positions they are those of `Typegen.v` (`typegen_errors_same`); a selection set of a valid document selects from a type iff it is visited with it (`sets_visited`, by induction on its place); the errors are those of the relation `unsupported` (`errors_iff`); parts and places from C63 and C62 |
| C76 | the schema of what is shown (`scoped`, in the specification), the validator run on it | lookups give what it has (`c76_view`, from C40); selections of an accepted document stand in both schemas with the same types (`sel_shown`, `field_shown`, `argument_shown`: by induction on the place); values by induction on where they stand (`stands_fits`); the schema behind keeps what the scoped one has (`scoped_keeps`), then C65 |
| C77 | how floats are written (`FloatPrinter.v`, on the 64 bit pattern) | arithmetic on the parts of the pattern: a near integer is written as the integer, which is a float (`near_read`), and is the same float iff the fraction is zero; the literal `1e-10` of the program is the first float above 10^-10 (`near_integer_false`) |
| C78 | `Parse` for each `FromTokens` of executable documents (`Pieces.v`) and of type system documents (`DefPieces.v`); how many tokens are asked past the piece is any function `ahead` | soundness, completeness and safety of each parser (`ParserProofs.v`, `DefParserProofs.v`), computation for the constants, and that errors are only those asked for (`asked_none`) |
| C79 | no new model; the rules of section 3 of the specification (`SchemaValiditySpec.v`), one by one | from the exact characterisations of resolution (C14) and of the rules for definitions (C52): the checked rules are what is left when no error is true of the document |
| C80 | no new model; texts joined by line feeds (`FilesSpec.v`) | the tokens of the joined text are those of the texts (layout, C05); the grammars are lists of definitions (C10); the declarative meaning of schema documents (C14) only depends on the definitions up to order |
| C81 | no new model; documents with the same operations and fragments in another order | the visitor calls are the same but for order and roots; roots correspond (a bisimulation for what operations reach); exact characterisations of the rules that look at more than one call (C22 to C26) |
| C82 | no new model; a relation between a document and the same with spreads written out | the visitor calls agree but for the selections below fields (induction on the recursion bound and the written-out selection, without cycles no spread is cut); no analysis looks at these |
| C83 | no new model; the printer, the parser, the validator and the analyses together | printing and parsing give the document with its operations in full and without the directives of fragment definitions (C03); each rule, and each analysis by induction on selections, gives the same for it |
| C84 | no new model; the comparison of schemas, used twice | whatever both ends have, the middle has too, as its removal would be breaking; type changes add up; each reported change of the whole then shows up in one of the steps (C45) |
| C85 | no new model; two operations, one asking for part of the other | every place and field of the part has a counterpart in the whole (simulation on `reaches` and on the nodes of `ComplexitySpec.v`); the upper bound of C35 is proved for any operation so simulated |
| C86 | no new model; validity (C60) and the analyses | what C34, C35 and C85 ask for follows from validity: merged fields have the same name and arguments, leaves have no selections, skip and include are given once |
| C87 | no new model; a document and one made from it by leaving out (`TrimSpec.v`) | every place, field, spread, argument and use of a variable in the part has a counterpart in the whole (simulations, rule by rule); with C60 for the validator |
| C88 | no new model; a document and one of its operations with the fragments it needs (`AloneSpec.v`) | the operation alone is a trimmed document (C87) in which nothing is loose; conversely every place of the document is a place of one of the small ones, with the same fragments in reach (simulations, rule by rule); for the analyses the visitor calls are equal, by induction on the fuel and the selection |
| C89 | no new model; a document with other names (`RenameSpec.v`) | rule by rule, a violation in one document is a violation in the other (simulations); the visitor calls of the operation are the same but for what is written below fields (induction on the fuel and the selection) |
| C90 | no new model; a document with other names for variables (`VariableNamesSpec.v`) | rule by rule, a violation in one document is a violation in the other (an inverse of the renaming gives the other direction); the visitor calls of the operation are the renamed calls (induction on the fuel and the selection) |
| C91 | no new model; a document with values in the place of variables (`WrittenOutSpec.v`) | what the library looks up of a variable is what it reads of the value; hence the visitor calls of the operation are the same but for arguments (induction on the fuel and the selection). In valid queries the declared types of conditions and sizes follow from the rules on variables |
| C92 | no new model; queries from which some of what is excluded is left out (`SkippedSpec.v`) | the calls about included fields, which alone are looked at, are the same (induction on the fuel and on what is left out) |
| C93 | no new model; queries with other aliases (`AliasSpec.v`) | the visitor calls are the same but for aliases; the arena of the complexity analyzer is the same but for its keys, at every step and in the final recursion; validity (`ValiditySpec.v`): each rule carries over along the relation, both ways; acceptance through C60, so partial |
| C94 | no new model; the relation between a value and the JSON it was read from (`TypegenReadSpec.v`) | induction on the JSON, then on the wrappers of the type |

No property of the list is considered inexpressible.

## 4. Findings: where the code does not have the claimed property

Each one is a theorem with the suffix `_refuted` about the unchanged model; the positive theorem beside it says what does hold.

| property | theorem | what happens |
|---|---|---|
| C03 | `c03_fragment_directives_refuted` | the printer drops the directives of fragment definitions |
| C07 | `c07_surrogates_refuted`, `c07_braces_refuted` | escaped surrogate pairs and `\u{...}` escapes are rejected |
| C09 | `c09_indented_refuted`, `c09_line_break_refuted`, `c09_carriage_return_refuted` | printing a description as a block string changes common indentation, outer blank lines and carriage returns |
| C13 | `c13_schema_directives_refuted` | the directives of the schema definition itself are never resolved; looking one up panics |
| C15 | `c15_roots_refuted`, `c15_rejected_refuted` | an explicit schema definition with conventional root names is not printed, so a type that happens to be named `Mutation` becomes a root, or the text no longer resolves |
| C25 | `disallowed_usages_all_reported_refuted` | variables inside an object literal inside a list literal are not checked |
| C26 | `merging_sound_refuted`, `merging_complete_refuted`, `merging_deterministic_refuted`, `merging_union_refuted` | a fragment's selections are first checked on the type it is spread on (not its type condition) and the result is cached: conflicts are missed, or reported where there are none, or reported depending on hash map order; fields selected from a union are never compared |
| C32 | `subscription_single_root_accepts_two_fields_refuted`, `subscription_single_root_rejects_one_field_refuted` | counts selections at the root instead of response keys |
| C35 | `complexity_exact_refuted`, `complexity_total_refuted`, `complexity_order_independent_refuted` | over-estimates under nested type conditions; panics (Relay computer) or depends on the order in documents that do not pass validation |
| C36 | `input_sizes_exact_refuted` | the default of a variable is looked up under the argument's name |
| C40 | `c40_default_value_refuted` | default values show hidden enum values |
| C41 | `c41_same_names_refuted`, `c41_schema_directives_refuted` | with two fields of one name answers depend on the history; the schema definition's directives panic |
| C43 | `c43_union_typename_refuted`, `c43_schema_directive_refuted` | the type of a union's `__typename`, and directives used only by the schema definition, are missing from the lists |
| C44 | `c44_repeatable_refuted` | a schema with a repeatable directive applied twice differs from itself |
| C45 | `c45_directive_argument_added_refuted`, `c45_directive_arguments_removed_refuted`, `c45_misplaced_refuted`, `c45_silent_refuted` | changes of directive arguments are missed or attributed to the wrong member |
| C46 | `c46_default_dropped` | dropping the default of a required argument is reported as dangerous only |
| C47 | `c47_breaking_first_refuted` | the changes are listed safe ones first |
| C48 | `deprecations_of_included_part_refuted` | deprecated arguments of skipped selections, and of overridden defaults, are reported |
| C53 | `generation_never_panics_refuted` | a fragment spread inside an inline fragment on a union passes validation, then the conversion panics |
| C54 | `generated_references_refuted`, `operation_type_generated_refuted` | a fragment or operation that consists of one fragment spread gets no type of its own: references to it do not resolve |
| C54 | `generated_names_refuted`, `generated_variants_refuted`, `generated_fields_refuted` | names that are distinct in GraphQL clash after conversion to Pascal or snake case, or with the variant `Other`; a field that is selected twice is generated twice |
| C54 | `generated_tags_refuted`, `generated_builders_refuted` | serde: a variant that selects `__typename` has a field with the name of the tag; miniserde: fields called `out`, or a fragment whose type is called like a generated builder |
| C55 | `responses_union_refuted`, `responses_skipped_refuted`, `responses_typename_refuted` | valid responses that the generated types do not read: a fragment spread on a union that does not apply to all members, `@skip`/`@include` on a required field, and (miniserde) `__typename` selected again in a variant |
| C57 | `schema_item_names_refuted` | an enum called `TypeKind` clashes with the generated introspection enum `__TypeKind` |
| C58 | `serialized_default_refuted`, `serialized_other_refuted`, `serialized_float_refuted`, `serialized_one_of_refuted` | values that servers reject: `None` for a required field with a default value is written as null; the variant `Other` is written as `"Other"` (serde) or panics (miniserde); NaN and infinities are written as null; a oneOf type with required fields is accepted as a schema but has no acceptable values |
| C60 | `accepts_two_root_fields_refuted`, `accepts_null_for_non_null_refuted`, `verdict_depends_on_order_refuted`, `rejects_one_root_field_refuted`, `rejects_narrower_fragment_refuted` | the findings of C25, C26 and C32 reach the user: texts that the whole validator accepts or rejects wrongly, or depending on the order of a hash map |
| C63 | `c63_spread_range_refuted` | the range of a fragment spread ends before its directives |
| C64 | `c64_empty_unreported_refuted` | a text without tokens is rejected with an error that has no place and that becomes no GraphQL error at all |
| C61 | `macro_panics_refuted` | `{ find { __typename ... on User { ...U } } }` is valid and accepted by every rule, and the macro panics |
| C65 | `c65_unreported_refuted`, `c65_called_safe_refuted`, `c65_called_dangerous_refuted` | differences that make a valid document invalid: not reported are other root operation types, a directive that is no longer repeatable, and (with C45) first or all arguments of a directive; a field type that becomes non-null and oneOf on an input type are called safe; a lost default value is called dangerous |
| C66 | `c66_new_implementor_refuted` | a new object type that implements an interface of the old schema is reported as a safe addition (making an existing type implement it is dangerous): the new server sends `__typename`s that the old one never does |
| C67 | `c67_union_member_refuted` | a new member of a union is called dangerous, not breaking; a client whose query has nothing but a fragment there cannot read an object of that type (for a client with `__typename` and inline fragments it is Other) |
| C67 | `c67_interface_refuted` | the comparison does not look at the interfaces that interfaces implement: that an interface no longer implements another one is not reported, and with a new type, a safe addition, clients of queries that spread a fragment there fail |
| C68 | `c68_swapped_refuted` | the messages about the type or the description of a field argument write `field.Type` for `Type.field`, which may be another field that exists and did not change |
| C68 | `c68_no_place_refuted` | changes to the arguments of an applied directive do not say where it is applied: several changes have the same path and message |
| C68 | `c68_directive_path_refuted` | the path of a directive put on or taken from something is the name of the directive without the at sign, and may lead to a type that did not change |
| C68 | `c68_kind_words_refuted` | messages call enum types `unknown`, and interfaces object types |
| C69 | `c69_twice_refuted` | fields, arguments, enum values, input fields and arguments of applied directives may be given twice in a schema text; comparing the schema with itself then reports changes |
| C70 | `c70_description_marked_refuted` | if the token after a description begins no definition (`"The user" typ User {...}`), the error marks the description |
| C70 | `c70_empty_unreported_refuted` | a schema text without tokens is rejected, but its error becomes no GraphQL error |
| C71 | `c71_list_range_refuted` | in schema documents the range of a list type that is not null ends before its bang |
| C72 | `c72_own_text_refuted` | with `input String {…}` each object type gives the error that `String` is not an output type, marked at bytes 12 to 18 of the user's text: the range of `String` in the library's own text `__typename: String!` |
| C72 | `c72_unplaced_refuted` | that a document has no schema, or no query type, is an error without annotations, and is lost when errors are converted to GraphQL errors |
| C73 | `c73_multiple_nulls_refuted` | `{ a: null b: 1 }` for a oneOf input object gives "Multiple entries with null values" |
| C73 | `c73_multiple_fields_refuted` | `subscription { ...F }` is marked with "Selection set contains multiple fields", although it contains one spread; the fields are in `F` |
| C73 | `c73_field_name_refuted` | a field that lacks required arguments is named by its alias in the message: ``Field `nope` missing argument(s): x`` for `{ nope: f }` |
| C76 | `c76_required_hidden_refuted` | nothing stops a warden from hiding a required argument: `{ pay(amount: 5) }` is accepted through the layer, but not valid for the schema behind it, where `pay` also needs `till` |
| C77 | `c77_small_refuted`, `c77_infinite_refuted` | a float whose fraction is below 10^-10 is written as an integer: 0.00000000001 comes back as 0.0; literals beyond the range are read as infinities, which are written as `inf`: 1e400 comes back as an enum value |
| C78 | `c78_trailing_refuted`, `c78_trailing_garbage_refuted`, `c78_spread_refuted` | `Value::parse("[][")` is the empty list, and so is `[]?`: what follows is not looked at; `FragmentSpread::parse("... on")` panics (an assertion) |
| C79 | `c79_unchecked_refuted` | for each of seventeen rules a text that is accepted although it breaks the rule: one object as two roots, unknown directives on the schema definition, repeated fields, arguments, members and interfaces, interfaces that are not implemented, reserved names, circular directives, directives out of place, repeated, with unknown, missing or unsuitable arguments, unsuitable default values, required fields of a oneOf input |
| C81 | `c81_verdict_refuted` | `query One { a { ...F } } query Two { p { ...F } } fragment F on A { x ... on A { x } }` is accepted, and rejected with the queries the other way round (`x` is `Int` on the interface, `Int!` on the object type `A`): the merging rule keeps the result for the type on which the fragment is spread first |
| C83 | `c83_verdict_refuted` | `query Q($x: Boolean) { ...F } fragment F on Query @d(a: $x) { a }` is accepted, but not after formatting: the printer leaves out the directives of fragment definitions, so `$x` is then unused |
| C84 | `c84_steps_refuted`, `c84_safe_steps_refuted`, `c84_reversed_refuted` | adding an argument `Int! = 1` is safe and dropping its default value only dangerous, but both together are breaking; a directive definition can lose its arguments and get others in two steps for which nothing is reported, while the whole is breaking; giving an applied directive its first argument is reported, taking it away is not |
| C85 | `c85_complexity_refuted` | `{ items(first: 10) {…} items(first: 1000) {…} }`: leaving out the first selection makes the Relay cost grow, as the first one written determines the multiplier (the fields conflict; the analysis does not require a valid document) |
| C87 | `c87_rearranged_refuted` | `subscription { a }` is accepted, `subscription { a a }` is rejected: selections at the root are counted, not response names |
| C90 | `c90_input_sizes_refuted` | `query($b: [Int] = [1, 2, 3]) { f(a: $b) }` has no list over the limit of 2, the same query with `$a` for `$b` has one: the default of a variable is looked up under the name of the argument (input_size.rs:131) |
| C91 | `c91_input_sizes_refuted` | `query($b: [Int] = [1, 2, 3]) { f(a: $b) }` has no list over the limit of 2, `{ f(a: [1, 2, 3]) }` has one (input_size.rs:131, as for C36 and C90) |
| C92 | `c92_input_sizes_refuted` | `{ f(a: [1, 2, 3]) @skip(if: true) g: f }` has a list over the limit of 2, `{ g: f }` has none (input_size.rs does not look at whether the field is included) |

## 5. Trusted base

* Coq's kernel. No axioms of our own; no kernel check is switched off. `Print Assumptions` prints `Closed under the global
  context` for every theorem named in the manifest (the `Print Assumptions` commands stand beside the theorems or in `Assumptions.v`; the full
  list is printed by the build). The files load only the standard library. The checker of the build lists the opaque
  `Coq.ssr.ssrunder.Under_rel` parameters because a loaded standard library file requires `ssreflect`; no theorem
  depends on them.
* The reading of the Rust code recorded in the comments of the model files.
* The parameters and assumptions below.

### Assumptions about code that is not ours

* `logos`: longest match, priorities as declared. The length of an error token is a parameter (`recover`), so the theorems
  hold for every choice. Non-ASCII decimal digits matched by `\d` are a parameter (`other_digit`); C63 and C64 ask that the
  byte order mark is not one of them. At the end of the text `span()` is the empty range there.
* `f64` parsing is a parameter, and so are the digits that `Display` shows of a float that is no integer. C02, C03 and C15 ask
  (`writable`) that a printed float is a float literal which parses to the same float; C77 says for which floats this holds, if the
  platform is as `platform` says: parsing takes ASCII only, and gives exactly the value of the literal if a float has that value;
  what `Display` shows of a float that is no integer is a literal that parses to the same float. C60 and C61 ask (`reads_numbers`) that it reads float literals
  as numbers, not NaN.
* `slice::binary_search` (`searches`) and `ariadne::Source::get_offset_line` (`tells_places`; the characters besides line feed and carriage
  return that ariadne takes for line ends are a parameter).
* `f32` weight parsing and `floor(2 * ln(n))` of the Relay cost computer are parameters.
* `serde` (derived code for the attributes that the macro emits), `serde_json` and `miniserde`: modelled after their documentation.
  Objects with repeated keys and enum representations other than strings are left out.
* The case conversions of `convert_case` are parameters (`pascal`, `snake`); clashes are hypotheses about them.
* The JSON that a user's Rust type for a custom scalar reads and writes is a parameter.
* The standard library's stable sort is modelled as insertion sort; `Itertools::unique` and friends by their documentation.

### Parts of the code that are not modelled

* The formatting of errors with source snippets
  (`format_errors`).
* Stack overflow of the recursive descent parser and of the recursive visitors; overflow of `usize` counters.
* In the visibility layer: wardens are functions without side effects, one schema definition per cache; the `inner()` escape
  hatches and the custom scalar hook of wardens.
* In bluejay-typegen: parsing of the macro's own input (`syn`), the token stream that is emitted (names, fields, types, lifetimes
  and attributes are modelled; their arrangement in modules is not), doc comments; names that `format_ident!` refuses (`_`, raw
  `self`).

## 6. Partial results

* C88, C89, C90: exact for validity (and for the analyses); for the verdict of the validator they are proved only where acceptance is validity (C60).
* C03, C07, C09, C13, C15, C25, C26, C32, C35, C36, C40, C41, C43, C45, C47, C48, C53, C54, C55, C58, C60, C61, C65, C66, C67, C68, C69, C70, C71, C72, C73, C79, C81, C83, C84, C85, C87, C90, C91, C92: the claim is false of the code in the cases of
  section 4, and the positive theorem covers the rest under hypotheses that exclude exactly (C07, C09, C15, C32, C45, C53, C58) or
  generously (the others) those cases. For C25, C36 and C48 a second theorem says exactly what the code reports in all cases.
