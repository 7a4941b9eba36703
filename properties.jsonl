{"id": "C01", "title": "String literals survive print and parse", "statement": "Printing any string value as a GraphQL string literal and lexing the output gives exactly one string token whose decoded value is the original string, with nothing left over before whatever text follows.", "quantifier": "every finite sequence of Unicode scalar values, and every following text that does not begin with a quotation mark", "why_tests_cant": "the space of strings is infinite and the escape rules interact (quotes, backslashes, control characters, non-BMP characters)", "anchors": ["bluejay-printer/src/string_value.rs StringValuePrinter", "bluejay-parser/src/lexer/logos_lexer/string_lexer.rs Token, StringValueLexer"]}
{"id": "C02", "title": "Values survive print and parse", "statement": "Printing any GraphQL value (variables, ints, strings, booleans, null, enums, lists, objects, nested arbitrarily) and parsing the output gives back the same value. Floats survive exactly if they are printable (C77).", "quantifier": "every finite value tree whose names are GraphQL names, ints are i32 and enum names are not true/false/null", "why_tests_cant": "nesting is unbounded; separators, keyword look-alikes and empty collections combine", "anchors": ["bluejay-printer/src/value.rs ValuePrinter", "bluejay-parser/src/ast/value.rs Value::from_tokens", "bluejay-parser/src/lexer/logos_lexer.rs Token"]}
{"id": "C03", "title": "Executable documents survive print and parse", "statement": "Printing a parsed executable document and parsing the output gives a document that is equal up to source positions (operations, variables, selection sets, arguments, directives, fragments).", "quantifier": "every well-formed executable document of any size and depth", "why_tests_cant": "documents are unboundedly nested and every combination of optional parts is possible", "anchors": ["bluejay-printer/src/executable/*.rs", "bluejay-parser/src/ast/executable/*.rs"]}
{"id": "C04", "title": "Lexer always terminates with ordered spans that tile the input", "statement": "For every source text, the lexer yields a finite sequence of tokens and errors whose byte spans are non-empty, strictly increasing, disjoint and inside the text, and every character not covered by a span is ignorable (white space, comma, BOM, comment).", "quantifier": "every source text", "why_tests_cant": "all inputs, including ill-formed ones; progress and tiling are global properties of every run", "anchors": ["bluejay-parser/src/lexer/logos_lexer.rs LogosLexer, Token", "bluejay-parser/src/span.rs Span"]}
{"id": "C05", "title": "Ignored characters do not matter", "statement": "Inserting or removing spaces, tabs, newlines, commas and comments between tokens does not change the sequence of tokens that the lexer produces.", "quantifier": "every token sequence and every choice of ignored separators between tokens", "why_tests_cant": "infinitely many layouts of the same document", "anchors": ["bluejay-parser/src/lexer/logos_lexer.rs Token (skip rules)"]}
{"id": "C06", "title": "Integer literals are exact", "statement": "An integer literal lexes to its mathematical value when that value fits in a signed 32 bit integer, and to a 'value too large' error otherwise; printing an integer and lexing it again is the identity; a number directly followed by a letter, digit, underscore or dot is rejected.", "quantifier": "every integer literal of any length and every following text", "why_tests_cant": "unbounded digit strings and every boundary of the 32 bit range", "anchors": ["bluejay-parser/src/lexer/logos_lexer.rs parse_integer, validate_number_no_trailing_name_start"]}
{"id": "C07", "title": "String escapes decode as the GraphQL specification says", "statement": "A string literal made of source characters and escape sequences is accepted exactly when every escape denotes Unicode scalar values (surrogates only as a correctly ordered pair), and decodes to the denoted characters in order.", "quantifier": "every string literal body", "why_tests_cant": "all combinations of adjacent escapes; longest-match interaction between escapes only shows for particular neighbours", "anchors": ["bluejay-parser/src/lexer/logos_lexer/string_lexer.rs Token, parse_fixed_width_escaped_unicode, parse_surrogate_pair"]}
{"id": "C08", "title": "Block strings have the value the specification gives them", "statement": "The value of a block string equals the specification's BlockStringValue: common indentation of all lines but the first is removed, and leading and trailing blank lines are dropped.", "quantifier": "every block string body: any number of lines of any content", "why_tests_cant": "line structure and indentation combinations are unbounded", "anchors": ["bluejay-parser/src/lexer/logos_lexer/block_string_lexer.rs block_string_value, BlockStringLexer"]}
{"id": "C09", "title": "Descriptions survive schema print and parse", "statement": "A description printed as a block string at any indentation parses back to the same description.", "quantifier": "every description text and every indentation depth", "why_tests_cant": "the printed layout interacts with dedent rules in ways that depend on all lines at once", "anchors": ["bluejay-printer/src/string_value.rs BlockStringValuePrinter", "bluejay-parser/src/lexer/logos_lexer/block_string_lexer.rs"]}
{"id": "C10", "title": "Only whole documents parse", "statement": "Parsing an executable document succeeds only if the entire token sequence is a sequence of one or more operation and fragment definitions of the GraphQL grammar, and then returns exactly those definitions in order; anything left over is an error, never ignored.", "quantifier": "every token sequence", "why_tests_cant": "all malformed continuations of all documents", "anchors": ["bluejay-parser/src/ast/executable/executable_document.rs ExecutableDocument::from_tokens", "bluejay-parser/src/ast/parse.rs Parse"]}
{"id": "C11", "title": "A failed parse reports an error and a clean parse reports none", "statement": "Document parsing returns either a document or a non-empty error list, terminates on every token sequence, and lexing errors always prevent a document from being returned.", "quantifier": "every token/lex-error sequence", "why_tests_cant": "error recovery loops over arbitrary broken input", "anchors": ["bluejay-parser/src/ast/executable/executable_document.rs", "bluejay-parser/src/ast/tokens.rs LexerTokens", "bluejay-parser/src/ast/parse.rs"]}
{"id": "C12", "title": "Built-in definitions are always present exactly once", "statement": "After parsing any definition document, each built-in scalar and each built-in directive is defined exactly once: the user's definition if there is one, the built-in otherwise; the eight introspection types are present; user definitions keep their order and content.", "quantifier": "every definition document", "why_tests_cant": "any subset of the built-ins may be redefined anywhere in the document", "anchors": ["bluejay-parser/src/ast/definition/definition_document.rs DefinitionDocument"]}
{"id": "C13", "title": "Successful schema resolution means every reference resolves to a suitable kind", "statement": "If a definition document is turned into a schema, then every type named in a field, argument, input field, interface list, union and directive argument exists and is of a kind allowed there (output, input, interface, object), every directive used on a type system member is defined, and lookups by name are total on those names.", "quantifier": "every definition document", "why_tests_cant": "references form arbitrary graphs over arbitrarily many definitions", "anchors": ["bluejay-parser/src/ast/definition/schema_definition.rs SchemaDefinition::try_from", "bluejay-parser/src/ast/definition/definition_document.rs"]}
{"id": "C14", "title": "Duplicate definitions and ill-formed roots are rejected", "statement": "Turning a definition document into a schema fails if two types (or two directives) share a name, if there is more than one explicit schema definition, if a root operation type is missing, repeated, or not an object type, and the roots of the resulting schema are those declared, or the conventionally named types when none are declared.", "quantifier": "every definition document", "why_tests_cant": "any position and number of duplicates", "anchors": ["bluejay-parser/src/ast/definition/definition_document.rs"]}
{"id": "C15", "title": "Printing a schema preserves its root operations", "statement": "Printing a schema and resolving the output again gives the same query, mutation and subscription root types.", "quantifier": "every schema", "why_tests_cant": "depends on the coincidence of root names and unrelated type names", "anchors": ["bluejay-printer/src/definition/schema_definition.rs SchemaDefinitionPrinter::is_implicit", "bluejay-parser/src/ast/definition/definition_document.rs"]}
{"id": "C16", "title": "Input coercion accepts exactly the values allowed by the type", "statement": "Coercing a literal or variable value against an input type reports no error exactly when the value conforms to the type under the specification's input coercion rules (null-ability, built-in scalars, enums, lists with single-item promotion, input objects with required, unknown and duplicate fields).", "quantifier": "every schema, every input type and every value, nested to any depth", "why_tests_cant": "values and input types nest without bound", "anchors": ["bluejay-validator/src/value/input_coercion.rs CoerceInput"]}
{"id": "C17", "title": "Coercion errors point at the offending place", "statement": "Every coercion error carries a path that starts at the path passed in and follows existing list indices and object fields of the value down to the place that is wrong (for unknown or missing fields, the enclosing object or that key).", "quantifier": "every schema, type, value and starting path", "why_tests_cant": "depends on all nested positions", "anchors": ["bluejay-validator/src/value/input_coercion.rs", "bluejay-validator/src/path.rs Path"]}
{"id": "C18", "title": "oneOf input objects hold exactly one non-null field", "statement": "For an input object marked oneOf, coercion accepts an object only if it has exactly one entry and that entry is not null.", "quantifier": "every oneOf input object type and every object value", "why_tests_cant": "any number and order of entries", "anchors": ["bluejay-validator/src/value/input_coercion.rs (one-of-input-objects)"]}
{"id": "C19", "title": "Value equality is a well-behaved equivalence that ignores object key order", "statement": "Comparing two values is reflexive (without NaN), symmetric, transitive, insensitive to the order of object fields and to the order of arguments, and distinguishes any two values that differ in content.", "quantifier": "every pair and triple of values without duplicate keys", "why_tests_cant": "infinite value space; equality goes through hash maps", "anchors": ["bluejay-core/src/value.rs PartialEq for ValueReference", "bluejay-core/src/argument.rs Arguments::equivalent"]}
{"id": "C20", "title": "Input object cycles are detected exactly", "statement": "The schema rule reports an input object type exactly when it can reach itself through a chain of fields of required (non-null), non-list input object types, i.e. exactly when no finite value of the type could exist because of it; the check terminates on every schema.", "quantifier": "every schema, any reference graph", "why_tests_cant": "arbitrary cyclic graphs of any size", "anchors": ["bluejay-validator/src/definition/rules/input_object_circular_references.rs"]}
{"id": "C21", "title": "Fragment cycles are detected exactly", "statement": "The fragment cycle rule reports an error for a fragment definition exactly when the fragment can reach itself by following fragment spreads (at any nesting depth), and terminates on every document.", "quantifier": "every executable document, any spread graph", "why_tests_cant": "arbitrary cyclic graphs of any size", "anchors": ["bluejay-validator/src/executable/document/rules/fragment_spreads_must_not_form_cycles.rs"]}
{"id": "C22", "title": "Impossible fragment spreads are detected exactly", "statement": "A fragment spread or inline fragment is reported exactly when no object type can be both a possible type of the enclosing selection's type and a possible type of the fragment's type condition.", "quantifier": "every schema and every pair of composite types in it", "why_tests_cant": "any interface/union/object configuration", "anchors": ["bluejay-validator/src/executable/document/rules/fragment_spread_is_possible.rs"]}
{"id": "C23", "title": "Variable uses without a definition are detected exactly", "statement": "An operation passes exactly when every variable used in its directives, arguments (at any depth inside values) or in any fragment transitively spread from it is defined by that operation.", "quantifier": "every document, any fragment graph", "why_tests_cant": "transitive closure over arbitrary fragment graphs", "anchors": ["bluejay-validator/src/executable/document/rules/all_variable_uses_defined.rs"]}
{"id": "C24", "title": "Unused variables are detected exactly", "statement": "An operation's variable definition is reported exactly when the variable is used nowhere in the operation or in the fragments transitively spread from it.", "quantifier": "every document, any fragment graph", "why_tests_cant": "transitive closure over arbitrary fragment graphs", "anchors": ["bluejay-validator/src/executable/document/rules/all_variables_used.rs"]}
{"id": "C25", "title": "Variable usages are type safe", "statement": "If a document passes validation, then at every place where a variable is used, any value that is valid for the variable's declared type (or its default) is valid for the type expected at that place.", "quantifier": "every schema, variable type, location type, default values, and every runtime value", "why_tests_cant": "subtyping over arbitrarily nested list/non-null types for all values", "anchors": ["bluejay-validator/src/executable/document/rules/all_variable_usages_allowed.rs"]}
{"id": "C26", "title": "Field merging conflicts are detected", "statement": "If the field selection merging rule passes, any two fields that end up under the same response key for the same concrete object type have the same field name, equivalent arguments and compatible types; and it reports nothing for documents that satisfy the specification's FieldsInSetCanMerge.", "quantifier": "every schema and every document, including overlapping fragments", "why_tests_cant": "pairs of fields across arbitrarily nested fragments and types", "anchors": ["bluejay-validator/src/executable/document/rules/field_selection_merging.rs"]}
{"id": "C27", "title": "Missing required arguments are detected exactly", "statement": "A field or directive is reported exactly when some required argument (non-null type, no default) is absent, or null where only non-null is allowed.", "quantifier": "every argument definition list and every argument list", "why_tests_cant": "any number of definitions and arguments in any order", "anchors": ["bluejay-validator/src/executable/document/rules/required_arguments.rs"]}
{"id": "C28", "title": "Unknown and repeated arguments are detected exactly", "statement": "Every argument whose name is not defined on its field or directive is reported, every repeated argument name is reported once with all its occurrences, and nothing else is.", "quantifier": "every argument definition list and every argument list", "why_tests_cant": "any number of definitions and arguments in any order", "anchors": ["bluejay-validator/src/executable/document/rules/argument_names.rs", "bluejay-validator/src/executable/document/rules/argument_uniqueness.rs", "bluejay-validator/src/utils.rs duplicates"]}
{"id": "C29", "title": "Selections match the schema", "statement": "A document passes the field rules exactly when every selected field exists on the type it is selected from, every leaf field has no sub-selection and every composite field has one.", "quantifier": "every schema and every document", "why_tests_cant": "arbitrarily nested selections", "anchors": ["bluejay-validator/src/executable/document/rules/field_selections.rs", "bluejay-validator/src/executable/document/rules/leaf_field_selections.rs", "bluejay-validator/src/executable/document/orchestrator.rs"]}
{"id": "C30", "title": "Operation names are unique and anonymous operations stand alone", "statement": "Validation reports an operation name exactly when at least two operations share it, and reports anonymous operations exactly when the document has an anonymous operation and some other operation.", "quantifier": "every document", "why_tests_cant": "any number and order of operations", "anchors": ["bluejay-validator/src/executable/document/rules/named_operation_name_uniqueness.rs", "bluejay-validator/src/executable/document/rules/lone_anonymous_operation.rs"]}
{"id": "C31", "title": "Fragments are unique, defined and used", "statement": "Validation reports exactly: names with two or more fragment definitions, spreads whose target is not defined, and fragment definitions that no spread in the document names.", "quantifier": "every document", "why_tests_cant": "any number of fragments and spreads, at any nesting depth", "anchors": ["bluejay-validator/src/executable/document/rules/fragment_name_uniqueness.rs", "bluejay-validator/src/executable/document/rules/fragment_spread_target_defined.rs", "bluejay-validator/src/executable/document/rules/fragments_must_be_used.rs"]}
{"id": "C32", "title": "Subscriptions select a single root field", "statement": "A subscription operation that passes validation collects exactly one distinct response key at its root, and one that collects exactly one is not reported.", "quantifier": "every subscription operation with any fragments", "why_tests_cant": "root selections can hide behind any nesting of fragments", "anchors": ["bluejay-validator/src/executable/document/rules/subscription_operation_single_root_field.rs"]}
{"id": "C33", "title": "Directive usage is checked exactly", "statement": "A directive usage is reported exactly when the directive is not defined, is used at a location its definition does not allow, or is a non-repeatable directive used more than once at the same place.", "quantifier": "every schema and every list of directives at every location", "why_tests_cant": "any combination of definitions and usages", "anchors": ["bluejay-validator/src/executable/document/rules/directives_are_defined.rs", "bluejay-validator/src/executable/document/rules/directives_are_in_valid_locations.rs", "bluejay-validator/src/executable/document/rules/directives_are_unique_per_location.rs"]}
{"id": "C34", "title": "Query depth is the true nesting depth", "statement": "The depth computed for an operation is the maximum number of nested included fields on any path, with fragments expanded in place, fields excluded by skip/include not counted, and it terminates even when fragments are cyclic.", "quantifier": "every document, operation and variable assignment", "why_tests_cant": "unbounded nesting and arbitrary fragment graphs; state is kept in counters that must balance", "anchors": ["bluejay-validator/src/executable/operation/analyzers/query_depth.rs", "bluejay-validator/src/executable/operation/orchestrator.rs"]}
{"id": "C35", "title": "Complexity cost is the worst case over possible types", "statement": "The complexity of an operation is the maximum, over the concrete types each selection may have, of the sum over distinct response keys of field costs times multipliers, counting merged duplicate fields once and excluding skipped fields.", "quantifier": "every schema, document, cost function and variable assignment", "why_tests_cant": "merging and type conditions combine in unboundedly many ways", "anchors": ["bluejay-validator/src/executable/operation/analyzers/complexity_cost.rs", "bluejay-validator/src/executable/operation/analyzers/complexity_cost/*.rs"]}
{"id": "C36", "title": "Oversized input lists are reported exactly", "statement": "The input size analysis reports exactly the lists longer than the maximum that occur in argument values (at any nesting outside another oversized list), including those supplied through variables or variable defaults.", "quantifier": "every document, variable assignment and maximum", "why_tests_cant": "arbitrary nesting of lists and objects", "anchors": ["bluejay-validator/src/executable/operation/analyzers/input_size.rs"]}
{"id": "C37", "title": "Variable values are checked completely", "statement": "The variable value analysis reports nothing exactly when every provided value belongs to a defined variable and conforms to its type, and every required variable without default has a value.", "quantifier": "every operation, schema and variable assignment", "why_tests_cant": "any number of variables, arbitrary values", "anchors": ["bluejay-validator/src/executable/operation/analyzers/variable_values_are_valid.rs"]}
{"id": "C38", "title": "Operation selection is unambiguous", "statement": "Analysis of a named operation uses the operation with that name and fails if there is none; without a name it succeeds exactly when the document has exactly one operation.", "quantifier": "every document and every requested name", "why_tests_cant": "any number of operations in any order", "anchors": ["bluejay-validator/src/executable/operation/orchestrator.rs Orchestrator::analyze"]}
{"id": "C39", "title": "skip and include are honoured", "statement": "A selection is excluded from analysis exactly when it or an enclosing selection carries skip with a true condition or include with a false condition, where the condition is a literal or the variable's provided value or default.", "quantifier": "every selection nesting, directive combination and variable assignment", "why_tests_cant": "nesting and directive combinations are unbounded", "anchors": ["bluejay-validator/src/executable/operation/orchestrator.rs evaluate_selection_inclusion", "bluejay-validator/src/executable/operation/variable_values.rs"]}
{"id": "C40", "title": "Hidden definitions never leak", "statement": "Through the scoped (visibility-filtered) schema no type, field, argument, enum value, input field, union member, interface or directive that the warden hides can be observed, nor any member whose type is hidden.", "quantifier": "every schema, every warden and every sequence of lookups", "why_tests_cant": "caching is lazy and order dependent; every access path has to be closed", "anchors": ["bluejay-visibility/src/cache.rs", "bluejay-visibility/src/schema_definition.rs", "bluejay-visibility/src/fields_definition.rs"]}
{"id": "C41", "title": "The visibility cache does not change answers", "statement": "The answer to any lookup on the scoped schema does not depend on which lookups were made before it.", "quantifier": "every schema, warden and history of lookups", "why_tests_cant": "all histories of lookups on a shared lazily filled cache", "anchors": ["bluejay-visibility/src/cache.rs Cache"]}
{"id": "C42", "title": "An all-permitting warden changes nothing", "statement": "With a warden that shows everything, every definition that is reachable in the underlying schema has the same members through the scoped schema, in the same order.", "quantifier": "every schema", "why_tests_cant": "all schemas and all access paths", "anchors": ["bluejay-visibility/src/warden.rs NullWarden", "bluejay-visibility/src/schema_definition.rs"]}
{"id": "C43", "title": "The scoped type list is closed and exactly the reachable part", "statement": "The type definitions listed by the scoped schema are exactly the visible types reachable from the visible root operations and directives through visible members, without duplicates, so the list is closed under reference; the traversal terminates on every schema.", "quantifier": "every schema and warden", "why_tests_cant": "arbitrary cyclic reference graphs", "anchors": ["bluejay-visibility/src/schema_definition.rs SchemaDefinition::new, VisibilityVisitor"]}
{"id": "C44", "title": "A schema has no changes against itself", "statement": "Comparing a schema with itself reports no change.", "quantifier": "every schema with unique member names and no NaN default", "why_tests_cant": "all schemas; relies on equality of values, types and directives being reflexive everywhere", "anchors": ["bluejay-schema-comparator/src/lib.rs compare", "bluejay-schema-comparator/src/diff/*.rs"]}
{"id": "C45", "title": "Every removal, addition and type change is reported", "statement": "If two schemas differ in the existence, kind or type of any type, field, argument, enum value, input field, union member, object interface, directive definition, directive location or directive argument, the comparison reports that change, and every reported change is real.", "quantifier": "every pair of schemas", "why_tests_cant": "all pairs of schemas; omissions only show for particular shapes", "anchors": ["bluejay-schema-comparator/src/diff/*.rs"]}
{"id": "C46", "title": "Changes reported as safe cannot break clients", "statement": "If the type change of a field is classified as safe then every result valid for the new type is valid for the old one; if the type change of an argument or input field is classified as safe then every input accepted by the old type is accepted by the new one; adding an argument or input field is classified as safe only if omitting it stays valid.", "quantifier": "every pair of types and every value", "why_tests_cant": "arbitrarily nested list/non-null types and all values", "anchors": ["bluejay-schema-comparator/src/changes.rs is_change_safe_for_field, is_change_safe_for_input_value, Change::criticality"]}
{"id": "C47", "title": "Comparison results are ordered and partitioned by criticality", "statement": "The reported changes are a permutation of the detected ones, sorted by criticality with breaking changes first, and the breaking, dangerous and safe views partition them.", "quantifier": "every list of changes", "why_tests_cant": "any number and mix of changes", "anchors": ["bluejay-schema-comparator/src/result.rs ComparisonResult"]}
{"id": "C48", "title": "Deprecated members used by an operation are found exactly", "statement": "The deprecation analysis reports exactly the deprecated fields, arguments, enum values and input fields that the included part of the operation uses.", "quantifier": "every schema, document and operation", "why_tests_cant": "arbitrary nesting", "anchors": ["bluejay-validator/src/executable/operation/analyzers/deprecation.rs"]}
{"id": "C49", "title": "Analysis terminates on cyclic fragments", "statement": "Analysing an operation visits only finitely many selections even if fragment spreads are cyclic: no fragment is expanded inside itself.", "quantifier": "every document, any fragment graph", "why_tests_cant": "arbitrary cyclic graphs", "anchors": ["bluejay-validator/src/executable/operation/orchestrator.rs currently_spread_fragments"]}
{"id": "C50", "title": "Argument values and variable defaults conform to their types", "statement": "The value rule reports nothing exactly when every argument value given anywhere in the document and every default of a variable with an input type conforms to its declared type.", "quantifier": "every schema, document and custom scalar hook", "why_tests_cant": "arbitrarily nested values at arbitrarily many places", "anchors": ["bluejay-validator/src/executable/document/rules/value_is_valid.rs"]}
{"id": "C51", "title": "Variable definitions are unique and have input types", "statement": "Validation reports exactly the variable names defined more than once in one operation and the variables whose type does not resolve to an input type.", "quantifier": "every document and schema", "why_tests_cant": "any number of operations and variables", "anchors": ["bluejay-validator/src/executable/document/rules/variable_uniqueness.rs", "bluejay-validator/src/executable/document/rules/variables_are_input_types.rs"]}
{"id": "C52", "title": "Repeated enum values and input fields are detected exactly", "statement": "Validating a schema reports, for every enum type and every input object type, exactly the value or field names that are defined more than once in it, each once with all its definitions.", "quantifier": "every schema", "why_tests_cant": "any number of types, values and fields", "anchors": ["bluejay-validator/src/definition/rules/enum_value_definition_uniqueness.rs", "bluejay-validator/src/definition/rules/input_field_definition_uniqueness.rs"]}
{"id": "C53", "title": "Type generation never panics on an accepted document", "statement": "If a query document passes validation (the standard rules and the type generator's own), converting it to types does not panic.", "quantifier": "every schema, every document that passes validation, every choice of custom scalars", "why_tests_cant": "validation and conversion walk the document separately and have to agree on every nesting", "anchors": ["bluejay-typegen-macro/src/validation/selections_are_valid.rs", "bluejay-typegen-macro/src/executable_definition/intermediate_representation.rs ExecutableType, convert"]}
{"id": "C54", "title": "The code generated for an accepted document is well formed", "statement": "If a query document passes validation, the generated code refers only to types that are generated, and defines no item, variant or field twice.", "quantifier": "every schema and every document that passes validation", "why_tests_cant": "all documents; depends on the interplay of name conversion, fragment spreads and validation", "anchors": ["bluejay-typegen-macro/src/validation/fragment_and_operation_names_do_not_clash.rs", "bluejay-typegen-macro/src/executable_definition/executable_type_builder.rs", "bluejay-typegen-macro/src/executable_definition/executable_enum_builder.rs", "bluejay-typegen-macro/src/names.rs"]}
{"id": "C55", "title": "Every response to a generated query deserializes without loss", "statement": "For an operation of an accepted document, every response that a server may give according to the GraphQL specification is deserialized by the generated type, with either codec, and the value shows exactly the data of the response.", "quantifier": "every schema, accepted document, operation and conforming response", "why_tests_cant": "all documents and all responses, with every combination of runtime types and nulls", "anchors": ["bluejay-typegen-macro/src/executable_definition/intermediate_representation.rs", "bluejay-typegen-macro/src/executable_definition/executable_enum_builder.rs", "bluejay-typegen-macro/src/executable_definition/executable_struct_builder.rs", "bluejay-typegen-macro/src/executable_definition/executable_field_builder.rs"]}
{"id": "C56", "title": "Generated types have a lifetime exactly when they hold borrowed data", "statement": "A generated type is marked as borrowing exactly when a string-like or borrowing custom scalar can be reached from it through its fields and fragments; every reference to a type agrees with the definition of that type on this.", "quantifier": "every schema, document and set of custom scalars, including recursive input types", "why_tests_cant": "reachability through arbitrary fragment graphs and input type graphs", "anchors": ["bluejay-typegen-macro/src/executable_definition/intermediate_representation.rs type_borrows, update_fragment_definition_references_borrow", "bluejay-typegen-macro/src/input_object_type_definition.rs contains_reference_types"]}
{"id": "C57", "title": "Generated input types have finite size", "statement": "No generated input type contains itself without a Box or Vec in between, and a Box is used only for a field whose type leads back to the type. The type of a field mirrors the type in the schema: lists are vectors, names are the types they refer to, and it is an Option exactly if the field may be left out, because its type is nullable or it has a default value (never for the variants of oneOf types).", "quantifier": "every schema, including mutually recursive input types", "why_tests_cant": "cycles of any length", "anchors": ["bluejay-typegen-macro/src/input_object_type_definition.rs contains_non_list_reference, type_for_input_type"]}
{"id": "C58", "title": "Values of generated input types are accepted by servers", "statement": "Serializing any value of a generated input type gives JSON that input coercion accepts for the input type.", "quantifier": "every schema, input type and value of the generated type", "why_tests_cant": "all nested values, all nullability combinations and defaults", "anchors": ["bluejay-typegen-macro/src/input_object_type_definition.rs", "bluejay-typegen-macro/src/enum_type_definition.rs", "bluejay-core/src/value/serde_json.rs"]}
{"id": "C59", "title": "Validation always gives a verdict", "statement": "Every document that can be parsed gets a verdict (a list of errors, possibly empty) from every schema that can be read: validation does not panic and terminates.", "quantifier": "every schema text and every query text, for every iteration order of hash maps", "why_tests_cant": "all pairs of texts, including cyclic fragments, unknown types and undefined names everywhere", "anchors": ["bluejay-validator/src/executable/document/orchestrator.rs Orchestrator::validate", "bluejay-validator/src/executable/document/rules.rs BuiltinRules", "bluejay-parser/src/ast/parse.rs"]}
{"id": "C60", "title": "The verdict is GraphQL validity", "statement": "A query text is accepted under a schema text exactly when the document is valid according to section 5 of the GraphQL specification, and the verdict is the same in every run.", "quantifier": "every schema text, query text and iteration order of hash maps", "why_tests_cant": "all pairs of texts; each rule has to be exact and their composition has to leave no gap", "anchors": ["bluejay-validator/src/executable/document/orchestrator.rs Orchestrator::validate", "bluejay-validator/src/executable/document/rules.rs BuiltinRules"]}
{"id": "C61", "title": "The type generation macro is total and its output usable", "statement": "Expanding the typegen macro with any schema, aliases and queries gives types or compile errors and never panics; it gives types only for valid queries; the types compile, have finite size, and read every conforming response.", "quantifier": "every schema text, list of aliases, list of query texts and codec", "why_tests_cant": "composition of parser, resolver, validator and generator over all texts", "anchors": ["bluejay-typegen-macro/src/lib.rs generate_schema, process_module_items", "bluejay-typegen-macro/src/executable_definition.rs generate_executable_definition"]}
{"id": "C62", "title": "Error locations are exact", "statement": "Converting errors to GraphQL errors gives every error the line and column at which its text begins in the document, however many errors were converted before, and does not panic; every lexing error is reported once and in order, and messages about parts of a string literal lie inside it.", "quantifier": "every document text, with any characters and line ends, and every list of errors on it in any order", "why_tests_cant": "byte offsets, characters, lines and a cache of offsets interact; arbitrary Unicode texts and error orders", "anchors": ["bluejay-parser/src/error.rs Error::into_graphql_errors", "bluejay-parser/src/error/format_errors.rs SpanToLocation, ByteIndexToCharIndex", "bluejay-parser/src/lexer/lex_error.rs", "bluejay-parser/src/span.rs"]}
{"id": "C63", "title": "Every part of a parsed document knows its place in the text", "statement": "The range that a parsed document gives for each of its parts (names, values, arguments, directives, types, selections, selection sets, operations, fragments) is where the part is written: the text of the range is exactly a text of the part. Two different parts of the same kind never have the same range, and of two such parts the one that begins first compares smaller, so ranges can serve as identities and keys.", "quantifier": "every text that parses, every part of the document", "why_tests_cant": "arbitrary nesting and layout; identity of selection sets and fields by position is what merging, caching and hashing in the validator rely on", "anchors": ["bluejay-parser/src/span.rs Span::merge", "bluejay-parser/src/ast/executable/selection_set.rs", "bluejay-parser/src/ast/executable/field.rs", "bluejay-parser/src/ast/executable/operation_definition.rs", "bluejay-parser/src/ast/value.rs", "bluejay-parser/src/ast/arguments.rs"]}
{"id": "C64", "title": "Syntax errors point at the first offending token and do not cascade", "statement": "A rejected text without lexing errors gets its first error exactly where it stops being the beginning of a document: what is written before the marked token can be completed to a document, and by what the message asks for if it asks for something, and what is written up to and including the token cannot; or the error is at the end and the whole text can be completed. The further errors lie behind it in order, and between two errors a whole definition is written, so that one mistake does not give several errors. All become GraphQL errors with the line and column of the mark.", "quantifier": "every text that is rejected by the parser and not by the lexer", "why_tests_cant": "a viable prefix property quantifies over all completions of the text; error recovery depends on what follows", "anchors": ["bluejay-parser/src/ast/parse_error.rs", "bluejay-parser/src/ast/tokens.rs", "bluejay-parser/src/ast/executable/executable_document.rs parse_from_tokens", "bluejay-parser/src/lexer/logos_lexer.rs empty_span"]}
{"id": "C65", "title": "If a comparison finds nothing breaking, valid documents stay valid", "statement": "If the comparison of two schemas reports no breaking change, every document that is valid for the old schema is valid for the new schema, and every query text that the validator accepts for the old one it accepts for the new one.", "quantifier": "every pair of schemas and every document", "why_tests_cant": "all pairs of schemas and all documents at once: each classification has to be right for every use, and no difference may be overlooked", "anchors": ["bluejay-schema-comparator/src/lib.rs compare", "bluejay-schema-comparator/src/diff/*.rs", "bluejay-schema-comparator/src/changes.rs Change::criticality", "bluejay-validator/src/executable/document/orchestrator.rs Orchestrator::validate"]}
{"id": "C66", "title": "If a comparison finds only safe changes, clients read what the new server sends", "statement": "If the comparison of two schemas reports only safe changes, every response that a server of the new schema may give to a document that is valid for the old schema is a response that a server of the old schema may give, so that the types generated from the old schema read it without loss.", "quantifier": "every pair of schemas, every document valid for the old one, every operation and response", "why_tests_cant": "all pairs of schemas, all documents and all responses; a safe change has to be safe in every place where the type is used", "anchors": ["bluejay-schema-comparator/src/lib.rs compare", "bluejay-schema-comparator/src/diff/*.rs", "bluejay-schema-comparator/src/changes.rs Change::criticality, is_change_safe_for_field", "bluejay-typegen-macro/src/executable_definition/intermediate_representation.rs"]}
{"id": "C67", "title": "If a comparison finds nothing breaking, generated clients keep reading", "statement": "If the comparison of two schemas reports no breaking change, the types that are generated from the old schema and a query read every response that a server of the new schema may give to the query, and show all of it, except that enum values that the old schema did not have are read as Other.", "quantifier": "every pair of schemas, every query for which types are generated, every operation and response, either codec", "why_tests_cant": "all pairs of schemas, all documents and all responses: what is added (types, members, values, implementations) may appear anywhere in a response", "anchors": ["bluejay-schema-comparator/src/lib.rs compare", "bluejay-schema-comparator/src/diff/*.rs", "bluejay-schema-comparator/src/changes.rs Change::criticality", "bluejay-typegen-macro/src/executable_definition/intermediate_representation.rs", "bluejay-typegen-macro/src/enum_type_definition.rs", "bluejay-typegen-macro/src/executable_definition/executable_enum_builder.rs"]}
{"id": "C68", "title": "Reported schema changes tell what changed and where", "statement": "The path of a reported change leads to what was added, removed or changed, in the schema (or schemas) in which it is, and to nothing in the other one if it was added or removed; the message names it and shows the old and the new form; two different reported changes never have both the same path and the same message.", "quantifier": "every pair of schemas and every reported change, whatever descriptions and default values contain", "why_tests_cant": "all pairs of schemas; paths and messages of forty kinds of changes could collide for particular names and descriptions", "anchors": ["bluejay-schema-comparator/src/changes.rs Change::path, Change::message, directive_location_name", "bluejay-core/src/definition/type_definition.rs kind"]}
{"id": "C69", "title": "Schemas that are read are well made", "statement": "In a schema that was read from a text all names are GraphQL names, no two types and no two directives have the same name (built-in ones included), nothing is empty, default values and directive arguments are constants within the ranges of the specification, every composite type has __typename, and no member (field, argument, enum value, applied directive argument) is given twice; so comparing the schema of a text with itself reports nothing, and the guarantees about comparisons hold from texts.", "quantifier": "every schema text that is read", "why_tests_cant": "all texts; the invariants are what every later stage (comparison, validation, generation) takes for granted", "anchors": ["bluejay-parser/src/ast/definition/definition_document.rs", "bluejay-parser/src/lexer/logos_lexer.rs", "bluejay-parser/src/ast/value.rs", "bluejay-schema-comparator/src/lib.rs compare"]}
{"id": "C70", "title": "Syntax errors in schema texts point at the mistake", "statement": "When a schema text is rejected and has no lexing errors, the first error marks the first token that no schema text with the same beginning can have there, or the end if the whole text can be completed, and what its message expects is something the text can go on with; the errors are in the order of the text, between two of them there is a whole definition, and they are converted to GraphQL errors with the lines and columns of their places.", "quantifier": "every schema text without lexing errors that is rejected", "why_tests_cant": "all texts, and for the place of an error all ways a text can go on", "anchors": ["bluejay-parser/src/ast/definition/definition_document.rs", "bluejay-parser/src/ast/parse_error.rs", "bluejay-parser/src/ast/tokens.rs", "bluejay-parser/src/error.rs"]}
{"id": "C71", "title": "The parts of a schema document are where their ranges say", "statement": "When a schema text is parsed, its tokens are those of the definitions one after another, each part of a definition (name, description, argument and field lists, types, default values, directives, directive locations, root operations, the word schema) is read from its own tokens, and the range the library gives to the part is that of these tokens: cut out of the text, it lexes to exactly the tokens of the part. So errors about parts become GraphQL errors at the lines and columns where the parts begin.", "quantifier": "every schema text that is accepted, and every part of its definitions", "why_tests_cant": "all texts and all parts, with comments, commas, line ends and multi-byte characters between and inside them", "anchors": ["bluejay-parser/src/ast/definition", "bluejay-parser/src/span.rs", "bluejay-parser/src/lexical_token.rs", "bluejay-parser/src/error.rs"]}
{"id": "C72", "title": "The errors of a schema document say what is wrong with it and where", "statement": "When a schema text can be read but not turned into a schema, each error is about a mistake of the document (a type or directive that is not defined, a type used where its kind cannot be, a name defined more than once, a wrong schema definition), names it, and marks the places in the text where the mistake is: the reference, or all the definitions of the name; the ranges it marks hold exactly that name or directive. There are no errors if and only if the document gives a schema. Every name that is defined twice is reported; if there are none, every wrong reference is reported; if there are none, every wrong root operation is. As GraphQL errors they have the lines and columns of these places.", "quantifier": "every schema text that is read, every iteration order of the hash maps that built-in definitions come from", "why_tests_cant": "all combinations of mistakes in documents of any size, references from every place and to every kind of definition, also the built-in ones", "anchors": ["bluejay-parser/src/ast/definition/definition_document.rs", "bluejay-parser/src/ast/definition/definition_document/definition_document_error.rs", "bluejay-parser/src/error.rs"]}
{"id": "C73", "title": "Validation errors of a query say what is wrong and mark the part of the text it is about", "statement": "Each error of validating a query text, turned into a message with annotations, tells of the mistake the validator found: it names the field, type, argument, directive, fragment or variable concerned, and marks the part of the text where it is (the name, the value, all definitions of a repeated name, the two fields that do not merge and the selection set they are in). Everything marked is a part of the text, or reaches from one part to another. As GraphQL errors none is lost, and each has the line and column where a part begins.", "quantifier": "every schema text and every query text that can be read, every custom scalar implementation, every iteration order of hash maps", "why_tests_cant": "documents of any size with any combination of the twenty-six kinds of mistakes, at any depth of values and selections", "anchors": ["bluejay-validator/src/executable/document/error.rs", "bluejay-validator/src/executable/document/rules", "bluejay-validator/src/value/input_coercion/error.rs", "bluejay-parser/src/error.rs"]}
{"id": "C74", "title": "Errors about enum and input types of a schema say what is wrong and mark every place it is at", "statement": "Validating a schema that was read from a text gives exactly these errors: for each enum value name that an enum type has more than once, one that marks the name of each of its definitions; for each field name that an input type has more than once, one that marks each; and for each input type that needs itself through fields that are neither nullable nor lists, one that marks the name of the type and the type of every field that refers to it in all the types it needs. As GraphQL errors they have the line and column where the marked text begins.", "quantifier": "every schema text that can be read and resolves, every iteration order of hash maps", "why_tests_cant": "any number of types that refer to each other in any way; cycles of any length, shared between types", "anchors": ["bluejay-validator/src/definition/error.rs", "bluejay-validator/src/definition/rules/input_object_circular_references.rs", "bluejay-validator/src/definition/rules/enum_value_definition_uniqueness.rs", "bluejay-validator/src/definition/rules/input_field_definition_uniqueness.rs"]}
{"id": "C75", "title": "The type generator says exactly what it does not support in a valid query, and marks it", "statement": "If a query text is valid for a schema but has something that the type generator does not support, the generator does not generate types from it and returns errors: exactly one kind for each of these, naming what is concerned and marking it in the text: a fragment spread next to other selections, an inline fragment on an object or interface, a fragment spread on an interface that targets neither it nor an interface it implements, and on a union a set that does not begin with an unaliased `__typename`, another field, an inline fragment not on a member, several on the same member; and a fragment that is called like an operation (or `Root`, for an operation without a name). A valid query with nothing of this kind gets none of these errors.", "quantifier": "every schema, every query text that can be read and is valid for it, every configuration of the validator", "why_tests_cant": "selection sets of any depth and size, in any operation or fragment; any text with comments and characters of several bytes", "anchors": ["bluejay-typegen-macro/src/validation/error.rs", "bluejay-typegen-macro/src/validation/selections_are_valid.rs", "bluejay-typegen-macro/src/validation/fragment_and_operation_names_do_not_clash.rs", "bluejay-typegen-macro/src/executable_definition.rs"]}
{"id": "C76", "title": "A document that is accepted through the visibility layer uses nothing hidden", "statement": "To whoever only looks definitions up, as the validator of documents does, the visibility layer is a schema: the one that has only what is shown. A document that the validator accepts for that schema uses nothing that is hidden: no root type, field, argument, type condition, fragment or variable type, directive, directive argument, enum value or input field, however it is reached, also inside values and defaults of variables. And if nothing that is hidden has to be given, a document that is valid for that schema is valid for the schema behind the layer.", "quantifier": "every schema, every warden, every history of lookups before, every document and configuration of the validator", "why_tests_cant": "schemas, wardens, histories and documents of any size; the set of documents that use a hidden definition is infinite", "anchors": ["bluejay-visibility/src/schema_definition.rs", "bluejay-visibility/src/cache.rs", "bluejay-visibility/src/warden.rs", "bluejay-visibility/src/fields_definition.rs", "bluejay-visibility/src/input_value_definition.rs", "bluejay-validator/src/executable/document/orchestrator.rs"]}
{"id": "C77", "title": "Floats survive print and parse exactly if they are integers or not too close to one", "statement": "Printing a float value and parsing the output gives back the same float, bit for bit, exactly if the float is finite, and an integer or at least 10^-10 away from the next integer towards zero. Other finite floats come back as that integer; infinities, which literals such as 1e400 are read as, are written as names.", "quantifier": "every 64 bit pattern, every value tree with such floats, every platform whose float parsing is exact where it can be and whose float formatting is read back as the same number", "why_tests_cant": "2^64 floats; the boundary is a comparison of a rounded literal with a fraction that depends on the magnitude", "anchors": ["bluejay-printer/src/value.rs ValuePrinter", "bluejay-parser/src/lexer/logos_lexer.rs Token::FloatValue"]}
{"id": "C78", "title": "A piece of a document parsed by itself is what the text starts with", "statement": "Parsing a value, argument list, directive, type, variable definition, selection or definition by itself (Value::parse and so on) gives a piece only if the text starts with exactly that piece, and gives it whenever the text starts with it and the next token could not continue it; what comes after is not looked at, so a text that is a piece and more is accepted. Otherwise there are errors, and never a panic, but for a fragment spread whose name is `on`, which panics. The constants that the library itself parses and unwraps are definitions, so making a document does not panic.", "quantifier": "every text, every kind of piece of executable and type system documents, every number of tokens looked at past the piece", "why_tests_cant": "texts, nestings and what follows are unbounded; where parsing stops shows only in what follows", "anchors": ["bluejay-parser/src/ast/parse.rs Parse::parse_from_tokens", "bluejay-parser/src/ast/tokens.rs LexerTokens", "bluejay-parser/src/ast/executable/fragment_spread.rs FragmentSpread::from_tokens", "bluejay-parser/src/ast/definition/object_type_definition.rs ObjectTypeDefinition::builtin"]}
{"id": "C79", "title": "A schema that is accepted is valid GraphQL, and valid ones are accepted", "statement": "A type system document that is read, resolved to a schema and passes the rules for definitions obeys the rules of section 3 of the GraphQL specification; and every document that obeys them is accepted.", "quantifier": "every type system document, every rule of the specification on type systems", "why_tests_cant": "documents are unbounded, and a rule nobody thought of has no test", "anchors": ["bluejay-parser/src/ast/definition/definition_document.rs TryFrom<&DefinitionDocument> for SchemaDefinition", "bluejay-validator/src/definition/rules.rs", "bluejay-validator/src/definition/validator.rs"]}
{"id": "C80", "title": "Definitions can be spread over several texts, those of a schema in any order", "statement": "If several texts are documents by themselves, putting them one after the other (with a line feed between them) is a document with the operations and fragments, or the type system definitions, of all of them in order; and for type system documents the order of the texts does not matter: one order defines a schema exactly when another does, and the schema is the same, built-in definitions being added once.", "quantifier": "all lists of texts that parse, all orders of them, all orders of adding built-in definitions", "why_tests_cant": "lists of texts and their orders are unbounded; a comment at the end of a text or a definition used before it is defined is easily missed", "anchors": ["bluejay-parser/src/ast/definition/definition_document.rs DefinitionDocument::parse_from_tokens", "bluejay-parser/src/ast/executable/executable_document.rs ExecutableDocument::parse_from_tokens", "bluejay-parser/src/lexer/logos_lexer.rs", "bluejay-parser/src/ast/definition/definition_document.rs TryFrom<&DefinitionDocument> for SchemaDefinition"]}
{"id": "C81", "title": "The order of definitions in an executable document does not matter for validation", "statement": "Putting the operations and the fragments of a document in another order, or its texts, does not change whether validation finds errors.", "quantifier": "all documents, all orders of their definitions, all orders of hash maps", "why_tests_cant": "documents and orders are unbounded; rules that keep what they found out about a fragment can depend on who uses it first", "anchors": ["bluejay-validator/src/executable/document/orchestrator.rs Orchestrator::validate", "bluejay-validator/src/executable/document/rules.rs", "bluejay-validator/src/executable/document/rules/field_selection_merging.rs"]}
{"id": "C82", "title": "Naming a fragment or writing it out does not change what analyses find", "statement": "Replacing spreads of fragments by inline fragments with the same type condition, directives and selections, and dropping definitions that are not spread any more, changes neither which operation is found nor the result of any analysis of it: depth, complexity, oversized input lists, errors about variable values, deprecated uses.", "quantifier": "all schemas, documents without fragment cycles, choices of spreads to write out, variable values, limits, custom scalars and cost computers that do not look below a field", "why_tests_cant": "documents, nesting of fragments and choices of spreads are unbounded", "anchors": ["bluejay-validator/src/executable/operation/orchestrator.rs Orchestrator::visit_fragment_spread", "bluejay-validator/src/executable/operation/orchestrator.rs Orchestrator::visit_inline_fragment", "bluejay-validator/src/executable/operation/analyzers/query_depth.rs", "bluejay-validator/src/executable/operation/analyzers/complexity_cost.rs", "bluejay-validator/src/executable/operation/analyzers/input_size.rs", "bluejay-validator/src/executable/operation/analyzers/variable_values_are_valid.rs", "bluejay-validator/src/executable/operation/analyzers/deprecation.rs"]}
{"id": "C83", "title": "Formatting a query: stable, canonical, and harmless", "statement": "Printing a parsed query document gives a text that prints to itself; two texts are printed alike exactly if they have the same operations and fragments; and the printed text has the same validation errors and the same results of analyses as the original.", "quantifier": "all texts, all schemas, all custom scalar rules, all orders of hash maps, all variable values", "why_tests_cant": "texts are unbounded, and nothing in the code compares a printed document with the original beyond single examples", "anchors": ["bluejay-printer/src/executable", "bluejay-parser/src/ast/executable", "bluejay-validator/src/executable/document/orchestrator.rs Orchestrator", "bluejay-validator/src/executable/operation/orchestrator.rs Orchestrator"]}
{"id": "C84", "title": "Comparing schemas in steps, and backwards", "statement": "If no step from one version of a schema to the next is found to be breaking, then comparing the first version with the last finds nothing breaking; if all steps are safe, so is the whole. Comparing two schemas the other way round finds every change undone.", "quantifier": "all triples and pairs of schemas", "why_tests_cant": "the comparison looks at two schemas only; that verdicts add up over a history of versions depends on every kind of change at once", "anchors": ["bluejay-schema-comparator/src/changes.rs Change::criticality", "bluejay-schema-comparator/src/diff", "bluejay-schema-comparator/src/lib.rs compare"]}
{"id": "C85", "title": "Asking for less never costs more", "statement": "An operation that asks for part of what another operation asks for (selections left out anywhere, also in fragments) is not deeper and not more complex than the other one, and is reported for no oversized list and no deprecated use for which the other one is not reported. In particular the order of selections and repeated selections do not matter.", "quantifier": "all schemas, documents, operations, variable values and ways to leave out selections", "why_tests_cant": "fields are merged across fragments and counted per concrete type; that this is monotone must hold for every operation", "anchors": ["bluejay-validator/src/executable/operation/analyzers/complexity_cost.rs", "bluejay-validator/src/executable/operation/analyzers/query_depth.rs", "bluejay-validator/src/executable/operation/analyzers/input_size.rs", "bluejay-validator/src/executable/operation/analyzers/deprecation.rs"]}
{"id": "C86", "title": "The analyses of valid operations measure what they are said to", "statement": "For every operation of a valid document, the depth is the greatest number of included fields around each other; the complexity, with the default and the Relay costs, is the greatest cost over the concrete types of objects that the type conditions directly around the fields allow, and so never less than what an execution can cost; no analysis panics; leaving out selections never makes the operation more costly.", "quantifier": "all schemas, valid documents, operations and variable values", "why_tests_cant": "the analyses keep state across merged fields and rely on what validation checks; that this is enough must hold for every valid document", "anchors": ["bluejay-validator/src/executable/operation/analyzers/complexity_cost.rs", "bluejay-validator/src/executable/operation/analyzers/query_depth.rs", "bluejay-validator/src/executable/operation/orchestrator.rs"]}
{"id": "C87", "title": "What leaving out parts of a query can break", "statement": "Leaving out selections, fragments or operations of a valid query gives a valid query if and only if every fragment that is still spread is defined, every fragment still defined is spread, every variable still declared is used and subscriptions still select a field: no other rule can be broken that way. The order of selections, and how often one is written, do not matter.", "quantifier": "all schemas, valid documents and ways to leave out (fields keep at least one of their subselections if they have any)", "why_tests_cant": "validation rules interact across fragments and operations; that none of them depends on something being there must hold for every query and every part of it", "anchors": ["bluejay-validator/src/executable/document/rules.rs", "bluejay-validator/src/executable/document/orchestrator.rs", "bluejay-validator/src/executable/document/rules/field_selection_merging.rs", "bluejay-validator/src/executable/document/rules/subscription_operation_single_root_field.rs"]}
{"id": "C88", "title": "Operations are validated independently of each other", "statement": "A document is valid if and only if operation and fragment names are unique, an operation without a name is alone, every fragment is needed by some operation, and every operation is valid in a document of its own with just the fragments it needs (those it spreads, directly or through other fragments). Whether valid or not, the analyses of the operation (depth, complexity, input sizes, deprecations, variable values) are the same in the document and in a document of its own.", "quantifier": "all schemas and documents", "why_tests_cant": "validation looks at the fragments of all operations together; that an operation can be taken out of any document, or put into one, without changing whether it is valid must hold for every document", "anchors": ["bluejay-validator/src/executable/document/orchestrator.rs", "bluejay-validator/src/executable/document/rules.rs", "bluejay-validator/src/executable/cache.rs", "bluejay-validator/src/executable/operation/orchestrator.rs"]}
{"id": "C89", "title": "The names of fragments and operations do not matter", "statement": "Give the fragments and the operations of a query other names, different ones to different ones, wherever they are written (and, if one likes, write selections in another order or repeatedly). The query is valid under the new names if and only if it was under the old ones. Asking for the analysis of the operation by its new name finds it if and only if the old name did, and depth, complexity (with any cost computer that does not look below the field), oversized lists, errors of variable values and deprecated uses are the same.", "quantifier": "all schemas, documents, renamings, requested operations, variable values and cost computers", "why_tests_cant": "names are keys of maps and sets in many of the rules; that nothing depends on what they are must hold for every query and every choice of names", "anchors": ["bluejay-validator/src/executable/document/orchestrator.rs", "bluejay-validator/src/executable/document/rules.rs", "bluejay-validator/src/executable/operation/orchestrator.rs", "bluejay-validator/src/executable/cache.rs"]}
{"id": "C90", "title": "The names of variables do not matter", "statement": "Give the variables of a query other names, different ones to different ones, where they are declared and wherever they are used (and give the values under the new names). The query is valid under the new names if and only if it was under the old ones, the same operation is found, and depth, complexity, relay cost, the errors about variable values (of the new names), the deprecated uses and the oversized lists are the same.", "quantifier": "all schemas, documents, renamings, requested operations, variable values and cost computers that do not look at the names of variables", "why_tests_cant": "variable names are compared with each other, with keys of the given values and with the definitions in many places; that nothing else depends on what they are must hold for every query and every choice of names", "anchors": ["bluejay-validator/src/executable/document/rules.rs", "bluejay-validator/src/executable/operation/analyzers/input_size.rs", "bluejay-validator/src/executable/operation/analyzers/variable_values_are_valid.rs", "bluejay-validator/src/executable/operation/orchestrator.rs"]}
{"id": "C91", "title": "A value can be given in a variable or written in the query", "statement": "Replace every use of a variable that has a value, given or by default, by the value. Depth, complexity (with any cost computer that does not look at how arguments are written), relay cost, the errors about variable values and the oversized lists that are found stay the same.", "quantifier": "all schemas, documents, operations and variable values without variables in them, where conditions of skip and include are variables declared as Boolean (for the relay cost: page sizes variables declared as Int), as in valid queries", "why_tests_cant": "variables are resolved in several places, each with a lookup of its own; that each agrees with writing the value must hold for every query and all values", "anchors": ["bluejay-validator/src/executable/operation/orchestrator.rs", "bluejay-validator/src/executable/operation/analyzers/input_size.rs", "bluejay-validator/src/executable/operation/analyzers/complexity_cost/relay_cost_computer.rs", "bluejay-validator/src/executable/operation/variable_values.rs"]}
{"id": "C92", "title": "What is skipped does not count", "statement": "Leave out of a query any selections, at any depth and in fragments too, that @skip or @include exclude for the given variable values. Depth, complexity (with any cost computer that does not look at the selections inside a field), relay cost and the oversized lists that are found stay the same.", "quantifier": "all schemas, documents, operations, variable values and choices of excluded selections to leave out", "why_tests_cant": "exclusion has to reach through fields, inline fragments and spreads, also to fields that another selection merges with; an analyzer that ignores it at one place is only seen by queries that exclude something there", "anchors": ["bluejay-validator/src/executable/operation/orchestrator.rs", "bluejay-validator/src/executable/operation/analyzers/query_depth.rs", "bluejay-validator/src/executable/operation/analyzers/complexity_cost.rs", "bluejay-validator/src/executable/operation/analyzers/input_size.rs"]}
{"id": "C93", "title": "Response names do not matter", "statement": "Give the fields of a query other names in the response, consistently and such that different names stay different. Depth, complexity (with any cost computer that does not look at aliases), relay cost, oversized lists, deprecations and the errors about variable values stay the same. The query is valid with the new names exactly if it was valid before, and the validator accepts both or neither.", "quantifier": "all schemas, documents, operations, variable values and one-to-one changes of response names", "why_tests_cant": "costs are collected per response name in nested maps; that nothing depends on the names themselves must hold for all queries and all names", "anchors": ["bluejay-validator/src/executable/operation/analyzers/complexity_cost.rs", "bluejay-validator/src/executable/operation/analyzers/query_depth.rs", "bluejay-validator/src/executable/operation/analyzers/deprecation.rs", "bluejay-validator/src/executable/operation/orchestrator.rs"]}
{"id": "C94", "title": "Generated types read only what is there", "statement": "Whatever JSON is given to the generated types, a value that is read holds nothing that is not in the JSON at the same place: fields and list elements in order, enum values, integers in range. Only serde leaves out an entry, and then the field is None. The variant of a union or interface value is the one that __typename names; with miniserde __typename comes first and there is no entry beside those of the variant.", "quantifier": "all generated types, schemas, codecs, custom scalar types and JSON documents, also those that no correct server sends", "why_tests_cant": "types and JSON nest without bound; tests try a few responses, mostly correct ones", "anchors": ["bluejay-typegen-macro/src/executable_definition/executable_struct_builder.rs", "bluejay-typegen-macro/src/executable_definition/executable_enum_builder.rs", "bluejay-typegen-macro/src/executable_definition/executable_field_builder.rs", "bluejay-typegen-macro/src/enum_type_definition.rs"]}
