{"claims": [
{"property": "C01", "status": "proved", "theorems": ["c01_string_roundtrip", "c01_alone"], "note": "Every string, every following text not beginning with a quotation mark."},
{"property": "C02", "status": "proved", "theorems": ["c02_value_roundtrip", "c02_value_in_context"], "note": "Floats: `writable` asks that the float is printed as a float literal that parses to the same float; C77 says for which floats this holds (c77_values)."},
{"property": "C03", "status": "partial", "theorems": ["c03_print_parse", "c03_roundtrip_partial", "c03_parsed_text_partial", "c03_fragment_directives_refuted", "c77_documents_partial", "c77_small_refuted", "c77_infinite_refuted"], "note": "The printer drops the directives of fragment definitions (refuted theorem); proved in full for documents without them. The query shorthand comes back as an explicit query (same_document). Floats have to be printable (c77_documents_partial; C77): 0.00000000001 comes back as 0.0 and 1e400 as the enum value inf (refuted)."},
{"property": "C04", "status": "proved", "theorems": ["c04_spans_tile", "c04_spans_ordered"], "note": "Both lexer modes; every token's span is also shown to be a way to write the token."},
{"property": "C05", "status": "proved", "theorems": ["c05_layout", "c05_layout_only", "c05_insert_ignored"], "note": "The lexer's token sequences are exactly the layouts of the tokens."},
{"property": "C06", "status": "proved", "theorems": ["c06_exact", "c06_no_trailing", "c06_print_lex"], "note": ""},
{"property": "C07", "status": "partial", "theorems": ["c07_sound", "c07_accepts_partial", "c07_surrogates_refuted", "c07_braces_refuted"], "note": "Everything accepted is a literal of the specification with that value. Completeness fails in two cases, which are refuted; it is proved for all other literals."},
{"property": "C08", "status": "proved", "theorems": ["c08_block_value", "c08_only"], "note": ""},
{"property": "C09", "status": "partial", "theorems": ["c09_read_back", "c09_read_back_any", "c09_survives_iff", "c09_survives_partial", "c09_stable", "c09_indented_refuted", "c09_line_break_refuted", "c09_carriage_return_refuted"], "note": "The block string printer does not preserve indentation, blank lines at the ends, or carriage returns (refuted theorems); c09_survives_iff says exactly which descriptions without carriage returns survive. c09_read_back_any says what comes back for any description."},
{"property": "C10", "status": "proved", "theorems": ["c10_whole_documents", "c10_unambiguous", "c10_schema_documents", "c10_schema_unambiguous"], "note": "Executable documents and definition documents."},
{"property": "C11", "status": "proved", "theorems": ["c11_document_or_errors", "c11_lexing_errors", "c11_empty", "c11_schema_document_or_errors", "c11_schema_lexing_errors", "c11_schema_empty"], "note": "Termination: the model's recursion bound and the panic of FragmentSpread::from_tokens are never met."},
{"property": "C12", "status": "proved", "theorems": ["c12_documents", "c12_builtin_scalars", "c12_builtin_directives", "c12_introspection_types", "c12_user_definitions", "c12_order_independent", "c12_introspection_sources", "c12_directive_sources", "c12_field_sources"], "note": "A built-in name the user defines several times keeps all the user's definitions, which C14 then rejects. The only change to a definition is that query roots get __schema and __type."},
{"property": "C13", "status": "partial", "theorems": ["c13_references", "c13_lookups", "c13_wrong_references_reported", "c13_schema_directives_refuted"], "note": "Everything in the statement, except that the directives of the schema definition itself are never resolved (refuted theorem)."},
{"property": "C14", "status": "proved", "theorems": ["c14_schemas", "c14_unique", "c14_errors", "c14_duplicate_types", "c14_duplicate_directives", "c14_schema_definitions", "c14_roots"], "note": ""},
{"property": "C15", "status": "partial", "theorems": ["c15_schema_partial", "c15_same_roots_iff", "c15_without_schema_definition", "c15_stable", "c15_exact", "c15_roots_refuted", "c15_rejected_refuted", "c77_schemas_partial"], "note": "The claim is false as stated: an explicit schema definition whose declared roots have the conventional names is left out by the printer, so a type named Mutation or Subscription that is not a root becomes one (c15_roots_refuted) or makes the output invalid (c15_rejected_refuted). c15_same_roots_iff: for every schema read from a text, the roots survive exactly when there is no such type; c15_schema_partial: then the whole schema comes back, descriptions as block strings show them. Floats have to be printable (c77_schemas_partial; C77)."},
{"property": "C16", "status": "proved", "theorems": ["coerce_accepts_exactly_conforming"], "note": ""},
{"property": "C17", "status": "proved", "theorems": ["coerce_errors_are_the_offences", "coerce_error_path_extends"], "note": ""},
{"property": "C18", "status": "proved", "theorems": ["one_of_exactly_one"], "note": ""},
{"property": "C19", "status": "proved", "theorems": ["c19_equal_iff", "c19_reflexive", "c19_symmetric", "c19_transitive", "c19_exactly_rearranged", "c19_arguments", "c19_argument_order", "c19_nan"], "note": ""},
{"property": "C20", "status": "proved", "theorems": ["input_cycles_detected_exactly", "input_cycle_check_complete", "required_cycle_has_no_value"], "note": ""},
{"property": "C21", "status": "proved", "theorems": ["fragment_cycles_detected_exactly"], "note": ""},
{"property": "C22", "status": "proved", "theorems": ["impossible_spreads_reported_exactly", "impossible_inline_fragments_reported_exactly"], "note": ""},
{"property": "C23", "status": "proved", "theorems": ["undefined_variable_uses_reported_exactly", "uses_are_read_off_the_text"], "note": ""},
{"property": "C24", "status": "proved", "theorems": ["unused_variables_reported_exactly", "uses_are_read_off_the_text"], "note": ""},
{"property": "C25", "status": "partial", "theorems": ["disallowed_usages_reported_soundly", "disallowed_usages_all_reported_partial", "disallowed_usages_reported_exactly", "looked_at_outside_lists", "disallowed_usages_all_reported_refuted", "allowed_usage_is_type_safe", "accepted_arguments_stay_valid_partial"], "note": "complete except for variables in an object literal inside a list literal, where the code reports nothing (counterexample proved); disallowed_usages_reported_exactly says exactly what is reported, for all documents"},
{"property": "C26", "status": "partial", "theorems": ["merging_terminates", "merging_visits_all_sets", "merging_sound_partial", "merging_sound_graphql_partial", "merging_executed_partial", "merging_complete_partial", "merging_errors_real_partial", "merging_exact_partial", "merging_exact_graphql_partial", "merging_union_refuted", "merging_complete_refuted", "merging_sound_refuted", "merging_deterministic_refuted"], "note": "The claim is false as stated: a fragment's selection set is checked, and the result kept, on the type it is spread on instead of its own type condition, which gives false passes, false errors and dependence on hash map order (refuted theorems); fields selected from a union are not compared. Proved for every iteration order: sound if fields of a fragment have the same named type on the type it is spread on (fields_agree), exact if fragments are spread on their own type or consist of fields with the same types (spreads_simple), for documents without fragment cycles; the result always exists."},
{"property": "C27", "status": "proved", "theorems": ["required_arguments_reported_soundly", "required_arguments_are_given"], "note": "null for a required argument is reported by the value rule (C50); the two rules together give the property"},
{"property": "C28", "status": "proved", "theorems": ["unknown_arguments_reported_exactly", "repeated_arguments_reported_exactly"], "note": ""},
{"property": "C29", "status": "proved", "theorems": ["selections_match_schema", "unknown_fields_reported_exactly", "leaf_selections_reported_exactly", "unknown_fragment_types_reported_exactly", "fragments_on_non_composite_types_reported_exactly", "accepted_document_fully_visited", "document_visit_never_panics"], "note": ""},
{"property": "C30", "status": "proved", "theorems": ["anonymous_operation_reported_exactly", "repeated_operation_names_reported_exactly", "accepted_operations_distinct"], "note": ""},
{"property": "C31", "status": "proved", "theorems": ["repeated_fragment_names_reported_exactly", "undefined_spreads_reported_exactly", "unused_fragments_reported_exactly", "fragment_rules_on_text"], "note": ""},
{"property": "C32", "status": "partial", "theorems": ["subscription_right_iff_partial", "subscription_single_root_partial", "subscription_single_root_accepts_two_fields_refuted", "subscription_single_root_rejects_one_field_refuted"], "note": "The claim is false as stated: selections are counted, not response names (two counterexamples proved). subscription_right_iff_partial says exactly when the verdict is right; subscription_single_root_partial: it is when the root holds only differently named fields, directly or in one fragment."},
{"property": "C33", "status": "proved", "theorems": ["undefined_directives_reported_exactly", "misplaced_directives_reported_exactly", "repeated_directives_reported_exactly"], "note": ""},
{"property": "C34", "status": "proved", "theorems": ["query_depth_is_the_maximum", "query_depth_acyclic"], "note": ""},
{"property": "C35", "status": "partial", "theorems": ["complexity_exact_partial", "complexity_is_the_maximum", "complexity_bounds_every_execution", "default_complexity_is_the_maximum", "relay_complexity_is_the_maximum", "relay_cost_of_field", "relay_multiplier_of_field", "c86_analyses", "c86_accepted_partial", "complexity_exact_refuted", "complexity_total_refuted", "complexity_order_independent_refuted"], "note": "the result is the maximum over concrete types when each field is subject to the innermost type condition only, hence an upper bound of every execution, and exact if inner conditions never allow types that outer ones exclude; refuted without that; conditions must be unique, merged fields must agree and leaves must have no selections (true in valid documents), otherwise the Relay computer can panic or depend on the order (refuted)"},
{"property": "C36", "status": "partial", "theorems": ["input_sizes_exact_partial", "input_sizes_reported_exactly", "input_sizes_exact_refuted"], "note": "false of the code for variables that take their default (the default is looked up under the argument's name; counterexamples proved)"},
{"property": "C37", "status": "proved", "theorems": ["variable_value_errors_exact", "variable_values_valid_iff"], "note": ""},
{"property": "C38", "status": "proved", "theorems": ["operation_resolution", "named_operation_is_the_one"], "note": ""},
{"property": "C39", "status": "proved", "theorems": ["skip_and_include_exclude_exactly"], "note": ""},
{"property": "C40", "status": "partial", "theorems": ["c40_no_leak", "c40_exact", "c40_query_root", "c40_default_value_refuted"], "note": "for schemas as resolution gives them with distinct field names in each type, any warden without side effects, any history; hidden enum values can appear inside default values and directive arguments, which the default warden methods pass through (refuted)"},
{"property": "C41", "status": "partial", "theorems": ["c41_history_independent", "c41_no_panic", "c41_same_names_refuted", "c41_schema_directives_refuted"], "note": "any two histories give the same answer when each type has distinct field names; refuted with two fields of one name; only the lookup of the schema definition's own directives can panic"},
{"property": "C42", "status": "proved", "theorems": ["c42_nothing_missing", "c42_new"], "note": "every answer has the members of the underlying schema in its order"},
{"property": "C43", "status": "partial", "theorems": ["c43_types", "c43_directives", "c43_reached_shown", "c43_closed", "c43_union_typename_refuted", "c43_schema_directive_refuted"], "note": "exactly the reachable definitions, sorted, no name twice, traversal terminates without panic; closed except through the fields of a union and the schema definition's directives (both refuted)"},
{"property": "C44", "status": "proved", "theorems": ["c44_self", "c44_repeatable_refuted"], "note": "Unique member names includes: no directive applied twice to the same thing. A repeatable directive applied twice with different arguments does show a change (refuted theorem)."},
{"property": "C45", "status": "partial", "theorems": ["c45_reported_partial", "c45_existence_and_types", "c45_real_partial", "c45_misplaced", "c45_directive_argument_added_refuted", "c45_directive_arguments_removed_refuted", "c45_misplaced_refuted", "c45_silent_refuted"], "note": "The claim is false as stated; the exceptions are listed exactly in CompareSpec.overlooked and CompareSpec.misplaced and each is shown to occur. Everything outside them is proved in both directions."},
{"property": "C46", "status": "proved", "theorems": ["c46_field_type", "c46_input_type", "c46_input_field_added", "c46_input_field_added_accepts", "c46_argument_added", "c46_removals_break", "c46_surprises_dangerous", "c46_default_dropped"], "note": ""},
{"property": "C47", "status": "partial", "theorems": ["c47_permutation_partial", "c47_partition", "c47_order", "c47_stable", "c47_breaking_first_refuted"], "note": "Permutation and partition are proved; the order is the opposite of the one claimed: safe changes come first (c47_order, c47_breaking_first_refuted)."},
{"property": "C48", "status": "partial", "theorems": ["deprecations_reported_exactly", "included_deprecated_uses_all_reported", "deprecations_of_included_part_partial", "deprecations_of_included_part_refuted"], "note": "what is reported is characterised exactly; the included part is always reported, but arguments of excluded selections and overridden defaults are reported too (counterexample proved)"},
{"property": "C49", "status": "proved", "theorems": ["analysis_terminates_on_any_fragments", "analysis_never_panics"], "note": ""},
{"property": "C50", "status": "proved", "theorems": ["values_accepted_exactly"], "note": ""},
{"property": "C51", "status": "proved", "theorems": ["repeated_variables_reported_exactly", "non_input_variables_reported_exactly"], "note": ""},
{"property": "C52", "status": "proved", "theorems": ["repeated_enum_values_reported", "repeated_input_fields_reported", "repeated_enum_values_once", "repeated_input_fields_once", "definition_rules_exact"], "note": "exactly the repeated names of each enum and input type, each once with all its definitions"},
{"property": "C53", "status": "partial", "theorems": ["generation_never_panics_partial", "generation_succeeds_iff", "generator_rule_never_panics", "generation_never_panics_refuted"], "note": "conversion of an accepted document succeeds exactly unless (generation_succeeds_iff; unless the schema defines an object type String) a fragment is spread inside an inline fragment on a union, which is accepted and panics (refuted); the generator's own rule never panics"},
{"property": "C54", "status": "partial", "theorems": ["generated_code_compiles_partial", "generated_references_refuted", "operation_type_generated_refuted", "generated_names_refuted", "generated_variants_refuted", "generated_fields_refuted", "generated_tags_refuted", "generated_builders_refuted"], "note": "holds if names do not clash after conversion, no fragment only spreads another one, and __typename is not selected in a variant (serde); each is needed (refuted)"},
{"property": "C55", "status": "partial", "theorems": ["responses_deserialize_partial", "responses_union_refuted", "responses_skipped_refuted", "responses_typename_refuted"], "note": "every conforming response is read and shown by the generated type, with both codecs, unless a selection is skipped by a directive, a fragment spread on a union does not apply to all members, or (miniserde) a variant selects __typename again; each exception is refuted. The schema's objects have to implement their interfaces, which the library does not check."},
{"property": "C56", "status": "proved", "theorems": ["lifetimes_of_operations_exact", "lifetimes_of_fragments_exact", "references_agree", "lifetimes_of_inputs_exact", "input_references_agree", "input_lifetimes_used"], "note": "operations, fragments and input types. custom_scalars_conditions shows that the condition on custom scalars holds whenever the macro accepts the aliases; resolved_inputs shows that every resolved schema meets inputs_resolved"},
{"property": "C57", "status": "proved", "theorems": ["input_types_finite", "boxes_exact", "input_types_generated", "input_field_types", "custom_scalars_defined", "custom_scalars_conditions", "resolved_inputs", "schema_item_names_refuted"], "note": "boxes are not always needed (boxes_not_minimal); a Box is used exactly where the type of a field that is not a list leads back. The refutation: enums called TypeKind or DirectiveLocation clash with those of introspection."},
{"property": "C58", "status": "partial", "theorems": ["serialized_inputs_accepted_partial", "serialized_default_refuted", "serialized_other_refuted", "serialized_float_refuted", "serialized_one_of_refuted"], "note": "accepted for all values except: None in a field that is required and has a default value, the enum variant Other, floats that are not finite; and oneOf types with required fields, which the library does not reject. Each exception is refuted. Custom scalars have to write JSON that the server accepts."},
{"property": "C59", "status": "proved", "theorems": ["texts_validated"], "note": "for all texts, custom scalar hooks and hash orders"},
{"property": "C60", "status": "partial", "theorems": ["accepted_texts_valid_partial", "valid_texts_accepted_partial", "verdict_deterministic_partial", "accepts_two_root_fields_refuted", "accepts_null_for_non_null_refuted", "verdict_depends_on_order_refuted", "rejects_one_root_field_refuted", "rejects_narrower_fragment_refuted"], "note": "The claim is false as stated (refuted theorems, on texts). Proved in both directions, from texts, for documents whose subscriptions are counted right (nested_roots_single for soundness, several_roots_differ for completeness), for completeness whose fragments are spread on their own type or consist of equally typed fields (spreads_simple), and for soundness whose fragments select fields of the same named type where they are spread on another type (fields_agree), whose variables in arguments with input objects in lists are used as their types allow (listed_usages_allowed), and that use __typename plainly. Determinism needs only spreads_simple."},
{"property": "C61", "status": "partial", "theorems": ["macro_never_panics_partial", "macro_panics_iff", "macro_succeeds_iff", "macro_first_bad_query", "macro_succeeds_iff_partial", "macro_lifetimes_exact", "macro_accepts_valid_only_partial", "macro_output_compiles_partial", "macro_reads_responses_partial", "macro_panics_refuted"], "note": "composition of C59, C60, C53 to C57 from texts. The macro panics on a valid query with a fragment spread inside an inline fragment on a union (refuted); excluded cases are those of C53, C54, C55 and C60."},
{"property": "C62", "status": "proved", "theorems": ["c62_located", "c62_panics_iff", "c62_history", "c62_token_spans", "c62_lexing_errors", "c62_string_errors", "c62_string_errors_marked"], "note": "for any binary_search as documented and any line table of ariadne that agrees with the lines of the text (assumptions, shown to be satisfiable); nothing is assumed of ariadne at the end of a text that ends with a line end"},
{"property": "C63", "status": "proved", "theorems": ["c63_same_documents", "c63_part_text", "c63_part_tokens", "c63_identity", "c63_same_range_same_part", "c63_located", "c63_spread_range_refuted"], "note": "executable documents, from texts. The part of a fragment spread is taken to be the dots and the name: its range leaves out its directives (c63_spread_range_refuted)."},
{"property": "C64", "status": "proved", "theorems": ["c64_first_error", "c64_in_order", "c64_no_cascade", "c64_located", "c64_empty_unreported_refuted"], "note": "executable documents, from texts; parameters of the lexer as in C63. A text without tokens is rejected, but its error becomes no GraphQL error (c64_empty_unreported_refuted). The list of alternatives in the message of an operation type is not claimed to be viable (that error is unreachable in a document)."},
{"property": "C65", "status": "partial", "theorems": ["c65_keeps", "c65_still_valid_partial", "c65_types_change_partial", "c65_texts_partial", "c65_unreported_refuted", "c65_called_safe_refuted", "c65_called_dangerous_refuted"], "note": "The claim is false as stated: some differences are not reported, or called safe or dangerous only, and break documents (refuted theorems, on texts). Proved for all pairs of schemas without these differences (nothing_unseen, no default value lost, and no field type changed or the fields of the document still mergeable), whose members have distinct names; from texts under the conditions of C60."},
{"property": "C66", "status": "partial", "theorems": ["c66_same_results", "c66_responses_partial", "c66_texts_partial", "c66_clients_partial", "c66_new_implementor_refuted"], "note": "Proved if the root types are the same, which the comparison does not look at, and no new object type implements an interface of the old schema, which it calls safe (refuted theorem); names of members are distinct, and objects of the old schema implement their interfaces, which the library does not check. For generated clients under the conditions of C55, C60 and C61."},
{"property": "C67", "status": "partial", "theorems": ["served_responses_deserialize_partial", "c67_serves_partial", "c67_clients_partial", "c67_clients_all_partial", "c67_union_member_refuted", "c67_interface_refuted"], "note": "Proved if the root types are the same and interfaces implement the interfaces that they did, neither of which the comparison looks at (for interfaces see c67_interface_refuted), and fragments that are spread on a union apply to all members of the server's union (c67_union_member_refuted); names of members are distinct, and objects implement their interfaces in both schemas, which the library does not check. Otherwise under the conditions of C55."},
{"property": "C68", "status": "partial", "theorems": ["c68_one_item", "c68_path_partial", "c68_message_named_partial", "c68_message_details_partial", "c68_identified_partial", "c68_swapped_refuted", "c68_no_place_refuted", "c68_directive_path_refuted", "c68_kind_words_refuted"], "note": "The claim is false of changes to applied directives, whose path and message do not say where they are, and of the messages about changed descriptions and types of field arguments, which swap field and type (refuted theorems, on texts). Proved for all other reported changes of schemas whose names are GraphQL names, distinct where they have to be."},
{"property": "C69", "status": "partial", "theorems": ["c69_well_made", "c69_self", "c69_changes", "c69_comparable", "c69_paths_partial", "c69_still_valid_partial", "c69_responses_partial", "c69_clients_partial", "c69_twice_refuted"], "note": "c69_well_made is the claim but for members that are given twice: the library reads them, and comparing such a text with itself reports changes (c69_twice_refuted). The other theorems are C44, C45 and C65 to C68 from texts, with distinct members as the only condition on the schemas that the library does not establish."},
{"property": "C70", "status": "partial", "theorems": ["c70_first_error", "c70_in_order", "c70_no_cascade", "c70_located", "c70_same", "c70_empty_unreported_refuted", "c70_description_marked_refuted"], "note": "c70_first_error is the claim but for one case that the code gets wrong: if the token after a description begins no definition (or the text ends there), the description is marked, not that token (c70_description_marked_refuted). A text without tokens is rejected with an error that becomes no GraphQL error (c70_empty_unreported_refuted). The other parts are proved in full."},
{"property": "C71", "status": "partial", "theorems": ["c71_grammar", "c71_part_text", "c71_located", "c71_list_range_refuted"], "note": "Proved for all parts but lists that are not null, whose range the code ends before the bang (c71_list_range_refuted); for those the theorems say exactly that."},
{"property": "C72", "status": "partial", "theorems": ["c72_same", "c72_errors_partial", "c72_repeated_reported", "c72_references_reported", "c72_roots_reported", "c72_located", "c72_marked", "c72_own_text_refuted", "c72_unplaced_refuted"], "note": "Proved for documents that do not redefine String or Boolean as types that are not for both input and output; for those the claim is false of the code (c72_own_text_refuted: errors about the library's own field definitions, marked at ranges of its own texts). That a document has no schema, or an implicit one without a query, is an error with no place, and so no GraphQL error (c72_unplaced_refuted)."},
{"property": "C73", "status": "partial", "theorems": ["c73_told", "c73_same_document", "c73_marked", "c73_located", "c73_multiple_nulls_refuted", "c73_multiple_fields_refuted", "c73_field_name_refuted"], "note": "Proved: what each message and annotation is, for every kind of error (told), that marks are on parts of the text, that each error gives at least one GraphQL error at the place of a part. False of the code and so not part of what is proved: the wording of three messages (the refuted theorems): one null entry is called multiple entries, a selection set with one spread is marked as one of multiple fields, and a field that lacks arguments is called by its alias."},
{"property": "C74", "status": "proved", "theorems": ["c74_same", "c74_told", "c74_reported", "c74_marked", "c74_located"], "note": "For a type that needs itself, the marked references are those in all types it needs, as a multiset; GraphQL errors only have the primary annotation, which is the name of the type."},
{"property": "C75", "status": "proved", "theorems": ["c75_unsupported", "c75_returned", "c75_marked", "c75_located"], "note": "The errors are those before they are formatted with snippets of the text, which is not modelled."},
{"property": "C76", "status": "partial", "theorems": ["c76_view", "c76_validates", "c76_nothing_hidden", "c76_valid_behind", "c76_accepted_behind_partial", "c76_required_hidden_refuted"], "note": "The validator is run on the schema that c76_view shows the layer to be, not on a model of its generic code over the layer. That accepted documents are accepted by the validator behind the layer (c76_accepted_behind_partial) has the conditions of C60. Documents that leave out a hidden required argument are accepted through the layer though not valid behind it (c76_required_hidden_refuted)."},
{"property": "C77", "status": "proved", "theorems": ["c77_float_survives_iff", "c77_float_comes_back", "c77_infinite", "c77_values"], "note": "What is asked of the standard library's float parsing and formatting is the record platform; exact_platform and more_platform show that it can be met."},
{"property": "C78", "status": "partial", "theorems": ["c78_starts", "c78_followed", "c78_whole", "c78_closed_iff", "c78_or_errors", "c78_errors", "c78_definition_starts", "c78_definition_followed", "c78_definition_whole", "c78_definition_closed_iff", "c78_definition_or_errors", "c78_definition_errors", "c78_constants", "c78_spread_panics_iff", "c78_trailing_refuted", "c78_trailing_garbage_refuted", "c78_spread_refuted"], "note": "Partial because a user expects that the whole text is the piece and that parsing does not panic: both are refuted. How many tokens past the piece are asked from the lexer is the parameter `ahead`, any function."},
{"property": "C79", "status": "partial", "theorems": ["c79_accepted_iff", "c79_valid_accepted", "c79_texts", "c79_unchecked_refuted"], "note": "Exactly the documents that obey fourteen of the thirty-one rules are accepted, so no valid document is rejected; each of the other seventeen rules is refuted by a text that is accepted and breaks it."},
{"property": "C80", "status": "proved", "theorems": ["c80_documents", "c80_schema_documents", "c80_schema_files"], "note": "For texts that parse by themselves, joined by line feeds; the other_digit hypothesis says that the byte order mark is not a decimal digit. The errors of resolution do depend on the order and are not claimed to be the same."},
{"property": "C81", "status": "partial", "theorems": ["c81_other_rules", "c81_verdict_partial", "c81_files_partial", "c81_verdict_refuted"], "note": "Proved without conditions for all rules but the one on merging. The claim is false of that rule, which keeps what it found out about a fragment on the type it was first spread on (c81_verdict_refuted); the whole verdict is proved for documents whose fragments are spread on their own type or consist of equally typed fields (spreads_simple)."},
{"property": "C82", "status": "proved", "theorems": ["c82_analyses"], "note": "Documents with fragment cycles, which validation rejects, are excluded: there the analyses cut the expansion of a fragment inside itself."},
{"property": "C83", "status": "partial", "theorems": ["c83_idempotent", "c83_canonical", "c83_errors_partial", "c83_analyses", "c83_verdict_refuted"], "note": "The claim about validation errors is false of the code for documents with directives on fragment definitions, which the printer leaves out (c83_verdict_refuted); it is proved for all others. Everything else is proved in full."},
{"property": "C84", "status": "partial", "theorems": ["c84_steps_partial", "c84_safe_steps_partial", "c84_reversed_partial", "c84_steps_refuted", "c84_safe_steps_refuted", "c84_reversed_refuted"], "note": "The claim about steps is false of the code when a non-null argument or input field loses its default value (c84_steps_refuted) or a directive definition all its arguments (c84_safe_steps_refuted); it is proved for all other steps. The claim about the other direction is proved for all changes but the first arguments given to an applied directive, for which it is false (c84_reversed_refuted)."},
{"property": "C85", "status": "partial", "theorems": ["c85_analyses", "c85_rearranged", "c85_complexity_partial", "c85_complexity_refuted"], "note": "Proved without conditions for depth, input sizes, deprecations, variable values and the default costs. For costs with multipliers the claim is false of the code when conflicting fields are merged (c85_complexity_refuted, an invalid document); it is proved for operations as in valid documents, for the Relay costs and for all costs which do not depend on what is selected below a field."},
{"property": "C86", "status": "proved", "theorems": ["c86_analyses"], "note": "Validity is that of ValiditySpec.v (GraphQL section 5). The schema's references resolve, and skip and include are not redefined as repeatable. For accepted texts: c86_accepted_partial, under the conditions of C60."},
{"property": "C87", "status": "partial", "theorems": ["c87_valid", "c87_rearranged", "c87_accepted_partial", "c87_rearranged_refuted"], "note": "Proved for validity as in GraphQL section 5 (ValiditySpec.v), exactly; for the verdict of the validator it is proved for queries for which acceptance is validity (see C60), and false of the code for subscriptions that have their root field twice (c87_rearranged_refuted)."},
{"property": "C88", "status": "partial", "theorems": ["c88_one_by_one", "c88_alone", "c88_analyses", "c88_accepted_partial"], "note": "Proved for validity as in GraphQL section 5 (ValiditySpec.v), exactly, including that the small documents exist, and for the analyses. For the verdict of the validator it is proved (from the whole to the operation) for queries for which acceptance is validity (see C60); for others it is not settled."},
{"property": "C89", "status": "partial", "theorems": ["c89_valid", "c89_analyses", "c89_accepted_partial", "c89_written_accepted_partial"], "note": "Proved in full for validity as in GraphQL section 5 (ValiditySpec.v) and for the analyses. For the verdict of the validator it is proved for queries for which acceptance is validity (see C60); for others it is not settled."},
{"property": "C90", "status": "partial", "theorems": ["c90_valid", "c90_analyses", "c90_accepted_partial", "c90_input_sizes_partial", "c90_input_sizes_refuted"], "note": "Proved in full for validity as in GraphQL section 5 (ValiditySpec.v) and for the analyses other than oversized lists. Those are proved for operations without defaults of variables; with defaults the claim is false of the code (c90_input_sizes_refuted). For the verdict of the validator it is proved for queries for which acceptance is validity (see C60)."},
{"property": "C91", "status": "partial", "theorems": ["c91_analyses", "c91_valid", "c91_input_sizes_partial", "c91_input_sizes_refuted"], "note": "Proved for depth, complexity, relay cost and variable values; for valid queries without hypotheses on how variables are used (c91_valid). For oversized lists it is proved if variables that have a default are given a value, and false of the code otherwise (c91_input_sizes_refuted)."},
{"property": "C92", "status": "partial", "theorems": ["c92_left_out", "c92_input_sizes_refuted"], "note": "Proved for depth, complexity and relay cost. Oversized lists are also reported in what is skipped (c92_input_sizes_refuted)."},
{"property": "C93", "status": "partial", "theorems": ["c93_analyses", "c93_valid", "c93_accepted_partial"], "note": "The analyses and validity (GraphQL section 5) in full. The verdict of the validator is proved the same for queries for which acceptance is known to be validity (see C60); missing: the other queries."},
{"property": "C94", "status": "proved", "theorems": ["c94_read"], "note": ""}
]}
