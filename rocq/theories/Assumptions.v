(** What the theorems rest on that are named in MANIFEST.json and whose own files do not print it. *)
From Verif Require LexerProps DefParserProps VisibilityProps CompareProps TypegenInputCases TypegenResponseProps.

Print Assumptions LexerProps.c01_alone.
Print Assumptions DefParserProps.c12_introspection_sources.
Print Assumptions DefParserProps.c12_directive_sources.
Print Assumptions DefParserProps.c12_field_sources.
Print Assumptions VisibilityProps.c40_default_value_refuted.
Print Assumptions VisibilityProps.c41_schema_directives_refuted.
Print Assumptions VisibilityProps.c43_union_typename_refuted.
Print Assumptions VisibilityProps.c43_schema_directive_refuted.
Print Assumptions CompareProps.c46_surprises_dangerous.
Print Assumptions TypegenInputCases.schema_item_names_refuted.
Print Assumptions TypegenInputCases.serialized_default_refuted.
Print Assumptions TypegenInputCases.serialized_other_refuted.
Print Assumptions TypegenInputCases.serialized_float_refuted.
Print Assumptions TypegenInputCases.serialized_one_of_refuted.
Print Assumptions TypegenResponseProps.served_responses_deserialize_partial.
