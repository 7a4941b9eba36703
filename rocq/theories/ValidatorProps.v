(** C59 to C61: from a schema text and a query text to a verdict, and from there to generated types. *)
From Verif Require Import Base Ast CoercionTypes CoercionSpec Graph Maps Doc DocSpec DocProofs DocRules DocRulesSpec DocRulesProofs DocTypingProofs DocRulesProps
  DocVariables DocVariablesSpec DocVariablesProofs DocVariablesProps FragmentsSpec FragmentCycles CyclesProps ValueEqSpec Merging MergingSpec MergingProps MergingCheck MergingCases
  Lexer LexerSpec Parser Resolve ResolveProps Validator ValiditySpec ValidatorProofs EndToEndProofs Typegen TypegenSpec TypegenProps TypegenCodeProps TypegenInputSpec TypegenInputCases.
Local Open Scope string_scope.
Local Open Scope list_scope.

(** * C59: every document that can be parsed gets a verdict from every schema that can be read *)
Theorem texts_validated : forall so dor recover other_digit parse_f64 recover' other_digit' parse_f64' schema_text query_text S d,
  read_schema_with so dor recover other_digit parse_f64 schema_text = inl (inl S) ->
  parse_text recover' other_digit' parse_f64' query_text = inl d ->
  forall hook str_enum one_of ord, some_order ord -> exists errors, validate S hook str_enum one_of ord d = Some errors.
Proof.
  intros so dor rc od pf rc' od' pf' st qt S d HS _ hook se oo ord Ho. apply validate_total; auto. apply rs_wf. eapply read_schema_resolved; eauto.
Qed.

(** * C60: the verdict *)
Theorem accepted_texts_valid_partial : forall so dor recover other_digit parse_f64 recover' other_digit' parse_f64' schema_text query_text S d,
  read_schema_with so dor recover other_digit parse_f64 schema_text = inl (inl S) ->
  parse_text recover' other_digit' parse_f64' query_text = inl d -> reads_numbers parse_f64' ->
  forall hook str_enum one_of ord, some_order ord ->
  nested_roots_single d -> fields_agree S d -> typename_plain S d -> listed_usages_allowed S d ->
  validate S hook str_enum one_of ord d = Some [] ->
  valid_document S (fun n x => hook n x = None) str_enum one_of d.
Proof.
  intros so dor rc od pf rc' od' pf' st qt S d HS HQ HP hook se oo ord Ho H1 H2 H3 H4 HV. pose proof (read_schema_resolved _ _ _ _ _ _ _ HS) as [R1 R2 _ _].
  apply validate_silent in HV as (_ & HV). apply (silent_valid S hook se oo ord d R1 R2) with (subs := true) (merge := true); auto.
  - intros o Hin E. apply (wp_implicit d (parsed_document _ _ _ _ _ HQ) o Hin E).
  - split; auto. eapply parsed_numbers; eauto.
Qed.
Theorem valid_texts_accepted_partial : forall so dor recover other_digit parse_f64 recover' other_digit' parse_f64' schema_text query_text S d,
  read_schema_with so dor recover other_digit parse_f64 schema_text = inl (inl S) ->
  parse_text recover' other_digit' parse_f64' query_text = inl d -> reads_numbers parse_f64' ->
  forall hook str_enum one_of ord, some_order ord ->
  several_roots_differ d -> spreads_simple S d ->
  valid_document S (fun n x => hook n x = None) str_enum one_of d ->
  validate S hook str_enum one_of ord d = Some [].
Proof.
  intros so dor rc od pf rc' od' pf' st qt S d HS HQ HP hook se oo ord Ho H1 H2 HV. pose proof (read_schema_resolved _ _ _ _ _ _ _ HS) as [R1 R2 _ _].
  apply validate_silent. split; [apply no_panic; auto|]. eapply valid_silent; eauto.
  - intros o Hin E. apply (wp_implicit d (parsed_document _ _ _ _ _ HQ) o Hin E).
  - eapply parsed_numbers; eauto.
Qed.
(** The verdict does not depend on the order of hash maps. *)
Theorem verdict_deterministic_partial : forall so dor recover other_digit parse_f64 recover' other_digit' parse_f64' schema_text query_text S d,
  read_schema_with so dor recover other_digit parse_f64 schema_text = inl (inl S) ->
  parse_text recover' other_digit' parse_f64' query_text = inl d -> reads_numbers parse_f64' -> spreads_simple S d ->
  forall hook str_enum one_of ord ord', some_order ord -> some_order ord' ->
  (validate S hook str_enum one_of ord d = Some [] <-> validate S hook str_enum one_of ord' d = Some []).
Proof.
  intros so dor rc od pf rc' od' pf' st qt S d HS HQ HP H2 hook se oo.
  pose proof (parsed_numbers _ _ _ _ _ HP HQ) as HN.
  assert (K : forall ord ord', some_order ord -> some_order ord' -> validate S hook se oo ord d = Some [] -> validate S hook se oo ord' d = Some []).
  { intros ord ord' Ho Ho' H. apply validate_silent in H as (Hp & [S0 S1 S2 S3 S4 S5 S6 S7 S8 S9 S10 S11 S12 S13 S14 S15 S16 S17 S18 S19 S20 S21 S22 S23 S24 S25]). apply validate_silent. split; [exact Hp|].
    assert (Ha : acyclic d) by (apply acyclic_ok; assumption).
    refine (Build_silent _ _ _ _ _ _ _ _ S0 S1 S2 S3 _ S5 S6 S7 S8 S9 S10 S11 S12 S13 S14 S15 S16 S17 S18 S19 S20 S21 S22 S23 S24 S25). intros _. apply (merging_exact_partial S d ord' Ho' Ha HN H2). apply (merging_exact_partial S d ord Ho Ha HN H2). exact (S4 eq_refl). }
  intros ord ord' Ho Ho'. split; apply K; auto.
Qed.

Print Assumptions texts_validated.
Print Assumptions accepted_texts_valid_partial.
Print Assumptions valid_texts_accepted_partial.
Print Assumptions verdict_deterministic_partial.
