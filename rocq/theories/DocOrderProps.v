(** Property C81: the order of the operations and fragments of a document does not matter for its validity. *)
From Coq Require Import String Permutation.
From Verif Require Import Base Ast Graph Maps Doc DocSpec DocRules DocRulesSpec DocVariables FragmentCycles Merging MergingSpec MergingTermination MergingCheck MergingCases MergingProps
  Lexer LexerSpec Parser ParserProps DefParser DefParserProps Resolve ResolveProps Validator ValiditySpec ValidatorProofs EndToEndProofs ValidatorProps ValidatorCases TypegenSpec TypegenInputCases
  FilesSpec FilesProps DocOrderProofs.
Local Open Scope string_scope.
Local Open Scope list_scope.

(** the errors of the rule on the merging of fields *)
Definition about_merging (e : doc_error) : Prop := exists m, e = FieldSelectionsDoNotMerge m.
(** the same operations and the same fragments, each in some order *)
Definition reordered (d d' : document) : Prop := Permutation (doc_ops d) (doc_ops d') /\ Permutation (doc_frags d) (doc_frags d').

Lemma silent_others S hook se oo ord d es : validate S hook se oo ord d = Some es -> (Forall about_merging es <-> silent S hook se oo ord d true false).
Proof.
  unfold validate. destruct (existsb _ (visit S d)); [discriminate|].
  destruct (merging_errors S d ord) as [e1|]; [|discriminate]. destruct (fragment_cycle_errors d) as [e2|] eqn:E2; [|discriminate].
  destruct (undefined_variable_errors d (visit S d)) as [e3|] eqn:E3; [|discriminate]. destruct (unused_variable_errors d (visit S d)) as [e4|] eqn:E4; [|discriminate].
  destruct (disallowed_usage_errors S d (visit S d)) as [e5|] eqn:E5; [|discriminate]. intros H. injection H as <-.
  assert (K : forall {A} (f : A -> doc_error) l, (forall a, ~ about_merging (f a)) -> (Forall about_merging (map f l) <-> l = [])).
  { intros A f l N. destruct l as [|a l]; cbn; split; intros F; auto; [|discriminate F]. inversion F as [|? ? X _]. destruct (N a X). }
  rewrite !Forall_app. split.
  - intros (H1&H2&H3&H4&_&H6&H7&H8&H9&H10&H11&H12&H13&H14&H15&H16&H17&H18&H19&H20&H21&H22&H23&H24&H25&H26).
    rewrite K in H1, H3, H4, H6, H7, H8, H9, H10, H11, H12, H13, H14, H15, H16, H17, H18, H19, H20, H21, H22, H23, H24, H25, H26 by (intros ? (m & X); discriminate X).
    constructor; auto; try congruence. destruct (lone_anonymous_errors d (visit S d)); [|reflexivity]. inversion H2 as [|? ? (m & X) _]. discriminate X.
  - intros [S1 S2 S3 S4 S5 S6 S7 S8 S9 S10 S11 S12 S13 S14 S15 S16 S17 S18 S19 S20 S21 S22 S23 S24 S25 S26].
    assert (e2 = [] /\ e3 = [] /\ e4 = [] /\ e5 = []) as (-> & -> & -> & ->) by (repeat split; congruence).
    rewrite S1, S2, (S3 eq_refl), S4, S6, S7, S8, S9, S10, S11, S12, S13, S14, S15, S17, S18, S19, S20, S21, S22, S23. cbn [map].
    repeat split; auto. apply Forall_map, Forall_forall. intros m _. now exists m.
Qed.

(** every rule but the one on merging: no errors in one order, no errors in any order *)
Theorem c81_other_rules : forall S hook str_enum one_of ord ord' d d' es es', reordered d d' ->
  validate S hook str_enum one_of ord d = Some es -> validate S hook str_enum one_of ord' d' = Some es' ->
  (Forall about_merging es <-> Forall about_merging es').
Proof.
  intros S hook se oo ord ord' d d' es es' (P & Q) V V'. rewrite (silent_others _ _ _ _ _ _ _ V), (silent_others _ _ _ _ _ _ _ V').
  split; apply silent_reordered; auto using Permutation_sym; intros X; discriminate X.
Qed.
(** the verdict, if the rule on merging decides what it should *)
Theorem c81_verdict_partial : forall so dor recover other_digit parse_f64 recover' other_digit' parse_f64' schema_text query_text S d d',
  read_schema_with so dor recover other_digit parse_f64 schema_text = inl (inl S) ->
  parse_text recover' other_digit' parse_f64' query_text = inl d -> reads_numbers parse_f64' -> spreads_simple S d ->
  reordered d d' ->
  forall hook str_enum one_of ord ord', some_order ord -> some_order ord' ->
  (validate S hook str_enum one_of ord d = Some [] <-> validate S hook str_enum one_of ord' d' = Some []).
Proof.
  intros so dor rc od pf rc' od' pf' st qt S d d' HS HQ HP SI (P & Q) hook se oo ord ord' O O'.
  pose proof (parsed_numbers _ _ _ _ _ HP HQ) as HN. assert (W : wf_schema S) by (apply rs_wf; eapply read_schema_resolved; eauto).
  rewrite !validate_silent. split; intros (_ & Si); (split; [now apply no_panic|]).
  - revert Si. apply silent_reordered; auto.
  - assert (ND : NoDup (map fr_name (doc_frags d))).
    { pose proof (si_fragment_names _ _ _ _ _ _ _ _ Si) as X. unfold fragment_name_errors in X. rewrite DocTypingProofs.visit_proj_frags in X. apply duplicates_nil in X. eapply Permutation_NoDup; [apply Permutation_map, Permutation_sym, Q|exact X]. }
    revert Si. apply silent_reordered; auto using Permutation_sym. intros _. split; [auto|]. split; [auto|]. split; [now apply (numbers_same d d' P Q)|now apply (simple_same S d d' P Q)].
Qed.

(** so a document can be spread over texts that are put in any order *)
Theorem c81_files_partial : forall so dor recover other_digit parse_f64 recover' other_digit' parse_f64' schema_text S,
  read_schema_with so dor recover other_digit parse_f64 schema_text = inl (inl S) ->
  (forall l b, parse_f64' l = Some b -> Forall (fun c => c < 128)%N l) -> other_digit' 65279%N = false -> reads_numbers parse_f64' ->
  forall files files' ds, files <> [] -> Forall2 (fun f d => parse_text recover' other_digit' parse_f64' f = inl d) files ds -> Permutation files files' ->
  exists d d', parse_text recover' other_digit' parse_f64' (joined files) = inl d /\ parse_text recover' other_digit' parse_f64' (joined files') = inl d' /\
    (spreads_simple S d -> forall hook str_enum one_of ord ord', some_order ord -> some_order ord' ->
      (validate S hook str_enum one_of ord d = Some [] <-> validate S hook str_enum one_of ord' d' = Some [])).
Proof.
  intros so dor rc od pf rc' od' pf' st S HS A B HP files files' ds NE F P. destruct (Forall2_permuted _ _ _ P _ F) as (ds' & Q & F').
  assert (NE' : files' <> []) by (intros ->; apply Permutation_sym, Permutation_nil in P; contradiction).
  pose proof (c80_documents rc' od' pf' A B files ds NE F) as D. pose proof (c80_documents rc' od' pf' A B files' ds' NE' F') as D'.
  do 2 eexists. split; [exact D|]. split; [exact D'|]. intros SI hook se oo ord ord' O O'. eapply c81_verdict_partial; eauto.
  split; cbn [doc_ops doc_frags]; now apply Permutation_concat, Permutation_map.
Qed.

(** The rule on merging keeps what it found out about a fragment where it was first spread: with the operation on the object type
    first both operations are accepted, the other way round they are not. *)
Definition covariant_text : string := "interface P { x: Int } type A implements P { x: Int! } type Query { p: P a: A }".
Definition on_object : string := "query One { a { ...F } } ".
Definition on_interface : string := "query Two { p { ...F } } ".
Definition covariant_fragment : string := "fragment F on A { x ... on A { x } }".
Theorem c81_verdict_refuted : exists schema_text s s' S d d',
  read_schema_with all_builtins all_builtin_directives (fun _ => 1) (fun _ => false) no_floats (tx schema_text) = inl (inl S) /\
  read (tx s) = inl d /\ read (tx s') = inl d' /\ reordered d d' /\
  validate S any_value false true in_order d = Some [] /\ validate S any_value false true in_order d' <> Some [].
Proof.
  exists covariant_text, (on_object ++ on_interface ++ covariant_fragment)%string, (on_interface ++ on_object ++ covariant_fragment)%string.
  exists (schema_in covariant_text), (document_in (on_object ++ on_interface ++ covariant_fragment)), (document_in (on_interface ++ on_object ++ covariant_fragment)).
  split; [apply read_schema_in; vm_compute; reflexivity|]. split; [apply read_document_in; vm_compute; reflexivity|]. split; [apply read_document_in; vm_compute; reflexivity|].
  split; [|split; [vm_compute; reflexivity|]].
  - let x := eval vm_compute in (document_in (on_object ++ on_interface ++ covariant_fragment)) in replace (document_in (on_object ++ on_interface ++ covariant_fragment)) with x by (vm_compute; reflexivity).
    let x := eval vm_compute in (document_in (on_interface ++ on_object ++ covariant_fragment)) in replace (document_in (on_interface ++ on_object ++ covariant_fragment)) with x by (vm_compute; reflexivity).
    split; cbn [doc_ops doc_frags]; [apply perm_swap|apply Permutation_refl].
  - let x := eval vm_compute in (validate (schema_in covariant_text) any_value false true in_order (document_in (on_interface ++ on_object ++ covariant_fragment))) in
      assert (E : validate (schema_in covariant_text) any_value false true in_order (document_in (on_interface ++ on_object ++ covariant_fragment)) = x) by (vm_compute; reflexivity).
    rewrite E. intros H. discriminate H.
Qed.
(** A document that meets the hypotheses: the operations and the fragment of [pets_query] *)
Example c81_verdict_case :
  spreads_simple pets pets_doc /\ reordered pets_doc {| doc_ops := rev (doc_ops pets_doc); doc_frags := rev (doc_frags pets_doc) |} /\
  length (doc_ops pets_doc) = 2 /\ validate pets any_value false true in_order {| doc_ops := rev (doc_ops pets_doc); doc_frags := rev (doc_frags pets_doc) |} = Some [].
Proof.
  split; [exact pets_simple|]. split; [split; cbn [doc_ops doc_frags]; apply Permutation_rev|]. split; vm_compute; reflexivity.
Qed.
Example c81_other_rules_case : exists es, verdict in_order pets_text "query A { nope } query B { node(id: 1) { id } }" = Some es /\ ~ Forall about_merging es.
Proof. eexists. split; [vm_compute; reflexivity|]. intros F. inversion F as [|? ? (m & X) _]. discriminate X. Qed.
Print Assumptions c81_other_rules. Print Assumptions c81_verdict_partial. Print Assumptions c81_files_partial. Print Assumptions c81_verdict_refuted.
