(** Property C69: schemas that are read are well made, and so the comparison of schema texts is as C44, C45 and C65-C68 say, if no member
    is given twice. *)
From Coq Require Import String.
From Verif Require Import Base Ast Examples Maps Graph Doc DocSpec DocRules DocRulesSpec FragmentsSpec DocVariablesSpec MergingSpec MergingProps MergingCheck MergingCases
  Lexer LexerSpec Parser ParserProps DefParser DefParserProps Resolve ResolveProps DefRules ValueEqSpec Validator ValiditySpec ValidatorProofs EndToEndProofs ValidatorProps ValidatorCases
  Typegen TypegenSpec TypegenDe TypegenProofs TypegenProps TypegenCodeProps TypegenCases TypegenInput TypegenInputSpec TypegenInputProps TypegenInputCases
  Json TypegenResponses TypegenResponseProps TypegenMacro TypegenMacroProps TypegenMacroCases
  Compare CompareSpec CompareProofs CompareProps CompatSpec CompatProofs CompatProps ResponsesKept ResponseCompatProps ClientCompat ClientCompatProps
  ChangeText ChangeTextSpec ChangeTextProps ReadSchemaSpec ReadSchemaProofs.
Local Open Scope string_scope.
Local Open Scope list_scope.

Section Read.
  Variable so : list builtin.
  Variable dor : list ddef.
  Hypothesis directives : incl dor all_builtin_directives.
  Variable recover : text -> nat.
  Variable other_digit : N -> bool.
  Variable parse_f64 : text -> option N.
  Hypothesis numbers : reads_numbers parse_f64.
  Notation read := (read_schema_with so dor recover other_digit parse_f64).

  Theorem c69_well_made : forall t s, read t = inl (inl s) -> well_made s.
  Proof using directives numbers. intros t s. now apply read_well_made. Qed.

  (** nothing changes from a text to itself, *)
  Theorem c69_self : forall t s, read t = inl (inl s) -> members_once s -> compare s s = [].
  Proof using directives numbers.
    intros t s H M. apply c69_well_made in H. apply c44_self; auto using well_made_once, well_made_floats, well_made_no_nan.
  Qed.
  (** and what changes from one text to another is reported, and really changed, but for C45's exceptions *)
  Theorem c69_changes : forall t t' old new, read t = inl (inl old) -> read t' = inl (inl new) -> members_once new ->
    (forall c, real old new c -> overlooked old new c \/ In c (compare old new)) /\
    (forall c, In c (compare old new) -> real old new c \/ misplaced old new c).
  Proof using directives numbers.
    intros t t' old new H H' M. apply c69_well_made in H, H'. split.
    - intros c R. apply c45_reported_partial; auto using well_made_once, well_made_floats.
    - intros c I. apply c45_real_partial in I; auto using well_made_floats.
  Qed.
  Theorem c69_comparable : forall t t' old new, read t = inl (inl old) -> read t' = inl (inl new) -> members_once old -> members_once new -> comparable old new.
  Proof using directives numbers.
    intros t t' old new H H' M M'. apply c69_well_made in H, H'. split; auto using well_made_once, well_made_floats; apply wm_names; auto.
  Qed.
  (** every report has a path that leads to what changed, and path and message tell it apart *)
  Theorem c69_paths_partial : forall print_float t t' old new, read t = inl (inl old) -> read t' = inl (inl new) -> members_once old -> members_once new ->
    forall c, In c (compare old new) -> ~ to_applied_directives c ->
    (exists e, effect_of c e /\ happens old new (path_of c) e) /\
    (forall c', In c' (compare old new) -> ~ to_applied_directives c' -> path_of c = path_of c' -> message_of print_float c = message_of print_float c' -> c = c').
  Proof using directives numbers.
    intros pf t t' old new H H' M M' c I A. pose proof (c69_comparable _ _ _ _ H H' M M') as C. split; [now apply c68_path_partial|].
    intros c' I' A'. now apply (c68_identified_partial pf old new).
  Qed.

  (** query texts that are accepted stay accepted (C65), *)
  Theorem c69_still_valid_partial : forall old_text new_text query_text old new d,
    read old_text = inl (inl old) -> read new_text = inl (inl new) -> parse_text recover other_digit parse_f64 query_text = inl d ->
    members_once new -> nothing_unseen old new ->
    (forall c, In c (compare old new) -> breaking c = false /\ ~ loses_default c) ->
    (forall n f g, ~ In (FieldTypeChanged n f g) (compare old new)) ->
    nested_roots_single d -> several_roots_differ d -> fields_agree old d -> spreads_simple new d -> typename_plain old d -> listed_usages_allowed old d ->
    forall hook str_enum one_of ord ord', some_order ord -> some_order ord' ->
    validate old hook str_enum one_of ord d = Some [] -> validate new hook str_enum one_of ord' d = Some [].
  Proof using directives numbers.
    intros ot nt qt old new d HO HN HQ M. pose proof (c69_well_made _ _ HO) as W. pose proof (c69_well_made _ _ HN) as W'.
    exact (c65_texts_partial so dor recover other_digit parse_f64 recover other_digit parse_f64 ot nt qt old new d HO HN HQ numbers (well_made_floats _ W) (well_made_floats _ W') (well_made_once _ W' M)).
  Qed.
  (** responses stay responses (C66), *)
  Theorem c69_responses_partial : forall old_text new_text query_text old new d,
    read old_text = inl (inl old) -> read new_text = inl (inl new) -> parse_text recover other_digit parse_f64 query_text = inl d ->
    members_once new -> wf_types old -> same_roots old new -> no_new_implementors old new ->
    (forall c, In c (compare old new) -> non_breaking c = true) ->
    nested_roots_single d -> fields_agree old d -> typename_plain old d -> listed_usages_allowed old d ->
    forall hook str_enum one_of ord, some_order ord -> validate old hook str_enum one_of ord d = Some [] ->
    forall vals scalar_out o j, In o (doc_ops d) -> operation_response new d vals scalar_out o j -> operation_response old d vals scalar_out o j.
  Proof using directives numbers.
    intros ot nt qt old new d HO HN HQ M. pose proof (c69_well_made _ _ HO) as W. pose proof (c69_well_made _ _ HN) as W'.
    exact (c66_texts_partial so dor recover other_digit parse_f64 recover other_digit parse_f64 ot nt qt old new d HO HN HQ numbers (well_made_floats _ W) (well_made_floats _ W') (well_made_once _ W' M)).
  Qed.
  (** and clients read what servers send (C67) *)
  Theorem c69_clients_partial : forall hook str_enum one_of ord pascal snake scalar_de (scalar_out : name -> json -> Prop) vals
      old_text new_text borrow cod aliases query_text types query_types old new,
    typegen_macro so dor recover other_digit parse_f64 hook str_enum one_of ord pascal old_text borrow cod aliases [query_text] = MItems types [query_types] ->
    read old_text = inl (inl old) -> read new_text = inl (inl new) ->
    (forall n j, scalar_out n j -> scalar_de n j = true) ->
    members_once new -> wf_types old -> wf_types new -> same_roots old new -> keeps_interfaces old new ->
    (forall c, In c (compare old new) -> breaking c = false) ->
    exists d, parse_text recover other_digit parse_f64 query_text = inl d /\
      (compiles pascal snake cod query_types ->
       (forall a b, In a (item_names d) -> In b (item_names d) -> pascal a = pascal b -> a = b) ->
       nothing_skipped old d vals -> union_spreads_cover_at new old d -> (cod = Miniserde -> no_typename_in_variants old d) ->
       forall i o j, nth_error (doc_ops d) i = Some o -> operation_response new d vals scalar_out o j ->
       exists e v, nth_error query_types i = Some e /\ de cod old scalar_de pascal (items query_types) j (WBase e) = Some v /\ shows_but (new_value old new) v j).
  Proof using directives numbers.
    intros hook se oo ord pascal snake sde sout vals ot nt borrow cod aliases qt its ts old new H HO HN Hs M. pose proof (c69_well_made _ _ HO) as W. pose proof (c69_well_made _ _ HN) as W'. intros.
    eapply c67_clients_partial; eauto using well_made_once, well_made_floats.
  Qed.
End Read.

(** ** Cases *)
Lemma no_floats_numbers : reads_numbers no_floats.
Proof. intros l b H. discriminate. Qed.
Lemma names_once_members s : names_once s -> members_once s.
Proof. intros []. now split. Qed.
Definition made_text : string :=
  "schema @d(x: 1) { query: Q } directive @d(x: Int, y: [String!] = [""a"", null]) on SCHEMA | FIELD_DEFINITION interface N { id: ID! }
   type Q implements N { id: ID! at(p: P = {x: 1, y: -2, k: A}): U @d(x: 3) } input P { x: Int! = 0 y: Int k: K } enum K { A B @deprecated } union U = Q | R
   type R { q: Q }".
Example c69_case : exists s, run made_text = inl (inl s) /\ well_made s /\ members_once s /\ compare s s = [].
Proof.
  eexists. split; [vm_compute; reflexivity|]. match goal with |- well_made ?s /\ _ => assert (H : run made_text = inl (inl s)) by (vm_compute; reflexivity); assert (C : checked s = true) by (vm_compute; reflexivity) end.
  apply checked_ok in C as (U & _). apply names_once_members in U. split; [|split; [exact U|]].
  - exact (c69_well_made _ _ (incl_refl _) _ _ _ no_floats_numbers _ _ H).
  - exact (c69_self _ _ (incl_refl _) _ _ _ no_floats_numbers _ _ H U).
Qed.
(** Members may be given twice, the library does not mind, and comparing such a text with itself reports changes. *)
Theorem c69_twice_refuted : forall t, In t
  ["type Query { a: Int a: String }"; "type Query { f(a: Int, a: String): Int }"; "type Query { x: E } enum E { A A @deprecated }";
   "type Query { x(i: I): Int } input I { a: Int a: String }"; "directive @d(a: Int, a: String) on FIELD type Query { x: Int }";
   "type Query { u: Int @deprecated(reason: ""a"", reason: ""b"") }"] ->
  exists s, run t = inl (inl s) /\ ~ members_once s /\ compare s s <> [].
Proof.
  assert (K : forall t, (exists s, run t = inl (inl s) /\ compare s s <> []) -> exists s, run t = inl (inl s) /\ ~ members_once s /\ compare s s <> []).
  { intros t (s & H & C). exists s. split; [exact H|]. split; [|exact C]. intros M. apply C. exact (c69_self _ _ (incl_refl _) _ _ _ no_floats_numbers _ _ H M). }
  intros t I. apply K. clear K. repeat (destruct I as [<-|I]; [eexists; split; [vm_compute; reflexivity|vm_compute; discriminate]|]). destruct I.
Qed.
Print Assumptions c69_well_made.
Print Assumptions c69_self.
Print Assumptions c69_changes.
Print Assumptions c69_comparable.
Print Assumptions c69_paths_partial.
Print Assumptions c69_still_valid_partial.
Print Assumptions c69_responses_partial.
Print Assumptions c69_clients_partial.
Print Assumptions c69_case.
Print Assumptions c69_twice_refuted.
