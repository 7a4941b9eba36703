(** Property C72: the errors of schema documents that can be read but not resolved. *)
From Coq Require Import String Permutation Lia.
From Verif Require Import Base Ast Lexer LexerSpec LexerProps Parser Location LocationSpec LocationProofs LocationProps DefParser DefParserSpec DefParserProofs DefParserProps ParserAt DefParserAt ParserSpec ParserAtSpec DefParserAtSpec
  DefParserErrorProps DefSpanSpec DefSpanProofs SpanProps DefSpanProps Resolve ResolveSpec ResolveProofs ResolveProps ResolveAt ResolveAtSpec ResolveAtProofs ResolveErrorProofs.
Local Open Scope string_scope.
Local Open Scope list_scope.
Local Opaque introspection_at builtin_directives_at introspection_texts directive_texts introspection_types.

(** the document that is resolved: the definitions of the text, and the built-in ones *)
Definition whole (so : list builtin) (dor : list lddef) (l : list lsysdef) : defdoc := completed so (map (fun d => plain_cddef (true, d)) dor) (map plain_sysdef l).
Definition any_order (so : list builtin) (dor : list lddef) : Prop := Permutation so all_builtins /\ Permutation dor builtin_directives_at.
Lemma whole_types so dor l : df_types (whole so dor l) = map plain_ctype (lc_types (complete_at so dor l)).
Proof. unfold whole. now rewrite <- complete_plain. Qed.
Lemma whole_ddefs so dor l : df_ddefs (whole so dor l) = map plain_cddef (lc_ddefs (complete_at so dor l)).
Proof. unfold whole. now rewrite <- complete_plain. Qed.
(** It is the document that reading and resolving without positions (C12 to C14) works on. *)
Theorem c72_same : forall so dor recover other_digit parse_f64 s l, parse_schema_text_at recover other_digit parse_f64 s = inl l ->
  parse_schema_text so (map (fun d => plain_cddef (true, d)) dor) recover other_digit parse_f64 s = inl (whole so dor l) /\
  (any_order so dor -> Permutation (map (fun d => plain_cddef (true, d)) dor) all_builtin_directives).
Proof.
  intros so dor recover other_digit parse_f64 s l H. split.
  - pose proof (c70_same so (map (fun d => plain_cddef (true, d)) dor) recover other_digit parse_f64 s) as E. rewrite H in E. exact E.
  - intros (_ & P). rewrite <- builtin_directives_plain. now apply Permutation_map.
Qed.

(** The errors are about mistakes of the document, and say which; there are none if and only if the document gives a schema. *)
Theorem c72_errors_partial : forall so dor l, any_order so dor -> builtins_usable (df_types (whole so dor l)) ->
  exists es, schema_errors so dor l = Some es /\ Forall (mistake (df_types (whole so dor l)) (df_ddefs (whole so dor l)) l) es /\
    (es = [] <-> exists sc, resolve (whole so dor l) = inl sc).
Proof.
  intros so dor l (Hs & Hd). rewrite whole_types, whole_ddefs. intros U. pose proof (errors_explained so dor Hs Hd l U) as F. destruct (errors_are so dor l _ F) as (es & E & M & F2).
  exists es. split; [exact E|]. split; [exact M|]. pose proof (resolve_plain (complete_at so dor l)) as R. unfold whole. rewrite <- complete_plain. destruct (resolve (plain_lcdoc (complete_at so dor l))) as [sc|errs] eqn:Q.
  - rewrite R in F2. inversion F2; subst. split; eauto.
  - split; [|intros (sc & C); discriminate C]. intros ->. exfalso. assert (Z : resolve_at (complete_at so dor l) = []) by (now inversion F2). rewrite Z in R. cbn in R. subst errs. apply c14_errors in Q as (Q & _). congruence.
Qed.
Lemma reported_in so dor l es x er : schema_errors so dor l = Some es -> In x (resolve_at (complete_at so dor l)) -> error_of x = Some er -> In er es.
Proof.
  unfold schema_errors. generalize (resolve_at (complete_at so dor l)). intros xs. revert es. induction xs as [|y xs IH]; intros es H I E; [destruct I|]. cbn in H.
  destruct (error_of y) as [ey|] eqn:Ey; [|discriminate]. destruct (all_some (map error_of xs)) as [r|] eqn:Er; [|discriminate]. injection H as <-. destruct I as [->|I]; [left; congruence|right; eauto].
Qed.
(** Every name that is defined more than once is reported, with all its definitions. *)
Theorem c72_repeated_reported : forall so dor l, any_order so dor -> forall er, repeated l er ->
  forall es, schema_errors so dor l = Some es -> In er es.
Proof.
  intros so dor l (Hs & Hd) er H es E. destruct (repeated_reported so dor Hs Hd l er H) as (x & I & Ex). apply (reported_in so dor l es x er E); [|exact Ex]. now apply base_reported.
Qed.
(** If names are defined once, every wrong reference is reported. *)
Theorem c72_references_reported : forall so dor l, any_order so dor -> builtins_usable (df_types (whole so dor l)) ->
  NoDup (map td_name (df_types (whole so dor l))) -> NoDup (map dd_name (df_ddefs (whole so dor l))) ->
  forall er, wrong_reference (df_types (whole so dor l)) (df_ddefs (whole so dor l)) l er ->
  forall es, schema_errors so dor l = Some es -> In er es.
Proof.
  intros so dor l (Hs & Hd). rewrite whole_types, whole_ddefs. intros U NT ND er H es E. destruct (wrong_reported so dor Hs l U NT ND er H) as (x & I & Ex). apply (reported_in so dor l es x er E); [|exact Ex]. now apply base_reported.
Qed.
(** If there are no such mistakes, every mistake in the schema definition is reported; that it has no query is only reported if
    its other root operations are right. *)
Theorem c72_roots_reported : forall so dor l, any_order so dor -> builtins_usable (df_types (whole so dor l)) ->
  NoDup (map td_name (df_types (whole so dor l))) ->
  (forall er, ~ wrong_reference (df_types (whole so dor l)) (df_ddefs (whole so dor l)) l er) -> (forall er, ~ repeated l er) ->
  forall er, wrong_root (df_types (whole so dor l)) l er ->
  forall es, schema_errors so dor l = Some es ->
  In er es \/ er_message er = tx "Schema definition does not contain a query" /\ exists er', In er' es /\ wrong_root (df_types (whole so dor l)) l er'.
Proof.
  intros so dor l (Hs & Hd). rewrite whole_types, whole_ddefs. intros U NT W R er H es E.
  destruct (root_reported so dor l NT er (no_base so dor Hs Hd l U W R) H) as (x & I & [Ex|(N & er' & Ex & W')]).
  - left. exact (reported_in so dor l es x er E I Ex).
  - right. split; [exact N|]. exists er'. split; [|exact W']. exact (reported_in so dor l es x er' E I Ex).
Qed.

(** ** Where errors are marked *)
Lemma type_in t l : In t (doc_types l) -> incl (tdef_parts t) (flat_map sysdef_parts l).
Proof. intros H x Hx. apply in_flat_map in H as (y & I & H). destruct y; try destruct H; [subst|contradiction]. apply in_flat_map. exists (LTypeDef t). auto. Qed.
Lemma ddef_in t l : In t (doc_ddefs l) -> incl (ddef_parts t) (flat_map sysdef_parts l).
Proof. intros H x Hx. apply in_flat_map in H as (y & I & H). destruct y; try destruct H; [subst|contradiction]. apply in_flat_map. exists (LDirectiveDef t). auto. Qed.
Lemma schema_in t l : In t (doc_schemas l) -> incl (esdef_parts t) (flat_map sysdef_parts l).
Proof. intros H x Hx. apply in_flat_map in H as (y & I & H). destruct y; try destruct H; [subst|contradiction]. apply in_flat_map. exists (LSchemaDef t). auto. Qed.
Lemma lbase_part t : In (name_part (lbase t)) (type_parts t).
Proof. induction t as [n r sp|t IH r sp]; cbn; auto. Qed.
Lemma field_parts f t : In f (type_fields t) -> incl (fdef_parts f) (tdef_parts t).
Proof.
  intros H x Hx. destruct t; try destruct H; cbn [type_fields tdef_parts] in *; unfold fields_parts; apply in_or_app; right; right; apply in_or_app; right; apply in_or_app; right; right; apply in_flat_map; eauto.
Qed.
Lemma arg_parts i o : In i (ivds_list o) -> incl (ivd_parts i) (args_parts o).
Proof. intros H x Hx. destruct o as [a|]; [|destruct H]. right. apply in_flat_map. eauto. Qed.
Lemma value_in i l : In i (doc_values l) -> incl (ivd_parts i) (flat_map sysdef_parts l).
Proof.
  intros H x Hx. apply in_app_or in H as [H|H]; apply in_flat_map in H as (t & It & If).
  - assert (K : (exists f, In f (type_fields t) /\ In i (ivds_list (lfd_args f))) \/ (exists n d' ds fs, t = LDInput n d' ds fs /\ In i (fst fs))).
    { destruct t; try (left; cbn [type_values] in If; apply in_flat_map in If as (f & J & J'); exists f; split; assumption). right. eauto 8. }
    apply (type_in t l It). destruct K as [(f & Hf & Hi)|(n & d' & ds & fs & -> & Hi)].
    + apply (field_parts f t Hf). unfold fdef_parts. apply in_or_app. right. right. apply in_or_app. left. exact (arg_parts i _ Hi x Hx).
    + cbn [tdef_parts]. apply in_or_app. right. right. apply in_or_app. right. right. apply in_flat_map. eauto.
  - apply (ddef_in t l It). unfold ddef_parts. apply in_or_app. right. right. apply in_or_app. left. exact (arg_parts i _ If x Hx).
Qed.
(** the names in a document at which errors are marked *)
Definition error_names (l : list lsysdef) : list lname :=
  output_names l ++ input_names l ++ interface_names l ++ member_names l ++ map ltd_name (doc_types l) ++ map ldd_name (doc_ddefs l) ++ flat_map (fun e => map snd (les_roots e)) (doc_schemas l).
Lemma error_name_part l n : In n (error_names l) -> In (name_part n) (flat_map sysdef_parts l).
Proof.
  unfold error_names. rewrite !in_app_iff. intros [H|[H|[H|[H|[H|[H|H]]]]]].
  - apply in_map_iff in H as (f & <- & H). apply in_flat_map in H as (t & It & If). apply (type_in t l It). apply (field_parts f t If). unfold fdef_parts. apply in_or_app. right. right. apply in_or_app. right. apply in_or_app. left. apply lbase_part.
  - apply in_map_iff in H as (i & <- & H). apply (value_in i l H). unfold ivd_parts. apply in_or_app. right. right. apply in_or_app. left. apply lbase_part.
  - apply in_flat_map in H as (t & It & H). apply (type_in t l It). destruct t; try destruct H; cbn [type_interfaces tdef_parts] in *; apply in_or_app; right; right; apply in_or_app; left; now apply in_map.
  - apply in_flat_map in H as (t & It & H). apply (type_in t l It). destruct t; try destruct H; cbn [type_members tdef_parts] in *; apply in_or_app; right; right; apply in_or_app; right; now apply in_map.
  - apply in_map_iff in H as (t & <- & It). apply (type_in t l It). destruct t; cbn [tdef_parts ltd_name]; apply in_or_app; right; left; reflexivity.
  - apply in_map_iff in H as (t & <- & It). apply (ddef_in t l It). unfold ddef_parts. apply in_or_app. right. left. reflexivity.
  - apply in_flat_map in H as (e & Ie & H). apply in_map_iff in H as (q & <- & H). apply (schema_in e l Ie). unfold esdef_parts. apply in_or_app. right. right. apply in_or_app. right. right. apply in_map_iff. eauto.
Qed.
Lemma directive_part o x : In x (directives_list o) -> In (node_part (NDirective x)) (directives_parts o).
Proof.
  intros H. destruct o as [[ds sp]|]; [|destruct H]. unfold directives_parts. apply in_map. cbn [directives_nodes directives_list fst] in *. apply in_or_app. right. apply in_flat_map. exists x. split; [exact H|]. left. reflexivity.
Qed.
Lemma applied_part l x : In x (applied l) -> In (node_part (NDirective x)) (flat_map sysdef_parts l).
Proof.
  unfold applied. rewrite !in_app_iff. intros [H|[H|[H|H]]]; apply in_flat_map in H as (t & It & H).
  - apply (type_in t l It). unfold type_directives in H. apply directive_part in H. destruct t; cbn [tdef_parts]; apply in_or_app; right; right; rewrite ?in_app_iff; auto.
  - apply in_flat_map in It as (u & Iu & It). apply (type_in u l Iu). apply (field_parts t u It). apply directive_part in H. unfold fdef_parts. apply in_or_app. right. right. rewrite !in_app_iff. auto.
  - apply (value_in t l It). apply directive_part in H. unfold ivd_parts. apply in_or_app. right. right. rewrite !in_app_iff. auto.
  - apply (type_in t l It). apply in_flat_map in H as (v & Iv & H). apply directive_part in H. destruct t; try destruct Iv; cbn [type_enum_values tdef_parts] in *. apply in_or_app. right. right. apply in_or_app. right. right.
    apply in_flat_map. exists v. split; [exact Iv|]. unfold evd_parts. apply in_or_app. right. right. exact H.
Qed.
(** every annotation is on a part of the document *)
Definition on_part (l : list lsysdef) (a : note) : Prop := exists x, In x (flat_map sysdef_parts l) /\ snd a = snd x.
Lemma on_name l m n : In n (error_names l) -> on_part l (m, snd n).
Proof. intros H. exists (name_part n). split; [now apply error_name_part|reflexivity]. Qed.
Lemma mistake_placed T D l er : mistake T D l er -> Forall (on_part l) (notes_of er).
Proof.
  assert (N : forall m n, In n (error_names l) -> Forall (on_part l) [(m, snd n)]) by (intros m n H; constructor; [now apply on_name|constructor]).
  assert (S1 : forall e p, doc_schemas l = [e] -> roots_for (fst p) e = [p] -> In (snd p) (error_names l)).
  { intros e p He Hp. unfold error_names. rewrite !in_app_iff. do 6 right. apply in_flat_map. exists e. rewrite He. split; [now left|]. apply in_map. assert (I : In p (roots_for (fst p) e)) by (rewrite Hp; now left). now apply filter_In in I. }
  intros [H|[H|[H|H]]].
  - destruct H as [n I _|n t I _ _ _|n t I _ _ _|n t I _ _ _|n t I _ _ _|x I _]; cbn [notes_of reported at_place er_primary].
    6: { constructor; [|constructor]. exists (node_part (NDirective x)). split; [now apply applied_part|reflexivity]. }
    all: apply N; unfold error_names; rewrite !in_app_iff; tauto.
  - destruct H as [n _ _|n _ _|n _]; cbn [notes_of reported at_places er_primary er_secondary]; apply Forall_map, Forall_forall; intros t It; apply filter_In in It as (It & _); apply on_name; unfold error_names; rewrite !in_app_iff.
    + do 4 right. left. now apply in_map.
    + do 4 right. left. now apply in_map.
    + do 5 right. left. now apply in_map.
  - destruct H as [e p He Hp _|e p t He Hp _ _ _|e ty He _|_|e He _|t _ It _ _]; cbn [notes_of reported at_place at_places er_primary er_secondary].
    + apply N. eauto.
    + apply N. eauto.
    + apply Forall_map, Forall_forall. intros p Ip. apply filter_In in Ip as (Ip & _). apply on_name. unfold error_names. rewrite !in_app_iff. do 6 right. apply in_flat_map. exists e. rewrite He. split; [now left|]. now apply in_map.
    + apply Forall_map, Forall_forall. intros e Ie. eexists. split; [apply (schema_in e l Ie); unfold esdef_parts; apply in_or_app; right; left; reflexivity|reflexivity].
    + constructor; [|constructor]. eexists. split; [apply (schema_in e l); [rewrite He; now left|]; unfold esdef_parts; apply in_or_app; right; right; apply in_or_app; right; left; reflexivity|reflexivity].
    + apply N. unfold error_names. rewrite !in_app_iff. do 4 right. left. now apply in_map.
  - destruct H; constructor.
Qed.
(** The errors of a text that is read become GraphQL errors, one for each annotation, with its label, at the line and column where
    the text of a part begins. *)
Theorem c72_located : forall search offset_line further so dor recover other_digit parse_f64 s l,
  searches search -> tells_places further offset_line ->
  (forall t b, parse_f64 t = Some b -> Forall (fun c => c < 128)%N t) -> other_digit 65279%N = false ->
  parse_schema_text_at recover other_digit parse_f64 s = inl l -> any_order so dor -> builtins_usable (df_types (whole so dor l)) ->
  exists es gs, schema_errors so dor l = Some es /\ into_graphql_errors search offset_line s es = Some gs /\
    Forall2 (fun (a : note) g => ge_message g = fst a /\
      exists p m q x, s = p ++ m ++ q /\ tokens_of recover other_digit parse_f64 m (fst x) /\ In x (flat_map sysdef_parts l) /\ snd a = snd x /\
        place further s (length p) = (ge_line g, ge_col g)) (flat_map notes_of es) gs.
Proof.
  intros search offset_line further so dor recover other_digit parse_f64 s l Hs T Hf Hd H O U. destruct (c72_errors_partial so dor l O U) as (es & E & M & _).
  assert (F : Forall (fun a : note => exists x, In x (flat_map sysdef_parts l) /\ snd a = snd x) (flat_map notes_of es)).
  { apply Forall_flat_map. eapply Forall_impl; [|exact M]. intros er Her. exact (mistake_placed _ _ _ _ Her). }
  destruct (c71_located search offset_line further recover other_digit parse_f64 s l Hs T Hf Hd H es F) as (gs & G & F2). exists es, gs. auto.
Qed.
(** The range that is marked for a name is where the text has that name; for a directive, where it has that directive. *)
Theorem c72_marked : forall recover other_digit parse_f64 s l,
  (forall t b, parse_f64 t = Some b -> Forall (fun c => c < 128)%N t) -> other_digit 65279%N = false ->
  parse_schema_text_at recover other_digit parse_f64 s = inl l ->
  (forall n, In n (error_names l) -> exists p m q, s = p ++ m ++ q /\ snd n = (bytes p, bytes (p ++ m)) /\ tokens_of recover other_digit parse_f64 m [TkName (fst n)]) /\
  (forall x, In x (applied l) -> exists p m q, s = p ++ m ++ q /\ ld_span x = (bytes p, bytes (p ++ m)) /\ tokens_of recover other_digit parse_f64 m (tk_directive (plain_directive x))).
Proof.
  intros recover other_digit parse_f64 s l Hf Hd H. split.
  - intros n I. destruct (c71_part_text _ _ _ _ _ Hf Hd H _ (error_name_part l n I)) as (p & m & q & E1 & E2 & _ & E3). exists p, m, q. auto.
  - intros x I. destruct (c71_part_text _ _ _ _ _ Hf Hd H _ (applied_part l x I)) as (p & m & q & E1 & E2 & _ & E3). exists p, m, q. auto.
Qed.

(** ** Where the claim fails *)
Transparent introspection_at builtin_directives_at introspection_texts directive_texts introspection_types.
Definition errors_of (s : text) : option (list err) := match read_schema_at s with inl l => schema_errors all_builtins builtin_directives_at l | inr _ => None end.
(** Redefining a built-in scalar type as an input type is not reported as such. Instead, every object type gives an error that
    is not about anything in it, marked at a range that has nothing to do with it: it is the range of [String] in the library's own
    text [__typename: String!]. *)
Theorem c72_own_text_refuted : exists s l er es, read_schema_at s = inl l /\ schema_errors all_builtins builtin_directives_at l = Some (er :: es) /\
  ~ In (tx "String") (map fst (output_names l)) /\ er = at_place (about (tx "String") "is not an output type") "Not an output type" (12, 18) /\ text_of s (12, 18) = tx " id: I".
Proof.
  exists (tx "type Query { id: Int } input String { a: Int }"). eexists _, _, _. split; [vm_compute; reflexivity|]. split; [vm_compute; reflexivity|]. split.
  - vm_compute. intuition discriminate.
  - split; vm_compute; reflexivity.
Qed.
(** A document that has no schema gives an error, but no GraphQL error. *)
Theorem c72_unplaced_refuted : forall search offset_line, exists s es, errors_of s = Some es /\ es <> [] /\ into_graphql_errors search offset_line s es = Some [].
Proof. intros search offset_line. exists (tx "type Mutation { a: Int }"). eexists. split; [vm_compute; reflexivity|]. split; [discriminate|reflexivity]. Qed.

(** Cases: messages and marked texts. *)
Definition told (s : string) : option (list (text * list (text * text))) :=
  option_map (map (fun e => (er_message e, map (fun a => (fst a, text_of (tx s) (snd a))) (notes_of e)))) (errors_of (tx s)).
Definition says (l : list (string * list (string * string))) : option (list (text * list (text * text))) :=
  Some (map (fun p => (tx (fst p), map (fun q => (tx (fst q), tx (snd q))) (snd p))) l).
Example c72_cases :
  told "type Query { a: [A!] @x b(c: Query = 1): In } input In { f: In }" =
    says [("Referenced type `A` does not exist", [("No definition for referenced type", "A")]); ("Referenced directive `@x` does not exist", [("No definition for referenced directive", "@x")]);
          ("Referenced type `In` is not an output type", [("Not an output type", "In")]); ("Referenced type `Query` is not an input type", [("Not an input type", "Query")])] /\
  told "type Query implements Int & I { a: Int } union U = Query | S scalar S" =
    says [("Referenced type `Int` is not an interface", [("Not an interface", "Int")]); ("Referenced type `I` does not exist", [("No definition for referenced type", "I")]);
          ("Referenced type `S` is not an object", [("Not an object type", "S")])] /\
  told "type A { a: Int } type Query { a: Int } enum A { B } enum __TypeKind { C } directive @d on FIELD directive @d on ENUM" =
    says [("Multiple type definitions with name `A`", [("Type definition with name `A`", "A"); ("Type definition with name `A`", "A")]); ("Cannot redefine builtin type __TypeKind", [("Type definition with name `__TypeKind`", "__TypeKind")]);
          ("Multiple directive definitions with name `@d`", [("Directive definition with name `@d`", "d"); ("Directive definition with name `@d`", "d")])] /\
  told "schema { query: Q query: R mutation: M subscription: I } scalar I" =
    says [("Multiple root operation type definitions for `query`", [("Root operation type definition for `query`", "Q"); ("Root operation type definition for `query`", "R")]);
          ("Referenced type `M` does not exist", [("No definition for referenced type", "M")]); ("Referenced type `I` is not an object", [("Not an object type", "I")])] /\
  told "schema { mutation: M } type M { a: Int }" = says [("Schema definition does not contain a query", [("Does not contain a query", "{ mutation: M }")])] /\
  told "schema { query: M } schema { query: M } type M { a: Int }" = says [("Multiple schema definitions", [("Schema definition", "schema"); ("Schema definition", "schema")])] /\
  told "scalar Query scalar Mutation" = says [("Referenced type `Query` is not an object", [("Not an object type", "Query")]); ("Referenced type `Mutation` is not an object", [("Not an object type", "Mutation")])] /\
  told "type Mutation { a: Int }" = says [("Implicit schema definition missing query", [])] /\
  told "scalar S" = says [("Document does not contain a schema definition", [])] /\
  told "type Query { a: Int } directive @skip on FIELD scalar String" = says [].
Proof. repeat split; vm_compute; reflexivity. Qed.
(** a text with three mistakes: the hypotheses of the theorems are met *)
Example c72_meets_hypotheses : exists l, read_schema_at (tx "type Query { a: A @x b(c: Query): Int }") = inl l /\ any_order all_builtins builtin_directives_at /\
  builtins_usable (df_types (whole all_builtins builtin_directives_at l)) /\ NoDup (map td_name (df_types (whole all_builtins builtin_directives_at l))) /\
  NoDup (map dd_name (df_ddefs (whole all_builtins builtin_directives_at l))) /\ length (output_names l) = 2 /\ length (applied l) = 1.
Proof.
  eexists. split; [vm_compute; reflexivity|]. split; [split; apply Permutation_refl|]. split.
  - intros t I. vm_compute in I. repeat (destruct I as [<-|I]; [intros [E|E]; first [discriminate E|split; reflexivity]|]). destruct I.
  - repeat split; vm_compute; repeat constructor; cbn; intuition discriminate.
Qed.
Print Assumptions c72_same. Print Assumptions c72_errors_partial. Print Assumptions c72_repeated_reported. Print Assumptions c72_references_reported. Print Assumptions c72_roots_reported.
Print Assumptions c72_located. Print Assumptions c72_marked. Print Assumptions c72_own_text_refuted. Print Assumptions c72_unplaced_refuted.
