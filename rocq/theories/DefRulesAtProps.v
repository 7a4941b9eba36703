(** Property C74: the errors of schema documents that resolve but have enum or input types that are not valid. *)
From Coq Require Import String Permutation Lia.
From Verif Require Import Base Ast Graph Lexer LexerSpec LexerProps Parser Location LocationSpec LocationProofs LocationProps DefParser DefParserSpec DefParserProofs DefParserProps ParserAt DefParserAt ParserSpec ParserAtSpec DefParserAtSpec
  DefParserErrorProps DefSpanSpec DefSpanProofs SpanProps DefSpanProps Resolve ResolveSpec ResolveProofs ResolveProps ResolveAt ResolveAtSpec ResolveAtProofs ResolveErrorProofs ResolveErrorProps
  InputCycles DefRules ValidatorAt DefRulesAt DefRulesAtSpec DefRulesAtProofs.
Local Open Scope string_scope.
Local Open Scope list_scope.
Local Opaque introspection_at builtin_directives_at introspection_texts directive_texts introspection_types.

Lemma resolved_types so dor l sc : resolve (whole so dor l) = inl sc ->
  NoDup (map ct_name (lc_types (complete_at so dor l))) /\ s_types sc = map plain_ctype (map snd (fst (index ct_name (lc_types (complete_at so dor l))))).
Proof.
  unfold whole. rewrite <- complete_plain. generalize (complete_at so dor l). intros d H. rewrite resolve_eq in H. destruct (reference_errors (plain_lcdoc d)) eqn:E; [|discriminate].
  apply reference_errors_nil in E as (N & _). cbn [plain_lcdoc df_types] in N. rewrite map_map, (map_ext _ _ ct_name_plain) in N. split; [exact N|].
  assert (K : forall desc q m s dirs, s_types (build (plain_lcdoc d) desc q m s dirs) = map plain_ctype (map snd (fst (index ct_name (lc_types d))))).
  { intros. unfold build. cbn [s_types plain_lcdoc df_types]. rewrite (index_over plain_ctype ct_name td_name _ ct_name_plain). apply over_values. }
  destruct (explicit_schema _ _) as [[[[[e q] m] s]|]|es]; [injection H as <-; apply K| |discriminate]. destruct (implicit_schema _) as [[[[q m] s]|]|es]; try discriminate. injection H as <-. apply K.
Qed.
(** The errors are those of validation of the schema without positions (C06, C07). *)
Theorem c74_same : forall so dor l sc, resolve (whole so dor l) = inl sc ->
  map plain_deferr (definition_errors_at (fst (index ct_name (lc_types (complete_at so dor l))))) = definition_errors sc.
Proof. intros so dor l sc H. apply resolved_types in H as (_ & E). exact (errors_same (complete_at so dor l) sc E). Qed.
(** Every error is about a type that is not valid, and says what is wrong with it, and where. *)
Theorem c74_told : forall so dor l sc, resolve (whole so dor l) = inl sc -> Forall (wrong_type l) (validation_errors_at so dor l).
Proof. intros so dor l sc H. apply resolved_types in H as (N & _). apply Forall_forall. intros er. exact (errors_told so dor l N er). Qed.
(** Everything that is wrong with the types is reported. *)
Theorem c74_reported : forall so dor l sc, resolve (whole so dor l) = inl sc -> forall er, wrong_type l er ->
  exists er', In er' (validation_errors_at so dor l) /\ er_message er' = er_message er /\ er_primary er' = er_primary er /\ Permutation (er_secondary er') (er_secondary er).
Proof. intros so dor l sc H er. apply resolved_types in H as (N & _). exact (errors_reported so dor l N er). Qed.
(** The names of enum values, of fields, and of the types, and the types of fields, are parts of the text. *)
Lemma enum_value_part l n vs v : enum_type l n vs -> In v vs -> In (name_part (lev_name v)) (flat_map sysdef_parts l).
Proof.
  intros (dd & ds & sp & I) Iv. apply (type_in _ l I). cbn [tdef_parts]. apply in_or_app. right. right. apply in_or_app. right. right. apply in_flat_map. exists v. split; [exact Iv|]. unfold evd_parts. apply in_or_app. right. left. reflexivity.
Qed.
Lemma input_name_part l n fs : input_type l n fs -> In (name_part n) (flat_map sysdef_parts l).
Proof. intros (dd & ds & sp & I). apply (type_in _ l I). cbn [tdef_parts]. apply in_or_app. right. left. reflexivity. Qed.
Lemma input_field_parts l n fs f : input_type l n fs -> In f fs -> incl (name_part (liv_name f) :: type_parts (liv_type f)) (flat_map sysdef_parts l).
Proof.
  intros (dd & ds & sp & I) If x Hx. apply (type_in _ l I). cbn [tdef_parts]. apply in_or_app. right. right. apply in_or_app. right. right. apply in_flat_map. exists f. split; [exact If|]. unfold ivd_parts. apply in_or_app. right.
  destruct Hx as [<-|Hx]; [left; reflexivity|right; apply in_or_app; left; exact Hx].
Qed.
Lemma references_In k fs sp : In sp (references k fs) -> exists f m, In f fs /\ liv_type f = LTBase m true sp /\ fst m = k.
Proof.
  intros H. apply in_flat_map in H as (f & If & H). destruct (liv_type f) as [m [|] sp'|] eqn:E; try destruct H. destruct (teqb (fst m) k) eqn:Ek; [|destruct H]. destruct H as [->|[]]. apply teqb_eq in Ek. eauto.
Qed.
Theorem c74_marked : forall recover other_digit parse_f64 s l,
  (forall t b, parse_f64 t = Some b -> Forall (fun c => c < 128)%N t) -> other_digit 65279%N = false ->
  parse_schema_text_at recover other_digit parse_f64 s = inl l ->
  let has (range : nat * nat) (ks : list token) := exists p m q, s = p ++ m ++ q /\ range = (bytes p, bytes (p ++ m)) /\ tokens_of recover other_digit parse_f64 m ks in
  (forall n vs v, enum_type l n vs -> In v vs -> has (snd (lev_name v)) [TkName (fst (lev_name v))]) /\
  (forall n fs f, input_type l n fs -> In f fs -> has (snd (liv_name f)) [TkName (fst (liv_name f))]) /\
  (forall n fs, input_type l n fs -> has (snd n) [TkName (fst n)]) /\
  (forall n fs k sp, input_type l n fs -> In sp (references k fs) -> has sp [TkName k; TkPunct PBang]).
Proof.
  intros recover other_digit parse_f64 s l Hf Hd H has.
  assert (K : forall x, In x (flat_map sysdef_parts l) -> has (snd x) (fst x)). { intros x Hx. destruct (c71_part_text _ _ _ _ _ Hf Hd H _ Hx) as (p & m & q & E1 & E2 & _ & E3). exists p, m, q. auto. }
  split; [|split; [|split]].
  - intros n vs v I Iv. exact (K _ (enum_value_part l n vs v I Iv)).
  - intros n fs f I If. exact (K _ (input_field_parts l n fs f I If _ (or_introl eq_refl))).
  - intros n fs I. exact (K _ (input_name_part l n fs I)).
  - intros n fs k sp I Is. apply references_In in Is as (f & m & If & Et & Em). specialize (K (tk_tref (TBase (fst m) true), sp)). cbn in K. rewrite Em in K. apply K.
    apply (input_field_parts l n fs f I If). right. rewrite Et. left. cbn. now rewrite Em.
Qed.
Lemma wrong_type_placed l er : wrong_type l er -> Forall (on_part l) (notes_of er).
Proof.
  intros H. destruct H as [n vs k I _|n fs k I _|n fs needed places I _ _ M P].
  - cbn [notes_of reported at_places er_primary er_secondary]. apply Forall_map, Forall_forall. intros v Iv. apply filter_In in Iv as (Iv & _). exists (name_part (lev_name v)). split; [exact (enum_value_part l n vs v I Iv)|reflexivity].
  - cbn [notes_of reported at_places er_primary er_secondary]. apply Forall_map, Forall_forall. intros f If. apply filter_In in If as (If & _). exists (name_part (liv_name f)). split; [exact (input_field_parts l n fs f I If _ (or_introl eq_refl))|reflexivity].
  - cbn [notes_of reported er_primary er_secondary]. constructor; [exists (name_part n); split; [exact (input_name_part l n fs I)|reflexivity]|]. constructor.
Qed.
(** The errors of a text that is read and resolves become GraphQL errors: one for a primary annotation, or else one for each annotation, with its label, at the line and
    column where the text of a part begins. *)
Theorem c74_located : forall search offset_line further so dor recover other_digit parse_f64 s l sc,
  searches search -> tells_places further offset_line ->
  (forall t b, parse_f64 t = Some b -> Forall (fun c => c < 128)%N t) -> other_digit 65279%N = false ->
  parse_schema_text_at recover other_digit parse_f64 s = inl l -> resolve (whole so dor l) = inl sc ->
  exists gs, into_graphql_errors search offset_line s (validation_errors_at so dor l) = Some gs /\
    Forall2 (fun (a : note) g => ge_message g = fst a /\
      exists p m q x, s = p ++ m ++ q /\ tokens_of recover other_digit parse_f64 m (fst x) /\ In x (flat_map sysdef_parts l) /\ snd a = snd x /\
        place further s (length p) = (ge_line g, ge_col g)) (flat_map notes_of (validation_errors_at so dor l)) gs.
Proof.
  intros search offset_line further so dor recover other_digit parse_f64 s l sc Hs T Hf Hd H R.
  apply (c71_located search offset_line further recover other_digit parse_f64 s l Hs T Hf Hd H). apply Forall_flat_map. eapply Forall_impl; [|exact (c74_told so dor l sc R)]. intros er Her. exact (wrong_type_placed l er Her).
Qed.

(** Cases: messages and marked texts. *)
Transparent introspection_at builtin_directives_at introspection_texts directive_texts introspection_types.
Definition warned (s : string) : option (list (text * list (text * text))) :=
  match read_schema_at (tx s) with
  | inl l => match resolve (whole all_builtins builtin_directives_at l) with
             | inl _ => Some (map (fun e => (er_message e, map (fun a => (fst a, text_of (tx s) (snd a))) (match er_primary e with Some a => [a] | None => [] end ++ er_secondary e))) (validation_errors_at all_builtins builtin_directives_at l))
             | inr _ => None
             end
  | inr _ => None
  end.
Notation circular := "Input object type definition contains circular reference(s) through an unbroken chain of non-null singular fields, which is disallowed".
Notation occurrence := "Occurence of circular reference".
Example c74_cases :
  warned "type Query { a: Int } enum E { A B A } input In { f: Int g: String f: [Int!]! }" =
    says [("Multiple enum value definitions named `A`", [("Enum value definition with name `A`", "A"); ("Enum value definition with name `A`", "A")]);
          ("Multiple input value definitions named `f`", [("Input value definition with name `f`", "f"); ("Input value definition with name `f`", "f")])] /\
  warned "type Query { a: Int } input A { b: B! a: A ! c: [A!]! d: A } input B { a: C! c: B } input C { a: A! b: A# ...
 ! }" =
    says [("Input object type definition `A` contains disallowed circular reference(s)", [(circular, "A"); (occurrence, "A!"); (occurrence, "A# ...
 !"); (occurrence, "A !")]);
          ("Input object type definition `B` contains disallowed circular reference(s)", [(circular, "B"); (occurrence, "B!")]);
          ("Input object type definition `C` contains disallowed circular reference(s)", [(circular, "C"); (occurrence, "C!")])] /\
  warned "type Query { a: Int } input A { b: B } input B { a: A! b: [B!]! }" = says [].
Proof. repeat split; vm_compute; reflexivity. Qed.
Print Assumptions c74_same. Print Assumptions c74_told. Print Assumptions c74_reported. Print Assumptions c74_marked. Print Assumptions c74_located.
