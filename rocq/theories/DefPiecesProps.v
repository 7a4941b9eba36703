(** C78 for type system documents. *)
From Coq Require Import String.
From Verif Require Import Base Ast Lexer Parser ParserSpec ParserProofs ParserDocProofs ParserProps DefParser DefParserSpec DefParserProofs Pieces PiecesSpec PiecesProps DefPieces DefPiecesSpec ResolveAt.
From Coq Require Import Lia.
Local Open Scope string_scope.
Local Open Scope list_scope.

Lemma def_sound k ts x r : def_from_tokens k ts = POk x r -> def_well k x /\ exists lead, ts = def_written k lead x ++ r.
Proof.
  destruct k; cbn [def_from_tokens def_well def_written dpiece] in *; intros H.
  - apply parse_ivd_sound in H as (-> & O). split; [exact O|]. now exists false.
  - apply parse_fdef_sound in H as (-> & O). split; [exact O|]. now exists false.
  - apply parse_evd_sound in H as (-> & O). split; [exact O|]. now exists false.
  - pose proof H as H'. apply parse_scalar_sound in H as (lead & E & O). split; [|now exists lead]. split; [exact O|]. unfold parse_scalar in H'. desc H' dd r0 E0. bi H' u r1 E1. bi H' n r2 E2. bi H' ds r3 E3. injection H' as <- _. eauto.
  - pose proof H as H'. apply parse_object_sound in H as (lead & E & O). split; [|now exists lead]. split; [exact O|]. unfold parse_object in H'. desc H' dd r0 E0. bi H' u r1 E1. bi H' n r2 E2. bi H' is_ r3 E3. bi H' ds r4 E4. bi H' fs r5 E5. injection H' as <- _. eauto.
  - pose proof H as H'. apply parse_interface_sound in H as (lead & E & O). split; [|now exists lead]. split; [exact O|]. unfold parse_interface in H'. desc H' dd r0 E0. bi H' u r1 E1. bi H' n r2 E2. bi H' is_ r3 E3. bi H' ds r4 E4. bi H' fs r5 E5. injection H' as <- _. eauto.
  - pose proof H as H'. apply parse_union_sound in H as (lead & E & O). split; [|now exists lead]. split; [exact O|]. unfold parse_union in H'. desc H' dd r0 E0. bi H' u r1 E1. bi H' n r2 E2. bi H' ds r3 E3. bi H' u' r4 E4. bi H' ms r5 E5. injection H' as <- _. eauto.
  - pose proof H as H'. apply parse_input_sound in H as (lead & E & O). split; [|now exists lead]. split; [exact O|]. unfold parse_input in H'. desc H' dd r0 E0. bi H' u r1 E1. bi H' n r2 E2. bi H' ds r3 E3. bi H' fs r4 E4. injection H' as <- _. eauto.
  - pose proof H as H'. apply parse_enum_sound in H as (lead & E & O). split; [|now exists lead]. split; [exact O|]. unfold parse_enum in H'. desc H' dd r0 E0. bi H' u r1 E1. bi H' n r2 E2. bi H' ds r3 E3. bi H' vs r4 E4. injection H' as <- _. eauto.
  - apply parse_ddef_sound in H as (lead & E & O). split; [exact O|]. now exists lead.
  - apply parse_esdef_sound in H as (-> & O). split; [exact O|]. now exists false.
Qed.
Lemma def_goes_on_false k r : ~ def_goes_on k r -> Forall (fun p => peek_punct p r = false) (def_continues k).
Proof.
  intros H. apply Forall_forall. intros p Hp. destruct (peek_punct p r) eqn:E; [|reflexivity]. exfalso. apply H. apply peek_punct_inv in E as (r' & ->). exists p, r'. auto.
Qed.
Lemma def_complete k lead x r : def_well k x -> ~ def_goes_on k r -> def_from_tokens k (def_written k lead x ++ r) = POk x r.
Proof.
  intros W G. apply def_goes_on_false in G. revert x W G. destruct k; cbn [def_from_tokens def_written def_well dpiece def_continues]; intros x W G;
    repeat match goal with F : Forall _ (_ :: _) |- _ => inversion_clear F end.
  - destruct x as [n dd t d ds]. unfold ivd_ok in W. cbn [iv_default iv_dirs] in W. apply andb_prop in W. destruct W as (O1 & O2).
    unfold parse_ivd, tk_ivd. cbn [iv_name iv_desc iv_type iv_default iv_dirs]. flat. rewrite next_if_string_ok. cbn [expect_name bind]. rewrite expect_punct_ok. cbn [bind].
    rewrite parse_tref_complete; [|rewrite app_length; lia|].
    + cbn [bind]. rewrite parse_default_complete; [|exact O1|apply peek_directives; [discriminate|assumption]]. cbn [bind]. now rewrite parse_directives_complete.
    + apply peek_default; [discriminate|]. apply peek_directives; [discriminate|assumption].
  - destruct x as [n dd args t ds b]. unfold fdef_ok in W. cbn [fd_args fd_dirs fd_builtin] in W. apply andb_prop in W. destruct W as (O & O2). apply andb_prop in O. destruct O as (Ob & O1).
    destruct b; [discriminate|].
    unfold parse_fdef, tk_fdef. cbn [fd_name fd_desc fd_args fd_type fd_dirs]. flat. rewrite next_if_string_ok. cbn [expect_name bind].
    rewrite parse_args_def_complete; [|exact O1|reflexivity]. cbn [bind]. rewrite expect_punct_ok. cbn [bind].
    rewrite parse_tref_complete; [|rewrite app_length; lia|apply peek_directives; [discriminate|assumption]]. cbn [bind]. now rewrite parse_directives_complete.
  - destruct x as [n dd ds]. unfold evd_ok in W. cbn [ev_name ev_dirs] in W. apply andb_prop in W. destruct W as (O1 & O2).
    unfold parse_evd, tk_evd. cbn [ev_name ev_desc ev_dirs]. flat. rewrite next_if_string_ok. cbn [expect_name bind]. rewrite reserved_orb. destruct (reserved n); [discriminate|].
    now rewrite parse_directives_complete.
  - destruct W as (O & s & ->). cbn [tk_tdef sysdef_ok] in *. flat. unfold parse_scalar. rewrite next_if_string_ok. kw. rewrite parse_directives_complete; [|assumption..]. destruct s. reflexivity.
  - destruct W as (O & o & ->). cbn [tk_tdef sysdef_ok] in *. destruct o as [n dd is_ ds fs b]. cbn [ob_desc ob_name ob_ifaces ob_dirs ob_fields ob_builtin] in *. destruct O as (O1 & O2 & ->). flat.
    unfold parse_object. rewrite next_if_string_ok. kw. rewrite parse_implements_complete; [|apply next_if_punct_directives; [discriminate | reflexivity] | apply peek_name_directives; reflexivity]. cbn [bind].
    rewrite parse_directives_complete; [|exact O1|reflexivity|reflexivity]. cbn [bind]. now rewrite parse_fdefs_complete.
  - destruct W as (O & i & ->). cbn [tk_tdef sysdef_ok] in *. destruct i as [n dd is_ ds fs]. cbn [if_desc if_name if_ifaces if_dirs if_fields] in *. destruct O as (O1 & O2). flat.
    unfold parse_interface. rewrite next_if_string_ok. kw. rewrite parse_implements_complete; [|apply next_if_punct_directives; [discriminate | reflexivity] | apply peek_name_directives; reflexivity]. cbn [bind].
    rewrite parse_directives_complete; [|exact O1|reflexivity|reflexivity]. cbn [bind]. now rewrite parse_fdefs_complete.
  - destruct W as (O & u & ->). cbn [tk_tdef sysdef_ok] in *. destruct u as [n dd ds ms fs]. cbn [un_desc un_name un_dirs un_members un_fields] in *. destruct O as (O1 & NE & ->). flat.
    unfold parse_union. rewrite next_if_string_ok. kw. rewrite parse_directives_complete; [|exact O1|reflexivity|reflexivity]. cbn [bind]. rewrite expect_punct_ok. cbn [bind].
    unfold parse_members. rewrite parse_sep_list_complete; [reflexivity | apply expect_name_complete | reflexivity | exact NE | now apply peek_next].
  - destruct W as (O & i & ->). cbn [tk_tdef sysdef_ok] in *. destruct i as [n dd ds fs]. cbn [io_desc io_name io_dirs io_fields] in *. destruct O as (O1 & O2 & NE). flat.
    unfold parse_input. rewrite next_if_string_ok. kw. rewrite parse_directives_complete; [|exact O1|reflexivity|reflexivity]. cbn [bind].
    change parse_input_fields with (parse_braced parse_ivd). now rewrite (parse_braced_complete _ _ _ parse_ivd_complete ivd_head).
  - destruct W as (O & e & ->). cbn [tk_tdef sysdef_ok] in *. destruct e as [n dd ds vs b]. cbn [en_desc en_name en_dirs en_values en_builtin] in *. destruct O as (O1 & O2 & NE & ->). flat.
    unfold parse_enum. rewrite next_if_string_ok. kw. rewrite parse_directives_complete; [|exact O1|reflexivity|reflexivity]. cbn [bind].
    change parse_evds with (parse_braced parse_evd). now rewrite (parse_braced_complete _ _ _ parse_evd_complete evd_head).
  - destruct x as [n dd args rep ls b]. unfold tk_ddef. cbn [sysdef_ok dd_desc dd_name dd_args dd_repeatable dd_locs dd_builtin] in *. destruct W as (O & NE & ->). flat.
    unfold parse_ddef. rewrite next_if_string_ok. cbn [expect_name_value]. rewrite teqb_refl. cbn [bind]. rewrite expect_punct_ok. cbn [bind expect_name].
    rewrite parse_args_def_complete; [|exact O|destruct rep; reflexivity]. cbn [bind].
    replace (match next_if_name_matches _ _ with Some r0 => (true, r0) | None => _ end) with (rep, TkName (tx "on") :: tk_sep_list lead PPipe tk_location ls ++ r) by (destruct rep; reflexivity).
    kw. unfold parse_locations. rewrite parse_sep_list_complete; [reflexivity | apply parse_location_complete | reflexivity | exact NE | now apply peek_next].
  - destruct x as [dd ds l]. unfold tk_esdef. cbn [sysdef_ok es_desc es_dirs es_roots] in *. destruct W as (O & NE). flat.
    unfold parse_esdef. rewrite next_if_string_ok. kw. rewrite parse_directives_complete; [|exact O|reflexivity|reflexivity]. cbn [bind].
    assert (T : forallb (fun _ : optype * name => true) l = true) by (apply forallb_forall; reflexivity).
    pose proof (parse_braced_complete _ _ _ parse_root_complete root_head l r T NE) as K. unfold parse_braced in K. unfold braced in *. cbn [app] in *. rewrite expect_punct_ok in *. cbn [bind] in *. now rewrite K.
Qed.
Lemma def_safe k ts : safe 0 ts (def_from_tokens k ts).
Proof.
  destruct k; cbn [def_from_tokens].
  - apply (safe_weaken 1); [lia|]. apply safe_ivd.
  - apply (safe_weaken 1); [lia|]. apply safe_fdef.
  - apply (safe_weaken 1); [lia|]. apply safe_evd.
  - apply safe_desc. intros. repeat sb. apply safe_ok.
  - apply safe_desc. intros. repeat sb. apply safe_ok.
  - apply safe_desc. intros. repeat sb. apply safe_ok.
  - apply safe_desc. intros. repeat sb. apply safe_ok.
  - apply safe_desc. intros. repeat sb. apply safe_ok.
  - apply safe_desc. intros. repeat sb. apply safe_ok.
  - apply safe_desc. intros. sb. sb. sb. sb.
    match goal with |- context [next_if_name_matches ?w ?r] => destruct (next_if_name_matches w r) as [r'|] eqn:En end.
    + apply next_if_name_matches_inv in En. match goal with |- safe _ _ ?x => assert (K : safe 0 r' x) by (repeat sb; apply safe_ok) end.
      match goal with |- safe _ _ ?x => destruct x end; cbn [safe] in *; match goal with H : _ = _ :: r' |- _ => rewrite H end; cbn [length]; intuition lia.
    + repeat sb. apply safe_ok.
  - apply safe_desc. intros. sb. sb. sb. apply (safe_bind 0); [|intros; apply safe_ok]. apply (safe_weaken 1); [lia|]. apply safe_many1; [|lia]. intros. apply safe_root.
Qed.

Section C78.
  Variable k : dkind.
  Variable ahead : presult (dpiece k) -> nat.
  Implicit Type items : list (token + lex_error).

  (** What is returned is what the text starts with. *)
  Theorem c78_definition_starts : forall items x, parse_def k ahead items = Parsed x -> def_well k x /\ exists lead rest, items = map inl (def_written k lead x) ++ rest.
  Proof using. intros items x H. apply parsed_starts in H as (r & E & H). apply def_sound in E as (W & lead & T). split; [exact W|]. exists lead. auto. Qed.
  (** A text that starts with a piece is accepted, if what follows does not continue the piece and has no lexing errors as far as it is
      looked at; *)
  Theorem c78_definition_followed : forall items x lead rest, def_well k x -> items = map inl (def_written k lead x) ++ rest -> ~ def_goes_on k (item_tokens rest) ->
    asked_errors (ahead (POk x (item_tokens rest))) rest = [] -> parse_def k ahead items = Parsed x.
  Proof using. intros items x lead rest W -> G E. apply parsed_followed; [|exact E]. now apply def_complete. Qed.
  (** hence a text that is just the piece, *)
  Theorem c78_definition_whole : forall items x lead, def_well k x -> items = map inl (def_written k lead x) -> parse_def k ahead items = Parsed x.
  Proof using.
    intros items x lead W ->. apply (c78_definition_followed _ x lead []); [exact W|now rewrite app_nil_r| |destruct (ahead _); reflexivity]. intros (p & r & H & _). discriminate.
  Qed.
  (** and for definitions that end with a closing brace, exactly the texts that start with them. *)
  Theorem c78_definition_closed_iff : def_continues k = [] -> (forall x r, ahead (POk x r) = 0) ->
    forall items x, parse_def k ahead items = Parsed x <-> def_well k x /\ exists lead rest, items = map inl (def_written k lead x) ++ rest.
  Proof using.
    intros C Z items x. split; [apply c78_definition_starts|]. intros (W & lead & rest & ->). apply (c78_definition_followed _ x lead rest); [exact W|reflexivity| |rewrite Z; destruct rest; reflexivity].
    intros (p & r & _ & H). rewrite C in H. exact H.
  Qed.
  (** Everything else is reported; nothing panics. *)
  Theorem c78_definition_or_errors : forall items,
    (exists x, parse_def k ahead items = Parsed x) \/ exists e es, parse_def k ahead items = Failed (e :: es) /\ Forall genuine (e :: es).
  Proof using. intros items. apply parsed_or_errors. apply def_safe. Qed.
  (** What is reported is what the lexer found as far as it was asked, all of it, or else what the parser found. *)
  Theorem c78_definition_errors : forall items es, parse_def k ahead items = Failed es ->
    exists pre, first_tokens (looked_at (def_from_tokens k) ahead (item_tokens items)) items pre /\
      match item_errors pre with
      | [] => exists e r, def_from_tokens k (item_tokens items) = PErr e r /\ es = [EParse e]
      | les => es = map ELex les
      end.
  Proof using. intros items es. apply failed_errors. Qed.
End C78.

(** ** Definitions made from constants of the program *)
Section Constants.
  Variable recover : text -> nat.
  Variable other_digit : N -> bool.
  Variable parse_f64 : text -> option N.
  Definition built {A} (from : list token -> presult A) (ahead : presult A -> nat) (s : text) : option A :=
    unwrapped (parse_with from ahead (map fst (lex recover other_digit parse_f64 false s))).
  Lemma built_all {A} (from : list token -> presult A) ahead s ts x : map fst (lex recover other_digit parse_f64 false s) = map inl ts -> from ts = POk x [] -> built from ahead s = Some x.
  Proof using.
    intros H E. unfold built. rewrite H. assert (K : parse_with from ahead (map inl ts ++ []) = Parsed x); [|rewrite app_nil_r in K; now rewrite K].
    apply parsed_followed; [cbn [item_tokens flat_map]; now rewrite app_nil_r|]. destruct (ahead _); reflexivity.
  Qed.
  Variable fahead : presult fdef -> nat.
  Variable tahead : presult tdef -> nat.
  Variable dahead : presult ddef -> nat.
  (** The constants that the program parses and unwraps whenever it makes a document are definitions, so making a document does not panic,
      and they are the definitions of the model. *)
  Theorem c78_constants :
    (option_map field_builtin (built parse_fdef fahead (tx "__typename: String!")) = Some typename_field
     /\ option_map field_builtin (built parse_fdef fahead (tx "__schema: __Schema!")) = Some schema_field
     /\ option_map field_builtin (built parse_fdef fahead (tx "__type(name: String!): __Type")) = Some type_field)
    /\ map (fun s => option_map type_builtin (built parse_object tahead s)) (firstn 6 (map snd introspection_texts))
       ++ map (fun s => option_map type_builtin (built parse_enum tahead s)) (skipn 6 (map snd introspection_texts)) = map Some introspection_types
    /\ map (fun s => option_map directive_builtin (built parse_ddef dahead s)) directive_texts = map Some all_builtin_directives.
  Proof using.
    assert (F : forall A B (g : A -> B) from ahead s ts x y, map fst (lex recover other_digit parse_f64 false s) = map inl ts -> from ts = POk x [] -> g x = y -> option_map g (built from ahead s) = Some y).
    { intros A B g from ahead s ts x y H E <-. now rewrite (built_all from ahead s ts x H E). }
    split; [|split].
    - repeat split; (eapply F; [match goal with |- ?l = _ => let v := eval vm_compute in l in let ts := eval vm_compute in (item_tokens v) in transitivity (map (@inl token lex_error) ts); [vm_compute|]; reflexivity end|vm_compute; reflexivity|vm_compute; reflexivity]).
    - unfold introspection_texts, introspection_types. cbn [map snd firstn skipn app].
      repeat (apply f_equal2; [eapply F; [match goal with |- ?l = _ => let v := eval vm_compute in l in let ts := eval vm_compute in (item_tokens v) in transitivity (map (@inl token lex_error) ts); [vm_compute|]; reflexivity end|vm_compute; reflexivity|vm_compute; reflexivity]|]). reflexivity.
    - unfold directive_texts, all_builtin_directives. cbn [map].
      repeat (apply f_equal2; [eapply F; [match goal with |- ?l = _ => let v := eval vm_compute in l in let ts := eval vm_compute in (item_tokens v) in transitivity (map (@inl token lex_error) ts); [vm_compute|]; reflexivity end|vm_compute; reflexivity|vm_compute; reflexivity]|]). reflexivity.
  Qed.
End Constants.

(** * Cases *)
Definition read_def (k : dkind) (s : string) : outcome (dpiece k) := parse_def k (fun _ => 1) (map fst (lex (fun _ => 1) (fun _ => false) (fun _ => None) false (tx s))).
Example def_cases :
  read_def DKEnumValue """v"" A @d B" = Parsed {| ev_name := tx "A"; ev_desc := Some (tx "v"); ev_dirs := [{| dir_name := tx "d"; dir_args := [] |}] |} /\
  read_def DKEnumValue "true" = Failed [EParse (PEEnum (tx "true"))] /\
  read_def DKUnion "union U = | A | B }" = Parsed (DUnion {| un_name := tx "U"; un_desc := None; un_dirs := []; un_members := [tx "A"; tx "B"]; un_fields := [typename_field] |}) /\
  read_def DKUnion "union U = A | ?" = Failed [ELex UnrecognizedToken] /\
  read_def DKScalar "type S" = Failed [EParse (PEIdent (TkName (tx "type")) (tx "scalar"))] /\
  read_def DKSchema "schema { query: Q }" = Parsed {| es_desc := None; es_dirs := []; es_roots := [(OQuery, tx "Q")] |} /\
  read_def DKDirective "directive @d repeatable on FIELD" = Parsed {| dd_name := tx "d"; dd_desc := None; dd_args := []; dd_repeatable := true; dd_locs := [LField]; dd_builtin := false |}.
Proof. repeat split. Qed.
Example def_followed_case : def_well DKUnion (DUnion {| un_name := tx "U"; un_desc := None; un_dirs := []; un_members := [tx "A"]; un_fields := [typename_field] |})
  /\ def_goes_on DKUnion [P PPipe] /\ ~ def_goes_on DKUnion [P PBang] /\ def_continues DKObject = [].
Proof.
  repeat split; [discriminate|eexists; reflexivity|exists PPipe, []; split; [reflexivity|now left]|intros (p & r & H & [<-|[]]); discriminate].
Qed.

Print Assumptions c78_definition_starts. Print Assumptions c78_definition_followed. Print Assumptions c78_definition_whole. Print Assumptions c78_definition_closed_iff.
Print Assumptions c78_definition_or_errors. Print Assumptions c78_definition_errors. Print Assumptions c78_constants.
