(** What the errors of a schema document that does not resolve are, and where in the document they are marked. *)
From Coq Require Import String.
From Verif Require Import Base Ast Lexer Parser ParserSpec Location DefParser ParserAt DefParserAt ParserAtSpec DefParserAtSpec Resolve ResolveAt.
Local Open Scope string_scope.
Local Open Scope list_scope.

(** ** Without positions *)
Definition plain_cddef (d : cddef) : ddef :=
  let p := plain_ddef (snd d) in
  {| dd_name := dd_name p; dd_desc := dd_desc p; dd_args := dd_args p; dd_repeatable := dd_repeatable p; dd_locs := dd_locs p; dd_builtin := fst d |}.
Definition plain_ctype (t : ctype) : tdef :=
  match t with
  | CBuiltin b => DBuiltin b
  | CType b r t =>
      match plain_tdef t with
      | DObject o => DObject {| ob_name := ob_name o; ob_desc := ob_desc o; ob_ifaces := ob_ifaces o; ob_dirs := ob_dirs o;
                                ob_fields := ob_fields o ++ (if r then [schema_field; type_field] else []); ob_builtin := b |}
      | DEnum e => DEnum {| en_name := en_name e; en_desc := en_desc e; en_dirs := en_dirs e; en_values := en_values e; en_builtin := b |}
      | p => p
      end
  end.
Definition plain_lcdoc (d : lcdoc) : defdoc :=
  {| df_schemas := map plain_esdef (lc_schemas d); df_ddefs := map plain_cddef (lc_ddefs d); df_types := map plain_ctype (lc_types d) |}.
Definition plain_root (p : optype * lname) : optype * name := (fst p, fst (snd p)).
Definition plain_derror (e : lderror) : derror :=
  match e with
  | LDuplicateDirectives n ds => DuplicateDirectives n (map plain_cddef ds)
  | LDuplicateTypes n ts => DuplicateTypes n (map plain_ctype ts)
  | LImplicitRootNotObject t => ImplicitRootNotObject (plain_ctype t)
  | LExplicitRootNotObject n => ExplicitRootNotObject (fst n)
  | LImplicitMissingQuery => ImplicitMissingQuery
  | LExplicitMissingQuery e => ExplicitMissingQuery (plain_esdef e)
  | LDuplicateSchemas es => DuplicateSchemas (map plain_esdef es)
  | LDuplicateRoots ty l => DuplicateRoots ty (map plain_root l)
  | LExplicitRootMissing p => ExplicitRootMissing (plain_root p)
  | LNoSchema => NoSchema
  | LTypeMissing n => TypeMissing (fst n)
  | LNotOutput n => NotOutput (fst n)
  | LNotInput n => NotInput (fst n)
  | LMemberNotObject n => MemberNotObject (fst n)
  | LNotInterface n => NotInterface (fst n)
  | LDirectiveMissing d => DirectiveMissing (plain_directive d)
  end.

(** ** The places of a document where something is referred to *)
Definition type_fields (t : ltdef) : list lfdef := match t with LDObject _ _ _ _ fs | LDInterface _ _ _ _ fs => fst fs | _ => [] end.
Definition type_values (t : ltdef) : list livd :=
  match t with LDInput _ _ _ fs => fst fs | _ => flat_map (fun f => ivds_list (lfd_args f)) (type_fields t) end.
Definition type_interfaces (t : ltdef) : list lname := match t with LDObject _ _ is_ _ _ | LDInterface _ _ is_ _ _ => is_ | _ => [] end.
Definition type_members (t : ltdef) : list lname := match t with LDUnion _ _ _ ms => ms | _ => [] end.
Definition type_enum_values (t : ltdef) : list levd := match t with LDEnum _ _ _ vs => fst vs | _ => [] end.
Definition type_directives (t : ltdef) : list ldirective :=
  directives_list match t with LDScalar _ _ ds | LDObject _ _ _ ds _ | LDInterface _ _ _ ds _ | LDUnion _ _ ds _ | LDInput _ _ ds _ | LDEnum _ _ ds _ => ds end.
Definition doc_fields (l : list lsysdef) : list lfdef := flat_map type_fields (doc_types l).
(** arguments of fields and directives, input fields *)
Definition doc_values (l : list lsysdef) : list livd := flat_map type_values (doc_types l) ++ flat_map (fun d => ivds_list (ldd_args d)) (doc_ddefs l).
Definition output_names (l : list lsysdef) : list lname := map (fun f => lbase (lfd_type f)) (doc_fields l).
Definition input_names (l : list lsysdef) : list lname := map (fun i => lbase (liv_type i)) (doc_values l).
Definition interface_names (l : list lsysdef) : list lname := flat_map type_interfaces (doc_types l).
Definition member_names (l : list lsysdef) : list lname := flat_map type_members (doc_types l).
(** the directives on types, fields, arguments, input fields and enum values *)
Definition applied (l : list lsysdef) : list ldirective :=
  flat_map type_directives (doc_types l) ++ flat_map (fun f => directives_list (lfd_dirs f)) (doc_fields l) ++
  flat_map (fun i => directives_list (liv_dirs i)) (doc_values l) ++ flat_map (fun t => flat_map (fun v => directives_list (lev_dirs v)) (type_enum_values t)) (doc_types l).
Definition types_named (n : name) (l : list lsysdef) : list ltdef := filter (fun t => teqb (fst (ltd_name t)) n) (doc_types l).
Definition ddefs_named (n : name) (l : list lsysdef) : list lddef := filter (fun d => teqb (fst (ldd_name d)) n) (doc_ddefs l).
Definition roots_for (ty : optype) (e : lesdef) : list (optype * lname) := filter (fun p => optype_eqb (fst p) ty) (les_roots e).

(** ** The mistakes of a document and the errors that tell them *)
(** an error with a label at one place; an error with labels at some places *)
Definition at_place (message : text) (label : string) (sp : nat * nat) : err := {| er_message := message; er_primary := Some (tx label, sp); er_secondary := [] |}.
Definition at_places (message : text) (l : list annotation) : err := {| er_message := message; er_primary := None; er_secondary := l |}.
Definition about (n : name) (says : string) : text := tx "Referenced type `" ++ n ++ tx "` " ++ tx says.
Definition introspection_name (n : name) : Prop := In n (map td_name introspection_types).
Definition root_word (n : name) : Prop := n = tx "Query" \/ n = tx "Mutation" \/ n = tx "Subscription".

Section Mistakes.
  (** all the types and directives there are: those of the document, and the built-in ones *)
  Variable T : list tdef.
  Variable D : list ddef.
  (** the definitions of the document *)
  Variable l : list lsysdef.
  Definition undefined (n : name) : Prop := forall t, In t T -> td_name t <> n.
  (** mistakes in references *)
  Inductive wrong_reference : err -> Prop :=
  | wr_missing n : In n (output_names l) \/ In n (input_names l) \/ In n (interface_names l) \/ In n (member_names l) -> undefined (fst n) ->
      wrong_reference (at_place (about (fst n) "does not exist") "No definition for referenced type" (snd n))
  | wr_output n t : In n (output_names l) -> In t T -> td_name t = fst n -> td_is_output t = false ->
      wrong_reference (at_place (about (fst n) "is not an output type") "Not an output type" (snd n))
  | wr_input n t : In n (input_names l) -> In t T -> td_name t = fst n -> td_is_input t = false ->
      wrong_reference (at_place (about (fst n) "is not an input type") "Not an input type" (snd n))
  | wr_interface n t : In n (interface_names l) -> In t T -> td_name t = fst n -> (forall i, t <> DInterface i) ->
      wrong_reference (at_place (about (fst n) "is not an interface") "Not an interface" (snd n))
  | wr_member n t : In n (member_names l) -> In t T -> td_name t = fst n -> (forall o, t <> DObject o) ->
      wrong_reference (at_place (about (fst n) "is not an object") "Not an object type" (snd n))
  | wr_directive d : In d (applied l) -> (forall x, In x D -> dd_name x <> fst (ld_name d)) ->
      wrong_reference (at_place (tx "Referenced directive `@" ++ fst (ld_name d) ++ tx "` does not exist") "No definition for referenced directive" (ld_span d)).
  (** names defined more than once, with all the definitions in the document *)
  Inductive repeated : err -> Prop :=
  | rp_builtin n : introspection_name n -> types_named n l <> [] ->
      repeated (at_places (tx "Cannot redefine builtin type " ++ n) (map (fun t => (tx "Type definition with name `" ++ n ++ tx "`", snd (ltd_name t))) (types_named n l)))
  | rp_types n : ~ introspection_name n -> 2 <= length (types_named n l) ->
      repeated (at_places (tx "Multiple type definitions with name `" ++ n ++ tx "`") (map (fun t => (tx "Type definition with name `" ++ n ++ tx "`", snd (ltd_name t))) (types_named n l)))
  | rp_directives n : 2 <= length (ddefs_named n l) ->
      repeated (at_places (tx "Multiple directive definitions with name `@" ++ n ++ tx "`") (map (fun d => (tx "Directive definition with name `@" ++ n ++ tx "`", snd (ldd_name d))) (ddefs_named n l))).
  (** mistakes in the schema definition *)
  Inductive wrong_root : err -> Prop :=
  | ro_missing e p : doc_schemas l = [e] -> roots_for (fst p) e = [p] -> undefined (fst (snd p)) ->
      wrong_root (at_place (about (fst (snd p)) "does not exist") "No definition for referenced type" (snd (snd p)))
  | ro_not_object e p t : doc_schemas l = [e] -> roots_for (fst p) e = [p] -> In t T -> td_name t = fst (snd p) -> (forall o, t <> DObject o) ->
      wrong_root (at_place (about (fst (snd p)) "is not an object") "Not an object type" (snd (snd p)))
  | ro_repeated e ty : doc_schemas l = [e] -> 2 <= length (roots_for ty e) ->
      wrong_root (at_places (tx "Multiple root operation type definitions for `" ++ optype_word ty ++ tx "`")
        (map (fun p => (tx "Root operation type definition for `" ++ optype_word ty ++ tx "`", snd (snd p))) (roots_for ty e)))
  | ro_schemas : 2 <= length (doc_schemas l) ->
      wrong_root (at_places (tx "Multiple schema definitions") (map (fun e => (tx "Schema definition", les_ident e)) (doc_schemas l)))
  | ro_no_query e : doc_schemas l = [e] -> roots_for OQuery e = [] ->
      wrong_root (at_place (tx "Schema definition does not contain a query") "Does not contain a query" (les_roots_span e))
  | ro_conventional t : doc_schemas l = [] -> In t (doc_types l) -> root_word (fst (ltd_name t)) -> (forall n d i ds fs, t <> LDObject n d i ds fs) ->
      wrong_root (at_place (about (fst (ltd_name t)) "is not an object") "Not an object type" (snd (ltd_name t))).
  (** mistakes that are nowhere in the text *)
  Inductive lacking : err -> Prop :=
  | lk_query : doc_schemas l = [] -> undefined (tx "Query") -> ~ undefined (tx "Mutation") \/ ~ undefined (tx "Subscription") ->
      lacking (at_places (tx "Implicit schema definition missing query") [])
  | lk_schema : doc_schemas l = [] -> undefined (tx "Query") -> undefined (tx "Mutation") -> undefined (tx "Subscription") ->
      lacking (at_places (tx "Document does not contain a schema definition") []).
  Definition mistake (e : err) : Prop := wrong_reference e \/ repeated e \/ wrong_root e \/ lacking e.
  (** [String] and [Boolean], which built-in definitions refer to, can be used for input and output *)
  Definition builtins_usable : Prop := forall t, In t T -> td_name t = tx "String" \/ td_name t = tx "Boolean" -> td_is_input t = true /\ td_is_output t = true.
End Mistakes.
