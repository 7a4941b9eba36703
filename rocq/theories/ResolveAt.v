(** From definition documents to schemas, with positions: bluejay-parser/src/ast/definition/definition_document.rs and
    definition_document_error.rs. As [Resolve.v], function by function, but names and directives carry their spans, so that errors
    say where they are; [ResolveAtProofs.v] shows that forgetting the spans gives the functions of [Resolve.v]. *)
From Coq Require Import String.
From Verif Require Import Base Ast Maps Lexer Parser Location DefParser ParserAt DefParserAt Resolve.
Local Open Scope string_scope.
Local Open Scope list_scope.

(** ** Built-in definitions are parsed from constants, so their spans are those of the constants *)
(** [Self::parse(s).unwrap()]; [None] would be a panic *)
Definition parsed {A} (p : list ltok -> lresult A) (s : text) : option A :=
  match p (items_at (lex (fun _ => 1) (fun _ => false) (fun _ => None) false s)) with LOk a [] => Some a | _ => None end.
(** [FieldDefinition::__typename], [__schema], [__type] (field_definition.rs:16-37), written out: see [constant_fields] in
    ResolveAtProofs.v *)
Definition constant_field (n : string) (args : option livds) (t : ltype) : lfdef :=
  {| lfd_name := (tx n, (0, length (tx n))); lfd_desc := None; lfd_args := args; lfd_type := t; lfd_dirs := None |}.
Definition typename_at : lfdef := constant_field "__typename" None (LTBase (tx "String", (12, 18)) true (12, 19)).
Definition schema_field_at : lfdef := constant_field "__schema" None (LTBase (tx "__Schema", (10, 18)) true (10, 19)).
Definition type_field_at : lfdef :=
  constant_field "__type"
    (Some ([{| liv_name := (tx "name", (7, 11)); liv_desc := None; liv_type := LTBase (tx "String", (13, 19)) true (13, 20); liv_default := None; liv_dirs := Some ([], None) |}], (6, 21)))
    (LTBase (tx "__Type", (23, 29)) false (23, 29)).
(** the introspection types (object_type_definition.rs:43-95, enum_type_definition.rs:36-66, definition_document.rs:152-161) *)
Definition introspection_texts : list ((list ltok -> lresult ltdef) * text) :=
  [
   (parse_object_at, tx "type __Schema {
        description: String
        types: [__Type!]!
        queryType: __Type!
        mutationType: __Type
        subscriptionType: __Type
        directives: [__Directive!]!
    }");
   (parse_object_at, tx "type __Type {
        kind: __TypeKind!
        name: String
        description: String
        # must be non-null for OBJECT and INTERFACE, otherwise null.
        fields(includeDeprecated: Boolean = false): [__Field!]
        # must be non-null for OBJECT and INTERFACE, otherwise null.
        interfaces: [__Type!]
        # must be non-null for INTERFACE and UNION, otherwise null.
        possibleTypes: [__Type!]
        # must be non-null for ENUM, otherwise null.
        enumValues(includeDeprecated: Boolean = false): [__EnumValue!]
        # must be non-null for INPUT_OBJECT, otherwise null.
        inputFields(includeDeprecated: Boolean = false): [__InputValue!]
        # must be non-null for NON_NULL and LIST, otherwise null.
        ofType: __Type
        # may be non-null for custom SCALAR, otherwise null.
        specifiedByURL: String
    }");
   (parse_object_at, tx "type __Field {
        name: String!
        description: String
        args(includeDeprecated: Boolean = false): [__InputValue!]!
        type: __Type!
        isDeprecated: Boolean!
        deprecationReason: String
    }");
   (parse_object_at, tx "type __InputValue {
        name: String!
        description: String
        type: __Type!
        defaultValue: String
    }");
   (parse_object_at, tx "type __EnumValue {
        name: String!
        description: String
        isDeprecated: Boolean!
        deprecationReason: String
    }");
   (parse_object_at, tx "type __Directive {
        name: String!
        description: String
        locations: [__DirectiveLocation!]!
        args(includeDeprecated: Boolean = false): [__InputValue!]!
        isRepeatable: Boolean!
    }");
   (parse_enum_at, tx "enum __TypeKind {
        SCALAR
        OBJECT
        INTERFACE
        UNION
        ENUM
        INPUT_OBJECT
        LIST
        NON_NULL
    }");
   (parse_enum_at, tx "enum __DirectiveLocation {
        QUERY
        MUTATION
        SUBSCRIPTION
        FIELD
        FRAGMENT_DEFINITION
        FRAGMENT_SPREAD
        INLINE_FRAGMENT
        VARIABLE_DEFINITION
        SCHEMA
        SCALAR
        OBJECT
        FIELD_DEFINITION
        ARGUMENT_DEFINITION
        INTERFACE
        UNION
        ENUM
        ENUM_VALUE
        INPUT_OBJECT
        INPUT_FIELD_DEFINITION
    }")
  ].
Definition introspection_at : list ltdef := Eval vm_compute in flat_map (fun p => match parsed (fst p) (snd p) with Some t => [t] | None => [] end) introspection_texts.
(** the directives (directive_definition.rs:23-31) *)
Definition directive_texts : list text :=
  [tx "directive @deprecated(reason: String = ""No longer supported"") on FIELD_DEFINITION | ARGUMENT_DEFINITION | INPUT_FIELD_DEFINITION | ENUM_VALUE";
   tx "directive @include(if: Boolean!) on FIELD | FRAGMENT_SPREAD | INLINE_FRAGMENT";
   tx "directive @oneOf on INPUT_OBJECT";
   tx "directive @skip(if: Boolean!) on FIELD | FRAGMENT_SPREAD | INLINE_FRAGMENT";
   tx "directive @specifiedBy(url: String!) on SCALAR"].
Definition builtin_directives_at : list lddef := Eval vm_compute in flat_map (fun s => match parsed parse_ddef_at s with Some d => [d] | None => [] end) directive_texts.

(** ** Complete documents *)
(** type_definition.rs:23-31. [builtin]: the flag of the definition; [root]: whether the two fields of query roots were added
    (:223-247). The fields that are not of the text are in [fields_at]. *)
Inductive ctype := CBuiltin (b : builtin) | CType (builtin root : bool) (t : ltdef).
Definition cddef : Type := bool * lddef.
Record lcdoc := { lc_schemas : list lesdef; lc_ddefs : list cddef; lc_types : list ctype }.
Definition ltd_name (t : ltdef) : lname :=
  match t with LDScalar n _ _ | LDObject n _ _ _ _ | LDInterface n _ _ _ _ | LDUnion n _ _ _ | LDInput n _ _ _ | LDEnum n _ _ _ => n end.
Definition ct_name (t : ctype) : name := match t with CBuiltin b => builtin_name b | CType _ _ t => fst (ltd_name t) end.
Definition cd_name (d : cddef) : name := fst (ldd_name (snd d)).
(** [name_token] (type_definition.rs:96-106) *)
Definition ct_token (t : ctype) : option lname := match t with CBuiltin _ => None | CType _ _ t => Some (ltd_name t) end.
(** [is_builtin] (bluejay-core/src/definition/type_definition.rs:132-141): only objects, enums and built-in scalars can be *)
Definition ct_builtin (t : ctype) : bool :=
  match t with CBuiltin _ => true | CType b _ (LDObject _ _ _ _ _ | LDEnum _ _ _ _) => b | CType _ _ _ => false end.
Definition ct_is_object (t : ctype) : bool := match t with CType _ _ (LDObject _ _ _ _ _) => true | _ => false end.
Definition ct_is_interface (t : ctype) : bool := match t with CType _ _ (LDInterface _ _ _ _ _) => true | _ => false end.
(** which types can be input or output types (type_definition.rs:123-150) *)
Definition ct_is_input (t : ctype) : bool :=
  match t with CBuiltin _ | CType _ _ (LDScalar _ _ _ | LDInput _ _ _ _ | LDEnum _ _ _ _) => true | _ => false end.
Definition ct_is_output (t : ctype) : bool := match t with CType _ _ (LDInput _ _ _ _) => false | _ => true end.
(** the fields of an object or interface type: [FieldsDefinition::from_tokens] (fields_definition.rs:27-43) puts [__typename] first,
    [add_query_root_fields] (:46-49) adds two at the end *)
Definition fields_at (root : bool) (fs : list lfdef) : list lfdef := typename_at :: fs ++ (if root then [schema_field_at; type_field_at] else []).

Definition doc_types (l : list lsysdef) : list ltdef := flat_map (fun x => match x with LTypeDef t => [t] | _ => [] end) l.
Definition doc_ddefs (l : list lsysdef) : list lddef := flat_map (fun x => match x with LDirectiveDef d => [d] | _ => [] end) l.
Definition doc_schemas (l : list lsysdef) : list lesdef := flat_map (fun x => match x with LSchemaDef e => [e] | _ => [] end) l.
(** [DefinitionDocument::new] (:148-162), [insert_builtin_scalar_definitions], [insert_builtin_directive_definitions] (:187-221),
    [add_query_root_fields] (:223-247); the orders are those of the hash maps *)
Definition query_roots_at (es : list lesdef) : list name :=
  flat_map (fun e => flat_map (fun p : optype * lname => match fst p with OQuery => [fst (snd p)] | _ => [] end) (les_roots e)) es.
Definition rooted (roots : list name) (t : ctype) : ctype :=
  match t with
  | CType b r (LDObject n d is_ ds fs) => CType b (r || teqb (fst n) (tx "Query") || tmem (fst n) roots) (LDObject n d is_ ds fs)
  | _ => t
  end.
Definition complete_at (scalar_order : list builtin) (directive_order : list lddef) (l : list lsysdef) : lcdoc :=
  let types := map (CType true false) introspection_at ++ map (CType false false) (doc_types l) in
  let ddefs := doc_ddefs l in
  {| lc_schemas := doc_schemas l;
     lc_ddefs := map (pair false) ddefs ++ map (pair true) (filter (fun b => negb (tmem (fst (ldd_name b)) (map (fun d => fst (ldd_name d)) ddefs))) directive_order);
     lc_types := map (rooted (query_roots_at (doc_schemas l)))
                   (types ++ map CBuiltin (filter (fun b => negb (tmem (builtin_name b) (map ct_name types))) scalar_order)) |}.

(** ** Resolution *)
(** definition_document_error.rs:13-62 *)
Inductive lderror :=
| LDuplicateDirectives (n : name) (ds : list cddef)
| LDuplicateTypes (n : name) (ts : list ctype)
| LImplicitRootNotObject (t : ctype)
| LExplicitRootNotObject (n : lname)
| LImplicitMissingQuery
| LExplicitMissingQuery (e : lesdef)
| LDuplicateSchemas (es : list lesdef)
| LDuplicateRoots (ty : optype) (l : list (optype * lname))
| LExplicitRootMissing (p : optype * lname)
| LNoSchema
| LTypeMissing (n : lname)
| LNotOutput (n : lname)
| LNotInput (n : lname)
| LMemberNotObject (n : lname)
| LNotInterface (n : lname)
| LDirectiveMissing (d : ldirective).

(** [r#type.as_ref().base().name()]: the innermost name *)
Fixpoint lbase (t : ltype) : lname := match t with LTBase n _ _ => n | LTList i _ _ => lbase i end.
Definition directives_list (o : option ldirectives) : list ldirective := match o with Some l => fst l | None => [] end.
Definition ivds_list (o : option livds) : list livd := match o with Some l => fst l | None => [] end.

Section Resolve.
  Variable types : list (name * ctype).
  Variable ddefs : list (name * cddef).
  (** [resolve_directive_definitions] (:684-700) *)
  Definition resolve_directives_at (o : option ldirectives) : list lderror :=
    flat_map (fun d => match assoc (fst (ld_name d)) ddefs with Some _ => [] | None => [LDirectiveMissing d] end) (directives_list o).
  (** [resolve_input_types_and_directives] (:654-682) *)
  Definition resolve_ivd_at (i : livd) : list lderror :=
    let n := lbase (liv_type i) in
    match assoc (fst n) types with
    | Some t => if ct_is_input t then [] else [LNotInput n]
    | None => [LTypeMissing n]
    end ++ resolve_directives_at (liv_dirs i).
  (** [resolve_interface_implementations] (:633-652) *)
  Definition resolve_interfaces_at (l : list lname) : list lderror :=
    flat_map (fun n => match assoc (fst n) types with Some t => if ct_is_interface t then [] else [LNotInterface n] | None => [LTypeMissing n] end) l.
  (** [resolve_fields_definition_types_and_directives] (:595-631) *)
  Definition resolve_fdef_at (f : lfdef) : list lderror :=
    let n := lbase (lfd_type f) in
    match assoc (fst n) types with
    | Some t => if ct_is_output t then [] else [LNotOutput n]
    | None => [LTypeMissing n]
    end ++ flat_map resolve_ivd_at (ivds_list (lfd_args f)) ++ resolve_directives_at (lfd_dirs f).
  (** [resolve_type_and_directive_definitions] (:489-593). A union has the field [__typename] (union_type_definition.rs:44-60) *)
  Definition resolve_tdef_at (root : bool) (t : ltdef) : list lderror :=
    match t with
    | LDObject _ _ is_ ds fs => flat_map resolve_fdef_at (fields_at root (fst fs)) ++ resolve_interfaces_at is_ ++ resolve_directives_at ds
    | LDInterface _ _ is_ ds fs => flat_map resolve_fdef_at (fields_at false (fst fs)) ++ resolve_interfaces_at is_ ++ resolve_directives_at ds
    | LDUnion _ _ ds ms =>
        flat_map resolve_fdef_at [typename_at] ++
        flat_map (fun n => match assoc (fst n) types with Some t => if ct_is_object t then [] else [LMemberNotObject n] | None => [LTypeMissing n] end) ms ++
        resolve_directives_at ds
    | LDInput _ _ ds fs => flat_map resolve_ivd_at (fst fs) ++ resolve_directives_at ds
    | LDScalar _ _ ds => resolve_directives_at ds
    | LDEnum _ _ ds vs => resolve_directives_at ds ++ flat_map (fun v => resolve_directives_at (lev_dirs v)) (fst vs)
    end.
  Definition resolve_ctype_at (t : ctype) : list lderror := match t with CBuiltin _ => [] | CType _ root t => resolve_tdef_at root t end.
  Definition resolve_all_at : list lderror :=
    flat_map resolve_ctype_at (map snd types) ++ flat_map (fun d : cddef => flat_map resolve_ivd_at (ivds_list (ldd_args (snd d)))) (map snd ddefs).
  (** [implicit_root_operation_type] (:365-381), [implicit_schema_definition] (:333-363): the errors, and whether there is a schema *)
  Definition implicit_root_at (n : name) : bool * list lderror :=
    match assoc n types with
    | Some t => if ct_is_object t then (true, []) else (false, [LImplicitRootNotObject t])
    | None => (false, [])
    end.
  Definition implicit_schema_at : bool + list lderror :=
    let '(q, e1) := implicit_root_at (tx "Query") in
    let '(m, e2) := implicit_root_at (tx "Mutation") in
    let '(s, e3) := implicit_root_at (tx "Subscription") in
    match e1 ++ e2 ++ e3 with
    | [] => if q then inl true else if m || s then inr [LImplicitMissingQuery] else inl false
    | es => inr es
    end.
  (** [explicit_operation_type_definition] (:447-487), [explicit_schema_definition] (:383-445) *)
  Definition explicit_root_at (ty : optype) (e : lesdef) : bool * list lderror :=
    match filter (fun p => optype_eqb (fst p) ty) (les_roots e) with
    | [] => (false, [])
    | [p] => match assoc (fst (snd p)) types with
             | Some t => if ct_is_object t then (true, []) else (false, [LExplicitRootNotObject (snd p)])
             | None => (false, [LExplicitRootMissing p])
             end
    | l => (false, [LDuplicateRoots ty l])
    end.
  Definition explicit_schema_at (es : list lesdef) : bool + list lderror :=
    match es with
    | [] => inl false
    | [e] =>
        let '(q, e1) := explicit_root_at OQuery e in
        let '(m, e2) := explicit_root_at OMutation e in
        let '(s, e3) := explicit_root_at OSubscription e in
        match e1 ++ e2 ++ e3 with
        | [] => if q then inl true else inr [LExplicitMissingQuery e]
        | errs => inr errs
        end
    | _ => inr [LDuplicateSchemas es]
    end.
End Resolve.

(** [TryFrom<&DefinitionDocument> for SchemaDefinition] (:702-750): the errors, none if there is a schema *)
Definition resolve_at (d : lcdoc) : list lderror :=
  let '(types, dup_types) := index ct_name (lc_types d) in
  let '(ddefs, dup_ddefs) := index cd_name (lc_ddefs d) in
  match map (fun p => LDuplicateTypes (fst p) (snd p)) dup_types ++ map (fun p => LDuplicateDirectives (fst p) (snd p)) dup_ddefs ++ resolve_all_at types ddefs with
  | [] =>
      match explicit_schema_at types (lc_schemas d) with
      | inr es => es
      | inl true => []
      | inl false => match implicit_schema_at types with inr es => es | inl true => [] | inl false => [LNoSchema] end
      end
  | es => es
  end.

(** ** Errors *)
(** [Display] of [OperationType] (bluejay-core/src/operation_type.rs:4-10) *)
Definition optype_name (t : optype) : text := match t with OQuery => tx "query" | OMutation => tx "mutation" | OSubscription => tx "subscription" end.
Definition ticked (before : string) (n : text) (after : string) : text := tx before ++ n ++ tx after.
Fixpoint all_some {A} (l : list (option A)) : option (list A) :=
  match l with [] => Some [] | x :: l' => match x, all_some l' with Some a, Some r => Some (a :: r) | _, _ => None end end.
(** [From<DefinitionDocumentError> for Error] (definition_document_error.rs:64-262); [None]: an [unwrap] of a name token panics *)
Definition error_of (e : lderror) : option err :=
  let marks_one (m : text) (label : string) (sp : nat * nat) := Some {| er_message := m; er_primary := Some (tx label, sp); er_secondary := [] |} in
  let marks_all (m : text) (l : list annotation) := {| er_message := m; er_primary := None; er_secondary := l |} in
  let missing (n : lname) := marks_one (ticked "Referenced type `" (fst n) "` does not exist") "No definition for referenced type" (snd n) in
  let not_object (n : lname) := marks_one (ticked "Referenced type `" (fst n) "` is not an object") "Not an object type" (snd n) in
  match e with
  | LDuplicateDirectives n ds =>
      Some (marks_all (if existsb fst ds then ticked "Cannot redefine builtin directive @" n "" else ticked "Multiple directive definitions with name `@" n "`")
              (map (fun d : cddef => (ticked "Directive definition with name `@" n "`", snd (ldd_name (snd d)))) (filter (fun d => negb (fst d)) ds)))
  | LDuplicateRoots ty l =>
      Some (marks_all (ticked "Multiple root operation type definitions for `" (optype_name ty) "`")
              (map (fun p => (ticked "Root operation type definition for `" (optype_name ty) "`", snd (snd p))) l))
  | LDuplicateSchemas es => Some (marks_all (tx "Multiple schema definitions") (map (fun x => (tx "Schema definition", les_ident x)) es))
  | LDuplicateTypes n ts =>
      option_map (marks_all (if existsb ct_builtin ts then ticked "Cannot redefine builtin type " n "" else ticked "Multiple type definitions with name `" n "`"))
        (all_some (map (fun t => option_map (fun x : lname => (ticked "Type definition with name `" n "`", snd x)) (ct_token t)) (filter (fun t => negb (ct_builtin t)) ts)))
  | LExplicitRootMissing p => missing (snd p)
  | LExplicitMissingQuery x => marks_one (tx "Schema definition does not contain a query") "Does not contain a query" (les_roots_span x)
  | LImplicitMissingQuery => Some (marks_all (tx "Implicit schema definition missing query") [])
  | LNoSchema => Some (marks_all (tx "Document does not contain a schema definition") [])
  | LTypeMissing n => missing n
  | LNotInput n => marks_one (ticked "Referenced type `" (fst n) "` is not an input type") "Not an input type" (snd n)
  | LNotInterface n => marks_one (ticked "Referenced type `" (fst n) "` is not an interface") "Not an interface" (snd n)
  | LNotOutput n => marks_one (ticked "Referenced type `" (fst n) "` is not an output type") "Not an output type" (snd n)
  | LMemberNotObject n => not_object n
  | LImplicitRootNotObject t => match ct_token t with Some n => not_object n | None => None end
  | LExplicitRootNotObject n => not_object n
  | LDirectiveMissing d => marks_one (ticked "Referenced directive `@" (fst (ld_name d)) "` does not exist") "No definition for referenced directive" (ld_span d)
  end.
(** the errors of a schema document that was read *)
Definition schema_errors (scalar_order : list builtin) (directive_order : list lddef) (l : list lsysdef) : option (list err) :=
  all_some (map error_of (resolve_at (complete_at scalar_order directive_order l))).
