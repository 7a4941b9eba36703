(** bluejay-parser: from tokens to definition documents (src/ast/definition/*.rs). The conventions are those of Parser.v.
    Simplifications: [Option<ArgumentsDefinition>], [Option<InterfaceImplementations>], [Option<Directives>] are lists, [] for None
    (the parser builds [Some] of an empty list only for the directives of an input value, input_value_definition.rs:53). *)
From Coq Require Import String.
From Verif Require Import Base Ast Lexer Parser.

(** ** ast/tokens.rs *)
(** [next_if_string_value] (:164-167), [next_if_name_matches] (:176-178) *)
Definition next_if_string (ts : list token) : option text * list token :=
  match ts with TkStr s :: r => (Some s, r) | _ => (None, ts) end.
Definition next_if_name_matches (v : text) (ts : list token) : option (list token) :=
  match ts with TkName n :: r => if teqb n v then Some r else None | _ => None end.

(** ** Input values, fields, enum values *)
(** [InputValueDefinition::from_tokens] (input_value_definition.rs:41-62), [InputType::from_tokens] (input_type.rs:96-121) *)
Definition parse_ivd (ts : list token) : presult ivd :=
  let '(desc, r0) := next_if_string ts in
  do (n, r1) <- expect_name r0; do (u, r2) <- expect_punct PColon r1;
  do (t, r3) <- parse_tref (S (length r2)) r2;
  do (d, r4) <- parse_default r3;
  do (ds, r5) <- parse_directives true r4;
  POk {| iv_name := n; iv_desc := desc; iv_type := t; iv_default := d; iv_dirs := ds |} r5.
(** [ArgumentsDefinition::from_tokens], [is_match] (arguments_definition.rs:27-49) *)
Definition parse_ivds_args (ts : list token) : presult (list ivd) :=
  if peek_punct POpenRound ts then
    do (u, r) <- expect_punct POpenRound ts; many1 parse_ivd PCloseRound (S (length r)) r
  else POk [] ts.
(** [FieldDefinition::from_tokens] (field_definition.rs:64-82), [OutputType::from_tokens] (output_type.rs:107-130) *)
Definition parse_fdef (ts : list token) : presult fdef :=
  let '(desc, r0) := next_if_string ts in
  do (n, r1) <- expect_name r0;
  do (args, r2) <- parse_ivds_args r1;
  do (u, r3) <- expect_punct PColon r2;
  do (t, r4) <- parse_tref (S (length r3)) r3;
  do (ds, r5) <- parse_directives true r4;
  POk {| fd_name := n; fd_desc := desc; fd_args := args; fd_type := t; fd_dirs := ds; fd_builtin := false |} r5.
(** [__typename], [__schema], [__type] (field_definition.rs:16-37), parsed from constants *)
Definition typename_field : fdef :=
  {| fd_name := tx "__typename"; fd_desc := None; fd_args := []; fd_type := TBase (tx "String") true; fd_dirs := []; fd_builtin := true |}.
Definition schema_field : fdef :=
  {| fd_name := tx "__schema"; fd_desc := None; fd_args := []; fd_type := TBase (tx "__Schema") true; fd_dirs := []; fd_builtin := true |}.
Definition type_field : fdef :=
  {| fd_name := tx "__type"; fd_desc := None;
     fd_args := [{| iv_name := tx "name"; iv_desc := None; iv_type := TBase (tx "String") true; iv_default := None; iv_dirs := [] |}];
     fd_type := TBase (tx "__Type") false; fd_dirs := []; fd_builtin := true |}.
(** [FieldsDefinition::from_tokens] (fields_definition.rs:27-43) *)
Definition parse_fdefs (ts : list token) : presult (list fdef) :=
  do (u, r) <- expect_punct POpenBrace ts;
  do (l, r') <- many1 parse_fdef PCloseBrace (S (length r)) r;
  POk (typename_field :: l) r'.
(** [EnumValueDefinition::from_tokens] (enum_value_definition.rs:34-51), [EnumValueDefinitions::from_tokens]
    (enum_value_definitions.rs:26-43) *)
Definition parse_evd (ts : list token) : presult evd :=
  let '(desc, r0) := next_if_string ts in
  do (n, r1) <- expect_name r0;
  if teqb n (tx "null") || teqb n (tx "true") || teqb n (tx "false") then PErr (PEEnum n) r1
  else do (ds, r2) <- parse_directives true r1; POk {| ev_name := n; ev_desc := desc; ev_dirs := ds |} r2.
Definition parse_evds (ts : list token) : presult (list evd) :=
  do (u, r) <- expect_punct POpenBrace ts; many1 parse_evd PCloseBrace (S (length r)) r.
(** [InputFieldsDefinition::from_tokens] (input_fields_definition.rs:26-43) *)
Definition parse_input_fields (ts : list token) : presult (list ivd) :=
  do (u, r) <- expect_punct POpenBrace ts; many1 parse_ivd PCloseBrace (S (length r)) r.

(** ** Lists with separators *)
(** [while next_if_punctuator(sep).is_some() { push(item) }] (interface_implementations.rs:36-41, union_member_types.rs:29-31,
    directive_definition.rs:176-178) *)
Fixpoint many_sep {A} (item : list token -> presult A) (sep : punct) (fuel : nat) (ts : list token) {struct fuel} : presult (list A) :=
  match fuel with
  | 0 => PErr PEFuel ts
  | S fuel' =>
      match next_if_punct sep ts with
      | Some r => do (a, r1) <- item r; do (l, r2) <- many_sep item sep fuel' r1; POk (a :: l) r2
      | None => POk [] ts
      end
  end.
(** an optional separator, then items with separators between them *)
Definition parse_sep_list {A} (item : list token -> presult A) (sep : punct) (ts : list token) : presult (list A) :=
  let r0 := match next_if_punct sep ts with Some r => r | None => ts end in
  do (a, r1) <- item r0; do (l, r2) <- many_sep item sep (S (length r1)) r1; POk (a :: l) r2.
(** [InterfaceImplementations::from_tokens], [is_match] (interface_implementations.rs:31-50), as an option *)
Definition parse_implements (ts : list token) : presult (list name) :=
  if peek_name_matches (tx "implements") ts then
    do (u, r) <- expect_name_value (tx "implements") ts; parse_sep_list expect_name PAmpersand r
  else POk [] ts.
(** [UnionMemberTypes::from_tokens] (union_member_types.rs:25-34) *)
Definition parse_members (ts : list token) : presult (list name) := parse_sep_list expect_name PPipe ts.
(** [DirectiveLocation] (bluejay-core/src/definition/directive_definition.rs:5-29, SCREAMING_SNAKE_CASE) *)
Definition dloc_text (l : dloc) : text :=
  match l with
  | LQuery => tx "QUERY" | LMutation => tx "MUTATION" | LSubscription => tx "SUBSCRIPTION" | LField => tx "FIELD"
  | LFragmentDefinition => tx "FRAGMENT_DEFINITION" | LFragmentSpread => tx "FRAGMENT_SPREAD" | LInlineFragment => tx "INLINE_FRAGMENT"
  | LVariableDefinition => tx "VARIABLE_DEFINITION" | LSchema => tx "SCHEMA" | LScalar => tx "SCALAR" | LObject => tx "OBJECT"
  | LFieldDefinition => tx "FIELD_DEFINITION" | LArgumentDefinition => tx "ARGUMENT_DEFINITION" | LInterface => tx "INTERFACE"
  | LUnion => tx "UNION" | LEnum => tx "ENUM" | LEnumValue => tx "ENUM_VALUE" | LInputObject => tx "INPUT_OBJECT"
  | LInputFieldDefinition => tx "INPUT_FIELD_DEFINITION"
  end.
Definition all_dlocs : list dloc :=
  [LQuery; LMutation; LSubscription; LField; LFragmentDefinition; LFragmentSpread; LInlineFragment; LVariableDefinition; LSchema;
   LScalar; LObject; LFieldDefinition; LArgumentDefinition; LInterface; LUnion; LEnum; LEnumValue; LInputObject; LInputFieldDefinition].
Definition dloc_of (n : text) : option dloc := find (fun l => teqb (dloc_text l) n) all_dlocs.
(** [DirectiveLocation::from_tokens] (directive_definition.rs:131-146), [DirectiveLocations::from_tokens] (:171-182) *)
Definition parse_location (ts : list token) : presult dloc :=
  do (n, r) <- expect_name ts; match dloc_of n with Some l => POk l r | None => PErr (PEOneOf (TkName n) (map dloc_text all_dlocs)) r end.
Definition parse_locations (ts : list token) : presult (list dloc) := parse_sep_list parse_location PPipe ts.

(** ** Definitions *)
(** [CustomScalarTypeDefinition::from_tokens] (custom_scalar_type_definition.rs:48-62) *)
Definition parse_scalar (ts : list token) : presult tdef :=
  let '(desc, r0) := next_if_string ts in
  do (u, r1) <- expect_name_value (tx "scalar") r0; do (n, r2) <- expect_name r1; do (ds, r3) <- parse_directives true r2;
  POk (DScalar {| sc_name := n; sc_desc := desc; sc_dirs := ds |}) r3.
(** [ObjectTypeDefinition::from_tokens] (object_type_definition.rs:136-155) *)
Definition parse_object (ts : list token) : presult tdef :=
  let '(desc, r0) := next_if_string ts in
  do (u, r1) <- expect_name_value (tx "type") r0; do (n, r2) <- expect_name r1;
  do (is_, r3) <- parse_implements r2; do (ds, r4) <- parse_directives true r3; do (fs, r5) <- parse_fdefs r4;
  POk (DObject {| ob_name := n; ob_desc := desc; ob_ifaces := is_; ob_dirs := ds; ob_fields := fs; ob_builtin := false |}) r5.
(** [InterfaceTypeDefinition::from_tokens] (interface_type_definition.rs:45-63) *)
Definition parse_interface (ts : list token) : presult tdef :=
  let '(desc, r0) := next_if_string ts in
  do (u, r1) <- expect_name_value (tx "interface") r0; do (n, r2) <- expect_name r1;
  do (is_, r3) <- parse_implements r2; do (ds, r4) <- parse_directives true r3; do (fs, r5) <- parse_fdefs r4;
  POk (DInterface {| if_name := n; if_desc := desc; if_ifaces := is_; if_dirs := ds; if_fields := fs |}) r5.
(** [UnionTypeDefinition::from_tokens] (union_type_definition.rs:44-60) *)
Definition parse_union (ts : list token) : presult tdef :=
  let '(desc, r0) := next_if_string ts in
  do (u, r1) <- expect_name_value (tx "union") r0; do (n, r2) <- expect_name r1; do (ds, r3) <- parse_directives true r2;
  do (u', r4) <- expect_punct PEquals r3; do (ms, r5) <- parse_members r4;
  POk (DUnion {| un_name := n; un_desc := desc; un_dirs := ds; un_members := ms; un_fields := [typename_field] |}) r5.
(** [InputObjectTypeDefinition::from_tokens] (input_object_type_definition.rs:40-54) *)
Definition parse_input (ts : list token) : presult tdef :=
  let '(desc, r0) := next_if_string ts in
  do (u, r1) <- expect_name_value (tx "input") r0; do (n, r2) <- expect_name r1; do (ds, r3) <- parse_directives true r2;
  do (fs, r4) <- parse_input_fields r3;
  POk (DInput {| io_name := n; io_desc := desc; io_dirs := ds; io_fields := fs |}) r4.
(** [EnumTypeDefinition::from_tokens] (enum_type_definition.rs:87-103) *)
Definition parse_enum (ts : list token) : presult tdef :=
  let '(desc, r0) := next_if_string ts in
  do (u, r1) <- expect_name_value (tx "enum") r0; do (n, r2) <- expect_name r1; do (ds, r3) <- parse_directives true r2;
  do (vs, r4) <- parse_evds r3;
  POk (DEnum {| en_name := n; en_desc := desc; en_dirs := ds; en_values := vs; en_builtin := false |}) r4.
(** [DirectiveDefinition::from_tokens] (directive_definition.rs:102-123) *)
Definition parse_ddef (ts : list token) : presult ddef :=
  let '(desc, r0) := next_if_string ts in
  do (u, r1) <- expect_name_value (tx "directive") r0; do (u', r2) <- expect_punct PAt r1; do (n, r3) <- expect_name r2;
  do (args, r4) <- parse_ivds_args r3;
  let '(rep, r5) := match next_if_name_matches (tx "repeatable") r4 with Some r => (true, r) | None => (false, r4) end in
  do (u'', r6) <- expect_name_value (tx "on") r5;
  do (ls, r7) <- parse_locations r6;
  POk {| dd_name := n; dd_desc := desc; dd_args := args; dd_repeatable := rep; dd_locs := ls; dd_builtin := false |} r7.
(** explicit_schema_definition.rs:11-17, :73-77 *)
Record esdef := { es_desc : option text; es_dirs : list directive; es_roots : list (optype * name) }.
(** [RootOperationTypeDefinition::from_tokens] (:93-109), [ExplicitSchemaDefinition::from_tokens] (:42-70) *)
Definition parse_root (ts : list token) : presult (optype * name) :=
  do (w, r1) <- expect_name ts;
  match optype_of w with
  | None => PErr (PEOneOf (TkName w) (map tx ["query"; "mutation"; "subscription"]%string)) r1
  | Some ty => do (u, r2) <- expect_punct PColon r1; do (n, r3) <- expect_name r2; POk (ty, n) r3
  end.
Definition parse_esdef (ts : list token) : presult esdef :=
  let '(desc, r0) := next_if_string ts in
  do (u, r1) <- expect_name_value (tx "schema") r0; do (ds, r2) <- parse_directives true r1;
  do (u', r3) <- expect_punct POpenBrace r2; do (l, r4) <- many1 parse_root PCloseBrace (S (length r3)) r3;
  POk {| es_desc := desc; es_dirs := ds; es_roots := l |} r4.

(** ** Documents *)
(** definition_document.rs:19-24 *)
Record defdoc := { df_schemas : list esdef; df_ddefs : list ddef; df_types : list tdef }.
Inductive sysdef := SysSchema (e : esdef) | SysDirective (d : ddef) | SysType (t : tdef).
(** [next_definition_identifier] (:249-252) *)
Definition next_identifier (ts : list token) : option text :=
  match ts with
  | TkStr _ :: TkName n :: _ => Some n
  | TkName n :: _ => Some n
  | _ => None
  end.
Definition as_type (x : presult tdef) : presult sysdef := do (t, r) <- x; POk (SysType t) r.
(** the arms of the loop (:47-124): None for the last arm *)
Definition try_sysdef (ts : list token) : option (presult sysdef) :=
  match next_identifier ts with
  | None => None
  | Some n =>
      if teqb n (tx "scalar") then Some (as_type (parse_scalar ts))
      else if teqb n (tx "type") then Some (as_type (parse_object ts))
      else if teqb n (tx "input") then Some (as_type (parse_input ts))
      else if teqb n (tx "enum") then Some (as_type (parse_enum ts))
      else if teqb n (tx "union") then Some (as_type (parse_union ts))
      else if teqb n (tx "interface") then Some (as_type (parse_interface ts))
      else if teqb n (tx "schema") then Some (do (e, r) <- parse_esdef ts; POk (SysSchema e) r)
      else if teqb n (tx "directive") then Some (do (d, r) <- parse_ddef ts; POk (SysDirective d) r)
      else None
  end.
(** [parse_definition] (:164-183) pushes the definition to its list *)
Definition push (d : defdoc) (x : sysdef) : defdoc :=
  match x with
  | SysSchema e => {| df_schemas := df_schemas d ++ [e]; df_ddefs := df_ddefs d; df_types := df_types d |}
  | SysDirective e => {| df_schemas := df_schemas d; df_ddefs := df_ddefs d ++ [e]; df_types := df_types d |}
  | SysType t => {| df_schemas := df_schemas d; df_ddefs := df_ddefs d; df_types := df_types d ++ [t] |}
  end.
Fixpoint sysdoc_loop (fuel : nat) (ts : list token) (d : defdoc) (errs : list perr) (last_failed : bool) {struct fuel} : defdoc * list perr :=
  match fuel with
  | 0 => (d, errs ++ [PEFuel])
  | S fuel' =>
      match try_sysdef ts with
      | Some (POk x r) => sysdoc_loop fuel' r (push d x) errs false
      | Some (PErr e r) => sysdoc_loop fuel' r d (if last_failed then errs else errs ++ [e]) true
      | None =>
          match ts with
          | t :: r => sysdoc_loop fuel' r d (if last_failed then errs else errs ++ [PEToken t]) true
          | [] => (d, errs)
          end
      end
  end.

(** *** The introspection types, parsed from constants and marked as built in *)
Definition nullable (n : string) : tref := TBase (tx n) false.
Definition required (n : string) : tref := TBase (tx n) true.
Definition list_of (n : string) : tref := TList (TBase (tx n) true) false.
Definition required_list_of (n : string) : tref := TList (TBase (tx n) true) true.
Definition plain_field (n : string) (t : tref) : fdef :=
  {| fd_name := tx n; fd_desc := None; fd_args := []; fd_type := t; fd_dirs := []; fd_builtin := false |}.
(** [(includeDeprecated: Boolean = false)] *)
Definition deprecated_field (n : string) (t : tref) : fdef :=
  {| fd_name := tx n; fd_desc := None;
     fd_args := [{| iv_name := tx "includeDeprecated"; iv_desc := None; iv_type := nullable "Boolean"; iv_default := Some (VBool false); iv_dirs := [] |}];
     fd_type := t; fd_dirs := []; fd_builtin := false |}.
Definition introspection_object (n : string) (fs : list fdef) : tdef :=
  DObject {| ob_name := tx n; ob_desc := None; ob_ifaces := []; ob_dirs := []; ob_fields := typename_field :: fs; ob_builtin := true |}.
Definition introspection_enum (n : string) (vs : list text) : tdef :=
  DEnum {| en_name := tx n; en_desc := None; en_dirs := []; en_values := map (fun v => {| ev_name := v; ev_desc := None; ev_dirs := [] |}) vs; en_builtin := true |}.
(** object_type_definition.rs:43-95, enum_type_definition.rs:36-66, in the order of definition_document.rs:152-161 *)
Definition introspection_types : list tdef :=
  [introspection_object "__Schema"
     [plain_field "description" (nullable "String"); plain_field "types" (required_list_of "__Type"); plain_field "queryType" (required "__Type");
      plain_field "mutationType" (nullable "__Type"); plain_field "subscriptionType" (nullable "__Type"); plain_field "directives" (required_list_of "__Directive")];
   introspection_object "__Type"
     [plain_field "kind" (required "__TypeKind"); plain_field "name" (nullable "String"); plain_field "description" (nullable "String");
      deprecated_field "fields" (list_of "__Field"); plain_field "interfaces" (list_of "__Type"); plain_field "possibleTypes" (list_of "__Type");
      deprecated_field "enumValues" (list_of "__EnumValue"); deprecated_field "inputFields" (list_of "__InputValue");
      plain_field "ofType" (nullable "__Type"); plain_field "specifiedByURL" (nullable "String")];
   introspection_object "__Field"
     [plain_field "name" (required "String"); plain_field "description" (nullable "String"); deprecated_field "args" (required_list_of "__InputValue");
      plain_field "type" (required "__Type"); plain_field "isDeprecated" (required "Boolean"); plain_field "deprecationReason" (nullable "String")];
   introspection_object "__InputValue"
     [plain_field "name" (required "String"); plain_field "description" (nullable "String"); plain_field "type" (required "__Type");
      plain_field "defaultValue" (nullable "String")];
   introspection_object "__EnumValue"
     [plain_field "name" (required "String"); plain_field "description" (nullable "String"); plain_field "isDeprecated" (required "Boolean");
      plain_field "deprecationReason" (nullable "String")];
   introspection_object "__Directive"
     [plain_field "name" (required "String"); plain_field "description" (nullable "String"); plain_field "locations" (required_list_of "__DirectiveLocation");
      deprecated_field "args" (required_list_of "__InputValue"); plain_field "isRepeatable" (required "Boolean")];
   introspection_enum "__TypeKind" (map tx ["SCALAR"; "OBJECT"; "INTERFACE"; "UNION"; "ENUM"; "INPUT_OBJECT"; "LIST"; "NON_NULL"]%string);
   introspection_enum "__DirectiveLocation" (map dloc_text all_dlocs)].

(** *** Built-in scalars and directives *)
(** [BuiltinScalarDefinition::iter()] *)
Definition all_builtins : list builtin := [BInt; BFloat; BString; BBoolean; BID].
(** [BuiltinDirectiveDefinition] (directive_definition.rs:16-61) *)
Definition builtin_directive (n : string) (args : list ivd) (ls : list dloc) : ddef :=
  {| dd_name := tx n; dd_desc := None; dd_args := args; dd_repeatable := false; dd_locs := ls; dd_builtin := true |}.
Definition plain_argument (n : string) (t : tref) (d : option value) : ivd :=
  {| iv_name := tx n; iv_desc := None; iv_type := t; iv_default := d; iv_dirs := [] |}.
Definition all_builtin_directives : list ddef :=
  [builtin_directive "deprecated" [plain_argument "reason" (nullable "String") (Some (VStr (tx "No longer supported")))]
     [LFieldDefinition; LArgumentDefinition; LInputFieldDefinition; LEnumValue];
   builtin_directive "include" [plain_argument "if" (required "Boolean") None] [LField; LFragmentSpread; LInlineFragment];
   builtin_directive "oneOf" [] [LInputObject];
   builtin_directive "skip" [plain_argument "if" (required "Boolean") None] [LField; LFragmentSpread; LInlineFragment];
   builtin_directive "specifiedBy" [plain_argument "url" (required "String") None] [LScalar]].

Section Document.
  (** the orders in which the two hash maps yield their entries (definition_document.rs:197-199, :216-218): any orders *)
  Variable scalar_order : list builtin.
  Variable directive_order : list ddef.

  (** [insert_builtin_scalar_definitions] (:187-201): a map of the built-in scalars, minus the names of the type definitions *)
  Definition insert_scalars (d : defdoc) : defdoc :=
    {| df_schemas := df_schemas d; df_ddefs := df_ddefs d;
       df_types := df_types d ++ map DBuiltin (filter (fun b => negb (tmem (builtin_name b) (map td_name (df_types d)))) scalar_order) |}.
  (** [insert_builtin_directive_definitions] (:205-221) *)
  Definition insert_directives (d : defdoc) : defdoc :=
    {| df_schemas := df_schemas d;
       df_ddefs := df_ddefs d ++ filter (fun b => negb (tmem (dd_name b) (map dd_name (df_ddefs d)))) directive_order;
       df_types := df_types d |}.
  (** [add_query_root_fields] (:223-247, object_type_definition.rs:131-133, fields_definition.rs:46-49) *)
  Definition query_roots (d : defdoc) : list name :=
    flat_map (fun e => flat_map (fun p => match fst p with OQuery => [snd p] | _ => [] end) (es_roots e)) (df_schemas d).
  Definition with_root_fields (roots : list name) (t : tdef) : tdef :=
    match t with
    | DObject o =>
        if teqb (ob_name o) (tx "Query") || tmem (ob_name o) roots then
          DObject {| ob_name := ob_name o; ob_desc := ob_desc o; ob_ifaces := ob_ifaces o; ob_dirs := ob_dirs o;
                     ob_fields := ob_fields o ++ [schema_field; type_field]; ob_builtin := ob_builtin o |}
        else t
    | _ => t
    end.
  Definition add_root_fields (d : defdoc) : defdoc :=
    {| df_schemas := df_schemas d; df_ddefs := df_ddefs d; df_types := map (with_root_fields (query_roots d)) (df_types d) |}.
  (** [is_builtin] (bluejay-core/src/definition/type_definition.rs:132-141), [definition_count], [is_empty] (:245-267) *)
  Definition td_builtin (t : tdef) : bool :=
    match t with DBuiltin _ => true | DObject o => ob_builtin o | DEnum e => en_builtin e | _ => false end.
  Definition definition_count (d : defdoc) : nat :=
    length (filter (fun x => negb (dd_builtin x)) (df_ddefs d)) + length (df_schemas d) + length (filter (fun t => negb (td_builtin t)) (df_types d)).
  (** [DefinitionDocument::new] (:148-162) *)
  Definition new_document : defdoc := {| df_schemas := []; df_ddefs := []; df_types := introspection_types |}.
  (** [DefinitionDocument::parse_from_tokens] (:41-144) on what the lexer yields *)
  Definition parse_sysdoc (items : list (token + lex_error)) : defdoc + list error :=
    let ts := item_tokens items in
    let '(d, errs) := sysdoc_loop (S (length ts)) ts new_document [] false in
    let errors :=
      match item_errors items with
      | [] => match errs with
              | [] => if Nat.eqb (definition_count d) 0 then [EParse PEEmpty] else []
              | _ => map EParse errs
              end
      | es => map ELex es
      end in
    match errors with [] => inl (add_root_fields (insert_directives (insert_scalars d))) | _ => inr errors end.
  (** [DefinitionDocument::parse] on a text *)
  Definition parse_schema_text (recover : text -> nat) (other_digit : N -> bool) (parse_f64 : text -> option N) (s : text) : defdoc + list error :=
    parse_sysdoc (map fst (lex recover other_digit parse_f64 false s)).
End Document.
