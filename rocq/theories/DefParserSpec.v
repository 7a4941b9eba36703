(** The grammar of type system documents, as the way each definition is written in tokens. *)
From Verif Require Import Base Ast Lexer ParserSpec DefParser.

Definition tk_desc (d : option text) : list token := match d with Some s => [TkStr s] | None => [] end.
Definition tk_default (d : option value) : list token := match d with Some v => P PEquals :: tk_value v | None => [] end.
Definition tk_ivd (i : ivd) : list token :=
  tk_desc (iv_desc i) ++ TkName (iv_name i) :: P PColon :: tk_tref (iv_type i) ++ tk_default (iv_default i) ++ tk_directives (iv_dirs i).
Definition tk_args_def (l : list ivd) : list token :=
  match l with [] => [] | _ => P POpenRound :: concat (map tk_ivd l) ++ [P PCloseRound] end.
Definition tk_fdef (f : fdef) : list token :=
  tk_desc (fd_desc f) ++ TkName (fd_name f) :: tk_args_def (fd_args f) ++ P PColon :: tk_tref (fd_type f) ++ tk_directives (fd_dirs f).
Definition braced {A} (tk : A -> list token) (l : list A) : list token := P POpenBrace :: concat (map tk l) ++ [P PCloseBrace].
(** [__typename], [__schema] and [__type] are not written *)
Definition written_fields (fs : list fdef) : list fdef := filter (fun f => negb (fd_builtin f)) fs.
Definition tk_evd (v : evd) : list token := tk_desc (ev_desc v) ++ TkName (ev_name v) :: tk_directives (ev_dirs v).
(** a list with separators: [lead] tells whether there is one before the first item *)
Definition tk_sep_list {A} (lead : bool) (sep : punct) (tk : A -> list token) (l : list A) : list token :=
  match l with [] => [] | a :: l' => (if lead then [P sep] else []) ++ tk a ++ concat (map (fun b => P sep :: tk b) l') end.
Definition tk_name (n : name) : list token := [TkName n].
Definition tk_implements (lead : bool) (l : list name) : list token :=
  match l with [] => [] | _ => TkName (tx "implements") :: tk_sep_list lead PAmpersand tk_name l end.
(** the words for the locations, as in the GraphQL specification *)
Definition location_word (l : dloc) : string :=
  match l with
  | LQuery => "QUERY" | LMutation => "MUTATION" | LSubscription => "SUBSCRIPTION" | LField => "FIELD" | LFragmentDefinition => "FRAGMENT_DEFINITION"
  | LFragmentSpread => "FRAGMENT_SPREAD" | LInlineFragment => "INLINE_FRAGMENT" | LVariableDefinition => "VARIABLE_DEFINITION"
  | LSchema => "SCHEMA" | LScalar => "SCALAR" | LObject => "OBJECT" | LFieldDefinition => "FIELD_DEFINITION" | LArgumentDefinition => "ARGUMENT_DEFINITION"
  | LInterface => "INTERFACE" | LUnion => "UNION" | LEnum => "ENUM" | LEnumValue => "ENUM_VALUE" | LInputObject => "INPUT_OBJECT"
  | LInputFieldDefinition => "INPUT_FIELD_DEFINITION"
  end.
Definition tk_location (l : dloc) : list token := [TkName (tx (location_word l))].
Definition tk_root (p : optype * name) : list token := [TkName (optype_word (fst p)); P PColon; TkName (snd p)].
Definition tk_ddef (lead : bool) (d : ddef) : list token :=
  tk_desc (dd_desc d) ++ TkName (tx "directive") :: P PAt :: TkName (dd_name d) :: tk_args_def (dd_args d) ++
  (if dd_repeatable d then [TkName (tx "repeatable")] else []) ++ TkName (tx "on") :: tk_sep_list lead PPipe tk_location (dd_locs d).
Definition tk_esdef (e : esdef) : list token :=
  tk_desc (es_desc e) ++ TkName (tx "schema") :: tk_directives (es_dirs e) ++ braced tk_root (es_roots e).
Definition tk_tdef (lead : bool) (t : tdef) : list token :=
  match t with
  | DBuiltin _ => []
  | DScalar s => tk_desc (sc_desc s) ++ TkName (tx "scalar") :: TkName (sc_name s) :: tk_directives (sc_dirs s)
  | DObject o => tk_desc (ob_desc o) ++ TkName (tx "type") :: TkName (ob_name o) :: tk_implements lead (ob_ifaces o) ++
                 tk_directives (ob_dirs o) ++ braced tk_fdef (written_fields (ob_fields o))
  | DInterface i => tk_desc (if_desc i) ++ TkName (tx "interface") :: TkName (if_name i) :: tk_implements lead (if_ifaces i) ++
                    tk_directives (if_dirs i) ++ braced tk_fdef (written_fields (if_fields i))
  | DUnion u => tk_desc (un_desc u) ++ TkName (tx "union") :: TkName (un_name u) :: tk_directives (un_dirs u) ++
                P PEquals :: tk_sep_list lead PPipe tk_name (un_members u)
  | DInput i => tk_desc (io_desc i) ++ TkName (tx "input") :: TkName (io_name i) :: tk_directives (io_dirs i) ++ braced tk_ivd (io_fields i)
  | DEnum e => tk_desc (en_desc e) ++ TkName (tx "enum") :: TkName (en_name e) :: tk_directives (en_dirs e) ++ braced tk_evd (en_values e)
  end.
Definition tk_sysdef (lead : bool) (x : sysdef) : list token :=
  match x with SysSchema e => tk_esdef e | SysDirective d => tk_ddef lead d | SysType t => tk_tdef lead t end.

(** *** Which trees are written *)
Definition default_ok (d : option value) : bool := match d with Some v => value_ok true v | None => true end.
Definition ivd_ok (i : ivd) : bool := default_ok (iv_default i) && directives_ok true (iv_dirs i).
Definition fdef_ok (f : fdef) : bool := negb (fd_builtin f) && forallb ivd_ok (fd_args f) && directives_ok true (fd_dirs f).
(** the fields of a type are [__typename] and the fields of the document *)
Definition fields_ok (fs : list fdef) : Prop := exists l, fs = typename_field :: l /\ l <> [] /\ forallb fdef_ok l = true.
Definition evd_ok (v : evd) : bool := negb (reserved (ev_name v)) && directives_ok true (ev_dirs v).
Definition sysdef_ok (x : sysdef) : Prop :=
  match x with
  | SysSchema e => directives_ok true (es_dirs e) = true /\ es_roots e <> []
  | SysDirective d => forallb ivd_ok (dd_args d) = true /\ dd_locs d <> [] /\ dd_builtin d = false
  | SysType (DBuiltin _) => False
  | SysType (DScalar s) => directives_ok true (sc_dirs s) = true
  | SysType (DObject o) => directives_ok true (ob_dirs o) = true /\ fields_ok (ob_fields o) /\ ob_builtin o = false
  | SysType (DInterface i) => directives_ok true (if_dirs i) = true /\ fields_ok (if_fields i)
  | SysType (DUnion u) => directives_ok true (un_dirs u) = true /\ un_members u <> [] /\ un_fields u = [typename_field]
  | SysType (DInput i) => directives_ok true (io_dirs i) = true /\ forallb ivd_ok (io_fields i) = true /\ io_fields i <> []
  | SysType (DEnum e) => directives_ok true (en_dirs e) = true /\ forallb evd_ok (en_values e) = true /\ en_values e <> [] /\ en_builtin e = false
  end.
(** the definitions of a document, by kind *)
Definition sys_schemas (xs : list sysdef) : list esdef := flat_map (fun x => match x with SysSchema e => [e] | _ => [] end) xs.
Definition sys_ddefs (xs : list sysdef) : list ddef := flat_map (fun x => match x with SysDirective d => [d] | _ => [] end) xs.
Definition sys_types (xs : list sysdef) : list tdef := flat_map (fun x => match x with SysType t => [t] | _ => [] end) xs.
