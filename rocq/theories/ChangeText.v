(** bluejay-schema-comparator: the messages of changes. *)
From Coq Require Import String.
From Verif Require Import Base Ast ValueEq Printer DefParser Compare.
Local Open Scope string_scope.
Local Open Scope list_scope.

(** bluejay-core/src/definition/type_definition.rs:120-130 [kind] *)
Definition type_kind (t : tdef) : text :=
  match t with
  | DBuiltin _ | DScalar _ => tx "SCALAR" | DEnum _ => tx "ENUM" | DInput _ => tx "INPUT_OBJECT" | DInterface _ => tx "INTERFACE"
  | DObject _ => tx "OBJECT" | DUnion _ => tx "UNION"
  end.
(** changes.rs:1184-1200 [directive_location_name] *)
Definition location_word (l : dloc) : text :=
  match l with
  | LArgumentDefinition => tx "argument" | LEnumValue => tx "enum value" | LFieldDefinition => tx "field"
  | LInputFieldDefinition => tx "input field" | LInputObject => tx "input object" | LInterface => tx "interface" | LObject => tx "object"
  | LScalar => tx "scalar" | LSchema => tx "schema" | LUnion => tx "union" | _ => tx "unknown"
  end.
(** [description().unwrap_or("")] *)
Definition described (d : option text) : text := match d with Some x => x | None => [] end.
(** [{}.{}] *)
Definition dot (a b : text) : text := a ++ 46%N :: b.
(** [`{}`] and the text that follows in the format string *)
Definition q (x : text) (after : string) : text := 96%N :: x ++ 96%N :: tx after.

Section Message.
  (** how [ValuePrinter] writes a float *)
  Variable print_float : N -> text.
  Notation show := (print_value print_float).
  (** changes.rs:405-908 [Change::message] *)
  Definition message_of (c : change) : text :=
    match c with
    | TypeRemoved t => tx "Type " ++ q (td_name t) " was removed"
    | TypeAdded t => tx "Type " ++ q (td_name t) " was added"
    | TypeKindChanged t u => q (td_name t) " kind changed from " ++ q (type_kind t) " to " ++ q (type_kind u) ""
    | TypeDescriptionChanged t u => tx "Description " ++ q (described (td_desc t)) " on type " ++ q (td_name t) " has changed to " ++ q (described (td_desc u)) ""
    | FieldAdded f t => tx "Field " ++ q (fd_name f) " was added to object type " ++ q t ""
    | FieldRemoved f t => tx "Field " ++ q (fd_name f) " was removed from object type " ++ q t ""
    | FieldDescriptionChanged _ f g => tx "Field " ++ q (path_of c) " description changed from " ++ q (described (fd_desc f)) " to " ++ q (described (fd_desc g)) ""
    | FieldTypeChanged _ f g => tx "Field " ++ q (path_of c) " changed type from " ++ q (tref_display (fd_type f)) " to " ++ q (tref_display (fd_type g)) "."
    | FieldArgumentAdded t f a => tx "Argument " ++ q (iv_name a) " was added to field " ++ q (dot t (fd_name f)) ""
    | FieldArgumentRemoved t f a => tx "Argument " ++ q (iv_name a) " was removed from field " ++ q (dot t (fd_name f)) ""
    (* field and type are given in this order *)
    | FieldArgumentDescriptionChanged t f a b =>
        tx "Description for argument " ++ q (iv_name b) " on field " ++ q (dot (fd_name f) t) " changed from " ++
        q (described (iv_desc a)) " to " ++ q (described (iv_desc b)) ""
    | FieldArgumentDefaultValueChanged t f a b =>
        match iv_default a, iv_default b with
        | Some v, Some w => if value_eqb v w then [] else
            tx "Default value for argument " ++ q (iv_name a) " on field " ++ q (dot t (fd_name f)) " was changed from " ++ q (show v) " to " ++ q (show w) ""
        | Some v, None => tx "Default value " ++ q (show v) " was removed from argument " ++ q (iv_name a) " on field " ++ q (dot t (fd_name f)) ""
        | None, Some w => tx "Default value " ++ q (show w) " was added to argument " ++ q (iv_name b) " on field " ++ q (dot t (fd_name f)) ""
        | None, None => []
        end
    | FieldArgumentTypeChanged t f a b =>
        tx "Type for argument " ++ q (iv_name b) " on field " ++ q (dot (fd_name f) t) " changed from " ++
        q (tref_display (iv_type a)) " to " ++ q (tref_display (iv_type b)) ""
    | ObjectInterfaceAddition d i => q (ob_name d) " object implements " ++ q i " interface"
    | ObjectInterfaceRemoval d i => q (ob_name d) " object type no longer implements " ++ q i " interface"
    | EnumValueAdded d v => tx "Enum value " ++ q (ev_name v) " was added to enum " ++ q (en_name d) ""
    | EnumValueRemoved d v => tx "Enum value " ++ q (ev_name v) " was removed from enum " ++ q (en_name d) ""
    | EnumValueDescriptionChanged d v w =>
        tx "Description for enum value " ++ q (dot (en_name d) (ev_name w)) " changed from " ++ q (described (ev_desc v)) " to " ++ q (described (ev_desc w)) ""
    | UnionMemberAdded d m => tx "Union member " ++ q m " was added to union type " ++ q (un_name d) ""
    | UnionMemberRemoved d m => tx "Union member " ++ q m " was removed from union type " ++ q (un_name d) ""
    | InputFieldAdded d f => tx "Input field " ++ q (iv_name f) " was added to input object type " ++ q (io_name d) ""
    | InputFieldRemoved d f => tx "Input field " ++ q (iv_name f) " was removed from input object type " ++ q (io_name d) ""
    | InputFieldDescriptionChanged d f g =>
        tx "Input field " ++ q (dot (io_name d) (iv_name f)) " description changed from " ++ q (described (iv_desc f)) " to " ++ q (described (iv_desc g)) ""
    | InputFieldTypeChanged d f g =>
        tx "Input field " ++ q (dot (io_name d) (iv_name g)) " changed type from " ++ q (tref_display (iv_type f)) " to " ++ q (tref_display (iv_type g)) ""
    | InputFieldDefaultValueChanged d f g =>
        match iv_default f, iv_default g with
        | Some v, Some w => if value_eqb v w then [] else
            tx "Input field " ++ q (dot (io_name d) (iv_name g)) " default value changed from " ++ q (show v) " to " ++ q (show w) ""
        | Some v, None => tx "Default value " ++ q (show v) " was removed from input field " ++ q (dot (io_name d) (iv_name f)) ""
        | None, Some w => tx "Default value " ++ q (show w) " was added to input field " ++ q (dot (io_name d) (iv_name f)) ""
        | None, None => []
        end
    | DirectiveDefinitionAdded d => tx "Directive " ++ q (dd_name d) " was added"
    | DirectiveDefinitionRemoved d => tx "Directive " ++ q (dd_name d) " was removed"
    | DirectiveDefinitionLocationAdded d l => tx "Location " ++ q (dloc_text l) " was added to directive " ++ q (dd_name d) ""
    | DirectiveDefinitionLocationRemoved d l => tx "Location " ++ q (dloc_text l) " was removed from directive " ++ q (dd_name d) ""
    | DirectiveDefinitionDescriptionChanged d e =>
        tx "Directive " ++ q (dd_name e) " description changed from " ++ q (described (dd_desc d)) " to " ++ q (described (dd_desc e)) ""
    | DirectiveDefinitionArgumentAdded d a => tx "Argument " ++ q (iv_name a) " was added to directive " ++ q (dd_name d) ""
    | DirectiveDefinitionArgumentRemoved d a => tx "Argument " ++ q (iv_name a) " was removed from directive " ++ q (dd_name d) ""
    | DirectiveDefinitionArgumentDescriptionChanged d a b =>
        tx "Description for argument " ++ q (iv_name b) " on directive " ++ q (dd_name d) " changed from " ++ q (described (iv_desc a)) " to " ++ q (described (iv_desc b)) ""
    | DirectiveDefinitionArgumentTypeChanged d a b =>
        tx "Type for argument " ++ q (iv_name b) " on directive " ++ q (dd_name d) " changed from " ++ q (tref_display (iv_type a)) " to " ++ q (tref_display (iv_type b)) ""
    | DirectiveDefinitionArgumentDefaultValueChanged d a b =>
        match iv_default a, iv_default b with
        | Some v, Some w => if value_eqb v w then [] else
            tx "Directive argument " ++ q (dot (dd_name d) (iv_name b)) " default value changed from " ++ q (show v) " to " ++ q (show w) ""
        | Some v, None => tx "Default value " ++ q (show v) " was removed from directive argument " ++ q (dot (dd_name d) (iv_name a)) ""
        | None, Some w => tx "Default value " ++ q (show w) " was added to directive argument " ++ q (dot (dd_name d) (iv_name a)) ""
        | None, None => []
        end
    | DirectiveAdded l m d => tx "Directive " ++ q (dir_name d) " was added to " ++ location_word l ++ 32%N :: q m ""
    | DirectiveRemoved l m d => tx "Directive " ++ q (dir_name d) " was removed from " ++ location_word l ++ 32%N :: q m ""
    | DirectiveArgumentAdded d a => tx "Argument " ++ q (fst a) " was added to directive " ++ q (dir_name d) ""
    | DirectiveArgumentRemoved d a => tx "Argument " ++ q (fst a) " was removed from directive " ++ q (dir_name d) ""
    | DirectiveArgumentValueChanged d a b =>
        tx "Value for argument " ++ q (fst b) " on directive " ++ q (dir_name d) " changed from " ++ show (snd a) ++ tx " to " ++ show (snd b)
    end.
End Message.
