(** What paths of schema changes lead to. *)
From Coq Require Import String.
From Verif Require Import Base Ast LexerSpec DefParser Compare CompareSpec.
Local Open Scope string_scope.
Local Open Scope list_scope.

(** every name in the schema is a GraphQL name: letters, digits and underscores *)
Record graphql_names (s : schema) : Prop := {
  gn_types : forall t, In t (s_types s) -> is_name (td_name t);
  gn_ddefs : forall d, In d (s_ddefs s) -> is_name (dd_name d);
  gn_fields : forall l f, fields_in s l -> In f l -> is_name (fd_name f);
  gn_inputs : forall l i, inputs_in s l -> In i l -> is_name (iv_name i);
  gn_enum_values : forall d v, In (DEnum d) (s_types s) -> In v (en_values d) -> is_name (ev_name v);
  gn_ifaces : forall d i, In (DObject d) (s_types s) -> In i (ob_ifaces d) -> is_name i;
  gn_members : forall d m, In (DUnion d) (s_types s) -> In m (un_members d) -> is_name m }.

(** * Paths *)
(** what a schema is made of *)
Inductive item :=
| IType (t : tdef)
| IField (t : tdef) (f : fdef)
| IArgument (t : tdef) (f : fdef) (a : ivd)
| IEnumValue (d : enum_def) (v : evd)
| IInputField (d : input_def) (f : ivd)
| IDirective (d : ddef)
| IDirectiveArgument (d : ddef) (a : ivd).
(** the fields of an object type or an interface *)
Inductive has_field (s : schema) : tdef -> fdef -> Prop :=
| hf_object d f : In (DObject d) (s_types s) -> In f (ob_fields d) -> has_field s (DObject d) f
| hf_interface d f : In (DInterface d) (s_types s) -> In f (if_fields d) -> has_field s (DInterface d) f.
(** [Type], [Type.field], [Type.field.argument], [Enum.VALUE], [Input.field], [@directive], [@directive.argument] *)
Inductive leads (s : schema) : text -> item -> Prop :=
| le_type t : In t (s_types s) -> leads s (td_name t) (IType t)
| le_field t f : has_field s t f -> leads s (td_name t ++ tx "." ++ fd_name f) (IField t f)
| le_argument t f a : has_field s t f -> In a (fd_args f) -> leads s (td_name t ++ tx "." ++ fd_name f ++ tx "." ++ iv_name a) (IArgument t f a)
| le_enum_value d v : In (DEnum d) (s_types s) -> In v (en_values d) -> leads s (en_name d ++ tx "." ++ ev_name v) (IEnumValue d v)
| le_input_field d f : In (DInput d) (s_types s) -> In f (io_fields d) -> leads s (io_name d ++ tx "." ++ iv_name f) (IInputField d f)
| le_directive d : In d (s_ddefs s) -> leads s (tx "@" ++ dd_name d) (IDirective d)
| le_directive_argument d a : In d (s_ddefs s) -> In a (dd_args d) -> leads s (tx "@" ++ dd_name d ++ tx "." ++ iv_name a) (IDirectiveArgument d a).

(** * What a change does *)
Inductive effect := Adds (x : item) | Removes (x : item) | Replaces (x y : item).
Inductive effect_of : change -> effect -> Prop :=
| ef_type_removed t : effect_of (TypeRemoved t) (Removes (IType t))
| ef_type_added t : effect_of (TypeAdded t) (Adds (IType t))
| ef_type_kind t u : kind_of t <> kind_of u -> effect_of (TypeKindChanged t u) (Replaces (IType t) (IType u))
| ef_type_desc t u : td_desc t <> td_desc u -> effect_of (TypeDescriptionChanged t u) (Replaces (IType t) (IType u))
| ef_field_added t f : effect_of (FieldAdded f (td_name t)) (Adds (IField t f))
| ef_field_removed t f : effect_of (FieldRemoved f (td_name t)) (Removes (IField t f))
| ef_field_desc t u f g : fd_desc f <> fd_desc g -> effect_of (FieldDescriptionChanged (td_name t) f g) (Replaces (IField t f) (IField u g))
| ef_field_type t u f g : fd_type f <> fd_type g -> effect_of (FieldTypeChanged (td_name t) f g) (Replaces (IField t f) (IField u g))
| ef_arg_added t f a : effect_of (FieldArgumentAdded (td_name t) f a) (Adds (IArgument t f a))
| ef_arg_removed t f a : effect_of (FieldArgumentRemoved (td_name t) f a) (Removes (IArgument t f a))
| ef_arg_desc t u f g a b : iv_desc a <> iv_desc b ->
    effect_of (FieldArgumentDescriptionChanged (td_name t) f a b) (Replaces (IArgument t f a) (IArgument u g b))
| ef_arg_default t u f g a b : default_differs (iv_default a) (iv_default b) ->
    effect_of (FieldArgumentDefaultValueChanged (td_name t) f a b) (Replaces (IArgument t f a) (IArgument u g b))
| ef_arg_type t u f g a b : iv_type a <> iv_type b ->
    effect_of (FieldArgumentTypeChanged (td_name t) f a b) (Replaces (IArgument t f a) (IArgument u g b))
| ef_interface_added a b i : In i (ob_ifaces b) -> ~ In i (ob_ifaces a) ->
    effect_of (ObjectInterfaceAddition a i) (Replaces (IType (DObject a)) (IType (DObject b)))
| ef_interface_removed a b i : In i (ob_ifaces a) -> ~ In i (ob_ifaces b) ->
    effect_of (ObjectInterfaceRemoval a i) (Replaces (IType (DObject a)) (IType (DObject b)))
| ef_value_added d v : effect_of (EnumValueAdded d v) (Adds (IEnumValue d v))
| ef_value_removed d v : effect_of (EnumValueRemoved d v) (Removes (IEnumValue d v))
| ef_value_desc d e v w : ev_desc v <> ev_desc w -> effect_of (EnumValueDescriptionChanged d v w) (Replaces (IEnumValue d v) (IEnumValue e w))
| ef_member_added a b m : In m (un_members b) -> ~ In m (un_members a) ->
    effect_of (UnionMemberAdded b m) (Replaces (IType (DUnion a)) (IType (DUnion b)))
| ef_member_removed a b m : In m (un_members a) -> ~ In m (un_members b) ->
    effect_of (UnionMemberRemoved b m) (Replaces (IType (DUnion a)) (IType (DUnion b)))
| ef_input_added d f : effect_of (InputFieldAdded d f) (Adds (IInputField d f))
| ef_input_removed d f : effect_of (InputFieldRemoved d f) (Removes (IInputField d f))
| ef_input_desc d e f g : iv_desc f <> iv_desc g -> effect_of (InputFieldDescriptionChanged d f g) (Replaces (IInputField d f) (IInputField e g))
| ef_input_type d e f g : iv_type f <> iv_type g -> effect_of (InputFieldTypeChanged d f g) (Replaces (IInputField d f) (IInputField e g))
| ef_input_default d e f g : default_differs (iv_default f) (iv_default g) ->
    effect_of (InputFieldDefaultValueChanged d f g) (Replaces (IInputField d f) (IInputField e g))
| ef_ddef_added d : effect_of (DirectiveDefinitionAdded d) (Adds (IDirective d))
| ef_ddef_removed d : effect_of (DirectiveDefinitionRemoved d) (Removes (IDirective d))
| ef_location_added d e l : In l (dd_locs e) -> ~ In l (dd_locs d) ->
    effect_of (DirectiveDefinitionLocationAdded e l) (Replaces (IDirective d) (IDirective e))
| ef_location_removed d e l : In l (dd_locs d) -> ~ In l (dd_locs e) ->
    effect_of (DirectiveDefinitionLocationRemoved e l) (Replaces (IDirective d) (IDirective e))
| ef_ddef_desc d e : dd_desc d <> dd_desc e -> effect_of (DirectiveDefinitionDescriptionChanged d e) (Replaces (IDirective d) (IDirective e))
| ef_ddef_arg_added d a : effect_of (DirectiveDefinitionArgumentAdded d a) (Adds (IDirectiveArgument d a))
(* the definition is the new one *)
| ef_ddef_arg_removed d e a : dd_name d = dd_name e -> effect_of (DirectiveDefinitionArgumentRemoved e a) (Removes (IDirectiveArgument d a))
| ef_ddef_arg_desc d e a b : iv_desc a <> iv_desc b ->
    effect_of (DirectiveDefinitionArgumentDescriptionChanged e a b) (Replaces (IDirectiveArgument d a) (IDirectiveArgument e b))
| ef_ddef_arg_default d e a b : default_differs (iv_default a) (iv_default b) ->
    effect_of (DirectiveDefinitionArgumentDefaultValueChanged e a b) (Replaces (IDirectiveArgument d a) (IDirectiveArgument e b))
| ef_ddef_arg_type d e a b : iv_type a <> iv_type b ->
    effect_of (DirectiveDefinitionArgumentTypeChanged e a b) (Replaces (IDirectiveArgument d a) (IDirectiveArgument e b)).
(** between two schemas, at a path *)
Definition happens (old new : schema) (p : text) (e : effect) : Prop :=
  match e with
  | Adds x => leads new p x /\ forall y, ~ leads old p y
  | Removes x => leads old p x /\ forall y, ~ leads new p y
  | Replaces x y => leads old p x /\ leads new p y
  end.
(** changes to the directives applied to something *)
Definition to_applied_directives (c : change) : Prop :=
  match c with
  | DirectiveAdded _ _ _ | DirectiveRemoved _ _ _ | DirectiveArgumentAdded _ _ | DirectiveArgumentRemoved _ _ | DirectiveArgumentValueChanged _ _ _ => True
  | _ => False
  end.

(** * Messages *)
Definition quoted (x : text) : text := tx "`" ++ x ++ tx "`".
(** the parts are in the text, in this order *)
Inductive contains : text -> list text -> Prop :=
| co_nil m : contains m []
| co_cons a p m l : contains m l -> contains (a ++ p ++ m) (p :: l).
(** the message names what is at the path: by the path, or by the name and what it belongs to *)
Inductive names_path (m : text) : text -> Prop :=
| np_whole p : contains m [quoted p] -> names_path m p
| np_parts own parent : contains m [quoted own; quoted parent] -> names_path m (parent ++ tx "." ++ own)
| np_directive p : names_path m p -> names_path m (tx "@" ++ p).

(** what the message of a change of a type, a description, a kind shows: the old and the new one; of an interface, a member,
    a location: which one *)
Definition kind_word (k : kind) : text :=
  match k with KBuiltin | KScalar => tx "SCALAR" | KObject => tx "OBJECT" | KInput => tx "INPUT_OBJECT" | KEnum => tx "ENUM" | KUnion => tx "UNION"
  | KInterface => tx "INTERFACE" end.
Definition or_empty (d : option text) : text := match d with Some x => x | None => [] end.
Definition details (c : change) : list text :=
  match c with
  | TypeKindChanged t u => [kind_word (kind_of t); kind_word (kind_of u)]
  | TypeDescriptionChanged t u => [or_empty (td_desc t); or_empty (td_desc u)]
  | FieldDescriptionChanged _ f g => [or_empty (fd_desc f); or_empty (fd_desc g)]
  | FieldTypeChanged _ f g => [tref_display (fd_type f); tref_display (fd_type g)]
  | EnumValueDescriptionChanged _ v w => [or_empty (ev_desc v); or_empty (ev_desc w)]
  | DirectiveDefinitionDescriptionChanged d e => [or_empty (dd_desc d); or_empty (dd_desc e)]
  | FieldArgumentDescriptionChanged _ _ a b | InputFieldDescriptionChanged _ a b | DirectiveDefinitionArgumentDescriptionChanged _ a b =>
      [or_empty (iv_desc a); or_empty (iv_desc b)]
  | FieldArgumentTypeChanged _ _ a b | InputFieldTypeChanged _ a b | DirectiveDefinitionArgumentTypeChanged _ a b =>
      [tref_display (iv_type a); tref_display (iv_type b)]
  | ObjectInterfaceAddition _ n | ObjectInterfaceRemoval _ n | UnionMemberAdded _ n | UnionMemberRemoved _ n => [n]
  | DirectiveDefinitionLocationAdded _ l | DirectiveDefinitionLocationRemoved _ l => [dloc_text l]
  | _ => []
  end.
(** the message of a change of a default value shows it, or the old and the new one *)
Definition default_details (print : value -> text) (c : change) : list text :=
  match c with
  | FieldArgumentDefaultValueChanged _ _ a b | InputFieldDefaultValueChanged _ a b | DirectiveDefinitionArgumentDefaultValueChanged _ a b =>
      match iv_default a, iv_default b with Some v, Some w => [print v; print w] | Some v, None | None, Some v => [print v] | None, None => [] end
  | _ => []
  end.
