(** bluejay-schema-comparator: comparing two schemas. *)
From Verif Require Import Base Ast Maps ValueEq.

(** bluejay-schema-comparator/src/changes.rs:12-17 [Criticality]; [derive(Ord)]: the variants in this order,
    then the reasons *)
Inductive criticality := Breaking (reason : text) | Dangerous (reason : text) | Safe (reason : text).

(** changes.rs:61-245 [Change]. The definitions a change refers to are carried by value. A type's interfaces and a union's
    members are names. *)
Inductive change : Type :=
| TypeRemoved (t : tdef)
| TypeAdded (t : tdef)
| TypeKindChanged (t u : tdef)
| TypeDescriptionChanged (t u : tdef)
| FieldAdded (f : fdef) (type_name : name)
| FieldRemoved (f : fdef) (type_name : name)
| FieldDescriptionChanged (type_name : name) (f g : fdef)
| FieldTypeChanged (type_name : name) (f g : fdef)
| FieldArgumentAdded (type_name : name) (f : fdef) (a : ivd)
| FieldArgumentRemoved (type_name : name) (f : fdef) (a : ivd)
| FieldArgumentDescriptionChanged (type_name : name) (f : fdef) (a b : ivd)
| FieldArgumentDefaultValueChanged (type_name : name) (f : fdef) (a b : ivd)
| FieldArgumentTypeChanged (type_name : name) (f : fdef) (a b : ivd)
| ObjectInterfaceAddition (d : object_def) (i : name)
| ObjectInterfaceRemoval (d : object_def) (i : name)
| EnumValueAdded (d : enum_def) (v : evd)
| EnumValueRemoved (d : enum_def) (v : evd)
| EnumValueDescriptionChanged (d : enum_def) (v w : evd)
| UnionMemberAdded (d : union_def) (m : name)
| UnionMemberRemoved (d : union_def) (m : name)
| InputFieldAdded (d : input_def) (f : ivd)
| InputFieldRemoved (d : input_def) (f : ivd)
| InputFieldDescriptionChanged (d : input_def) (f g : ivd)
| InputFieldTypeChanged (d : input_def) (f g : ivd)
| InputFieldDefaultValueChanged (d : input_def) (f g : ivd)
| DirectiveDefinitionAdded (d : ddef)
| DirectiveDefinitionRemoved (d : ddef)
| DirectiveDefinitionLocationAdded (d : ddef) (l : dloc)
| DirectiveDefinitionLocationRemoved (d : ddef) (l : dloc)
| DirectiveDefinitionDescriptionChanged (d e : ddef)
| DirectiveDefinitionArgumentAdded (d : ddef) (a : ivd)
| DirectiveDefinitionArgumentRemoved (d : ddef) (a : ivd)
| DirectiveDefinitionArgumentDescriptionChanged (d : ddef) (a b : ivd)
| DirectiveDefinitionArgumentDefaultValueChanged (d : ddef) (a b : ivd)
| DirectiveDefinitionArgumentTypeChanged (d : ddef) (a b : ivd)
| DirectiveAdded (l : dloc) (member : name) (d : directive)
| DirectiveRemoved (l : dloc) (member : name) (d : directive)
| DirectiveArgumentAdded (d : directive) (a : argument)
| DirectiveArgumentRemoved (d : directive) (a : argument)
| DirectiveArgumentValueChanged (d : directive) (a b : argument).

(** [filter(|x| !others.iter().any(|y| y.name() == x.name()))] and the equivalent forms with [all], [get(..).is_none()],
    [contains_field], [contains_type]; a missing list is the empty one ([map_or(true, ..)]) *)
Definition absent {A} (nm : A -> name) (l others : list A) : list A :=
  filter (fun x => negb (existsb (fun y => teqb (nm y) (nm x)) others)) l.
(** for each old member the first new one with its name, if any *)
Definition common {A} (nm : A -> name) (old new : list A) (diff : A -> A -> list change) : list change :=
  flat_map (fun x => match find (fun y => teqb (nm x) (nm y)) new with Some y => diff x y | None => [] end) old.
Definition when (b : bool) (c : change) : list change := if b then [c] else [].
(** [Option<&str>] equality *)
Definition opt_text_eqb (a b : option text) : bool :=
  match a, b with Some x, Some y => teqb x y | None, None => true | _, _ => false end.

(** diff/directive.rs:101-121 *)
Definition directive_additions (old new : list directive) : list directive := absent dir_name new old.
(** diff/directive.rs:123-143 *)
Definition directive_removals (old new : list directive) : list directive := absent dir_name old new.
(** diff/directive.rs:74-85 *)
Definition argument_additions (old new : directive) : list argument := absent fst (dir_args new) (dir_args old).
(** diff/directive.rs:87-98: [map_or(false, ..)], so nothing when the new directive has no arguments *)
Definition argument_removals (old new : directive) : list argument :=
  match dir_args new with [] => [] | _ => absent fst (dir_args old) (dir_args new) end.
(** diff/directive.rs:26-72 [DirectiveDiff::diff] *)
Definition directive_diff (old new : directive) : list change :=
  map (DirectiveArgumentAdded new) (argument_additions old new) ++
  map (DirectiveArgumentRemoved old) (argument_removals old new) ++
  common fst (dir_args old) (dir_args new) (fun a b =>
    when (negb (value_eqb (snd a) (snd b))) (DirectiveArgumentValueChanged old a b)).
(** diff/directive.rs:145-168 *)
Definition common_directive_changes (old new : list directive) : list change := common dir_name old new directive_diff.
Definition directives_added (l : dloc) (m : name) (old new : list directive) : list change :=
  map (DirectiveAdded l m) (directive_additions old new).
Definition directives_removed (l : dloc) (m : name) (old new : list directive) : list change :=
  map (DirectiveRemoved l m) (directive_removals old new).

(** the [match] on the two default values (argument.rs:54-77, input_field.rs:50-79, directive_definition_argument.rs:46-67) *)
Definition default_changed (a b : option value) : bool :=
  match a, b with
  | Some x, Some y => negb (value_eqb x y)
  | Some _, None | None, Some _ => true
  | None, None => false
  end.

(** diff/argument.rs:30-103 [ArgumentDiff::diff] *)
Definition argument_diff (type_name : name) (f : fdef) (a b : ivd) : list change :=
  when (negb (opt_text_eqb (iv_desc a) (iv_desc b))) (FieldArgumentDescriptionChanged type_name f a b) ++
  when (negb (tref_eqb (iv_type a) (iv_type b))) (FieldArgumentTypeChanged type_name f a b) ++
  when (default_changed (iv_default a) (iv_default b)) (FieldArgumentDefaultValueChanged type_name f a b) ++
  directives_added LArgumentDefinition (iv_name a) (iv_dirs a) (iv_dirs b) ++
  directives_removed LArgumentDefinition (iv_name a) (iv_dirs a) (iv_dirs b) ++
  common_directive_changes (iv_dirs a) (iv_dirs b).

(** diff/field.rs:28-119 [FieldDiff::diff], :121-149 additions and removals *)
Definition field_diff (type_name : name) (f g : fdef) : list change :=
  when (negb (opt_text_eqb (fd_desc f) (fd_desc g))) (FieldDescriptionChanged type_name f g) ++
  when (negb (tref_eqb (fd_type f) (fd_type g))) (FieldTypeChanged type_name f g) ++
  map (FieldArgumentAdded type_name g) (absent iv_name (fd_args g) (fd_args f)) ++
  map (FieldArgumentRemoved type_name f) (absent iv_name (fd_args f) (fd_args g)) ++
  common iv_name (fd_args f) (fd_args g) (argument_diff type_name f) ++
  directives_added LFieldDefinition (fd_name f) (fd_dirs f) (fd_dirs g) ++
  directives_removed LFieldDefinition (fd_name f) (fd_dirs f) (fd_dirs g) ++
  common_directive_changes (fd_dirs f) (fd_dirs g).

(** diff/object_type.rs:28-102 [ObjectTypeDiff::diff], :104-166 *)
Definition object_diff (a b : object_def) : list change :=
  map (ObjectInterfaceAddition a) (absent id (ob_ifaces b) (ob_ifaces a)) ++
  map (ObjectInterfaceRemoval a) (absent id (ob_ifaces a) (ob_ifaces b)) ++
  map (fun f => FieldAdded f (ob_name b)) (absent fd_name (ob_fields b) (ob_fields a)) ++
  map (fun f => FieldRemoved f (ob_name b)) (absent fd_name (ob_fields a) (ob_fields b)) ++
  directives_added LObject (ob_name a) (ob_dirs a) (ob_dirs b) ++
  directives_removed LObject (ob_name a) (ob_dirs a) (ob_dirs b) ++
  common fd_name (ob_fields a) (ob_fields b) (field_diff (ob_name b)) ++
  common_directive_changes (ob_dirs a) (ob_dirs b).

(** diff/interface_type.rs:27-93 [InterfaceTypeDiff::diff], :95-117 *)
Definition interface_diff (a b : iface_def) : list change :=
  map (fun f => FieldAdded f (if_name a)) (absent fd_name (if_fields b) (if_fields a)) ++
  map (fun f => FieldRemoved f (if_name b)) (absent fd_name (if_fields a) (if_fields b)) ++
  directives_added LInterface (if_name a) (if_dirs a) (if_dirs b) ++
  directives_removed LInterface (if_name a) (if_dirs a) (if_dirs b) ++
  common fd_name (if_fields a) (if_fields b) (field_diff (if_name b)) ++
  common_directive_changes (if_dirs a) (if_dirs b).

(** diff/union_type.rs:18-59 [UnionTypeDiff::diff], :61-83 *)
Definition union_diff (a b : union_def) : list change :=
  map (UnionMemberAdded b) (absent id (un_members b) (un_members a)) ++
  map (UnionMemberRemoved b) (absent id (un_members a) (un_members b)) ++
  directives_added LUnion (un_name a) (un_dirs a) (un_dirs b) ++
  directives_removed LUnion (un_name a) (un_dirs a) (un_dirs b) ++
  common_directive_changes (un_dirs a) (un_dirs b).

(** diff/enum_value.rs:24-61 [EnumValueDiff::diff] *)
Definition enum_value_diff (d : enum_def) (v w : evd) : list change :=
  when (negb (opt_text_eqb (ev_desc v) (ev_desc w))) (EnumValueDescriptionChanged d v w) ++
  directives_added LEnumValue (ev_name v) (ev_dirs v) (ev_dirs w) ++
  directives_removed LEnumValue (ev_name v) (ev_dirs v) (ev_dirs w) ++
  common_directive_changes (ev_dirs v) (ev_dirs w).

(** diff/enum_type.rs:25-91 [EnumTypeDiff::diff], :93-115 *)
Definition enum_diff (a b : enum_def) : list change :=
  map (EnumValueAdded b) (absent ev_name (en_values b) (en_values a)) ++
  map (EnumValueRemoved a) (absent ev_name (en_values a) (en_values b)) ++
  directives_added LEnum (en_name a) (en_dirs a) (en_dirs b) ++
  directives_removed LEnum (en_name a) (en_dirs a) (en_dirs b) ++
  common ev_name (en_values a) (en_values b) (enum_value_diff a) ++
  common_directive_changes (en_dirs a) (en_dirs b).

(** diff/input_field.rs:30-107 [InputFieldDiff::diff]. As in the code, the directives added and removed are those of the
    enclosing input object type. *)
Definition input_field_diff (d e : input_def) (f g : ivd) : list change :=
  when (negb (opt_text_eqb (iv_desc f) (iv_desc g))) (InputFieldDescriptionChanged d f g) ++
  when (negb (tref_eqb (iv_type f) (iv_type g))) (InputFieldTypeChanged d f g) ++
  when (default_changed (iv_default f) (iv_default g)) (InputFieldDefaultValueChanged d f g) ++
  directives_added LInputFieldDefinition (iv_name f) (io_dirs d) (io_dirs e) ++
  directives_removed LInputFieldDefinition (iv_name f) (io_dirs d) (io_dirs e) ++
  common_directive_changes (iv_dirs f) (iv_dirs g).

(** diff/input_object_type.rs:26-93 [InputObjectTypeDiff::diff], :95-117 *)
Definition input_diff (a b : input_def) : list change :=
  map (InputFieldAdded b) (absent iv_name (io_fields b) (io_fields a)) ++
  map (InputFieldRemoved a) (absent iv_name (io_fields a) (io_fields b)) ++
  directives_added LInputObject (io_name a) (io_dirs a) (io_dirs b) ++
  directives_removed LInputObject (io_name a) (io_dirs a) (io_dirs b) ++
  common iv_name (io_fields a) (io_fields b) (input_field_diff a b) ++
  common_directive_changes (io_dirs a) (io_dirs b).

(** diff/directive_definition_argument.rs:24-70 [DirectiveDefinitionArgumentDiff::diff] *)
Definition ddef_argument_diff (d : ddef) (a b : ivd) : list change :=
  when (negb (opt_text_eqb (iv_desc a) (iv_desc b))) (DirectiveDefinitionArgumentDescriptionChanged d a b) ++
  when (negb (tref_eqb (iv_type a) (iv_type b))) (DirectiveDefinitionArgumentTypeChanged d a b) ++
  when (default_changed (iv_default a) (iv_default b)) (DirectiveDefinitionArgumentDefaultValueChanged d a b).

(** diff/directive_definition.rs:120-135, :137-152: [map_or(false, ..)] on the other definition's arguments *)
Definition ddef_argument_removals (d e : ddef) : list ivd :=
  match dd_args e with [] => [] | _ => absent iv_name (dd_args d) (dd_args e) end.
Definition ddef_argument_additions (d e : ddef) : list ivd :=
  match dd_args d with [] => [] | _ => absent iv_name (dd_args e) (dd_args d) end.
(** diff/directive_definition.rs:96-118 *)
Definition locations_without (l others : list dloc) : list dloc :=
  filter (fun x => forallb (fun y => negb (dloc_eqb y x)) others) l.
(** diff/directive_definition.rs:24-94 [DirectiveDefinitionDiff::diff] *)
Definition ddef_diff (d e : ddef) : list change :=
  when (negb (opt_text_eqb (dd_desc d) (dd_desc e))) (DirectiveDefinitionDescriptionChanged d e) ++
  map (DirectiveDefinitionLocationAdded e) (locations_without (dd_locs e) (dd_locs d)) ++
  map (DirectiveDefinitionLocationRemoved e) (locations_without (dd_locs d) (dd_locs e)) ++
  map (DirectiveDefinitionArgumentAdded e) (ddef_argument_additions d e) ++
  map (DirectiveDefinitionArgumentRemoved e) (ddef_argument_removals d e) ++
  common iv_name (dd_args d) (dd_args e) (ddef_argument_diff e).

(** diff/schema.rs:101-160 [SchemaDiff::changes_in_type] *)
Definition type_diff (t u : tdef) : list change :=
  (match t, u with
   | DObject a, DObject b => object_diff a b
   | DEnum a, DEnum b => enum_diff a b
   | DUnion a, DUnion b => union_diff a b
   | DInterface a, DInterface b => interface_diff a b
   | DInput a, DInput b => input_diff a b
   | DBuiltin _, DBuiltin _ | DScalar _, DScalar _ => []
   | _, _ => [TypeKindChanged t u]
   end) ++
  when (negb (opt_text_eqb (td_desc t) (td_desc u))) (TypeDescriptionChanged t u).

(** diff/schema.rs:26-99 [SchemaDiff::diff], :162-202 *)
Definition schema_diff (old new : schema) : list change :=
  map TypeRemoved (absent td_name (s_types old) (s_types new)) ++
  map TypeAdded (absent td_name (s_types new) (s_types old)) ++
  common td_name (s_types old) (s_types new) type_diff ++
  map DirectiveDefinitionRemoved (absent dd_name (s_ddefs old) (s_ddefs new)) ++
  map DirectiveDefinitionAdded (absent dd_name (s_ddefs new) (s_ddefs old)) ++
  directives_added LSchema [] (s_dirs old) (s_dirs new) ++
  directives_removed LSchema [] (s_dirs old) (s_dirs new) ++
  common dd_name (s_ddefs old) (s_ddefs new) ddef_diff.

(** changes.rs:1140-1161 *)
Fixpoint change_safe_for_field (old new : tref) : bool :=
  match old, new with
  | TBase b r, TBase c s => (negb r || s) && teqb b c
  | TList i r, TList j s => (negb r || s) && change_safe_for_field i j
  | _, _ => false
  end.
(** changes.rs:1163-1184 *)
Fixpoint change_safe_for_input (old new : tref) : bool :=
  match old, new with
  | TBase b r, TBase c s => (r || negb s) && teqb b c
  | TList i r, TList j s => (r || negb s) && change_safe_for_input i j
  | _, _ => false
  end.

(** changes.rs:19-37 *)
Definition breaking_none := Breaking (tx "This change is a breaking change").
Definition safe_none := Safe (tx "This change is safe").
Definition default_reason :=
  tx "Changing the default value for an argument may change the runtime behaviour of a field if it was never provided.".
(** changes.rs:253-402 [Change::criticality] *)
Definition criticality_of (c : change) : criticality :=
  match c with
  | TypeRemoved _ => Breaking (tx "Removing a type is a breaking change. It is preferable to deprecate and remove all references to this type first.")
  | TypeAdded _ => safe_none
  | TypeKindChanged _ _ => breaking_none
  | TypeDescriptionChanged _ _ => safe_none
  | FieldAdded _ _ => safe_none
  | FieldRemoved f _ =>
      if existsb (fun d => teqb (dir_name d) (tx "deprecated")) (fd_dirs f)
      then Breaking (tx "Removing a deprecated field is a breaking change. Before removing it, you may want to look at the field's usage to see the impact of removing the field.")
      else Breaking (tx "Removing a field is a breaking change. It is preferable to deprecate the field before removing it.")
  | FieldDescriptionChanged _ _ _ => safe_none
  | FieldTypeChanged _ f g =>
      if change_safe_for_field (fd_type f) (fd_type g) then safe_none
      else Breaking (tx "Changing a field's type can cause existing queries that use this field to error.")
  | FieldArgumentAdded _ _ a =>
      if tref_required (iv_type a) && (match iv_default a with None => true | Some _ => false end)
      then Breaking (tx "Adding a required argument without a default value to an existing field is a breaking change because it will cause existing uses of this field to error.")
      else safe_none
  | FieldArgumentRemoved _ _ _ => Breaking (tx "Removing a field argument is a breaking change because it will cause existing queries that use this argument to error.")
  | FieldArgumentDescriptionChanged _ _ _ _ => safe_none
  | FieldArgumentDefaultValueChanged _ _ _ _ => Dangerous default_reason
  | FieldArgumentTypeChanged _ _ a b =>
      if change_safe_for_input (iv_type a) (iv_type b) then safe_none
      else Breaking (tx "Changing the type of a field's argument can cause existing queries that use this argument to error.")
  | ObjectInterfaceAddition _ _ => Dangerous (tx "Adding an interface to an object type may break existing clients that were not programming defensively against a new possible type.")
  | ObjectInterfaceRemoval _ _ => Breaking (tx "Removing an interface from an object type can cause existing queries that use this in a fragment spread to error.")
  | EnumValueAdded _ _ => Dangerous (tx "Adding an enum value may break existing clients that were not programming defensively against an added case when querying an enum.")
  | EnumValueRemoved _ _ => Breaking (tx "Removing an enum value will cause existing queries that use this enum value to error.")
  | EnumValueDescriptionChanged _ _ _ => safe_none
  | UnionMemberAdded _ _ => Dangerous (tx "Adding a possible type to Unions may break existing clients that were not programming defensively against a new possible type..")
  | UnionMemberRemoved _ _ => Breaking (tx "Removing a union member from a union can cause existing queries that use this union member in a fragment spread to error.")
  | InputFieldAdded _ f =>
      if tref_required (iv_type f) && (match iv_default f with None => true | Some _ => false end)
      then Breaking (tx "Adding a non-null input field without a default value to an existing input type will cause existing queries that use this input type to error because they will not provide a value for this new field.")
      else safe_none
  | InputFieldRemoved _ _ => Breaking (tx "Removing an input field will cause existing queries that use this input field to error.")
  | InputFieldTypeChanged _ f g =>
      if change_safe_for_input (iv_type f) (iv_type g)
      then Safe (tx "Changing an input field from non-null to null is considered non-breaking")
      else Breaking (tx "Changing the type of an input field can cause existing queries that use this field to error.")
  | InputFieldDescriptionChanged _ _ _ => safe_none
  | InputFieldDefaultValueChanged _ _ _ => Dangerous default_reason
  | DirectiveDefinitionAdded _ => safe_none
  | DirectiveDefinitionRemoved _ => breaking_none
  | DirectiveDefinitionLocationAdded _ _ => safe_none
  | DirectiveDefinitionLocationRemoved _ _ => breaking_none
  | DirectiveDefinitionDescriptionChanged _ _ => safe_none
  | DirectiveDefinitionArgumentAdded _ a => if iv_required a then breaking_none else safe_none
  | DirectiveDefinitionArgumentRemoved _ _ => breaking_none
  | DirectiveDefinitionArgumentDescriptionChanged _ _ _ => safe_none
  | DirectiveDefinitionArgumentTypeChanged _ a b =>
      if change_safe_for_input (iv_type a) (iv_type b)
      then Safe (tx "Changing an input field from non-null to null is considered non-breaking") else breaking_none
  | DirectiveDefinitionArgumentDefaultValueChanged _ _ _ => Dangerous default_reason
  | DirectiveAdded _ _ _ => safe_none
  | DirectiveRemoved _ _ _ => breaking_none
  | DirectiveArgumentAdded _ _ => safe_none
  | DirectiveArgumentRemoved _ _ => safe_none
  | DirectiveArgumentValueChanged _ _ _ => safe_none
  end.
(** changes.rs:241-251 [breaking], [dangerous], [non_breaking] *)
Definition breaking (c : change) : bool := match criticality_of c with Breaking _ => true | _ => false end.
Definition dangerous (c : change) : bool := match criticality_of c with Dangerous _ => true | _ => false end.
Definition non_breaking (c : change) : bool := match criticality_of c with Safe _ => true | _ => false end.

(** the derived [Ord] of [Criticality] (changes.rs:12); strings compare by their UTF-8 bytes, which is the order of
    their code points *)
Definition rank (c : criticality) : nat := match c with Breaking _ => 0 | Dangerous _ => 1 | Safe _ => 2 end.
Definition reason_of (c : criticality) : text := match c with Breaking r | Dangerous r | Safe r => r end.
Definition criticality_cmp (a b : criticality) : comparison :=
  match Nat.compare (rank a) (rank b) with Eq => tcmp (reason_of a) (reason_of b) | o => o end.
(** [a] may stand before [b]: [Reverse(a) <= Reverse(b)] *)
Definition before (a b : change) : bool :=
  match criticality_cmp (criticality_of b) (criticality_of a) with Gt => false | _ => true end.
(** [slice::sort_by_key] is a stable sort; its result is determined by that, here computed by insertion *)
Fixpoint insert (c : change) (l : list change) : list change :=
  match l with [] => [c] | x :: l' => if before c x then c :: l else x :: insert c l' end.
Definition sort_changes (l : list change) : list change := fold_right insert [] l.

(** lib.rs:9-16 [compare], result.rs:9-13 [ComparisonResult::new] *)
Definition compare (old new : schema) : list change := sort_changes (schema_diff old new).

(** changes.rs:910-1137 [Change::path] *)
Definition dotted (l : list text) : text := match l with [] => [] | x :: l' => fold_left (fun acc y => acc ++ 46%N :: y) l' x end.
Definition path_of (c : change) : text :=
  match c with
  | TypeRemoved t | TypeAdded t | TypeKindChanged t _ | TypeDescriptionChanged t _ => td_name t
  | FieldAdded f t | FieldRemoved f t => dotted [t; fd_name f]
  | FieldDescriptionChanged t f _ | FieldTypeChanged t f _ => dotted [t; fd_name f]
  | FieldArgumentAdded t f a | FieldArgumentRemoved t f a => dotted [t; fd_name f; iv_name a]
  | FieldArgumentDescriptionChanged t f a _ | FieldArgumentDefaultValueChanged t f a _ | FieldArgumentTypeChanged t f a _ =>
      dotted [t; fd_name f; iv_name a]
  | ObjectInterfaceAddition d _ | ObjectInterfaceRemoval d _ => ob_name d
  | EnumValueAdded d v | EnumValueRemoved d v | EnumValueDescriptionChanged d v _ => dotted [en_name d; ev_name v]
  | UnionMemberAdded d _ | UnionMemberRemoved d _ => un_name d
  | InputFieldAdded d f | InputFieldRemoved d f | InputFieldDescriptionChanged d f _ | InputFieldTypeChanged d f _
  | InputFieldDefaultValueChanged d f _ => dotted [io_name d; iv_name f]
  | DirectiveDefinitionAdded d | DirectiveDefinitionRemoved d | DirectiveDefinitionLocationAdded d _
  | DirectiveDefinitionLocationRemoved d _ | DirectiveDefinitionDescriptionChanged _ d => 64%N :: dd_name d
  | DirectiveDefinitionArgumentAdded d a | DirectiveDefinitionArgumentRemoved d a
  | DirectiveDefinitionArgumentDescriptionChanged d a _ | DirectiveDefinitionArgumentTypeChanged d a _
  | DirectiveDefinitionArgumentDefaultValueChanged d a _ => 64%N :: dotted [dd_name d; iv_name a]
  | DirectiveAdded _ _ d | DirectiveRemoved _ _ d => dir_name d
  | DirectiveArgumentAdded d a | DirectiveArgumentRemoved d a | DirectiveArgumentValueChanged d a _ => 64%N :: dotted [dir_name d; fst a]
  end.
