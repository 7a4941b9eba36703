(** What it means for two schemas to differ, independently of how the comparison is computed. *)
From Verif Require Import Base Ast CoercionTypes ValueEqSpec Compare.

(** * Where things are found in a schema *)
Inductive fields_in (s : schema) : list fdef -> Prop :=
| fi_object d : In (DObject d) (s_types s) -> fields_in s (ob_fields d)
| fi_interface d : In (DInterface d) (s_types s) -> fields_in s (if_fields d).
(** argument definitions and input fields *)
Inductive inputs_in (s : schema) : list ivd -> Prop :=
| ii_field l f : fields_in s l -> In f l -> inputs_in s (fd_args f)
| ii_object d : In (DInput d) (s_types s) -> inputs_in s (io_fields d)
| ii_directive d : In d (s_ddefs s) -> inputs_in s (dd_args d).
(** the directives applied to something *)
Inductive directives_in (s : schema) : list directive -> Prop :=
| di_schema : directives_in s (s_dirs s)
| di_scalar d : In (DScalar d) (s_types s) -> directives_in s (sc_dirs d)
| di_object d : In (DObject d) (s_types s) -> directives_in s (ob_dirs d)
| di_interface d : In (DInterface d) (s_types s) -> directives_in s (if_dirs d)
| di_union d : In (DUnion d) (s_types s) -> directives_in s (un_dirs d)
| di_enum d : In (DEnum d) (s_types s) -> directives_in s (en_dirs d)
| di_enum_value d v : In (DEnum d) (s_types s) -> In v (en_values d) -> directives_in s (ev_dirs v)
| di_input d : In (DInput d) (s_types s) -> directives_in s (io_dirs d)
| di_field l f : fields_in s l -> In f l -> directives_in s (fd_dirs f)
| di_ivd l i : inputs_in s l -> In i l -> directives_in s (iv_dirs i).
Inductive value_in (s : schema) : value -> Prop :=
| vi_default l i v : inputs_in s l -> In i l -> iv_default i = Some v -> value_in s v
| vi_argument l d a v : directives_in s l -> In d l -> In (a, v) (dir_args d) -> value_in s v.

(** no two members of anything have the same name; no directive is applied twice to anything *)
Record names_once (s : schema) : Prop := {
  once_types : NoDup (map td_name (s_types s));
  once_ddefs : NoDup (map dd_name (s_ddefs s));
  once_fields : forall l, fields_in s l -> NoDup (map fd_name l);
  once_inputs : forall l, inputs_in s l -> NoDup (map iv_name l);
  once_enum_values : forall d, In (DEnum d) (s_types s) -> NoDup (map ev_name (en_values d));
  once_directives : forall l, directives_in s l -> NoDup (map dir_name l);
  once_directive_arguments : forall l d, directives_in s l -> In d l -> NoDup (map fst (dir_args d)) }.
(** floats are 64 bit patterns *)
Definition floats (s : schema) : Prop := forall v, value_in s v -> f64s v.
Definition without_nan (s : schema) : Prop := forall v, value_in s v -> no_nan v.

(** * Differences *)
(** in [l], and nothing in [l'] has its name *)
Definition only_in {A} (nm : A -> name) (l l' : list A) (x : A) : Prop := In x l /\ forall y, In y l' -> nm y <> nm x.
(** a member on each side, with the same name *)
Definition both {A} (nm : A -> name) (l l' : list A) (x y : A) : Prop := In x l /\ In y l' /\ nm x = nm y.
Definition default_differs (a b : option value) : Prop :=
  match a, b with Some v, Some w => ~ same_value v w | None, None => False | _, _ => True end.
(** the kinds of types *)
Inductive kind := KBuiltin | KScalar | KObject | KInput | KEnum | KUnion | KInterface.
Definition kind_of (t : tdef) : kind :=
  match t with DBuiltin _ => KBuiltin | DScalar _ => KScalar | DObject _ => KObject | DInput _ => KInput | DEnum _ => KEnum
  | DUnion _ => KUnion | DInterface _ => KInterface end.

Section Differences.
  Variables old new : schema.
  Definition common_type (t u : tdef) : Prop := both td_name (s_types old) (s_types new) t u.
  Definition common_ddef (d e : ddef) : Prop := both dd_name (s_ddefs old) (s_ddefs new) d e.
  (** an object type, or an interface, with its old and its new fields *)
  Inductive common_fields : name -> list fdef -> list fdef -> Prop :=
  | cf_object a b : common_type (DObject a) (DObject b) -> common_fields (ob_name a) (ob_fields a) (ob_fields b)
  | cf_interface a b : common_type (DInterface a) (DInterface b) -> common_fields (if_name a) (if_fields a) (if_fields b).
  Inductive common_field (t : name) (f g : fdef) : Prop :=
  | cfd_intro l l' : common_fields t l l' -> both fd_name l l' f g -> common_field t f g.
  Definition common_argument (t : name) (f g : fdef) (a b : ivd) : Prop :=
    common_field t f g /\ both iv_name (fd_args f) (fd_args g) a b.
  Definition common_input_field (d e : input_def) (f g : ivd) : Prop :=
    common_type (DInput d) (DInput e) /\ both iv_name (io_fields d) (io_fields e) f g.
  Definition common_enum_value (d e : enum_def) (v w : evd) : Prop :=
    common_type (DEnum d) (DEnum e) /\ both ev_name (en_values d) (en_values e) v w.
  Definition common_ddef_argument (d e : ddef) (a b : ivd) : Prop :=
    common_ddef d e /\ both iv_name (dd_args d) (dd_args e) a b.

  (** what directives can be applied to, on both sides: its location, its name, the old and the new directives *)
  Inductive annotated : dloc -> name -> list directive -> list directive -> Prop :=
  | an_object a b : common_type (DObject a) (DObject b) -> annotated LObject (ob_name a) (ob_dirs a) (ob_dirs b)
  | an_interface a b : common_type (DInterface a) (DInterface b) -> annotated LInterface (if_name a) (if_dirs a) (if_dirs b)
  | an_union a b : common_type (DUnion a) (DUnion b) -> annotated LUnion (un_name a) (un_dirs a) (un_dirs b)
  | an_enum a b : common_type (DEnum a) (DEnum b) -> annotated LEnum (en_name a) (en_dirs a) (en_dirs b)
  | an_input a b : common_type (DInput a) (DInput b) -> annotated LInputObject (io_name a) (io_dirs a) (io_dirs b)
  | an_field t f g : common_field t f g -> annotated LFieldDefinition (fd_name f) (fd_dirs f) (fd_dirs g)
  | an_argument t f g a b : common_argument t f g a b -> annotated LArgumentDefinition (iv_name a) (iv_dirs a) (iv_dirs b)
  | an_enum_value d e v w : common_enum_value d e v w -> annotated LEnumValue (ev_name v) (ev_dirs v) (ev_dirs w).
  Inductive annotated_schema : dloc -> name -> list directive -> list directive -> Prop :=
  | an_schema : annotated_schema LSchema [] (s_dirs old) (s_dirs new).
  Inductive annotated_input_field : dloc -> name -> list directive -> list directive -> Prop :=
  | an_input_field d e f g : common_input_field d e f g -> annotated_input_field LInputFieldDefinition (iv_name f) (iv_dirs f) (iv_dirs g).
  Inductive annotated_scalar : dloc -> name -> list directive -> list directive -> Prop :=
  | an_scalar a b : common_type (DScalar a) (DScalar b) -> annotated_scalar LScalar (sc_name a) (sc_dirs a) (sc_dirs b).
  Inductive annotated_ddef_argument : dloc -> name -> list directive -> list directive -> Prop :=
  | an_ddef_argument d e a b : common_ddef_argument d e a b -> annotated_ddef_argument LArgumentDefinition (iv_name a) (iv_dirs a) (iv_dirs b).
  Definition anything_annotated l m ds ds' : Prop :=
    annotated l m ds ds' \/ annotated_schema l m ds ds' \/ annotated_input_field l m ds ds' \/
    annotated_scalar l m ds ds' \/ annotated_ddef_argument l m ds ds'.

  (** a change that the pair of schemas really shows *)
  Inductive real : change -> Prop :=
  | r_type_removed t : only_in td_name (s_types old) (s_types new) t -> real (TypeRemoved t)
  | r_type_added t : only_in td_name (s_types new) (s_types old) t -> real (TypeAdded t)
  | r_type_kind t u : common_type t u -> kind_of t <> kind_of u -> real (TypeKindChanged t u)
  | r_type_desc t u : common_type t u -> td_desc t <> td_desc u -> real (TypeDescriptionChanged t u)
  | r_field_added n l l' f : common_fields n l l' -> only_in fd_name l' l f -> real (FieldAdded f n)
  | r_field_removed n l l' f : common_fields n l l' -> only_in fd_name l l' f -> real (FieldRemoved f n)
  | r_field_desc n f g : common_field n f g -> fd_desc f <> fd_desc g -> real (FieldDescriptionChanged n f g)
  | r_field_type n f g : common_field n f g -> fd_type f <> fd_type g -> real (FieldTypeChanged n f g)
  | r_arg_added n f g a : common_field n f g -> only_in iv_name (fd_args g) (fd_args f) a -> real (FieldArgumentAdded n g a)
  | r_arg_removed n f g a : common_field n f g -> only_in iv_name (fd_args f) (fd_args g) a -> real (FieldArgumentRemoved n f a)
  | r_arg_desc n f g a b : common_argument n f g a b -> iv_desc a <> iv_desc b -> real (FieldArgumentDescriptionChanged n f a b)
  | r_arg_default n f g a b : common_argument n f g a b -> default_differs (iv_default a) (iv_default b) ->
      real (FieldArgumentDefaultValueChanged n f a b)
  | r_arg_type n f g a b : common_argument n f g a b -> iv_type a <> iv_type b -> real (FieldArgumentTypeChanged n f a b)
  | r_interface_added a b i : common_type (DObject a) (DObject b) -> In i (ob_ifaces b) -> ~ In i (ob_ifaces a) ->
      real (ObjectInterfaceAddition a i)
  | r_interface_removed a b i : common_type (DObject a) (DObject b) -> In i (ob_ifaces a) -> ~ In i (ob_ifaces b) ->
      real (ObjectInterfaceRemoval a i)
  | r_value_added a b v : common_type (DEnum a) (DEnum b) -> only_in ev_name (en_values b) (en_values a) v -> real (EnumValueAdded b v)
  | r_value_removed a b v : common_type (DEnum a) (DEnum b) -> only_in ev_name (en_values a) (en_values b) v -> real (EnumValueRemoved a v)
  | r_value_desc a b v w : common_enum_value a b v w -> ev_desc v <> ev_desc w -> real (EnumValueDescriptionChanged a v w)
  | r_member_added a b m : common_type (DUnion a) (DUnion b) -> In m (un_members b) -> ~ In m (un_members a) -> real (UnionMemberAdded b m)
  | r_member_removed a b m : common_type (DUnion a) (DUnion b) -> In m (un_members a) -> ~ In m (un_members b) -> real (UnionMemberRemoved b m)
  | r_input_added a b f : common_type (DInput a) (DInput b) -> only_in iv_name (io_fields b) (io_fields a) f -> real (InputFieldAdded b f)
  | r_input_removed a b f : common_type (DInput a) (DInput b) -> only_in iv_name (io_fields a) (io_fields b) f -> real (InputFieldRemoved a f)
  | r_input_desc a b f g : common_input_field a b f g -> iv_desc f <> iv_desc g -> real (InputFieldDescriptionChanged a f g)
  | r_input_type a b f g : common_input_field a b f g -> iv_type f <> iv_type g -> real (InputFieldTypeChanged a f g)
  | r_input_default a b f g : common_input_field a b f g -> default_differs (iv_default f) (iv_default g) ->
      real (InputFieldDefaultValueChanged a f g)
  | r_ddef_added d : only_in dd_name (s_ddefs new) (s_ddefs old) d -> real (DirectiveDefinitionAdded d)
  | r_ddef_removed d : only_in dd_name (s_ddefs old) (s_ddefs new) d -> real (DirectiveDefinitionRemoved d)
  | r_location_added d e l : common_ddef d e -> In l (dd_locs e) -> ~ In l (dd_locs d) -> real (DirectiveDefinitionLocationAdded e l)
  | r_location_removed d e l : common_ddef d e -> In l (dd_locs d) -> ~ In l (dd_locs e) -> real (DirectiveDefinitionLocationRemoved e l)
  | r_ddef_desc d e : common_ddef d e -> dd_desc d <> dd_desc e -> real (DirectiveDefinitionDescriptionChanged d e)
  | r_ddef_arg_added d e a : common_ddef d e -> only_in iv_name (dd_args e) (dd_args d) a -> real (DirectiveDefinitionArgumentAdded e a)
  | r_ddef_arg_removed d e a : common_ddef d e -> only_in iv_name (dd_args d) (dd_args e) a -> real (DirectiveDefinitionArgumentRemoved e a)
  | r_ddef_arg_desc d e a b : common_ddef_argument d e a b -> iv_desc a <> iv_desc b ->
      real (DirectiveDefinitionArgumentDescriptionChanged e a b)
  | r_ddef_arg_default d e a b : common_ddef_argument d e a b -> default_differs (iv_default a) (iv_default b) ->
      real (DirectiveDefinitionArgumentDefaultValueChanged e a b)
  | r_ddef_arg_type d e a b : common_ddef_argument d e a b -> iv_type a <> iv_type b ->
      real (DirectiveDefinitionArgumentTypeChanged e a b)
  | r_directive_added l m ds ds' d : anything_annotated l m ds ds' -> only_in dir_name ds' ds d -> real (DirectiveAdded l m d)
  | r_directive_removed l m ds ds' d : anything_annotated l m ds ds' -> only_in dir_name ds ds' d -> real (DirectiveRemoved l m d)
  | r_directive_arg_added l m ds ds' d e a : anything_annotated l m ds ds' -> both dir_name ds ds' d e ->
      only_in fst (dir_args e) (dir_args d) a -> real (DirectiveArgumentAdded e a)
  | r_directive_arg_removed l m ds ds' d e a : anything_annotated l m ds ds' -> both dir_name ds ds' d e ->
      only_in fst (dir_args d) (dir_args e) a -> real (DirectiveArgumentRemoved d a)
  | r_directive_arg_value l m ds ds' d e a b : anything_annotated l m ds ds' -> both dir_name ds ds' d e ->
      both fst (dir_args d) (dir_args e) a b -> ~ same_value (snd a) (snd b) -> real (DirectiveArgumentValueChanged d a b).

  (** * Deviations of the program *)
  (** real changes that are not looked for *)
  Inductive overlooked : change -> Prop :=
  (* the first arguments of a directive definition; all its arguments going away *)
  | ov_first_ddef_argument d e a : common_ddef d e -> dd_args d = [] -> In a (dd_args e) -> overlooked (DirectiveDefinitionArgumentAdded e a)
  | ov_all_ddef_arguments d e a : common_ddef d e -> dd_args e = [] -> In a (dd_args d) -> overlooked (DirectiveDefinitionArgumentRemoved e a)
  (* all arguments of an applied directive going away *)
  | ov_all_arguments l m ds ds' d e a : anything_annotated l m ds ds' -> both dir_name ds ds' d e -> dir_args e = [] -> In a (dir_args d) ->
      overlooked (DirectiveArgumentRemoved d a)
  (* directives put on or taken from an input field, a scalar, an argument of a directive definition *)
  | ov_added l m ds ds' d : annotated_input_field l m ds ds' \/ annotated_scalar l m ds ds' \/ annotated_ddef_argument l m ds ds' ->
      only_in dir_name ds' ds d -> overlooked (DirectiveAdded l m d)
  | ov_removed l m ds ds' d : annotated_input_field l m ds ds' \/ annotated_scalar l m ds ds' \/ annotated_ddef_argument l m ds ds' ->
      only_in dir_name ds ds' d -> overlooked (DirectiveRemoved l m d)
  (* arguments of directives applied to the schema, a scalar, an argument of a directive definition *)
  | ov_arg_added l m ds ds' d e a : annotated_schema l m ds ds' \/ annotated_scalar l m ds ds' \/ annotated_ddef_argument l m ds ds' ->
      both dir_name ds ds' d e -> In a (dir_args e) -> overlooked (DirectiveArgumentAdded e a)
  | ov_arg_removed l m ds ds' d e a : annotated_schema l m ds ds' \/ annotated_scalar l m ds ds' \/ annotated_ddef_argument l m ds ds' ->
      both dir_name ds ds' d e -> In a (dir_args d) -> overlooked (DirectiveArgumentRemoved d a)
  | ov_arg_value l m ds ds' d e a b : annotated_schema l m ds ds' \/ annotated_scalar l m ds ds' \/ annotated_ddef_argument l m ds ds' ->
      both dir_name ds ds' d e -> both fst (dir_args d) (dir_args e) a b -> overlooked (DirectiveArgumentValueChanged d a b).
  (** changes to the directives of an input object type that are reported as if made to each of its fields *)
  Inductive misplaced : change -> Prop :=
  | mp_added a b f g d : common_input_field a b f g -> only_in dir_name (io_dirs b) (io_dirs a) d ->
      misplaced (DirectiveAdded LInputFieldDefinition (iv_name f) d)
  | mp_removed a b f g d : common_input_field a b f g -> only_in dir_name (io_dirs a) (io_dirs b) d ->
      misplaced (DirectiveRemoved LInputFieldDefinition (iv_name f) d).
End Differences.

(** * Results of a field *)
(** a result: nothing, one item, or a list; [is_a x n]: the item [x] is a value of the named type [n] *)
Inductive result (A : Type) := RNull | ROne (a : A) | RMany (l : list (result A)).
Arguments RNull {A}. Arguments ROne {A}. Arguments RMany {A}.
Inductive result_of {A} (is_a : A -> name -> Prop) : tref -> result A -> Prop :=
| ro_null t : tref_required t = false -> result_of is_a t RNull
| ro_one n r a : is_a a n -> result_of is_a (TBase n r) (ROne a)
| ro_many t r l : (forall x, In x l -> result_of is_a t x) -> result_of is_a (TList t r) (RMany l).

(** the schema with a field more in the input object type [n] *)
Definition with_input_field (n : name) (f : ivd) (s : schema) : schema :=
  {| s_desc := s_desc s;
     s_types := map (fun t => match t with
                              | DInput d => if teqb (io_name d) n
                                            then DInput {| io_name := io_name d; io_desc := io_desc d; io_dirs := io_dirs d; io_fields := io_fields d ++ [f] |}
                                            else t
                              | _ => t end) (s_types s);
     s_ddefs := s_ddefs s; s_query := s_query s; s_mutation := s_mutation s; s_subscription := s_subscription s; s_dirs := s_dirs s |}.
