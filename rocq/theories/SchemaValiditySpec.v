(** When a type system document is valid: sections 3.3 to 3.13 of the GraphQL specification (October 2021), with oneOf input objects. *)
From Coq Require Import String.
From Verif Require Import Base Ast Graph DefParser ResolveSpec CoercionSpec.
Local Open Scope string_scope.
Local Open Scope list_scope.

Inductive rule :=
| UniqueTypeNames | UniqueDirectiveNames | OneSchemaDefinition | OneRootPerOperation | HasQueryRoot | RootsAreObjects | RootsDiffer
| FieldsHaveOutputTypes | InputsHaveInputTypes | ImplementsInterfaces | MembersAreObjects | DirectivesDefined | SchemaDirectivesDefined
| UniqueEnumValues | UniqueInputFields | UniqueFields | UniqueArguments | UniqueMembers | UniqueInterfaces
| InterfacesClosed | InterfaceFields | NamesNotReserved | InputsNotCircular | DirectivesNotCircular
| DirectivesInPlace | DirectivesNotRepeated | DirectiveArgumentsKnown | DirectiveArgumentsGiven | DirectiveArgumentsConform | DefaultsConform | OneOfFieldsOptional.

Section Document.
  (** the definitions of the document and the built-in ones *)
  Variable d : defdoc.
  Let T := df_types d.
  Let D := df_ddefs d.

  (** *** Roots *)
  Definition conventional_name (ty : optype) : name := match ty with OQuery => tx "Query" | OMutation => tx "Mutation" | OSubscription => tx "Subscription" end.
  (** the schema definition gives the root types, or else their names do *)
  Definition root_type (ty : optype) (n : name) : Prop :=
    (exists e, In e (df_schemas d) /\ In (ty, n) (es_roots e)) \/ (df_schemas d = [] /\ n = conventional_name ty /\ exists t, In t T /\ td_name t = n).

  (** *** Circles *)
  (** a value of input object [a] needs a value of input object [b] *)
  Definition needs (a b : name) : Prop :=
    exists i f j, In (DInput i) T /\ io_name i = a /\ In f (io_fields i) /\ iv_type f = TBase b true /\ In (DInput j) T /\ io_name j = b.
  (** the definition of directive [a] uses directive [b] on an argument *)
  Definition uses_directive (a b : name) : Prop := exists x v y, In x D /\ dd_name x = a /\ In v (dd_args x) /\ In y (iv_dirs v) /\ dir_name y = b.

  (** *** Interfaces *)
  Definition interfaces_of (t : tdef) : list name := match t with DObject o => ob_ifaces o | DInterface i => if_ifaces i | _ => [] end.
  Definition types_named (n : name) : list tdef := filter (fun t => teqb (td_name t) n) T.
  Definition is_interface (t : tdef) : bool := match t with DInterface _ => true | _ => false end.
  Definition members_of (t : tdef) : list name := match t with DUnion u => un_members u | _ => [] end.
  (** [a] is [b], a member of [b] or implements [b] *)
  Definition subtype_name (a b : name) : bool :=
    teqb a b || existsb (fun t => tmem a (members_of t)) (types_named b) || existsb (fun t => tmem b (interfaces_of t)) (types_named a).
  (** IsValidImplementationFieldType *)
  Fixpoint subtype (a b : tref) : bool :=
    match a, b with
    | TBase n r, TBase m q => (negb q || r) && subtype_name n m
    | TList x r, TList y q => (negb q || r) && subtype x y
    | _, _ => false
    end.
  Fixpoint same_type (a b : tref) : bool :=
    match a, b with
    | TBase n r, TBase m q => Bool.eqb r q && teqb n m
    | TList x r, TList y q => Bool.eqb r q && same_type x y
    | _, _ => false
    end.
  (** field [f] is as field [g] of an interface wants it *)
  Definition implements_field (f g : fdef) : bool :=
    teqb (fd_name f) (fd_name g) && subtype (fd_type f) (fd_type g) &&
    forallb (fun v => existsb (fun w => teqb (iv_name w) (iv_name v) && same_type (iv_type w) (iv_type v)) (fd_args f)) (fd_args g) &&
    forallb (fun w => tmem (iv_name w) (map iv_name (fd_args g)) || negb (iv_required w)) (fd_args f).

  (** *** Names and lists *)
  Fixpoint all_distinct (l : list name) : bool := match l with [] => true | n :: l' => negb (tmem n l') && all_distinct l' end.
  Definition reserved_name (n : name) : bool := match n with 95%N :: 95%N :: _ => true | _ => false end.
  Definition own_types : list tdef := filter (fun t => match t with DBuiltin _ => false | DObject o => negb (ob_builtin o) | DEnum e => negb (en_builtin e) | _ => true end) T.
  Definition own_fields (t : tdef) : list fdef := filter (fun f => negb (fd_builtin f)) (td_fields t).
  Definition input_fields (t : tdef) : list ivd := match t with DInput i => io_fields i | _ => [] end.
  Definition enum_names (t : tdef) : list name := match t with DEnum e => map ev_name (en_values e) | _ => [] end.
  Definition given_names : list name :=
    flat_map (fun t => td_name t :: map fd_name (own_fields t) ++ flat_map (fun f => map iv_name (fd_args f)) (own_fields t) ++ map iv_name (input_fields t) ++ enum_names t) own_types
    ++ flat_map (fun x => if dd_builtin x then [] else dd_name x :: map iv_name (dd_args x)) D.

  (** *** Uses of directives *)
  Definition kind_place (t : tdef) : dloc :=
    match t with DBuiltin _ | DScalar _ => LScalar | DObject _ => LObject | DInput _ => LInputObject | DEnum _ => LEnum | DUnion _ => LUnion | DInterface _ => LInterface end.
  Definition value_uses (l : dloc) (v : ivd) : dloc * list directive := (l, iv_dirs v).
  (** what is written at each place where directives can be used *)
  Definition all_uses : list (dloc * list directive) :=
    map (fun e => (LSchema, es_dirs e)) (df_schemas d)
    ++ flat_map (fun t => (kind_place t, own_directives t)
         :: flat_map (fun f => (LFieldDefinition, fd_dirs f) :: map (value_uses LArgumentDefinition) (fd_args f)) (td_fields t)
         ++ map (value_uses LInputFieldDefinition) (input_fields t)
         ++ match t with DEnum e => map (fun v => (LEnumValue, ev_dirs v)) (en_values e) | _ => [] end) T
    ++ flat_map (fun x => map (value_uses LArgumentDefinition) (dd_args x)) D.
  Definition ddefs_named (n : name) : list ddef := filter (fun x => teqb (dd_name x) n) D.
  Definition uses_all (p : dloc -> directive -> ddef -> bool) : bool :=
    forallb (fun u : dloc * list directive => forallb (fun x => forallb (p (fst u) x) (ddefs_named (dir_name x))) (snd u)) all_uses.
  Definition dloc_same (a b : dloc) : bool := teqb (dloc_text a) (dloc_text b).

  (** *** Values *)
  Definition any_scalar (n : name) (v : value) : Prop := True.
  Definition as_schema : schema := {| s_desc := None; s_types := T; s_ddefs := D; s_query := []; s_mutation := None; s_subscription := None; s_dirs := [] |}.
  Definition one_of_input (i : input_def) : bool := existsb (fun x => teqb (dir_name x) (tx "oneOf")) (io_dirs i).

  Definition obeys (r : rule) : Prop :=
    match r with
    | UniqueTypeNames => NoDup (map td_name T)
    | UniqueDirectiveNames => NoDup (map dd_name D)
    | OneSchemaDefinition => length (df_schemas d) <= 1
    | OneRootPerOperation => forall e ty, In e (df_schemas d) -> length (declarations ty e) <= 1
    | HasQueryRoot => exists n, root_type OQuery n
    | RootsAreObjects => forall ty n, root_type ty n -> object_named T n
    | RootsDiffer => forall ty ty' n, root_type ty n -> root_type ty' n -> ty = ty'
    | FieldsHaveOutputTypes => forall t f, In t T -> In f (td_fields t) -> exists u, In u T /\ td_name u = tref_base (fd_type f) /\ td_is_output u = true
    | InputsHaveInputTypes => forall v, value_defined T D v -> exists u, In u T /\ td_name u = tref_base (iv_type v) /\ td_is_input u = true
    | ImplementsInterfaces => forall t n, In t T -> implements t n -> exists i, In (DInterface i) T /\ if_name i = n
    | MembersAreObjects => forall u n, In (DUnion u) T -> In n (un_members u) -> exists o, In (DObject o) T /\ ob_name o = n
    | DirectivesDefined => forall x, directive_used T D x -> exists y, In y D /\ dd_name y = dir_name x
    | SchemaDirectivesDefined => forall e x, In e (df_schemas d) -> In x (es_dirs e) -> exists y, In y D /\ dd_name y = dir_name x
    | UniqueEnumValues => forall e, In (DEnum e) T -> NoDup (map ev_name (en_values e))
    | UniqueInputFields => forall i, In (DInput i) T -> NoDup (map iv_name (io_fields i))
    | UniqueFields => forallb (fun t => all_distinct (map fd_name (td_fields t))) T = true
    | UniqueArguments =>
        forallb (fun t => forallb (fun f => all_distinct (map iv_name (fd_args f))) (td_fields t)) T && forallb (fun x => all_distinct (map iv_name (dd_args x))) D = true
    | UniqueMembers => forallb (fun t => all_distinct (members_of t)) T = true
    | UniqueInterfaces => forallb (fun t => all_distinct (interfaces_of t)) T = true
    | InterfacesClosed =>
        forallb (fun t => forallb (fun n => forallb (fun i => forallb (fun m => tmem m (interfaces_of t)) (interfaces_of i)) (types_named n)) (interfaces_of t)
                          && negb (is_interface t && tmem (td_name t) (interfaces_of t))) T = true
    | InterfaceFields =>
        forallb (fun t => forallb (fun n => forallb (fun i => forallb (fun g => existsb (fun f => implements_field f g) (td_fields t)) (td_fields i)) (types_named n)) (interfaces_of t)) T = true
    | NamesNotReserved => forallb (fun n => negb (reserved_name n)) given_names = true
    | InputsNotCircular => forall n, ~ plus needs n n
    | DirectivesNotCircular => forall n, ~ plus uses_directive n n
    | DirectivesInPlace => uses_all (fun l x y => existsb (dloc_same l) (dd_locs y)) = true
    | DirectivesNotRepeated =>
        forallb (fun u : dloc * list directive => all_distinct (map dir_name (filter (fun x => negb (existsb dd_repeatable (ddefs_named (dir_name x)))) (snd u)))) all_uses = true
    | DirectiveArgumentsKnown => uses_all (fun l x y => all_distinct (map fst (dir_args x)) && forallb (fun a => tmem (fst a) (map iv_name (dd_args y))) (dir_args x)) = true
    | DirectiveArgumentsGiven => uses_all (fun l x y => forallb (fun v => negb (iv_required v) || tmem (iv_name v) (map fst (dir_args x))) (dd_args y)) = true
    | DirectiveArgumentsConform =>
        forall l xs x y a v w, In (l, xs) all_uses -> In x xs -> In y D -> dd_name y = dir_name x -> In v (dd_args y) -> iv_name v = a -> In (a, w) (dir_args x) ->
          conforms any_scalar false true as_schema (iv_type v) w
    | DefaultsConform => forall v x, value_defined T D v -> iv_default v = Some x -> conforms any_scalar false true as_schema (iv_type v) x
    | OneOfFieldsOptional =>
        forallb (fun t => match t with DInput i => negb (one_of_input i) || forallb (fun v => negb (tref_required (iv_type v)) && match iv_default v with None => true | Some _ => false end) (io_fields i)
                                     | _ => true end) T = true
    end.
  (** valid: every rule is obeyed *)
  Definition valid_document : Prop := forall r, obeys r.
End Document.

(** the rules that the library checks *)
Definition checked (r : rule) : bool :=
  match r with
  | UniqueTypeNames | UniqueDirectiveNames | OneSchemaDefinition | OneRootPerOperation | HasQueryRoot | RootsAreObjects
  | FieldsHaveOutputTypes | InputsHaveInputTypes | ImplementsInterfaces | MembersAreObjects | DirectivesDefined
  | UniqueEnumValues | UniqueInputFields | InputsNotCircular => true
  | _ => false
  end.
