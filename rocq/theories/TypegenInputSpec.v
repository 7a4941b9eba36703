(** What the theorems about generated input types say: references between input types, borrowed data, and the values of the
    generated Rust types. *)
From Verif Require Import Base Ast Graph Coercion Json Typegen TypegenDe TypegenSpec TypegenInput.
Local Open Scope string_scope.
Local Open Scope list_scope.

Section Refs.
  Variable S : schema.
  (** [b] is the named type of a field of the input type [a] *)
  Definition input_ref (a b : name) : Prop :=
    exists d i, get_type S a = Some (DInput d) /\ In i (io_fields d) /\ tref_base (iv_type i) = b.
  (** [b] is the type of a field of the input type [a] and not in a list *)
  Definition direct_ref (a b : name) : Prop :=
    exists d i r, get_type S a = Some (DInput d) /\ In i (io_fields d) /\ iv_type i = TBase b r.
  (** values of a field of type [t] may contain values of the input type [a], not as items of a list *)
  Definition leads_back (a : name) (t : tref) : Prop :=
    (exists r, t = TBase a r) \/ exists b, star input_ref (tref_base t) b /\ direct_ref b a.

  (** what resolution guarantees for input types *)
  Record inputs_resolved : Prop := {
    ir_fields : forall d i, In (DInput d) (s_types S) -> In i (io_fields d) ->
      exists t, get_type S (tref_base (iv_type i)) = Some t /\ td_is_input t = true;
    ir_names : NoDup (map td_name (s_types S))
  }.
End Refs.

(** * The size of types *)
(** the input type that a value of the Rust type has inside itself, without indirection *)
Fixpoint inlined (t : itype) : option name :=
  match t with IInput n _ => Some n | IOpt t' => inlined t' | _ => None end.
Fixpoint boxed (t : itype) : bool :=
  match t with IBox _ => true | IOpt t' | IVec t' => boxed t' | _ => false end.
Definition holds_inside (items : list sitem) (a b : name) : Prop :=
  exists d f, In (SInput d) items /\ id_name d = a /\ In f (id_fields d) /\ inlined (ifd_type f) = Some b.

(** * The types of fields *)
(** the Rust type of values of the named type [n] *)
Definition names_type (S : schema) (n : name) (t : itype) : Prop :=
  match get_type S n with
  | Some (DBuiltin b) => exists lt, t = IBuiltin b lt
  | Some (DScalar _) => exists lt, t = IScalar n lt
  | Some (DEnum _) => t = IEnum n
  | Some (DInput _) => exists lt, t = IInput n lt
  | _ => False
  end.
(** the Rust type of values of the type [t] that are not null; items that may be null are in an Option *)
Fixpoint not_null_type (S : schema) (t : tref) (r : itype) : Prop :=
  match t with
  | TBase n _ => names_type S n r \/ exists r', r = IBox r' /\ names_type S n r'
  | TList t' req => exists r', r = IVec r' /\ if tref_required t' then not_null_type S t' r' else exists r'', r' = IOpt r'' /\ not_null_type S t' r''
  end.

(** * Lifetimes *)
(** does the type mention 'a? *)
Fixpoint mentions (t : itype) : bool :=
  match t with
  | IBuiltin _ lt | IScalar _ lt | IInput _ lt => lt
  | IEnum _ => false
  | IBox t' | IOpt t' | IVec t' => mentions t'
  end.
(** the references to input types in a type *)
Fixpoint input_refs (t : itype) : list (name * bool) :=
  match t with IInput n lt => [(n, lt)] | IBox t' | IOpt t' | IVec t' => input_refs t' | _ => [] end.
(** values of the type called [n] may hold borrowed data *)
Definition may_borrow (S : schema) (borrow : bool) (scalar_borrows : name -> option bool) (n : name) : Prop :=
  exists m t, star (input_ref S) n m /\ get_type S m = Some t /\ borrowed_leaf borrow scalar_borrows t.

(** * Values *)
Section Values.
  Variable S : schema.
  Variable items : list sitem.
  (** the JSON that values of a custom scalar's type are written as *)
  Variable scalar_ser : name -> json -> Prop.
  (** Leave out values that servers cannot accept: the enum variant Other, floats that are not finite, and [None] in a field
      that is required but has a default value. *)
  Variable strict : bool.

  Inductive typed : itype -> rval -> Prop :=
  | ty_bool lt b : typed (IBuiltin BBoolean lt) (RBool b)
  | ty_int lt z : (-2147483648 <= z <= 2147483647)%Z -> typed (IBuiltin BInt lt) (RInt z)
  | ty_float lt bits : (strict = true -> finite_float bits = true) -> typed (IBuiltin BFloat lt) (RFloat (JFloat bits))
  | ty_string lt s : typed (IBuiltin BString lt) (RStr s)
  | ty_id lt s : typed (IBuiltin BID lt) (RStr s)
  | ty_custom n lt j : scalar_ser n j -> typed (IScalar n lt) (RCustom n j)
  | ty_enum n x e : In (SEnum x) items -> en_name x = n -> In e (en_values x) -> typed (IEnum n) (REnumValue (ev_name e))
  | ty_enum_other n : strict = false -> typed (IEnum n) REnumOther
  | ty_box t v : typed t v -> typed (IBox t) v
  | ty_none t : typed (IOpt t) RNone
  | ty_some t v : typed t v -> typed (IOpt t) (RSome v)
  | ty_vec t vs : (forall v, In v vs -> typed t v) -> typed (IVec t) (RVec vs)
  | ty_struct n lt d fs :
      In (SInput d) items -> id_name d = n -> id_one_of d = false -> map fst fs = map ifd_key (id_fields d) ->
      (forall i f v, nth_error (id_fields d) i = Some f -> nth_error fs i = Some (ifd_key f, v) -> typed (ifd_type f) v) ->
      (strict = true -> forall d' i, get_type S n = Some (DInput d') -> In i (io_fields d') ->
         tref_required (iv_type i) = true -> iv_default i <> None -> ~ In (iv_name i, RNone) fs) ->
      typed (IInput n lt) (RStruct fs)
  | ty_variant n lt d f v :
      In (SInput d) items -> id_name d = n -> id_one_of d = true -> In f (id_fields d) -> typed (ifd_type f) v ->
      typed (IInput n lt) (RVariant (ifd_key f) [(ifd_key f, v)]).
End Values.

(** A schema condition of the GraphQL specification that the library does not check: the fields of oneOf input types are
    nullable and have no default values. *)
Definition one_of_nullable (S : schema) : Prop :=
  forall d i, In (DInput d) (s_types S) -> has_directive (tx "oneOf") (io_dirs d) = true -> In i (io_fields d) ->
  tref_required (iv_type i) = false.
