(** Specification of input coercion, after section 3.10/3.12 of the GraphQL specification (October 2021):
    when does a (possibly variable-containing) value conform to an input type?
    Independent of the model in Coercion.v. *)
From Verif Require Import Base Ast CoercionTypes.

Section Conforms.
  (** does the custom scalar called [n] accept the value? *)
  Variable scalar_accepts : name -> value -> Prop.
  (** may enum members be written as strings (JSON variables)? *)
  Variable str_enum : bool.
  (** is the oneOf directive honoured? *)
  Variable one_of : bool.
  Variable S : schema.

  Definition builtin_accepts (b : builtin) (v : value) : Prop :=
    match b with
    | BInt => exists z, v = VInt z
    | BFloat => (exists z, v = VInt z) \/ (exists f, v = VFloat f)
    | BString => exists s, v = VStr s
    | BBoolean => exists x, v = VBool x
    | BID => (exists z, v = VInt z) \/ (exists s, v = VStr s)
    end.
  Definition enum_accepts (d : enum_def) (v : value) : Prop :=
    exists e, In e (en_values d) /\ (v = VEnum (ev_name e) \/ (str_enum = true /\ v = VStr (ev_name e))).
  Definition marked_one_of (d : input_def) : Prop :=
    one_of = true /\ exists x, In x (io_dirs d) /\ dir_name x = tx "oneOf".
  (** inside a list, a value for a list type must itself be a list: no promotion *)
  Definition no_promotion (t : tref) (v : value) : Prop :=
    match t, v with
    | TList _ _, VList _ => True
    | TList _ _, VNull => True
    | TList _ _, VVar _ => True
    | TList _ _, _ => False
    | TBase _ _, _ => True
    end.

  Inductive conforms : tref -> value -> Prop :=
  | c_null t : tref_required t = false -> conforms t VNull
  | c_var t x : conforms t (VVar x)              (* checked by the rules on variables *)
  | c_builtin n r b v :
      get_type S n = Some (DBuiltin b) -> builtin_accepts b v -> conforms (TBase n r) v
  | c_scalar n r d v :
      get_type S n = Some (DScalar d) -> v <> VNull -> (forall x, v <> VVar x) ->
      scalar_accepts (sc_name d) v -> conforms (TBase n r) v
  | c_enum n r d v :
      get_type S n = Some (DEnum d) -> enum_accepts d v -> conforms (TBase n r) v
  | c_object n r d es :
      get_type S n = Some (DInput d) ->
      NoDup (map fst es) ->
      (forall k v, In (k, v) es -> exists i, In i (io_fields d) /\ iv_name i = k) ->
      (forall i v, In i (io_fields d) -> In (iv_name i, v) es -> conforms (iv_type i) v) ->
      (forall i, In i (io_fields d) -> tref_required (iv_type i) = true -> iv_default i = None ->
                 exists v, In (iv_name i, v) es) ->
      (marked_one_of d -> exists k v, es = [(k, v)] /\ v <> VNull) ->
      conforms (TBase n r) (VObj es)
  | c_list inner r vs :
      (forall x, In x vs -> conforms inner x /\ no_promotion inner x) -> conforms (TList inner r) (VList vs)
  | c_promote inner r v :
      v <> VNull -> (forall x, v <> VVar x) -> (forall vs, v <> VList vs) ->
      conforms inner v -> conforms (TList inner r) v.
End Conforms.

(** * Where and why: the set of offending places.
    [visits a t v q a' t' w]: starting with value [v] expected to have type [t] ([a]: may a single value be
    promoted to a list here?) and following the path [q] one reaches the value [w] that is expected to have
    type [t']. *)
Section Offences.
  Variable scalar_hook : name -> value -> option text.
  Variable str_enum one_of : bool.
  Variable S : schema.

  Definition is_plain (v : value) : Prop := match v with VNull | VVar _ | VList _ => False | _ => True end.
  Definition is_concrete (v : value) : Prop := match v with VNull | VVar _ => False | _ => True end.

  Inductive visits : bool -> tref -> value -> path -> bool -> tref -> value -> Prop :=
  | vis_here a t v : visits a t v [] a t v
  | vis_promote inner r v q a' t' w :
      is_plain v -> visits true inner v q a' t' w -> visits true (TList inner r) v q a' t' w
  | vis_item a inner r vs i x q a' t' w :
      nth_error vs i = Some x -> visits false inner x q a' t' w ->
      visits a (TList inner r) (VList vs) (PIndex i :: q) a' t' w
  | vis_field a n r d es f x q a' t' w :
      get_type S n = Some (DInput d) -> In f (io_fields d) -> assoc (iv_name f) es = Some x ->
      visits true (iv_type f) x q a' t' w ->
      visits a (TBase n r) (VObj es) (PKey (iv_name f) :: q) a' t' w.

  (** number of entries with a key *)
  Definition occurrences (k : name) (es : list (name * value)) : nat :=
    length (filter (fun e => teqb (fst e) k) es).
  (** required fields that have no entry, in definition order *)
  Definition missing_required (d : input_def) (es : list (name * value)) : list name :=
    map iv_name (filter (fun i => iv_required i && negb (tmem (iv_name i) (map fst es))) (io_fields d)).

  (** [offence a t w p e]: the value [w] at path [p], expected to have type [t], is itself wrong, for the
      reason [e]. *)
  Inductive offence : bool -> tref -> value -> path -> cerr -> Prop :=
  | o_null a t p : tref_required t = true -> offence a t VNull p (ENullForRequired VNull (tref_display t) p)
  | o_item inner r w p : is_plain w ->
      offence false (TList inner r) w p (ENoImplicit w (tref_display (TList inner r)) p)
  | o_builtin a n r b w p : get_type S n = Some (DBuiltin b) -> is_concrete w -> ~ builtin_accepts b w ->
      offence a (TBase n r) w p (ENoImplicit w (tref_display (TBase n r)) p)
  | o_scalar a n r d w p msg : get_type S n = Some (DScalar d) -> is_concrete w -> scalar_hook (sc_name d) w = Some msg ->
      offence a (TBase n r) w p (ECustomScalar w (sc_name d) msg p)
  | o_enum_kind a n r d w p : get_type S n = Some (DEnum d) -> is_concrete w ->
      (forall x, w <> VEnum x) -> (str_enum = true -> forall x, w <> VStr x) ->
      offence a (TBase n r) w p (ENoImplicit w (tref_display (TBase n r)) p)
  | o_enum_member a n r d w x p : get_type S n = Some (DEnum d) ->
      (w = VEnum x \/ (str_enum = true /\ w = VStr x)) -> ~ In x (map ev_name (en_values d)) ->
      offence a (TBase n r) w p (ENoEnumMember x w (en_name d) p)
  | o_object_kind a n r d w p : get_type S n = Some (DInput d) -> is_concrete w -> (forall es, w <> VObj es) ->
      offence a (TBase n r) w p (ENoImplicit w (tref_display (TBase n r)) p)
  | o_duplicate a n r d es k p : get_type S n = Some (DInput d) -> 2 <= occurrences k es ->
      offence a (TBase n r) (VObj es) p (ENonUniqueFields (VObj es) k (occurrences k es) p)
  | o_unknown a n r d es k p : get_type S n = Some (DInput d) -> In k (map fst es) ->
      ~ In k (map iv_name (io_fields d)) ->
      offence a (TBase n r) (VObj es) p (ENoInputField k (io_name d) (p ++ [PKey k]))
  | o_missing a n r d es p : get_type S n = Some (DInput d) -> missing_required d es <> [] ->
      offence a (TBase n r) (VObj es) p (ENoValueForRequired (VObj es) (missing_required d es) (io_name d) p)
  | o_one_of_null a n r d es p : get_type S n = Some (DInput d) -> marked_one_of one_of d ->
      (exists k, In (k, VNull) es) ->
      offence a (TBase n r) (VObj es) p
        (EOneOfNull (VObj es) (io_name d) (map fst (filter (fun e => match snd e with VNull => true | _ => false end) es)) p)
  | o_one_of_count a n r d es p : get_type S n = Some (DInput d) -> marked_one_of one_of d ->
      length (filter (fun e => match snd e with VNull => false | _ => true end) es) <> 1 ->
      offence a (TBase n r) (VObj es) p
        (EOneOfNotSingle (VObj es) (io_name d) (map fst (filter (fun e => match snd e with VNull => false | _ => true end) es)) p)
  | o_unresolved a n r w p : is_concrete w ->
      (forall t, get_type S n = Some t -> td_is_input t = false) ->
      offence a (TBase n r) w p (EUnresolved w n p).
End Offences.
