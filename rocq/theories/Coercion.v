(** Input coercion: model of bluejay-validator/src/value/input_coercion.rs and path.rs. *)
From Verif Require Import Base Ast.
From Verif Require Export CoercionTypes.

Definition is_null (v : value) : bool := match v with VNull => true | _ => false end.
Definition has_directive (n : name) (ds : list directive) : bool := existsb (fun d => teqb (dir_name d) n) ds.

Section Coerce.
  (** [ScalarTypeDefinition::coerce_input]: supplied by the user of the library; [Some msg] is [Err(msg)]. *)
  Variable scalar_hook : name -> value -> option text.
  (** [Value::can_coerce_string_value_to_enum] (bluejay-core/src/value.rs:60-62): false for parsed values, true for JSON. *)
  Variable str_enum : bool.
  (** cargo feature one-of-input-objects *)
  Variable one_of : bool.
  Variable S : schema.

  (** :175-199 [coerce_builtin_scalar_value] *)
  Definition coerce_builtin (t : tref) (b : builtin) (v : value) (p : path) : list cerr :=
    match b, v with
    | BBoolean, VBool _ => []
    | BFloat, VFloat _ => []
    | BFloat, VInt _ => []
    | BID, VInt _ => []
    | BID, VStr _ => []
    | BString, VStr _ => []
    | BInt, VInt _ => []
    | _, _ => [ENoImplicit v (tref_display t) p]
    end.

  (** :201-214 [coerce_custom_scalar_value] *)
  Definition coerce_custom (n : name) (v : value) (p : path) : list cerr :=
    match scalar_hook n v with None => [] | Some msg => [ECustomScalar v n msg p] end.

  (** :237-259 [coerce_enum_value_from_name] *)
  Definition coerce_enum_name (d : enum_def) (v : value) (n : name) (p : path) : list cerr :=
    if existsb (fun e => teqb (ev_name e) n) (en_values d) then [] else [ENoEnumMember n v (en_name d) p].
  (** :216-235 [coerce_enum_value] *)
  Definition coerce_enum (t : tref) (d : enum_def) (v : value) (p : path) : list cerr :=
    match v with
    | VEnum n => coerce_enum_name d v n p
    | VStr n => if str_enum then coerce_enum_name d v n p else [ENoImplicit v (tref_display t) p]
    | _ => [ENoImplicit v (tref_display t) p]
    end.

  (** :377-432 [validate_one_of_input_object_value] *)
  Definition one_of_errors (d : input_def) (v : value) (es : list (name * value)) (p : path) : list cerr :=
    if one_of && has_directive (tx "oneOf") (io_dirs d) then
      let nulls := filter (fun e => is_null (snd e)) es in
      let nonnulls := filter (fun e => negb (is_null (snd e))) es in
      (if Nat.eqb (length nulls) 0 then [] else [EOneOfNull v (io_name d) (map fst nulls) p]) ++
      (if Nat.eqb (length nonnulls) 1 then [] else [EOneOfNotSingle v (io_name d) (map fst nonnulls) p])
    else [].

  (** :261-375 [coerce_input_object_value]. [sub k] is the coercion function of the first entry with key [k]
      (the result of [indexed_object.get(k)...first()]). *)
  Definition coerce_object (d : input_def) (v : value) (es : list (name * value))
             (sub : name -> option (tref -> path -> bool -> list cerr)) (p : path) : list cerr :=
    let non_unique := map (fun g => ENonUniqueFields v (fst g) (length (snd g)) p) (duplicates fst es) in
    let unknown := map (fun e => ENoInputField (fst e) (io_name d) (ppush p (PKey (fst e))))
                       (filter (fun e => match get_ivd (io_fields d) (fst e) with None => true | Some _ => false end) es) in
    let field_errs := flat_map (fun i => match sub (iv_name i) with
                                         | Some f => f (iv_type i) (ppush p (PKey (iv_name i))) true
                                         | None => []
                                         end) (io_fields d) in
    let missing := filter (fun i => match sub (iv_name i), iv_default i with
                                    | None, None => tref_required (iv_type i)
                                    | _, _ => false
                                    end) (io_fields d) in
    non_unique ++ unknown ++ field_errs ++ one_of_errors d v es p ++
    (match missing with [] => [] | _ => [ENoValueForRequired v (map iv_name missing) (io_name d) p] end).

  (** :71-134 [coerce_value_for_input_type] and :136-173 [coerce_value_for_base_input_type];
      [Ok(())] is the empty list, [Err(errors)] the errors. The Rust recursion is on the value, and on the
      type when a single value is promoted to a list. *)
  Fixpoint coerce (v : value) {struct v} : tref -> path -> bool -> list cerr :=
    let sub :=
      match v with
      | VObj es => fun k => assoc k (map (fun kv => (fst kv, coerce (snd kv))) es)
      | _ => fun _ => None
      end in
    let items :=
      match v with
      | VList vs => fun inner p => concat (mapi (fun i x => coerce x inner (ppush p (PIndex i)) false) vs)
      | _ => fun _ _ => []
      end in
    fix go (t : tref) (p : path) (allow : bool) {struct t} : list cerr :=
      match v with
      | VNull => if tref_required t then [ENullForRequired v (tref_display t) p] else []
      | VVar _ => []
      | _ =>
          match t with
          | TBase n _ =>
              match get_type S n with
              | Some (DBuiltin b) => coerce_builtin t b v p
              | Some (DScalar d) => coerce_custom (sc_name d) v p
              | Some (DEnum d) => coerce_enum t d v p
              | Some (DInput d) =>
                  match v with
                  | VObj es => coerce_object d v es sub p
                  | _ => [ENoImplicit v (tref_display t) p]
                  end
              | _ => [EUnresolved v n p]
              end
          | TList inner _ =>
              match v with
              | VList _ => items inner p
              | _ => if allow then go inner p true else [ENoImplicit v (tref_display t) p]
              end
          end
      end.

  (** :16-33,52-69 [CoerceInput::coerce_value] *)
  Definition coerce_value (t : tref) (v : value) (p : path) : list cerr := coerce v t p true.
End Coerce.
