(** What the generated types do with a response: model of the deserializers in
    bluejay-typegen-macro/src/executable_definition/executable_{struct,enum,enum_variant,field}_builder.rs and
    src/enum_type_definition.rs. With the miniserde codec these are written out by the macro; with the serde codec they
    are derived by serde from the attributes the macro emits, and the model says what serde documents for them. *)
From Verif Require Import Base Ast Json Typegen.
Local Open Scope string_scope.
Local Open Scope list_scope.

(** input.rs [Codec] *)
Inductive codec := Serde | Miniserde.

(** Values of the generated types. Simplification: an [f64] is the JSON number it was read from; a value of a custom
    scalar's type is the JSON it was read from. *)
Inductive rval : Type :=
| RNone
| RSome (v : rval)
| RVec (vs : list rval)
| RStruct (fs : list (name * rval))
| RVariant (n : name) (fs : list (name * rval))
| ROther
| RBool (b : bool)
| RInt (z : Z)
| RFloat (j : json)
| RStr (s : text)
| REnumValue (n : name)
| REnumOther
| RCustom (n : name) (j : json).

Fixpoint oseq {A} (l : list (option A)) : option (list A) :=
  match l with
  | [] => Some []
  | x :: l' => match x, oseq l' with Some a, Some r => Some (a :: r) | _, _ => None end
  end.

(** The items that the types of a document give rise to, at the root of the query's module: structs and enums, under their
    own name; nothing for a reference (executable_type_builder.rs:10-22). *)
Definition items (types : list etype) : list (name * etype) :=
  filter_map (fun e => match e with EStruct p _ | EEnum p _ => Some (p, e) | _ => None end) types.

Section De.
  Variable cod : codec.
  Variable S : schema.
  (** does the Rust type that a custom scalar is an alias of accept the JSON? *)
  Variable scalar_de : name -> json -> bool.
  (** names.rs:7-13 [type_ident]: the Rust identifier of a type (Pascal case; the conversion is in another crate) *)
  Variable pascal : name -> name.
  Variable root_items : list (name * etype).

  (** executable_field_builder.rs:113-118: the item that a reference to a fragment's type denotes *)
  Definition resolve (n : name) : option etype :=
    option_map snd (find (fun it => teqb (pascal (fst it)) (pascal n)) root_items).

  (** builtin_scalar.rs:5-16: [bool], [f64], [i32], [String] (or [Cow<str>]) *)
  Definition de_builtin (b : builtin) (j : json) : option rval :=
    match b, j with
    | BBoolean, JBool x => Some (RBool x)
    | BFloat, (JInt _ | JFloat _) => Some (RFloat j)
    | BInt, JInt z => if fits_i32 z then Some (RInt z) else None
    | (BID | BString), JStr s => Some (RStr s)
    | _, _ => None
    end.
  (** a custom scalar, or an enum: enum_type_definition.rs:32-48,127-174. serde also accepts other representations of an
      enum than a string; these are not modelled. *)
  Definition de_leaf (n : name) (j : json) : option rval :=
    match get_type S n with
    | Some (DEnum x) =>
        match j with
        | JStr s => Some (if existsb (fun e => teqb (ev_name e) s) (en_values x) then REnumValue s else REnumOther)
        | _ => None
        end
    | Some (DScalar x) => if scalar_de n j then Some (RCustom n j) else None
    | _ => None
    end.

  (** The entries of the object at hand, each with the deserializer for its value. Objects with repeated keys are not
      modelled: the first entry counts. *)
  Definition entries := list (text * (json * (wtype -> option rval))).
  (** The fields of a struct or variant. A missing entry is an error, except that serde gives [None] for an [Option].
      (executable_struct_builder.rs:154-156, executable_enum_builder.rs:231-233) *)
  Definition de_fields (fs : list (name * wtype)) (es : entries) : option (list (name * rval)) :=
    oseq (map (fun f => match assoc (fst f) es with
                        | Some (_, g) => option_map (fun v => (fst f, v)) (g (snd f))
                        | None => match cod, snd f with Serde, WOpt _ => Some (fst f, RNone) | _, _ => None end
                        end) fs).
  Definition tag : name := tx "__typename".
  (** executable_struct_builder.rs:146-159, executable_enum_builder.rs:65 (serde: internally tagged by __typename, with
      [serde(other)]), :286-306 (miniserde: __typename has to be the first entry; entries that the variant does not have are
      errors) *)
  Definition de_item (e : etype) (j : json) (es : entries) : option rval :=
    match e, j with
    | EStruct _ fs, JObj _ => option_map RStruct (de_fields fs es)
    | EEnum _ vs, JObj _ =>
        match cod with
        | Serde =>
            match assoc tag es with
            | Some (JStr t, _) =>
                match assoc t vs with
                | Some fs => option_map (RVariant t) (de_fields fs (filter (fun kv => negb (teqb (fst kv) tag)) es))
                | None => Some ROther
                end
            | _ => None
            end
        | Miniserde =>
            match es with
            | (k, (JStr t, _)) :: es' =>
                if teqb k tag then
                  match assoc t vs with
                  | Some fs => if forallb (fun kv => tmem (fst kv) (map fst fs)) es'
                               then option_map (RVariant t) (de_fields fs es') else None
                  | None => match es' with [] => Some ROther | _ => None end
                  end
                else None
            | _ => None
            end
        end
    | _, _ => None
    end.
  Definition de_base (e : etype) (j : json) (es : entries) : option rval :=
    match e with
    | EBuiltin b _ => de_builtin b j
    | ELeaf n _ => de_leaf n j
    | ERef n _ => match resolve n with Some e' => de_item e' j es | None => None end
    | EStruct _ _ | EEnum _ _ => de_item e j es
    end.
  Fixpoint de (j : json) {struct j} : wtype -> option rval :=
    let es := match j with JObj kvs => map (fun kv => (fst kv, (snd kv, de (snd kv)))) kvs | _ => [] end in
    let elements := match j with JList js => fun w => oseq (map (fun x => de x w) js) | _ => fun _ => None end in
    fix go (w : wtype) {struct w} : option rval :=
      match w with
      | WBase e => de_base e j es
      | WOpt w' => match j with JNull => Some RNone | _ => option_map RSome (go w') end
      | WVec w' => option_map RVec (elements w')
      end.
End De.
