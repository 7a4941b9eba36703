(** The Rust types generated for the input types and enums of a schema: model of
    bluejay-typegen-macro/src/input_object_type_definition.rs, src/lib.rs (custom scalars, the items of the module) and of
    how their values are written as JSON. Descriptions (doc comments) are left out. *)
From Verif Require Import Base Ast Coercion Json Typegen TypegenDe.
Local Open Scope string_scope.
Local Open Scope list_scope.

(** * Custom scalars *)
(** a type alias in the module: its name, whether it has type or const parameters, and the number of its lifetimes *)
Record alias := { ta_name : name; ta_types : bool; ta_consts : bool; ta_lifetimes : nat }.
Inductive alias_error :=
| ATypeParameter (n : name)
| AConstParameter (n : name)
| ALifetime (n : name)
| ATwoLifetimes (n : name)
| ANoScalar (n : name)
| AMissing (n : name).
(** the first error of a list of checks ([try_for_each]) *)
Fixpoint first_error {A} (check : A -> option alias_error) (l : list A) : option alias_error :=
  match l with [] => None | x :: l' => match check x with Some e => Some e | None => first_error check l' end end.
Section Scalars.
  (** names.rs:7-9 [type_name] *)
  Variable pascal : name -> name.
  Variable S : schema.
  Variable borrow : bool.
  Definition scalar_names : list name := filter_map (fun t => match t with DScalar x => Some (sc_name x) | _ => None end) (s_types S).
  (** lib.rs:141-186 *)
  Definition alias_check (a : alias) : option alias_error :=
    if ta_types a then Some (ATypeParameter (ta_name a))
    else if ta_consts a then Some (AConstParameter (ta_name a))
    else if negb borrow && Nat.ltb 0 (ta_lifetimes a) then Some (ALifetime (ta_name a))
    else if borrow && Nat.ltb 1 (ta_lifetimes a) then Some (ATwoLifetimes (ta_name a))
    else if existsb (fun n => teqb (pascal n) (ta_name a)) scalar_names then None
    else Some (ANoScalar (ta_name a)).
  (** lib.rs:123-215 [custom_scalar_borrows]: the map from the names of the aliases to whether they borrow *)
  Definition custom_scalars (aliases : list alias) : list (name * bool) + alias_error :=
    match first_error alias_check aliases with
    | Some e => inr e
    | None =>
        let map' := map (fun a => (ta_name a, Nat.ltb 0 (ta_lifetimes a))) aliases in
        match first_error (fun n => match assoc_last (pascal n) map' with Some _ => None | None => Some (AMissing (pascal n)) end) scalar_names with
        | Some e => inr e
        | None => inl map'
        end
    end.
  (** lib.rs:49-54 [Config::custom_scalar_borrows] *)
  Definition scalar_lookup (m : list (name * bool)) (n : name) : option bool := assoc_last (pascal n) m.
End Scalars.

(** * Input types *)
(** The Rust type of a field. The flags say whether it is written with the lifetime 'a. *)
Inductive itype : Type :=
| IBuiltin (b : builtin) (lt : bool)
| IScalar (n : name) (lt : bool)
| IEnum (n : name)
| IInput (n : name) (lt : bool)
| IBox (t : itype)
| IOpt (t : itype)
| IVec (t : itype).
(** a field or variant: the name it is serialized as, its type, whether it has the attribute serde(borrow) *)
Record ifield := { ifd_key : name; ifd_type : itype; ifd_borrow : bool }.
(** a struct, or an enum for a oneOf input type; with or without the lifetime 'a *)
Record idef := { id_name : name; id_one_of : bool; id_lifetime : bool; id_fields : list ifield }.
Inductive sitem := SEnum (x : enum_def) | SInput (d : idef).

(** [Iterator::any] with a closure that changes the set of visited names *)
Fixpoint any_with {A} (f : A -> list name -> built (bool * list name)) (l : list A) (visited : list name) : built (bool * list name) :=
  match l with
  | [] => Built (false, visited)
  | x :: l' => bbind (f x visited) (fun r => if fst r then Built r else any_with f l' (snd r))
  end.

Section Inputs.
  Variable S : schema.
  (** lib.rs:33-63 [Config]; [scalar_borrows]: see Typegen.v *)
  Variable borrow : bool.
  Variable scalar_borrows : name -> option bool.

  (** input_object_type_definition.rs:248-266 [contains_reference_types], :268-276
      [input_object_contains_reference_types] *)
  Fixpoint contains_references (fuel : nat) (t : tref) (visited : list name) : built (bool * list name) :=
    match fuel with
    | 0 => Panics POutOfFuel
    | Datatypes.S fuel' =>
        match get_type S (tref_base t) with
        | None => Panics PNoType
        | Some base =>
            if negb borrow || tmem (tref_base t) visited then Built (false, visited)
            else
              let visited := tref_base t :: visited in
              match base with
              | DBuiltin b => Built (is_reference b, visited)
              | DScalar x => match scalar_borrows (sc_name x) with Some b => Built (b, visited) | None => Panics PNoAlias end
              | DEnum _ => Built (false, visited)
              | DInput d => any_with (fun i => contains_references fuel' (iv_type i)) (io_fields d) visited
              | _ => Panics PNoType
              end
        end
    end.
  Definition fuel : nat := Datatypes.S (length (s_types S)).
  Definition object_contains_references (d : input_def) : built bool :=
    bmap fst (any_with (fun i => contains_references fuel (iv_type i)) (io_fields d) []).
  (** :221-246 [contains_non_list_reference] *)
  Fixpoint contains_non_list (fuel : nat) (target : name) (t : tref) (visited : list name) : built (bool * list name) :=
    match fuel with
    | 0 => Panics POutOfFuel
    | Datatypes.S fuel' =>
        if match t with TBase n _ => teqb n target | TList _ _ => false end then Built (true, visited)
        else match get_type S (tref_base t) with
             | Some (DInput d) =>
                 if tmem (tref_base t) visited then Built (false, visited)
                 else any_with (fun i => contains_non_list fuel' target (iv_type i)) (io_fields d) (tref_base t :: visited)
             | Some (DBuiltin _ | DScalar _ | DEnum _) => Built (false, visited)
             | _ => Panics PNoType
             end
    end.

  (** :278-302 [type_for_base_input_type]; builtin_scalar.rs:5-31 *)
  Definition base_type (n : name) : built itype :=
    match get_type S n with
    | Some (DBuiltin b) => Built (IBuiltin b (builtin_borrows borrow b))
    | Some (DInput d) => bmap (IInput n) (object_contains_references d)
    | Some (DEnum _) => Built (IEnum n)
    | Some (DScalar x) => match scalar_borrows (sc_name x) with Some b => Built (IScalar n b) | None => Panics PNoAlias end
    | _ => Panics PNoType
    end.
  Definition optional (required : bool) (t : itype) : itype := if required then t else IOpt t.
  (** :304-341 [type_for_input_type] *)
  Fixpoint type_for (t : tref) (parent : option name) (has_default : option bool) : built itype :=
    let required := match has_default with None => tref_required t | Some h => negb h && tref_required t end in
    match t with
    | TBase n _ =>
        bbind (base_type n) (fun inner =>
        bbind (match parent with Some p => bmap fst (contains_non_list fuel p t []) | None => Built false end) (fun boxed =>
        Built (optional required (if boxed : bool then IBox inner else inner))))
    | TList inner _ => bmap (fun x => optional required (IVec x)) (type_for inner None None)
    end.
  Definition has_default (i : ivd) : bool := match iv_default i with Some _ => true | None => false end.
  (** :159-177 [variant_type_paths]: the type of a variant is required *)
  Definition require (t : tref) : tref := match t with TBase n _ => TBase n true | TList x _ => TList x true end.
  (** :149-157 [field_type_paths], :343-353 [type_for_input_value_definition], :197-208 [field_serde_borrow_attributes] *)
  Definition build_ifield (d : input_def) (one_of : bool) (i : ivd) : built ifield :=
    bbind (if one_of then type_for (require (iv_type i)) (Some (io_name d)) None
           else type_for (iv_type i) (Some (io_name d)) (Some (has_default i))) (fun t =>
    bmap (fun r => {| ifd_key := iv_name i; ifd_type := t; ifd_borrow := fst r |}) (contains_references fuel (iv_type i) [])).
  (** :21-43 [build], :45-70 [build_enum], :72-97 [build_struct], :210-219 [lifetime] *)
  Definition build_input (d : input_def) : built idef :=
    let one_of := has_directive (tx "oneOf") (io_dirs d) in
    bbind (object_contains_references d) (fun lt =>
    bmap (fun fs => {| id_name := io_name d; id_one_of := one_of; id_lifetime := lt; id_fields := fs |})
      (bseq (map (build_ifield d one_of) (io_fields d)))).
  (** lib.rs:217-241 [process_module_items]: the items for the types of the schema, in order *)
  Definition schema_items : built (list sitem) :=
    bseq (filter_map (fun t => match t with
                               | DEnum x => Some (Built (SEnum x))
                               | DInput d => Some (bmap SInput (build_input d))
                               | _ => None
                               end) (s_types S)).
End Inputs.

(** * Values of the generated types, as JSON *)
(** is the 64 bit pattern that of a finite float? (The exponent bits are not all ones.) *)
Definition finite_float (bits : N) : bool := negb (N.eqb (N.modulo (N.div bits 4503599627370496) 2048) 2047).
(** What the derived (serde) or generated (miniserde) serializers write: input_object_type_definition.rs:103-125 (derived),
    :355-446 (written out), enum_type_definition.rs:31-48,105-125. The values are those of TypegenDe.v; a variant of a oneOf
    type has one field. [None]: the serializer panics ("Cannot serialize Other variant"); serde writes the identifier Other.
    Both codecs write floats that are not finite as null. A [Box] is not visible. *)
Fixpoint ser (cod : codec) (v : rval) : option json :=
  match v with
  | RNone => Some JNull
  | RSome v' => ser cod v'
  | RVec vs => option_map JList (oseq (map (ser cod) vs))
  | RStruct fs => option_map JObj (oseq (map (fun f => option_map (fun j => (fst f, j)) (ser cod (snd f))) fs))
  | RVariant n fs => option_map JObj (oseq (map (fun f => option_map (fun j => (fst f, j)) (ser cod (snd f))) fs))
  | ROther => None
  | RBool b => Some (JBool b)
  | RInt z => Some (JInt z)
  | RFloat (JFloat bits) => Some (if finite_float bits then JFloat bits else JNull)
  | RFloat j => Some j
  | RStr s => Some (JStr s)
  | REnumValue n => Some (JStr n)
  | REnumOther => match cod with Serde => Some (JStr (tx "Other")) | Miniserde => None end
  | RCustom _ j => Some j
  end.
