(** Input coercion of values with source positions: bluejay-validator/src/value/input_coercion.rs and input_coercion/error.rs. As
    [Coercion.v], but the errors carry the values and keys with their positions. [ValidatorAtProofs.v] shows that forgetting the
    positions gives the errors of [Coercion.v]. *)
From Coq Require Import String.
From Verif Require Import Base Ast Location ParserAt ParserAtSpec Decimal10.
From Verif Require Export Coercion.

(** input_coercion/error.rs:13-68 [Error]. Simplification: as for [cerr], [LUnresolved] stands for what the types of the code exclude. *)
Inductive lcerr :=
| LNullForRequired (v : lvalue) (ty : text) (p : path)
| LNoImplicit (v : lvalue) (ty : text) (p : path)
| LNoEnumMember (n : name) (v : lvalue) (ty : name) (p : path)
| LNoValueForRequired (v : lvalue) (fields : list name) (ty : name) (p : path)
| LNonUniqueFields (v : lvalue) (field : name) (keys : list lname) (p : path)
| LNoInputField (field : lname) (ty : name) (p : path)
| LCustomScalar (v : lvalue) (ty : name) (msg : text) (p : path)
| LOneOfNull (v : lvalue) (ty : name) (nulls : list (lname * lvalue)) (p : path)
| LOneOfNotSingle (v : lvalue) (ty : name) (nonnulls : list (lname * lvalue)) (p : path)
| LUnresolved (v : lvalue) (ty : name) (p : path).

(** an error about a value that is one token. (A token is no object, so that its errors have no keys or entries.) *)
Definition at_token (sp : nat * nat) (e : cerr) : lcerr :=
  match e with
  | ENullForRequired v ty p => LNullForRequired (LVLeaf v sp) ty p
  | ENoImplicit v ty p => LNoImplicit (LVLeaf v sp) ty p
  | ENoEnumMember n v ty p => LNoEnumMember n (LVLeaf v sp) ty p
  | ENoValueForRequired v fields ty p => LNoValueForRequired (LVLeaf v sp) fields ty p
  | ENonUniqueFields v f c p => LNonUniqueFields (LVLeaf v sp) f (repeat (f, sp) c) p
  | ENoInputField f ty p => LNoInputField (f, sp) ty p
  | ECustomScalar v ty msg p => LCustomScalar (LVLeaf v sp) ty msg p
  | EOneOfNull v ty ns p => LOneOfNull (LVLeaf v sp) ty (map (fun n => ((n, sp), LVLeaf v sp)) ns) p
  | EOneOfNotSingle v ty ns p => LOneOfNotSingle (LVLeaf v sp) ty (map (fun n => ((n, sp), LVLeaf v sp)) ns) p
  | EUnresolved v ty p => LUnresolved (LVLeaf v sp) ty p
  end.

Section CoerceAt.
  (** as in [Coercion.v]. Simplification: the hook of a custom scalar sees the value without its positions. *)
  Variable scalar_hook : name -> value -> option text.
  Variable str_enum : bool.
  Variable one_of : bool.
  Variable S : schema.

  (** :201-214 [coerce_custom_scalar_value] *)
  Definition coerce_custom_at (n : name) (v : lvalue) (p : path) : list lcerr :=
    match scalar_hook n (plain_value v) with None => [] | Some msg => [LCustomScalar v n msg p] end.
  (** :377-432 [validate_one_of_input_object_value] *)
  Definition one_of_errors_at (d : input_def) (v : lvalue) (es : list (lname * lvalue)) (p : path) : list lcerr :=
    if one_of && has_directive (tx "oneOf") (io_dirs d) then
      let nulls := filter (fun e => is_null (plain_value (snd e))) es in
      let nonnulls := filter (fun e => negb (is_null (plain_value (snd e)))) es in
      (if Nat.eqb (length nulls) 0 then [] else [LOneOfNull v (io_name d) nulls p]) ++
      (if Nat.eqb (length nonnulls) 1 then [] else [LOneOfNotSingle v (io_name d) nonnulls p])
    else [].
  (** :261-375 [coerce_input_object_value] *)
  Definition coerce_object_at (d : input_def) (v : lvalue) (es : list (lname * lvalue))
             (sub : name -> option (tref -> path -> bool -> list lcerr)) (p : path) : list lcerr :=
    let non_unique := map (fun g => LNonUniqueFields v (fst g) (map fst (snd g)) p) (duplicates (fun e => fst (fst e)) es) in
    let unknown := map (fun e => LNoInputField (fst e) (io_name d) (ppush p (PKey (fst (fst e)))))
                       (filter (fun e => match get_ivd (io_fields d) (fst (fst e)) with None => true | Some _ => false end) es) in
    let field_errs := flat_map (fun i => match sub (iv_name i) with
                                         | Some f => f (iv_type i) (ppush p (PKey (iv_name i))) true
                                         | None => []
                                         end) (io_fields d) in
    let missing := filter (fun i => match sub (iv_name i), iv_default i with
                                    | None, None => tref_required (iv_type i)
                                    | _, _ => false
                                    end) (io_fields d) in
    non_unique ++ unknown ++ field_errs ++ one_of_errors_at d v es p ++
    (match missing with [] => [] | _ => [LNoValueForRequired v (map iv_name missing) (io_name d) p] end).
  (** :71-134 [coerce_value_for_input_type], :136-173 [coerce_value_for_base_input_type]: a token as in [Coercion.v]; lists and
      objects. No list or object is a builtin scalar or a member of an enum (:175-235). *)
  Fixpoint coerce_at (v : lvalue) {struct v} : tref -> path -> bool -> list lcerr :=
    let sub :=
      match v with
      | LVObj es _ => fun k => assoc k (map (fun kv => (fst (fst kv), coerce_at (snd kv))) es)
      | _ => fun _ => None
      end in
    let items :=
      match v with
      | LVList vs _ => fun inner p => concat (mapi (fun i x => coerce_at x inner (ppush p (PIndex i)) false) vs)
      | _ => fun _ _ => []
      end in
    fix go (t : tref) (p : path) (allow : bool) {struct t} : list lcerr :=
      match v with
      | LVLeaf x sp => map (at_token sp) (coerce scalar_hook str_enum one_of S x t p allow)
      | _ =>
          match t with
          | TBase n _ =>
              match get_type S n with
              | Some (DBuiltin _) | Some (DEnum _) => [LNoImplicit v (tref_display t) p]
              | Some (DScalar d) => coerce_custom_at (sc_name d) v p
              | Some (DInput d) =>
                  match v with
                  | LVObj es _ => coerce_object_at d v es sub p
                  | _ => [LNoImplicit v (tref_display t) p]
                  end
              | _ => [LUnresolved v n p]
              end
          | TList inner _ =>
              match v with
              | LVList _ _ => items inner p
              | _ => if allow then go inner p true else [LNoImplicit v (tref_display t) p]
              end
          end
      end.
  (** :16-33, :52-69 [CoerceInput::coerce_value] *)
  Definition coerce_value_at (t : tref) (v : lvalue) (p : path) : list lcerr := coerce_at v t p true.
End CoerceAt.

(** [ValueReference::variant] (bluejay-core/src/value.rs:72-90, lowercase) *)
Definition variant (v : value) : text :=
  match v with
  | VVar _ => tx "variable" | VInt _ => tx "integer" | VFloat _ => tx "float" | VStr _ => tx "string" | VBool _ => tx "boolean"
  | VNull => tx "null" | VEnum _ => tx "enum" | VList _ => tx "list" | VObj _ => tx "object"
  end.
(** [Error::message] (input_coercion/error.rs:70-122) *)
Definition coercion_message (e : lcerr) : text :=
  match e with
  | LNullForRequired _ ty _ => tx "Got null when non-null value of type " ++ ty ++ tx " was expected"
  | LNoImplicit v ty _ => tx "No implicit conversion of " ++ variant (plain_value v) ++ tx " to " ++ ty
  | LNoEnumMember n _ ty _ => tx "No member `" ++ n ++ tx "` on enum " ++ ty
  | LNoValueForRequired _ fields ty _ => tx "No value for required fields on input type " ++ ty ++ tx ": " ++ joined fields
  | LNonUniqueFields _ f _ _ => tx "Object with multiple entries for field " ++ f
  | LNoInputField f ty _ => tx "No field with name " ++ fst f ++ tx " on input type " ++ ty
  | LCustomScalar _ _ msg _ => msg
  | LOneOfNull _ ty _ _ => tx "Multiple entries with null values for oneOf input object " ++ ty
  | LOneOfNotSingle _ ty es _ => tx "Got " ++ show_nat (length es) ++ tx " entries with non-null values for oneOf input object " ++ ty
  | LUnresolved _ _ _ => []
  end.
(** the span of an entry, [key.span().merge(value.span())] (:204, :224) *)
Definition entry_span (e : lname * lvalue) : span := merge (snd (fst e)) (value_span (snd e)).
(** [From<Error> for ParserError] (:125-232) *)
Definition coercion_error (e : lcerr) : err :=
  match e with
  | LNullForRequired v _ _ =>
      {| er_message := coercion_message e; er_primary := Some (tx "Expected non-null value", value_span v); er_secondary := [] |}
  | LNoImplicit v ty _ =>
      {| er_message := coercion_message e; er_primary := Some (tx "No implicit conversion to " ++ ty, value_span v); er_secondary := [] |}
  | LNoEnumMember _ v ty _ =>
      {| er_message := coercion_message e; er_primary := Some (tx "No such member on enum " ++ ty, value_span v); er_secondary := [] |}
  | LNoValueForRequired v fields _ _ =>
      {| er_message := coercion_message e; er_primary := Some (tx "No value for required fields: " ++ joined fields, value_span v); er_secondary := [] |}
  | LNonUniqueFields _ _ keys _ =>
      {| er_message := coercion_message e; er_primary := None; er_secondary := map (fun k : lname => (tx "Entry for field", snd k)) keys |}
  | LNoInputField f ty _ =>
      {| er_message := coercion_message e; er_primary := Some (tx "No field with this name on input type " ++ ty, snd f); er_secondary := [] |}
  | LCustomScalar v _ msg _ => {| er_message := msg; er_primary := Some (msg, value_span v); er_secondary := [] |}
  | LOneOfNull v _ es _ =>
      {| er_message := coercion_message e; er_primary := Some (tx "oneOf input object must not contain any null values", value_span v);
         er_secondary := map (fun x => (tx "Entry with null value", entry_span x)) es |}
  | LOneOfNotSingle v _ es _ =>
      {| er_message := coercion_message e; er_primary := Some (tx "oneOf input object must contain single non-null", value_span v);
         er_secondary := map (fun x => (tx "Entry with non-null value", entry_span x)) es |}
  | LUnresolved _ _ _ => {| er_message := []; er_primary := None; er_secondary := [] |}
  end.
