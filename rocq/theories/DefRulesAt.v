(** Validation of schemas with source positions, and the conversion of its errors: bluejay-validator/src/definition/{rules,validator,
    error}.rs and definition/rules/*.rs, on schemas of the parser. As [DefRules.v] and [InputCycles.v], but errors carry the parts of
    the schema document with their positions; [DefRulesAtProofs.v] shows that forgetting them gives the errors of [DefRules.v]. *)
From Coq Require Import String.
From Verif Require Import Base Ast Graph Maps Location ParserAt DefParserAt Resolve ResolveAt ValidatorAt.

(** definition/error.rs:10-23 [Error] *)
Inductive ldeferr :=
| LDRepeatedEnumValue (n : name) (values : list levd)
| LDRepeatedInputField (n : name) (fields : list livd)
| LDCircularInput (n : lname) (refs : list ltype).

Section Rules.
  (** the types of the schema by name; their values are [type_definitions()] *)
  Variable types : list (name * ctype).
  (** enum_value_definition_uniqueness.rs:10-28 *)
  Definition enum_errors_at (vs : list levd) : list ldeferr :=
    map (fun g => LDRepeatedEnumValue (fst g) (snd g)) (duplicates (fun v => fst (lev_name v)) vs).
  (** input_field_definition_uniqueness.rs:10-31 *)
  Definition input_errors_at (fs : list livd) : list ldeferr :=
    map (fun g => LDRepeatedInputField (fst g) (snd g)) (duplicates (fun f => fst (liv_name f)) fs).
  (** input_object_circular_references.rs:39-67; as in [InputCycles.v], [None] = out of fuel *)
  Fixpoint visit_circular_at (fuel : nat) (target : name) (fields : list livd) (st : list ltype * list name) {struct fuel} : option (list ltype * list name) :=
    match fuel with
    | 0 => None
    | S fuel' =>
        fold_left (fun acc f =>
          match acc with
          | None => None
          | Some (circ, enc) =>
              match liv_type f with
              | LTBase inner true _ =>
                  if teqb (fst inner) target then Some (circ ++ [liv_type f], enc)
                  else match assoc (fst inner) types with
                       | Some (CType _ _ (LDInput _ _ _ fs)) =>
                           if mem text_dec (fst inner) enc then Some (circ, enc)
                           else visit_circular_at fuel' target (fst fs) (circ, fst inner :: enc)
                       | _ => Some (circ, enc)
                       end
              | _ => Some (circ, enc)
              end
          end) fields (Some st)
    end.
  (** :15-35 *)
  Definition circular_errors_at (n : lname) (fs : list livd) : list ldeferr :=
    match visit_circular_at (S (length types)) (fst n) fs ([], []) with
    | Some ((_ :: _) as circ, _) => [LDCircularInput n circ]
    | _ => []
    end.
  (** validator.rs:19-30 [visit] and rules.rs:50-57 [BuiltinRules], as in [DefRules.v] *)
  Definition definition_errors_at : list ldeferr :=
    flat_map (fun t => match t with CType _ _ (LDEnum _ _ _ vs) => enum_errors_at (fst vs) | _ => [] end) (map snd types) ++
    flat_map (fun t => match t with CType _ _ (LDInput _ _ _ fs) => input_errors_at (fst fs) | _ => [] end) (map snd types) ++
    flat_map (fun t => match t with CType _ _ (LDInput n _ _ fs) => circular_errors_at n (fst fs) | _ => [] end) (map snd types).
End Rules.
(** [From<Error> for ParserError] (definition/error.rs:26-87) *)
Definition definition_error (e : ldeferr) : err :=
  match e with
  | LDRepeatedInputField n fs =>
      {| er_message := tx "Multiple input value definitions named " ++ quoted n; er_primary := None;
         er_secondary := map (fun f => (tx "Input value definition with name " ++ quoted n, snd (liv_name f))) fs |}
  | LDRepeatedEnumValue n vs =>
      {| er_message := tx "Multiple enum value definitions named " ++ quoted n; er_primary := None;
         er_secondary := map (fun v => (tx "Enum value definition with name " ++ quoted n, snd (lev_name v))) vs |}
  | LDCircularInput n refs =>
      {| er_message := tx "Input object type definition " ++ quoted (fst n) ++ tx " contains disallowed circular reference(s)";
         er_primary := Some (tx "Input object type definition contains circular reference(s) through an unbroken chain of non-null singular fields, which is disallowed", snd n);
         er_secondary := map (fun t => (tx "Occurence of circular reference", type_span t)) refs |}
  end.
(** the errors of the schema of a document that resolves *)
Definition validation_errors_at (scalar_order : list builtin) (directive_order : list lddef) (l : list lsysdef) : list err :=
  map definition_error (definition_errors_at (fst (index ct_name (lc_types (complete_at scalar_order directive_order l))))).
