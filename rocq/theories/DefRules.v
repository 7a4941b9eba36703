(** Validation of schemas: model of bluejay-validator/src/definition/{rules,validator}.rs and definition/rules/*.rs. *)
From Verif Require Import Base Ast InputCycles.

(** definition/error.rs:8-22 [Error] *)
Inductive deferr :=
| DRepeatedEnumValue (n : name) (values : list evd)
| DRepeatedInputField (n : name) (fields : list ivd)
| DCircularInput (n : name) (refs : list tref).

(** enum_value_definition_uniqueness.rs:10-26, for one enum type *)
Definition enum_errors (x : enum_def) : list deferr :=
  map (fun g => DRepeatedEnumValue (fst g) (snd g)) (duplicates ev_name (en_values x)).
(** input_field_definition_uniqueness.rs:10-28, for one input type *)
Definition input_errors (x : input_def) : list deferr :=
  map (fun g => DRepeatedInputField (fst g) (snd g)) (duplicates iv_name (io_fields x)).
(** validator.rs:19-30 [visit] and rules.rs:56-64 [BuiltinRules]: every rule sees the input and enum types in order; the
    errors of the rules are chained *)
Definition definition_errors (S : schema) : list deferr :=
  flat_map (fun t => match t with DEnum x => enum_errors x | _ => [] end) (s_types S) ++
  flat_map (fun t => match t with DInput x => input_errors x | _ => [] end) (s_types S) ++
  map (fun e => DCircularInput (fst e) (snd e)) (circular_reference_errors S).
