(** The validator as a whole: bluejay-validator/src/executable/document/{rules,rule,orchestrator,error}.rs. *)
From Verif Require Import Base Ast CoercionTypes Doc DocRules DocVariables FragmentCycles Merging.

(** error.rs:21-127 [Error], error/argument_error.rs, error/directive_error.rs. Simplifications: an error carries what the rule of
    the model returns; errors in constant and in variable arguments, directives and values are one kind, as are errors about
    fragment definitions and inline fragments that differ in nothing else. *)
Inductive doc_error :=
| NonUniqueOperationNames (n : name) (ops : list operation)
| NotLoneAnonymousOperation (ops : list operation)
| SubscriptionRootNotSingleField (o : operation)
| FieldDoesNotExistOnType (field : name) (t : tdef)
| FieldSelectionsDoNotMerge (e : merge_error)
| OperationTypeNotDefined (o : operation)
| LeafFieldSelection (e : leaf_error)
| ArgumentDoesNotExist (on : owner) (a : argument)
| NonUniqueArgumentNames (n : name) (args : list argument)
| RequiredArgumentsMissing (on : owner) (missing : list ivd)
| NonUniqueFragmentDefinitionNames (n : name) (fs : list fragment)
| FragmentTargetTypeDoesNotExist (cond : name)
| FragmentTargetTypeNotComposite (cond : name)
| FragmentDefinitionUnused (f : fragment)
| FragmentSpreadTargetUndefined (n : name)
| FragmentSpreadCycle (f : fragment)
| FragmentSpreadIsNotPossible (e : spread_error)
| InvalidValue (e : cerr)
| DirectiveDoesNotExist (x : directive)
| DirectiveInInvalidLocation (x : directive) (loc : dloc)
| DirectivesNotUnique (xs : list directive)
| NonUniqueVariableDefinitionNames (n : name) (vs : list vardef)
| VariableDefinitionTypeNotInput (v : vardef)
| VariableNotDefined (op : nat) (x : name)
| VariableDefinitionUnused (op : nat) (v : vardef)
| InvalidVariableUsage (op : nat) (x : name) (v : vardef) (l : location).

Section Validate.
  Variable S : schema.
  Variable hook : name -> value -> option text.
  Variable str_enum one_of : bool.
  (** the orders of the hash maps of the merging rule, as in Merging.v *)
  Variable ord : nat -> list (list fctx) -> list (list fctx).
  (** orchestrator.rs:327-338 [validate] with [BuiltinRules] (rules.rs:55-82): one walk through the document, which passes every
      place to every rule; then the errors of the rules, in the order of the tuple (rule.rs:16-29). [None]: a panic, or a
      function of the model that runs out of fuel. Simplification: the iterators are lists. *)
  Definition validate (d : document) : option (list doc_error) :=
    let evs := visit S d in
    if existsb (fun e => match e with EPanic => true | _ => false end) evs then None else
    match merging_errors S d ord, fragment_cycle_errors d, undefined_variable_errors d evs, unused_variable_errors d evs,
          disallowed_usage_errors S d evs with
    | Some merging, Some cycles, Some undefined, Some unused, Some disallowed => Some (
        map (fun e => NonUniqueOperationNames (fst e) (map snd (snd e))) (operation_name_errors evs) ++
        (match lone_anonymous_errors d evs with Some ops => [NotLoneAnonymousOperation ops] | None => [] end) ++
        map SubscriptionRootNotSingleField (subscription_errors d evs) ++
        map (fun e => FieldDoesNotExistOnType (fst e) (snd e)) (field_selection_errors evs) ++
        map FieldSelectionsDoNotMerge merging ++
        map OperationTypeNotDefined (operation_type_errors S evs) ++
        map LeafFieldSelection (leaf_selection_errors S evs) ++
        map (fun e => ArgumentDoesNotExist (fst e) (snd e)) (argument_name_errors S evs) ++
        map (fun e => NonUniqueArgumentNames (fst e) (snd e)) (argument_uniqueness_errors evs) ++
        map (fun e => RequiredArgumentsMissing (fst e) (snd e)) (required_argument_errors S evs) ++
        map (fun e => NonUniqueFragmentDefinitionNames (fst e) (snd e)) (fragment_name_errors evs) ++
        map FragmentTargetTypeDoesNotExist (fragment_type_errors S evs) ++
        map FragmentTargetTypeNotComposite (fragment_composite_errors S evs) ++
        map FragmentDefinitionUnused (unused_fragment_errors d evs) ++
        map FragmentSpreadTargetUndefined (spread_target_errors d evs) ++
        map FragmentSpreadCycle cycles ++
        map FragmentSpreadIsNotPossible (spread_possible_errors S d evs) ++
        map InvalidValue (value_errors S hook str_enum one_of evs) ++
        map DirectiveDoesNotExist (directive_defined_errors S evs) ++
        map (fun e => DirectiveInInvalidLocation (fst e) (snd e)) (directive_location_errors S evs) ++
        map DirectivesNotUnique (directive_uniqueness_errors S evs) ++
        map (fun e => NonUniqueVariableDefinitionNames (fst e) (snd e)) (variable_uniqueness_errors evs) ++
        map VariableDefinitionTypeNotInput (variable_input_errors S evs) ++
        map (fun e => VariableNotDefined (fst e) (snd e)) undefined ++
        map (fun e => VariableDefinitionUnused (fst e) (snd e)) unused ++
        map (fun e => InvalidVariableUsage (fst e) (fst (fst (snd e))) (snd (fst (snd e))) (snd (snd e))) disallowed)
    | _, _, _, _, _ => None
    end.
End Validate.
