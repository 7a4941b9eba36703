(** Model of the rule InputObjectCircularReferences
    (bluejay-validator/src/definition/rules/input_object_circular_references.rs). *)
From Verif Require Import Base Ast Graph.

(** [visit_for_circular_references] (:38-67). [st] = ([circular_references], [encountered]). [None] = out of fuel.
    Simplification: [ivd.type().as_ref(schema)] is the lookup of the base name in the schema; a name that
    does not resolve (impossible in a resolved schema) is treated like a scalar. *)
Fixpoint visit_circular (S : schema) (fuel : nat) (target : name) (fields : list ivd)
         (st : list tref * list name) {struct fuel} : option (list tref * list name) :=
  match fuel with
  | 0 => None
  | Datatypes.S fuel' =>
      fold_left (fun acc f =>
        match acc with
        | None => None
        | Some (circ, enc) =>
            match iv_type f with
            | TBase inner true =>
                if teqb inner target then Some (circ ++ [iv_type f], enc)
                else match get_type S inner with
                     | Some (DInput d) =>
                         if mem text_dec inner enc then Some (circ, enc)
                         else visit_circular S fuel' target (io_fields d) (circ, inner :: enc)
                     | _ => Some (circ, enc)
                     end
            | _ => Some (circ, enc)
            end
        end) fields (Some st)
  end.

(** [visit_input_object_type_definition] (:15-35): the error for one input object, if any.
    Result: [None] = out of fuel; [Some None] = no error; [Some (Some refs)] = error listing [refs]. *)
Definition input_object_error (S : schema) (d : input_def) : option (option (list tref)) :=
  match visit_circular S (Datatypes.S (length (s_types S))) (io_name d) (io_fields d) ([], []) with
  | None => None
  | Some (circ, _) => Some (match circ with [] => None | _ => Some circ end)
  end.

(** The errors of the rule over the schema: definition/orchestrator.rs visits every type definition in order. *)
Definition circular_reference_errors (S : schema) : list (name * list tref) :=
  flat_map (fun t => match t with
                     | DInput d => match input_object_error S d with
                                   | Some (Some refs) => [(io_name d, refs)]
                                   | _ => []
                                   end
                     | _ => []
                     end) (s_types S).
