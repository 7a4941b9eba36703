(** Model of the rule FragmentSpreadsMustNotFormCycles
    (bluejay-validator/src/executable/document/rules/fragment_spreads_must_not_form_cycles.rs). *)
From Verif Require Import Base Ast Graph Maps.

(** [visit_selection_for_fragment_spreads] (:109-128): names of the spreads, in order. *)
Fixpoint selection_spreads (s : selection) : list name :=
  let go := fix go (l : list selection) : list name :=
              match l with [] => [] | x :: l' => selection_spreads x ++ go l' end in
  match s with
  | SField _ _ _ _ sub => go sub
  | SSpread n _ => [n]
  | SInline _ _ sub => go sub
  end.
(** [contained_fragment_spreads] (:98-107) *)
Definition contained_spreads (l : list selection) : list name := flat_map selection_spreads l.

(** the [BTreeMap] of [new] (:58-71) *)
Definition spreads_by_fragment (d : document) : list (name * (fragment * list name)) :=
  tmap_of (map (fun f => (fr_name f, (f, contained_spreads (fr_sel f)))) (doc_frags d)).

(** [detect_fragment_cycles] (:18-51). The visited set is cloned along the path, so it is passed down.
    [None] = out of fuel; [Some true] = an error for [target] is returned. The spread reported in the error always
    has the target's name. *)
Fixpoint detect_cycle (m : list (name * (fragment * list name))) (target : name) (fuel : nat)
         (n : name) (visited : list name) {struct fuel} : option bool :=
  match fuel with
  | 0 => None
  | S fuel' =>
      if mem text_dec n visited then Some false
      else match assoc n m with
           | Some (_, spreads) =>
               (fix find_map (l : list name) : option bool :=
                  match l with
                  | [] => Some false
                  | s :: l' =>
                      if teqb s target then Some true
                      else match detect_cycle m target fuel' s (n :: visited) with
                           | None => None
                           | Some true => Some true
                           | Some false => find_map l'
                           end
                  end) spreads
           | None => Some false
           end
  end.

(** [new] (:57-84): the fragments reported, in map order; [None] = out of fuel. *)
Definition fragment_cycle_errors (d : document) : option (list fragment) :=
  let m := spreads_by_fragment d in
  fold_right (fun e acc =>
    match acc, detect_cycle m (fr_name (fst (snd e))) (S (S (length m))) (fst e) [] with
    | Some errs, Some true => Some (fst (snd e) :: errs)
    | Some errs, Some false => Some errs
    | _, _ => None
    end) (Some []) m.
