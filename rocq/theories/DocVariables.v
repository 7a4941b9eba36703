(** The three rules on variables that follow fragment spreads:
    bluejay-validator/src/executable/document/rules/{all_variables_used,all_variable_uses_defined,all_variable_usages_allowed}.rs.
    Simplifications: sets and maps keyed by [PathRoot] are lists over all roots of the document, operations first
    ([PathRoot] orders by source position, which only affects the order of the errors); an error of the first two
    rules also carries the position of the operation it is about. *)
From Verif Require Import Base Ast Graph Maps Doc.

(** [visit_value] of all_variables_used.rs:57-75 and all_variable_uses_defined.rs:56-71 *)
Fixpoint value_vars (v : value) : list name :=
  match v with
  | VVar x => [x]
  | VList vs => (fix go (l : list value) : list name := match l with [] => [] | x :: l' => value_vars x ++ go l' end) vs
  | VObj es => (fix go (l : list (name * value)) : list name := match l with [] => [] | (_, x) :: l' => value_vars x ++ go l' end) es
  | _ => []
  end.

(** cache.rs:41-45,60-62 [fragment_definition]: the position of the last definition with the name *)
Definition cached_index (d : document) (n : name) : option nat :=
  assoc_last n (mapi (fun i f => (fr_name f, i)) (doc_frags d)).
(** [visit_fragment_spread] (all_variables_used.rs:41-53, all_variable_uses_defined.rs:40-52, all_variable_usages_allowed.rs:50-62):
    all pairs (root, fragment spread in it) *)
Definition fragment_references (d : document) (evs : list event) : list (root * nat) :=
  flat_map (fun ev => match ev with
                      | ESpread r n _ _ => match cached_index d n with Some j => [(r, j)] | None => [] end
                      | _ => []
                      end) evs.
Definition root_eqb (a b : root) : bool := if root_dec a b then true else false.
(** the fragments referenced by a root, as roots *)
Definition references_of (refs : list (root * nat)) (r : root) : list root :=
  flat_map (fun e => if root_eqb (fst e) r then [RFrag (snd e)] else []) refs.
(** the roots that reference a fragment; an operation is not followed further
    (all_variable_uses_defined.rs:87-101, all_variable_usages_allowed.rs:115-129) *)
Definition referencing (refs : list (root * nat)) (r : root) : list root :=
  match r with
  | RFrag j => flat_map (fun e => if Nat.eqb (snd e) j then [fst e] else []) refs
  | ROp _ => []
  end.
Definition all_roots (d : document) : list root :=
  mapi (fun i _ => ROp i) (doc_ops d) ++ mapi (fun i _ => RFrag i) (doc_frags d).
Definition roots_fuel (d : document) : nat := S (length (all_roots d)).

(** ** all_variables_used.rs *)
(** [variable_usages] (:32-39): names used in a root *)
Definition used_names (evs : list event) (r : root) : list name :=
  flat_map (fun ev => match ev with EVarArg r' a _ => if root_eqb r' r then value_vars (snd a) else [] | _ => [] end) evs.
(** [fragment_usages], [visit_fragment_references] (:77-102), [into_errors] (:111-156).
    [None]: out of fuel (cannot happen, see the theorems). *)
Definition unused_in_operation (d : document) (evs : list event) (i : nat) (o : operation) : option (list (nat * vardef)) :=
  match op_vars o with
  | [] => Some []
  | _ =>
      match dfs root_dec (references_of (fragment_references d evs)) (roots_fuel d) (ROp i) [] with
      | None => None
      | Some fragments =>
          let usages := flat_map (used_names evs) (fragments ++ [ROp i]) in
          Some (flat_map (fun v => if tmem (vd_name v) usages then [] else [(i, v)]) (op_vars o))
      end
  end.
(** Collect results, failing if one fails. *)
Fixpoint sequence {A} (l : list (option (list A))) : option (list A) :=
  match l with
  | [] => Some []
  | None :: _ => None
  | Some x :: l' => match sequence l' with None => None | Some y => Some (x ++ y) end
  end.
Definition unused_variable_errors (d : document) (evs : list event) : option (list (nat * vardef)) :=
  sequence (mapi (unused_in_operation d evs) (doc_ops d)).

(** ** The operations in which what stands in root [r] is used: all_variable_uses_defined.rs:73-101,115-123,
    all_variable_usages_allowed.rs:101-129,204-212 *)
Definition operations_using (d : document) (evs : list event) (r : root) : option (list nat) :=
  match r with
  | ROp i => Some [i]
  | RFrag _ =>
      match dfs root_dec (referencing (fragment_references d evs)) (roots_fuel d) r [] with
      | None => None
      | Some found => Some (flat_map (fun x => match x with ROp i => [i] | RFrag _ => [] end) found)
      end
  end.

(** ** all_variable_uses_defined.rs [into_errors] (:110-143) *)
Definition undefined_in_root (d : document) (evs : list event) (r : root) : option (list (nat * name)) :=
  match used_names evs r with
  | [] => Some []
  | vars =>
      match operations_using d evs r with
      | None => None
      | Some ops =>
          Some (flat_map (fun i =>
            match nth_error (doc_ops d) i with
            | None => []
            | Some o => flat_map (fun x => if forallb (fun v => negb (teqb (vd_name v) x)) (op_vars o) then [(i, x)] else []) vars
            end) ops)
      end
  end.
Definition undefined_variable_errors (d : document) (evs : list event) : option (list (nat * name)) :=
  sequence (map (undefined_in_root d evs) (all_roots d)).

(** ** all_variable_usages_allowed.rs *)
(** [VariableUsageLocation] (:242-264) *)
Inductive location := LocArg (i : ivd) | LocField (i : ivd) | LocItem (t : tref).
Definition loc_ivd (l : location) : option ivd := match l with LocArg i | LocField i => Some i | LocItem _ => None end.
Definition loc_type (l : location) : tref := match l with LocArg i | LocField i => iv_type i | LocItem t => t end.

Section Allowed.
  Variable S : schema.
  (** [visit_value] (:66-99) *)
  Fixpoint value_usages (l : location) (v : value) : list (name * location) :=
    match v with
    | VVar x => [(x, l)]
    | VList vs =>
        match loc_type l with
        | TList inner _ =>
            (fix go (vs : list value) := match vs with [] => [] | x :: vs' => value_usages (LocItem inner) x ++ go vs' end) vs
        | TBase _ _ => []
        end
    | VObj es =>
        match loc_ivd l with
        | None => []
        | Some i =>
            match get_type S (tref_base (iv_type i)) with
            | Some (DInput io) =>
                (fix go (es : list (name * value)) :=
                   match es with
                   | [] => []
                   | (k, x) :: es' =>
                       match get_ivd (io_fields io) k with
                       | Some f => value_usages (LocField f) x
                       | None => []
                       end ++ go es'
                   end) es
            | _ => []
            end
        end
    | _ => []
    end.
  (** [visit_variable_argument] (:37-48) *)
  Definition usages_of (evs : list event) (r : root) : list (name * location) :=
    flat_map (fun ev => match ev with EVarArg r' a i => if root_eqb r' r then value_usages (LocArg i) (snd a) else [] | _ => [] end) evs.
  (** [are_types_compatible] (:163-184) *)
  Fixpoint types_compatible (vt lt : tref) : bool :=
    match vt, lt with
    | TList vi vr, TList li lr => (vr || negb lr) && types_compatible vi li
    | TBase vn vr, TBase ln lr => (vr || negb lr) && teqb ln vn
    | _, _ => false
    end.
  (** [matches!(default, Some(v) if !v.is_null())] (:148-150) *)
  Definition non_null_default (o : option value) : bool :=
    match o with Some VNull => false | Some _ => true | None => false end.
  (** [is_variable_usage_allowed] (:131-160) *)
  Definition usage_allowed (vd : vardef) (l : location) : bool :=
    if negb (match get_type S (tref_base (vd_type vd)) with Some t => td_is_input t | None => false end) then true
    else if tref_required (loc_type l) && negb (tref_required (vd_type vd)) then
           if negb (non_null_default (vd_default vd))
              && negb (match loc_ivd l with Some i => non_null_default (iv_default i) | None => false end)
           then false
           else types_compatible (vd_type vd) (tref_nullable (loc_type l))
         else types_compatible (vd_type vd) (loc_type l).
  (** [into_errors] (:199-239). An error: operation, variable definition, location. *)
  Definition disallowed_in_root (d : document) (evs : list event) (r : root) : option (list (nat * (name * vardef * location))) :=
    match usages_of evs r with
    | [] => Some []
    | usages =>
        match operations_using d evs r with
        | None => None
        | Some ops =>
            Some (flat_map (fun i =>
              match nth_error (doc_ops d) i with
              | None => []
              | Some o =>
                  flat_map (fun u => match find (fun v => teqb (vd_name v) (fst u)) (op_vars o) with
                                     | Some vd => if usage_allowed vd (snd u) then [] else [(i, (fst u, vd, snd u))]
                                     | None => []
                                     end) usages
              end) ops)
        end
    end.
  Definition disallowed_usage_errors (d : document) (evs : list event) : option (list (nat * (name * vardef * location))) :=
    sequence (map (disallowed_in_root d evs) (all_roots d)).
End Allowed.
