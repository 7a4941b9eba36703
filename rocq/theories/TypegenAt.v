(** The rules of the macro [typegen] on documents with source positions, and the conversion of their errors:
    bluejay-typegen-macro/src/validation/{error,selections_are_valid,fragment_and_operation_names_do_not_clash}.rs. As [Typegen.v],
    but the errors carry the parts of the document with their positions. [TypegenAtProofs.v] shows that forgetting the positions
    gives the rules of [Typegen.v]. *)
From Coq Require Import String.
From Verif Require Import Base Ast Graph Location DefParser ParserAt Doc DocRules Typegen ValidatorAt.
Local Open Scope string_scope.
Local Open Scope list_scope.

(** error.rs:11-44 [Error]. An inline fragment is given by its type condition and its position, a spread by its name and its
    position, a field by its alias and name. [LTPanic]: the [unwrap] of selections_are_valid.rs:107 fails. *)
Definition linline : Type := option lname * (nat * nat).
Inductive ltgerr :=
| LTInlineOnObject (i : linline)
| LTInlineOnInterface (i : linline)
| LTSpreadNotIsolated (set : lset) (x : lname * (nat * nat))
| LTNoTypename (set : lset)
| LTInlineNotMember (i : linline) (u : union_def)
| LTRepeatedCondition (c : name) (set : lset) (is : list linline)
| LTFieldOnUnion (al : option lname) (n : lname)
| LTSpreadInvalidTarget (x : lname * (nat * nat))
| LTNameClash (o : loperation) (f : lfragment)
| LTPanic.

Definition spread_of (s : lselection) : option (lname * (nat * nat)) := match s with LSpread n _ sp => Some (n, sp) | _ => None end.
Definition inline_of (s : lselection) : option linline := match s with LInline c _ _ sp => Some (c, sp) | _ => None end.

(** selections_are_valid.rs:244-263 [isolated_fragment_spread] *)
Inductive isolation_at := IsoNoneAt | IsoSpreadAt (x : lname * (nat * nat)) | IsoErrorAt (x : lname * (nat * nat)).
Definition isolated_at (set : lset) : isolation_at :=
  match find_map spread_of (fst set) with
  | Some x => if negb (Nat.eqb (length (fst set)) 1) then IsoErrorAt x else IsoSpreadAt x
  | None => IsoNoneAt
  end.

(** :218-240 [typename_first_selection] *)
Definition typename_first_at (sels : list lselection) : bool * list (option lname * lname) :=
  let fields := concat (mapi (fun i s => match s with LField al n _ _ _ _ => [(i, (al, n))] | _ => [] end) sels) in
  let is_first (x : nat * (option lname * lname)) := Nat.eqb (fst x) 0 && plain_typename (option_map fst (fst (snd x))) (fst (snd (snd x))) in
  (existsb is_first fields, map snd (filter (fun x => negb (is_first x)) fields)).

Section Rule.
  Variable d : ldocument.
  (** bluejay-validator/src/executable/cache.rs:60-66, as [cached_fragment] in DocRules.v *)
  Definition cached_fragment_at (n : name) : option lfragment := assoc_last n (map (fun f => (fst (lf_name f), f)) (lfrags d)).

  (** :53-69 [visit_object_selection_set] *)
  Definition object_set_errors_at (set : lset) : list ltgerr :=
    match isolated_at set with IsoErrorAt x => [LTSpreadNotIsolated set x] | _ => [] end ++
    map LTInlineOnObject (filter_map inline_of (fst set)).
  (** :71-143 [visit_interface_selection_set] *)
  Definition interface_set_errors_at (i : iface_def) (set : lset) : list ltgerr :=
    match isolated_at set with
    | IsoSpreadAt x =>
        match cached_fragment_at (fst (fst x)) with
        | None => [LTPanic]
        | Some f => if tmem (fst (lf_cond f)) (if_ifaces i ++ [if_name i]) then [] else [LTSpreadInvalidTarget x]
        end
    | IsoNoneAt => []
    | IsoErrorAt x => [LTSpreadNotIsolated set x]
    end ++
    map LTInlineOnInterface (filter_map inline_of (fst set)).
  (** :145-213 [visit_union_selection_set] *)
  Definition union_set_errors_at (u : union_def) (set : lset) : list ltgerr :=
    let rest :=
      let '(has_typename, others) := typename_first_at (fst set) in
      let is_member (i : linline) := match fst i with Some n => tmem (fst n) (un_members u) | None => false end in
      let inlines := filter_map inline_of (fst set) in
      (if has_typename then [] else [LTNoTypename set]) ++
      map (fun f => LTFieldOnUnion (fst f) (snd f)) others ++
      map (fun i => LTInlineNotMember i u) (filter (fun i => negb (is_member i)) inlines) ++
      map (fun g => LTRepeatedCondition (fst g) set (snd g))
        (duplicates (fun i : linline => match fst i with Some n => fst n | None => [] end) (filter is_member inlines)) in
    match isolated_at set with
    | IsoSpreadAt _ => []
    | IsoNoneAt => rest
    | IsoErrorAt x => LTSpreadNotIsolated set x :: rest
    end.
  (** :34-49 [visit_selection_set] *)
  Definition set_errors_at (set : lset) (t : tdef) : list ltgerr :=
    match t with
    | DObject _ => object_set_errors_at set
    | DUnion u => union_set_errors_at u set
    | DInterface i => interface_set_errors_at i set
    | _ => []
    end.
  (** fragment_and_operation_names_do_not_clash.rs:30-44 [visit_operation_definition] *)
  Definition clash_errors_at (o : loperation) : list ltgerr :=
    match cached_fragment_at (match lop_name o with Some n => fst n | None => tx "Root" end) with
    | Some f => [LTNameClash o f]
    | None => []
    end.
  (** validation.rs:9-12 [Rule] *)
  Definition typegen_errors_at (evs : list levent) : list ltgerr :=
    flat_map (fun e => match e with LESelSet set t => set_errors_at set t | _ => [] end) evs ++
    flat_map (fun e => match e with LEOp o => clash_errors_at o | _ => [] end) evs.
End Rule.

(** error.rs:46-147 [From<Error> for ParserError]; a panic has no error *)
Definition typegen_error (e : ltgerr) : list err :=
  let crate (m : text) : text := tx "bluejay_typegen " ++ m in
  let plainly := fun m p => [{| er_message := crate m; er_primary := Some p; er_secondary := [] |}] in
  match e with
  | LTSpreadNotIsolated set x =>
      [{| er_message := crate (tx "requires a fragment spread to be the only selection in the set");
          er_primary := Some (tx "Selection set contains a fragment spread and other selections", snd set);
          er_secondary := [(tx "Fragment spread", snd x)] |}]
  | LTInlineOnObject i => plainly (tx "does not allow inline fragments on objects") (tx "Inline fragment on object type", snd i)
  | LTInlineOnInterface i => plainly (tx "does not allow inline fragments on interfaces") (tx "Inline fragment on interface type", snd i)
  | LTNoTypename set =>
      plainly (tx "requires unaliased selection of `__typename` on union types to properly deserialize, and for that to be the first in the selection set")
        (tx "Selection set does not contain an unaliased `__typename` selection as the first selection", snd set)
  | LTInlineNotMember i u =>
      plainly (tx "requires inline fragments on union to target a union member type")
        (match fst i with Some c => fst c | None => un_name u end ++ tx " is not a member type of " ++ un_name u, snd i)
  | LTRepeatedCondition c set is =>
      [{| er_message := crate (tx "requires the inline fragments in a selection set have unique type conditions");
          er_primary := Some (tx "Selection set contains multiple inline fragments targeting " ++ c, snd set);
          er_secondary := map (fun i : linline => (tx "Inline fragment targeting " ++ c, snd i)) is |}]
  | LTFieldOnUnion _ n =>
      plainly (tx "does not allow field selections directly on union types, with the exception of unaliased `__typename` as the first selection in the set")
        (tx "Field selection on union type", snd n)
  | LTSpreadInvalidTarget x =>
      plainly (tx "requires fragment spreads on interfaces to target either the interface or one of the interfaces it implements")
        (tx "Fragment spread on interface type", snd x)
  | LTNameClash o f =>
      [{| er_message := crate (tx "requires fragment and operation names to be unique, but encountered a clash with name `" ++ fst (lf_name f) ++ tx "`");
          er_primary := Some (tx "Fragment definition name collides with operation definition name", lf_span f);
          er_secondary := [(tx "Operation definition", operation_span o)] |}]
  | LTPanic => []
  end.
