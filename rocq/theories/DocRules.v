(** The rules of bluejay-validator/src/executable/document/rules that look at one visitor call at a time.
    [errors] vectors that are only pushed to are modelled as [flat_map] over the visitor calls, in call order.
    Errors are modelled by the items they refer to. *)
From Verif Require Import Base Ast Maps Doc CoercionTypes Coercion.

(** The definition an argument list belongs to. *)
Inductive owner := OwnField (fd : fdef) | OwnDirective (dd : ddef).

Section Rules.
  Variable S : schema.

  (** ** argument_names.rs *)
  (** [visit_arguments] (:42-58): [arguments_definition.iter().find(|ivd| ivd.name() == argument.name())] *)
  Definition unknown_args (o : owner) (args : list argument) (defs : list ivd) : list (owner * argument) :=
    flat_map (fun a => match find (fun i => teqb (iv_name i) (fst a)) defs with Some _ => [] | None => [(o, a)] end) args.
  (** [visit_directive] (:17-40) *)
  Definition unknown_args_directive (x : directive) : list (owner * argument) :=
    match get_ddef S (dir_name x) with
    | Some dd => unknown_args (OwnDirective dd) (dir_args x) (dd_args dd)
    | None => []
    end.
  (** (:71-103) *)
  Definition argument_name_errors (evs : list event) : list (owner * argument) :=
    flat_map (fun ev => match ev with
                        | EField _ _ _ args _ _ fd => unknown_args (OwnField fd) args (fd_args fd)
                        | EVarDirective x _ => unknown_args_directive x
                        | EConstDirective x _ => unknown_args_directive x
                        | _ => []
                        end) evs.

  (** ** argument_uniqueness.rs (:15-64) *)
  Definition argument_uniqueness_errors (evs : list event) : list (name * list argument) :=
    flat_map (fun ev => match ev with
                        | EField _ _ _ args _ _ _ => duplicates fst args
                        | EVarDirective x _ => duplicates fst (dir_args x)
                        | EConstDirective x _ => duplicates fst (dir_args x)
                        | _ => []
                        end) evs.

  (** ** required_arguments.rs *)
  (** [visit_arguments] (:44-78) *)
  Definition missing_args (o : owner) (args : list argument) (defs : list ivd) : list (owner * list ivd) :=
    match filter (fun i => tref_required (iv_type i)
                           && match iv_default i with None => true | Some _ => false end
                           && negb (match assoc_last (iv_name i) args with Some _ => true | None => false end)) defs with
    | [] => []
    | missing => [(o, missing)]
    end.
  (** [visit_directive] (:18-42) *)
  Definition missing_args_directive (x : directive) : list (owner * list ivd) :=
    match get_ddef S (dir_name x) with
    | Some dd => missing_args (OwnDirective dd) (dir_args x) (dd_args dd)
    | None => []
    end.
  (** (:91-124) *)
  Definition required_argument_errors (evs : list event) : list (owner * list ivd) :=
    flat_map (fun ev => match ev with
                        | EField _ _ _ args _ _ fd => missing_args (OwnField fd) args (fd_args fd)
                        | EVarDirective x _ => missing_args_directive x
                        | EConstDirective x _ => missing_args_directive x
                        | _ => []
                        end) evs.

  (** ** directives_are_defined.rs (:15-60) *)
  Definition undefined_directive (x : directive) : list directive :=
    match get_ddef S (dir_name x) with None => [x] | Some _ => [] end.
  Definition directive_defined_errors (evs : list event) : list directive :=
    flat_map (fun ev => match ev with
                        | EVarDirective x _ => undefined_directive x
                        | EConstDirective x _ => undefined_directive x
                        | _ => []
                        end) evs.

  (** ** directives_are_in_valid_locations.rs (:17-70) *)
  Definition misplaced_directive (x : directive) (loc : dloc) : list (directive * dloc) :=
    match get_ddef S (dir_name x) with
    | Some dd => if forallb (fun l => negb (dloc_eqb l loc)) (dd_locs dd) then [(x, loc)] else []
    | None => []
    end.
  Definition directive_location_errors (evs : list event) : list (directive * dloc) :=
    flat_map (fun ev => match ev with
                        | EVarDirective x loc => misplaced_directive x loc
                        | EConstDirective x loc => misplaced_directive x loc
                        | _ => []
                        end) evs.

  (** ** directives_are_unique_per_location.rs (:19-69) *)
  Definition repeated_directives (ds : list directive) : list (list directive) :=
    flat_map (fun g => match get_ddef S (fst g) with
                       | Some dd => if dd_repeatable dd then [] else [snd g]
                       | None => []
                       end) (duplicates dir_name ds).
  Definition directive_uniqueness_errors (evs : list event) : list (list directive) :=
    flat_map (fun ev => match ev with
                        | EVarDirectives ds _ => repeated_directives ds
                        | EConstDirectives ds _ => repeated_directives ds
                        | _ => []
                        end) evs.

  (** ** field_selections.rs (:21-40). The field is represented by its name. *)
  Definition field_selection_errors (evs : list event) : list (name * tdef) :=
    flat_map (fun ev => match ev with
                        | ESelSet sels t =>
                            if td_composite t (* [fields_definition()] is [Some] *) then
                              flat_map (fun s => match s with
                                                 | SField _ n _ _ _ => match get_field (td_fields t) n with None => [(n, t)] | Some _ => [] end
                                                 | _ => []
                                                 end) sels
                            else []
                        | _ => []
                        end) evs.

  (** ** leaf_field_selections.rs (:23-41) *)
  Inductive leaf_error := LeafNotEmpty (n : name) (fd : fdef) | NonLeafEmpty (n : name) (fd : fdef).
  (** bluejay-core/src/definition/output_type.rs:29-34 [is_scalar_or_enum] of the base type *)
  Definition leaf_type (t : tref) : bool :=
    match get_type S (tref_base t) with
    | Some (DBuiltin _) | Some (DScalar _) | Some (DEnum _) => true
    | _ => false
    end.
  Definition leaf_selection_errors (evs : list event) : list leaf_error :=
    flat_map (fun ev => match ev with
                        | EField _ _ n _ _ sub fd =>
                            if leaf_type (fd_type fd) then match sub with [] => [] | _ => [LeafNotEmpty n fd] end
                            else match sub with [] => [NonLeafEmpty n fd] | _ => [] end
                        | _ => []
                        end) evs.

  (** ** fragment_name_uniqueness.rs (:22-50) *)
  Definition fragment_name_errors (evs : list event) : list (name * list fragment) :=
    duplicates fr_name (flat_map (fun ev => match ev with EFrag f => [f] | _ => [] end) evs).

  (** ** fragment_spread_target_defined.rs (:17-41); names from [new] *)
  Definition spread_target_errors (d : document) (evs : list event) : list name :=
    flat_map (fun ev => match ev with
                        | ESpread _ n _ _ => if tmem n (map fr_name (doc_frags d)) then [] else [n]
                        | _ => []
                        end) evs.

  (** ** fragments_must_be_used.rs (:16-52): names are removed from the map of [new] at each spread *)
  Definition unused_fragment_errors (d : document) (evs : list event) : list fragment :=
    map snd (fold_left (fun m ev => match ev with
                                    | ESpread _ n _ _ => filter (fun e => negb (teqb (fst e) n)) m
                                    | _ => m
                                    end) evs (tmap_of (map (fun f => (fr_name f, f)) (doc_frags d)))).

  (** ** fragment_spread_type_exists.rs (:23-54); the type condition that does not exist *)
  Definition fragment_type_errors (evs : list event) : list name :=
    flat_map (fun ev => match ev with
                        | EFrag f => match get_type S (fr_cond f) with None => [fr_cond f] | Some _ => [] end
                        | EInline (Some c) _ _ _ => match get_type S c with None => [c] | Some _ => [] end
                        | _ => []
                        end) evs.
  (** ** fragments_on_composite_types.rs (:23-56) *)
  Definition fragment_composite_errors (evs : list event) : list name :=
    flat_map (fun ev => match ev with
                        | EFrag f => match get_type S (fr_cond f) with Some t => if td_composite t then [] else [fr_cond f] | None => [] end
                        | EInline (Some c) _ _ _ => match get_type S c with Some t => if td_composite t then [] else [c] | None => [] end
                        | _ => []
                        end) evs.

  (** ** fragment_spread_is_possible.rs *)
  (** bluejay-parser/src/ast/definition/schema_definition.rs:53-76 [interface_implementors] and [get_interface_implementors] *)
  Definition implementors (n : name) : list object_def :=
    flat_map (fun t => match t with
                       | DObject o => flat_map (fun i => if teqb i n then [o] else []) (ob_ifaces o)
                       | _ => []
                       end) (s_types S).
  (** [get_possible_types] (:73-94) *)
  Definition possible_types (t : tdef) : option (list name) :=
    match t with
    | DObject o => Some [ob_name o]
    | DInterface i => Some (map ob_name (implementors (if_name i)))
    | DUnion u => Some (un_members u)
    | _ => None
    end.
  (** [spread_is_not_possible] (:96-111) *)
  Definition spread_is_not_possible (parent frag : tdef) : bool :=
    match possible_types parent, possible_types frag with
    | Some a, Some b => negb (existsb (fun n => tmem n b) a)
    | _, _ => false
    end.
  (** executable/cache.rs:41-45,60-62: the last definition with the name *)
  Definition cached_fragment (d : document) (n : name) : option fragment :=
    assoc_last n (map (fun f => (fr_name f, f)) (doc_frags d)).
  Inductive spread_error := SpreadImpossible (n : name) (parent : tdef) | InlineImpossible (c : name) (parent : tdef).
  (** (:32-69) *)
  Definition spread_possible_errors (d : document) (evs : list event) : list spread_error :=
    flat_map (fun ev => match ev with
                        | ESpread _ n _ t =>
                            match cached_fragment d n with
                            | Some f => match get_type S (fr_cond f) with
                                        | Some ft => if spread_is_not_possible t ft then [SpreadImpossible n t] else []
                                        | None => []
                                        end
                            | None => []
                            end
                        | EInline (Some c) _ _ t =>
                            match get_type S c with
                            | Some ft => if spread_is_not_possible t ft then [InlineImpossible c t] else []
                            | None => []
                            end
                        | _ => []
                        end) evs.

  (** ** lone_anonymous_operation.rs (:23-43): [Some ops] = the error with the anonymous operations *)
  Definition lone_anonymous_errors (d : document) (evs : list event) : option (list operation) :=
    let anonymous := flat_map (fun ev => match ev with
                                         | EOp o => match op_name o with None => [o] | Some _ => [] end
                                         | _ => []
                                         end) evs in
    if negb (Nat.eqb (length (doc_ops d)) 1) && negb (match anonymous with [] => true | _ => false end)
    then Some anonymous else None.

  (** ** named_operation_name_uniqueness.rs (:25-50) *)
  Definition operation_name_errors (evs : list event) : list (name * list (name * operation)) :=
    duplicates fst (flat_map (fun ev => match ev with
                                        | EOp o => if op_explicit o then match op_name o with Some n => [(n, o)] | None => [] end else []
                                        | _ => []
                                        end) evs).

  (** ** operation_type_is_defined.rs (:27-39) *)
  Definition operation_type_errors (evs : list event) : list operation :=
    flat_map (fun ev => match ev with
                        | EOp o => if op_explicit o then
                                     match op_type o with
                                     | OQuery => []
                                     | OMutation => match s_mutation S with Some _ => [] | None => [o] end
                                     | OSubscription => match s_subscription S with Some _ => [] | None => [o] end
                                     end
                                   else []
                        | _ => []
                        end) evs.

  (** ** subscription_operation_single_root_field.rs (:27-58); the fragment is the first with the name *)
  Definition subscription_root_invalid (d : document) (o : operation) : bool :=
    match op_type o with
    | OSubscription =>
        match op_sel o with
        | [s] =>
            match (match s with
                   | SField _ _ _ _ _ => Some 1
                   | SSpread n _ => match find (fun f => teqb (fr_name f) n) (doc_frags d) with
                                    | Some f => Some (length (fr_sel f))
                                    | None => None
                                    end
                   | SInline _ _ sub => Some (length sub)
                   end) with
            | Some fc => negb (Nat.eqb fc 1)
            | None => false
            end
        | _ => true
        end
    | _ => false
    end.
  Definition subscription_errors (d : document) (evs : list event) : list operation :=
    flat_map (fun ev => match ev with EOp o => if subscription_root_invalid d o then [o] else [] | _ => [] end) evs.

  (** ** variable_uniqueness.rs (:21-33) *)
  Definition variable_uniqueness_errors (evs : list event) : list (name * list vardef) :=
    flat_map (fun ev => match ev with EVarDefs vs => duplicates vd_name vs | _ => [] end) evs.
  (** ** variables_are_input_types.rs (:23-37) *)
  Definition variable_input_errors (evs : list event) : list vardef :=
    flat_map (fun ev => match ev with
                        | EVarDef v => if match get_type S (tref_base (vd_type v)) with Some t => td_is_input t | None => false end
                                       then [] else [v]
                        | _ => []
                        end) evs.

  (** ** value_is_valid.rs (:27-77). The cache entry of a variable type (cache.rs:30-38, variable_definition_input_type.rs:44-74)
      exists iff its base names an input type. The hooks are those of the default coercion entry point:
      literals, no custom scalar in this rule's own code, oneOf honoured if marked. *)
  Variable hook : name -> value -> option text.
  Variable str_enum one_of : bool.
  Definition value_errors (evs : list event) : list cerr :=
    flat_map (fun ev => match ev with
                        | EVarDef v =>
                            match vd_default v with
                            | Some x => if match get_type S (tref_base (vd_type v)) with Some t => td_is_input t | None => false end
                                        then coerce_value hook str_enum one_of S (vd_type v) x [] else []
                            | None => []
                            end
                        | EConstArg a i => coerce_value hook str_enum one_of S (iv_type i) (snd a) []
                        | EVarArg _ a i => coerce_value hook str_enum one_of S (iv_type i) (snd a) []
                        | _ => []
                        end) evs.
End Rules.
