(** The validator on documents with source positions, and the conversion of its errors: bluejay-validator/src/executable/document/
    {orchestrator,rules/*,error,error/argument_error,error/directive_error}.rs. As [Doc.v], [DocRules.v], [DocVariables.v],
    [FragmentCycles.v] and [Validator.v], but the calls of the visitor and the errors carry the parts of the document with their
    positions. [ValidatorAtProofs.v] shows that forgetting the positions gives the validator of [Validator.v].
    Simplification, as in Ast.v: an empty list of arguments, directives, selections or variables, which the parser does not
    build, is treated as none. *)
From Coq Require Import String.
From Verif Require Import Base Ast Graph Maps Location Parser DefParser ParserAt ParserAtSpec Doc DocRules DocVariables FragmentCycles Merging Validator CoercionAt.

Definition ldocument : Type := list (loperation + lfragment).
Definition lops (d : ldocument) : list loperation := flat_map (fun x => match x with inl o => [o] | inr _ => [] end) d.
Definition lfrags (d : ldocument) : list lfragment := flat_map (fun x => match x with inl _ => [] | inr f => [f] end) d.
Definition args_of (o : option larguments) : list largument := match o with Some l => fst l | None => [] end.
Definition dirs_of (o : option ldirectives) : list ldirective := match o with Some l => fst l | None => [] end.
Definition sub_of (o : option lset) : list lselection := match o with Some l => fst l | None => [] end.
Definition vars_of (o : option lvardefs) : list lvardef := match o with Some l => fst l | None => [] end.
Definition lop_name (o : loperation) : option lname := match o with LExplicit _ _ n _ _ _ _ => n | LImplicit _ => None end.
Definition lop_type (o : loperation) : optype := match o with LExplicit ty _ _ _ _ _ _ => ty | LImplicit _ => OQuery end.
Definition lop_vars (o : loperation) : list lvardef := match o with LExplicit _ _ _ vs _ _ _ => vars_of vs | LImplicit _ => [] end.
Definition lop_dirs (o : loperation) : list ldirective := match o with LExplicit _ _ _ _ ds _ _ => dirs_of ds | LImplicit _ => [] end.
Definition lop_set (o : loperation) : lset := match o with LExplicit _ _ _ _ _ sub _ => sub | LImplicit sub => sub end.

(** ** The calls of the visitor (visitor.rs:5-92), as in [Doc.v] *)
Inductive levent :=
| LEPanicked
| LEOp (o : loperation)
| LESelSet (sub : lset) (t : tdef)
| LEField (r : root) (al : option lname) (n : lname) (args : option larguments) (ds : option ldirectives) (sub : option lset) (sp : nat * nat) (fd : fdef)
| LEConstDirective (d : ldirective) (loc : dloc)
| LEVarDirective (d : ldirective) (loc : dloc)
| LEConstDirectives (ds : list ldirective) (loc : dloc)
| LEVarDirectives (ds : list ldirective) (loc : dloc)
| LEFrag (f : lfragment)
| LEInline (cond : option lname) (ds : option ldirectives) (sub : lset) (sp : nat * nat) (t : tdef)
| LESpread (r : root) (n : lname) (ds : option ldirectives) (sp : nat * nat) (t : tdef)
| LEConstArg (a : largument) (i : ivd)
| LEVarArg (r : root) (a : largument) (i : ivd)
| LEVarDef (v : lvardef)
| LEVarDefs (vs : list lvardef).

Section Orchestrator.
  Variable S : schema.
  (** orchestrator.rs:295-325 *)
  Definition var_args_at (r : root) (args : list largument) (defs : list ivd) : list levent :=
    flat_map (fun a => match get_ivd defs (fst (la_name a)) with Some i => [LEVarArg r a i] | None => [] end) args.
  (** :283-293, :308-315 *)
  Definition const_args_at (args : list largument) (defs : list ivd) : list levent :=
    flat_map (fun a => match get_ivd defs (fst (la_name a)) with Some i => [LEConstArg a i] | None => [] end) args.
  (** :198-214 *)
  Definition var_directive_at (r : root) (loc : dloc) (d : ldirective) : list levent :=
    LEVarDirective d loc ::
    match get_ddef S (fst (ld_name d)) with Some dd => var_args_at r (args_of (ld_args d)) (dd_args dd) | None => [] end.
  (** :216-231 *)
  Definition const_directive_at (loc : dloc) (d : ldirective) : list levent :=
    LEConstDirective d loc ::
    match get_ddef S (fst (ld_name d)) with Some dd => const_args_at (args_of (ld_args d)) (dd_args dd) | None => [] end.
  (** :175-185 *)
  Definition var_directives_at (r : root) (ds : list ldirective) (loc : dloc) : list levent :=
    match ds with [] => [] | _ => LEVarDirectives ds loc :: flat_map (var_directive_at r loc) ds end.
  (** :187-196 *)
  Definition const_directives_at (ds : list ldirective) (loc : dloc) : list levent :=
    match ds with [] => [] | _ => LEConstDirectives ds loc :: flat_map (const_directive_at loc) ds end.
  (** :117-173, :233-270 *)
  Fixpoint visit_selection_at (r : root) (t : tdef) (s : lselection) {struct s} : list levent :=
    let visit_set := fun (t' : tdef) (sub : lset) =>
      LESelSet sub t' :: (fix go (l : list lselection) : list levent :=
                            match l with [] => [] | x :: l' => visit_selection_at r t' x ++ go l' end) (fst sub) in
    match s with
    | LField al n args ds sub sp =>
        match get_field (td_fields t) (fst n) with
        | None => []
        | Some fd =>
            LEField r al n args ds sub sp fd ::
            var_directives_at r (dirs_of ds) Ast.LField ++
            var_args_at r (args_of args) (fd_args fd) ++
            match sub with
            | None => []
            | Some sub =>
                match fst sub with
                | [] => []
                | _ => match get_type S (tref_base (fd_type fd)) with Some t' => visit_set t' sub | None => [] end
                end
            end
        end
    | LInline cond ds sub sp =>
        var_directives_at r (dirs_of ds) LInlineFragment ++
        match (match cond with Some c => get_type S (fst c) | None => Some t end) with
        | Some t' => visit_set t' sub
        | None => []
        end ++
        [LEInline cond ds sub sp t]
    | LSpread n ds sp => var_directives_at r (dirs_of ds) LFragmentSpread ++ [LESpread r n ds sp t]
    end.
  Definition visit_selection_set_at (r : root) (t : tdef) (sub : lset) : list levent :=
    LESelSet sub t :: flat_map (visit_selection_at r t) (fst sub).
  (** :272-281 *)
  Definition visit_variable_definitions_at (vs : list lvardef) : list levent :=
    match vs with
    | [] => []
    | _ => LEVarDefs vs :: flat_map (fun v => const_directives_at (dirs_of (lvd_dirs v)) LVariableDefinition ++ [LEVarDef v]) vs
    end.
  (** :51-96 *)
  Definition visit_operation_at (i : nat) (o : loperation) : list levent :=
    LEOp o :: var_directives_at (ROp i) (lop_dirs o) (op_location (lop_type o)) ++
    visit_variable_definitions_at (lop_vars o) ++
    match op_root_name S (lop_type o) with
    | None => []
    | Some n => match get_type S n with
                | Some t => visit_selection_set_at (ROp i) t (lop_set o)
                | None => [LEPanicked]
                end
    end.
  (** :98-115 *)
  Definition visit_fragment_at (i : nat) (f : lfragment) : list levent :=
    match get_type S (fst (lf_cond f)) with Some t => visit_selection_set_at (RFrag i) t (lf_set f) | None => [] end ++
    var_directives_at (RFrag i) (dirs_of (lf_dirs f)) LFragmentDefinition ++
    [LEFrag f].
  (** :38-49 *)
  Definition visit_at (d : ldocument) : list levent :=
    concat (mapi visit_operation_at (lops d)) ++ concat (mapi visit_fragment_at (lfrags d)).
End Orchestrator.

(** the calls without positions *)
Definition plain_event (e : levent) : event :=
  match e with
  | LEPanicked => EPanic
  | LEOp o => EOp (plain_operation o)
  | LESelSet sub t => ESelSet (map plain_selection (fst sub)) t
  | LEField r al n args ds sub _ fd =>
      EField r (option_map fst al) (fst n) (map plain_argument (args_of args)) (map plain_directive (dirs_of ds)) (map plain_selection (sub_of sub)) fd
  | LEConstDirective d loc => EConstDirective (plain_directive d) loc
  | LEVarDirective d loc => EVarDirective (plain_directive d) loc
  | LEConstDirectives ds loc => EConstDirectives (map plain_directive ds) loc
  | LEVarDirectives ds loc => EVarDirectives (map plain_directive ds) loc
  | LEFrag f => EFrag (plain_fragment f)
  | LEInline c ds sub _ t => EInline (option_map fst c) (map plain_directive (dirs_of ds)) (map plain_selection (fst sub)) t
  | LESpread r n ds _ t => ESpread r (fst n) (map plain_directive (dirs_of ds)) t
  | LEConstArg a i => EConstArg (plain_argument a) i
  | LEVarArg r a i => EVarArg r (plain_argument a) i
  | LEVarDef v => EVarDef (plain_vardef v)
  | LEVarDefs vs => EVarDefs (map plain_vardef vs)
  end.

(** ** The errors (error.rs:21-127, error/argument_error.rs:13-36, error/directive_error.rs:13-26). Simplifications: a field is its
    name and what the conversion uses of it; errors of constants and of values with variables are one kind; the errors of the
    merging rule are those of [Merging.v], whose fields and selection sets are known by their places. *)
Inductive ldoc_error :=
| LNonUniqueOperationNames (n : name) (ops : list loperation)
| LNotLoneAnonymousOperation (ops : list loperation)
| LSubscriptionRootNotSingleField (o : loperation)
| LFieldDoesNotExistOnType (n : lname) (t : tdef)
| LFieldSelectionsDoNotMerge (e : merge_error)
| LOperationTypeNotDefined (o : loperation)
| LLeafFieldSelectionNotEmpty (n : lname) (sub : lset) (fd : fdef)
| LNonLeafFieldSelectionEmpty (n : lname) (fd : fdef)
| LArgumentDoesNotExist (on : owner) (a : largument)
| LNonUniqueArgumentNames (n : name) (args : list largument)
| LFieldMissingArguments (al : option lname) (n : lname) (args : option larguments) (fd : fdef) (missing : list ivd)
| LDirectiveMissingArguments (x : ldirective) (dd : ddef) (missing : list ivd)
| LNonUniqueFragmentDefinitionNames (n : name) (fs : list lfragment)
| LFragmentTypeDoesNotExist (f : lfragment)
| LInlineTypeDoesNotExist (c : lname)
| LFragmentTypeNotComposite (f : lfragment)
| LInlineTypeNotComposite (c : lname)
| LFragmentDefinitionUnused (f : lfragment)
| LFragmentSpreadTargetUndefined (n : lname)
| LFragmentSpreadCycle (f : lfragment) (spread : lname)
| LFragmentSpreadIsNotPossible (n : lname) (t : tdef)
| LInlineFragmentIsNotPossible (c : lname) (sp : nat * nat) (t : tdef)
| LInvalidValue (e : lcerr)
| LDirectiveDoesNotExist (x : ldirective)
| LDirectiveInInvalidLocation (x : ldirective) (dd : ddef) (loc : dloc)
| LDirectivesNotUnique (xs : list ldirective) (dd : ddef)
| LNonUniqueVariableDefinitionNames (n : name) (vs : list lvardef)
| LVariableDefinitionTypeNotInput (v : lvardef)
| LVariableNotDefined (op : nat) (o : loperation) (x : lname)
| LVariableDefinitionUnused (op : nat) (v : lvardef)
| LInvalidVariableUsage (op : nat) (x : lname) (v : lvardef) (l : location).

(** ** The rules *)
Section Rules.
  Variable S : schema.
  (** named_operation_name_uniqueness.rs:25-50 *)
  Definition operation_name_errors_at (evs : list levent) : list ldoc_error :=
    map (fun g => LNonUniqueOperationNames (fst g) (map snd (snd g)))
      (duplicates fst (flat_map (fun ev => match ev with
                                           | LEOp o => match lop_name o with Some n => [(fst n, o)] | None => [] end
                                           | _ => []
                                           end) evs)).
  (** lone_anonymous_operation.rs:23-43 *)
  Definition lone_anonymous_errors_at (d : ldocument) (evs : list levent) : list ldoc_error :=
    let anonymous := flat_map (fun ev => match ev with
                                         | LEOp o => match lop_name o with None => [o] | Some _ => [] end
                                         | _ => []
                                         end) evs in
    if negb (Nat.eqb (length (lops d)) 1) && negb (match anonymous with [] => true | _ => false end)
    then [LNotLoneAnonymousOperation anonymous] else [].
  (** subscription_operation_single_root_field.rs:27-58 *)
  Definition subscription_errors_at (d : ldocument) (evs : list levent) : list ldoc_error :=
    flat_map (fun ev => match ev with
                        | LEOp o => if subscription_root_invalid (plain_document d) (plain_operation o) then [LSubscriptionRootNotSingleField o] else []
                        | _ => []
                        end) evs.
  (** field_selections.rs:21-40 *)
  Definition field_selection_errors_at (evs : list levent) : list ldoc_error :=
    flat_map (fun ev => match ev with
                        | LESelSet sub t =>
                            if td_composite t then
                              flat_map (fun s => match s with
                                                 | LField _ n _ _ _ _ => match get_field (td_fields t) (fst n) with None => [LFieldDoesNotExistOnType n t] | Some _ => [] end
                                                 | _ => []
                                                 end) (fst sub)
                            else []
                        | _ => []
                        end) evs.
  (** operation_type_is_defined.rs:27-39 *)
  Definition operation_type_errors_at (evs : list levent) : list ldoc_error :=
    flat_map (fun ev => match ev with
                        | LEOp o => match lop_type o with
                                    | OQuery => []
                                    | OMutation => match s_mutation S with Some _ => [] | None => [LOperationTypeNotDefined o] end
                                    | OSubscription => match s_subscription S with Some _ => [] | None => [LOperationTypeNotDefined o] end
                                    end
                        | _ => []
                        end) evs.
  (** leaf_field_selections.rs:23-41 *)
  Definition leaf_selection_errors_at (evs : list levent) : list ldoc_error :=
    flat_map (fun ev => match ev with
                        | LEField _ _ n _ _ sub _ fd =>
                            if leaf_type S (fd_type fd)
                            then match sub with Some s => match fst s with [] => [] | _ => [LLeafFieldSelectionNotEmpty n s fd] end | None => [] end
                            else match sub_of sub with [] => [LNonLeafFieldSelectionEmpty n fd] | _ => [] end
                        | _ => []
                        end) evs.
  (** argument_names.rs:17-103 *)
  Definition unknown_args_at (o : owner) (args : list largument) (defs : list ivd) : list ldoc_error :=
    flat_map (fun a => match find (fun i => teqb (iv_name i) (fst (la_name a))) defs with Some _ => [] | None => [LArgumentDoesNotExist o a] end) args.
  Definition unknown_args_directive_at (x : ldirective) : list ldoc_error :=
    match get_ddef S (fst (ld_name x)) with
    | Some dd => unknown_args_at (OwnDirective dd) (args_of (ld_args x)) (dd_args dd)
    | None => []
    end.
  Definition argument_name_errors_at (evs : list levent) : list ldoc_error :=
    flat_map (fun ev => match ev with
                        | LEField _ _ _ args _ _ _ fd => unknown_args_at (OwnField fd) (args_of args) (fd_args fd)
                        | LEVarDirective x _ => unknown_args_directive_at x
                        | LEConstDirective x _ => unknown_args_directive_at x
                        | _ => []
                        end) evs.
  (** argument_uniqueness.rs:15-64 *)
  Definition repeated_args_at (args : list largument) : list ldoc_error :=
    map (fun g => LNonUniqueArgumentNames (fst g) (snd g)) (duplicates (fun a => fst (la_name a)) args).
  Definition argument_uniqueness_errors_at (evs : list levent) : list ldoc_error :=
    flat_map (fun ev => match ev with
                        | LEField _ _ _ args _ _ _ _ => repeated_args_at (args_of args)
                        | LEVarDirective x _ => repeated_args_at (args_of (ld_args x))
                        | LEConstDirective x _ => repeated_args_at (args_of (ld_args x))
                        | _ => []
                        end) evs.
  (** required_arguments.rs:18-124 *)
  Definition missing_of (args : list largument) (defs : list ivd) : list ivd :=
    filter (fun i => tref_required (iv_type i)
                     && match iv_default i with None => true | Some _ => false end
                     && negb (existsb (fun a => teqb (iv_name i) (fst (la_name a))) args)) defs.
  Definition missing_args_directive_at (x : ldirective) : list ldoc_error :=
    match get_ddef S (fst (ld_name x)) with
    | Some dd => match missing_of (args_of (ld_args x)) (dd_args dd) with [] => [] | missing => [LDirectiveMissingArguments x dd missing] end
    | None => []
    end.
  Definition required_argument_errors_at (evs : list levent) : list ldoc_error :=
    flat_map (fun ev => match ev with
                        | LEField _ al n args _ _ _ fd =>
                            match missing_of (args_of args) (fd_args fd) with [] => [] | missing => [LFieldMissingArguments al n args fd missing] end
                        | LEVarDirective x _ => missing_args_directive_at x
                        | LEConstDirective x _ => missing_args_directive_at x
                        | _ => []
                        end) evs.
  (** fragment_name_uniqueness.rs:22-50 *)
  Definition fragment_name_errors_at (evs : list levent) : list ldoc_error :=
    map (fun g => LNonUniqueFragmentDefinitionNames (fst g) (snd g))
      (duplicates (fun f => fst (lf_name f)) (flat_map (fun ev => match ev with LEFrag f => [f] | _ => [] end) evs)).
  (** fragment_spread_type_exists.rs:23-54 *)
  Definition fragment_type_errors_at (evs : list levent) : list ldoc_error :=
    flat_map (fun ev => match ev with
                        | LEFrag f => match get_type S (fst (lf_cond f)) with None => [LFragmentTypeDoesNotExist f] | Some _ => [] end
                        | LEInline (Some c) _ _ _ _ => match get_type S (fst c) with None => [LInlineTypeDoesNotExist c] | Some _ => [] end
                        | _ => []
                        end) evs.
  (** fragments_on_composite_types.rs:23-56 *)
  Definition fragment_composite_errors_at (evs : list levent) : list ldoc_error :=
    flat_map (fun ev => match ev with
                        | LEFrag f => match get_type S (fst (lf_cond f)) with Some t => if td_composite t then [] else [LFragmentTypeNotComposite f] | None => [] end
                        | LEInline (Some c) _ _ _ _ => match get_type S (fst c) with Some t => if td_composite t then [] else [LInlineTypeNotComposite c] | None => [] end
                        | _ => []
                        end) evs.
  (** fragments_must_be_used.rs:16-52 *)
  Definition unused_fragment_errors_at (d : ldocument) (evs : list levent) : list ldoc_error :=
    map (fun e => LFragmentDefinitionUnused (snd e))
      (fold_left (fun m ev => match ev with
                              | LESpread _ n _ _ _ => filter (fun e => negb (teqb (fst e) (fst n))) m
                              | _ => m
                              end) evs (tmap_of (map (fun f => (fst (lf_name f), f)) (lfrags d)))).
  (** fragment_spread_target_defined.rs:17-41 *)
  Definition spread_target_errors_at (d : ldocument) (evs : list levent) : list ldoc_error :=
    flat_map (fun ev => match ev with
                        | LESpread _ n _ _ _ => if existsb (fun f => teqb (fst n) (fst (lf_name f))) (lfrags d) then [] else [LFragmentSpreadTargetUndefined n]
                        | _ => []
                        end) evs.
  (** fragment_spreads_must_not_form_cycles.rs:109-128 *)
  Fixpoint selection_spreads_at (s : lselection) : list lname :=
    let go := fix go (l : list lselection) : list lname :=
                match l with [] => [] | x :: l' => selection_spreads_at x ++ go l' end in
    match s with
    | LField _ _ _ _ sub _ => match sub with Some s => go (fst s) | None => [] end
    | LSpread n _ _ => [n]
    | LInline _ _ sub _ => go (fst sub)
    end.
  (** :58-71 *)
  Definition spreads_by_fragment_at (d : ldocument) : list (name * (lfragment * list lname)) :=
    tmap_of (map (fun f => (fst (lf_name f), (f, flat_map selection_spreads_at (fst (lf_set f))))) (lfrags d)).
  (** :18-51; [Some (Some spread)]: the error with this spread *)
  Fixpoint detect_cycle_at (m : list (name * (lfragment * list lname))) (target : name) (fuel : nat)
           (n : name) (visited : list name) {struct fuel} : option (option lname) :=
    match fuel with
    | 0 => None
    | Datatypes.S fuel' =>
        if mem text_dec n visited then Some None
        else match assoc n m with
             | Some (_, spreads) =>
                 (fix find_map (l : list lname) : option (option lname) :=
                    match l with
                    | [] => Some None
                    | s :: l' =>
                        if teqb (fst s) target then Some (Some s)
                        else match detect_cycle_at m target fuel' (fst s) (n :: visited) with
                             | None => None
                             | Some (Some e) => Some (Some e)
                             | Some None => find_map l'
                             end
                    end) spreads
             | None => Some None
             end
    end.
  (** :57-84 *)
  Definition fragment_cycle_errors_at (d : ldocument) : option (list ldoc_error) :=
    let m := spreads_by_fragment_at d in
    fold_right (fun e acc =>
      match acc, detect_cycle_at m (fst (lf_name (fst (snd e)))) (Datatypes.S (Datatypes.S (length m))) (fst e) [] with
      | Some errs, Some (Some s) => Some (LFragmentSpreadCycle (fst (snd e)) s :: errs)
      | Some errs, Some None => Some errs
      | _, _ => None
      end) (Some []) m.
  (** fragment_spread_is_possible.rs:32-69 *)
  Definition spread_possible_errors_at (d : ldocument) (evs : list levent) : list ldoc_error :=
    flat_map (fun ev => match ev with
                        | LESpread _ n _ _ t =>
                            match cached_fragment (plain_document d) (fst n) with
                            | Some f => match get_type S (fr_cond f) with
                                        | Some ft => if spread_is_not_possible S t ft then [LFragmentSpreadIsNotPossible n t] else []
                                        | None => []
                                        end
                            | None => []
                            end
                        | LEInline (Some c) _ _ sp t =>
                            match get_type S (fst c) with
                            | Some ft => if spread_is_not_possible S t ft then [LInlineFragmentIsNotPossible c sp t] else []
                            | None => []
                            end
                        | _ => []
                        end) evs.
  (** value_is_valid.rs:27-77 *)
  Variable hook : name -> value -> option text.
  Variable str_enum one_of : bool.
  Definition value_errors_at (evs : list levent) : list ldoc_error :=
    map LInvalidValue
      (flat_map (fun ev => match ev with
                           | LEVarDef v =>
                               match lvd_default v with
                               | Some x => if match get_type S (tref_base (plain_type (lvd_type v))) with Some t => td_is_input t | None => false end
                                           then coerce_value_at hook str_enum one_of S (plain_type (lvd_type v)) x [] else []
                               | None => []
                               end
                           | LEConstArg a i => coerce_value_at hook str_enum one_of S (iv_type i) (la_value a) []
                           | LEVarArg _ a i => coerce_value_at hook str_enum one_of S (iv_type i) (la_value a) []
                           | _ => []
                           end) evs).
  (** directives_are_defined.rs:15-60 *)
  Definition undefined_directive_at (x : ldirective) : list ldoc_error :=
    match get_ddef S (fst (ld_name x)) with None => [LDirectiveDoesNotExist x] | Some _ => [] end.
  Definition directive_defined_errors_at (evs : list levent) : list ldoc_error :=
    flat_map (fun ev => match ev with
                        | LEVarDirective x _ => undefined_directive_at x
                        | LEConstDirective x _ => undefined_directive_at x
                        | _ => []
                        end) evs.
  (** directives_are_in_valid_locations.rs:17-70 *)
  Definition misplaced_directive_at (x : ldirective) (loc : dloc) : list ldoc_error :=
    match get_ddef S (fst (ld_name x)) with
    | Some dd => if forallb (fun l => negb (dloc_eqb l loc)) (dd_locs dd) then [LDirectiveInInvalidLocation x dd loc] else []
    | None => []
    end.
  Definition directive_location_errors_at (evs : list levent) : list ldoc_error :=
    flat_map (fun ev => match ev with
                        | LEVarDirective x loc => misplaced_directive_at x loc
                        | LEConstDirective x loc => misplaced_directive_at x loc
                        | _ => []
                        end) evs.
  (** directives_are_unique_per_location.rs:19-69 *)
  Definition repeated_directives_at (ds : list ldirective) : list ldoc_error :=
    flat_map (fun g => match get_ddef S (fst g) with
                       | Some dd => if dd_repeatable dd then [] else [LDirectivesNotUnique (snd g) dd]
                       | None => []
                       end) (duplicates (fun x => fst (ld_name x)) ds).
  Definition directive_uniqueness_errors_at (evs : list levent) : list ldoc_error :=
    flat_map (fun ev => match ev with
                        | LEVarDirectives ds _ => repeated_directives_at ds
                        | LEConstDirectives ds _ => repeated_directives_at ds
                        | _ => []
                        end) evs.
  (** variable_uniqueness.rs:21-33 *)
  Definition variable_uniqueness_errors_at (evs : list levent) : list ldoc_error :=
    flat_map (fun ev => match ev with
                        | LEVarDefs vs => map (fun g => LNonUniqueVariableDefinitionNames (fst g) (snd g)) (duplicates (fun v => fst (lvd_name v)) vs)
                        | _ => []
                        end) evs.
  (** variables_are_input_types.rs:23-37 *)
  Definition variable_input_errors_at (evs : list levent) : list ldoc_error :=
    flat_map (fun ev => match ev with
                        | LEVarDef v => if match get_type S (tref_base (plain_type (lvd_type v))) with Some t => td_is_input t | None => false end
                                        then [] else [LVariableDefinitionTypeNotInput v]
                        | _ => []
                        end) evs.

  (** all_variable_uses_defined.rs:56-71: the variables in a value *)
  Fixpoint value_vars_at (v : lvalue) : list lname :=
    match v with
    | LVLeaf x sp => map (fun n => (n, sp)) (value_vars x)
    | LVList vs _ => flat_map value_vars_at vs
    | LVObj es _ => flat_map (fun kv => value_vars_at (snd kv)) es
    end.
  (** all_variable_uses_defined.rs:30-37 *)
  Definition used_at (evs : list levent) (r : root) : list lname :=
    flat_map (fun ev => match ev with LEVarArg r' a _ => if root_eqb r' r then value_vars_at (la_value a) else [] | _ => [] end) evs.
  (** :110-143. The graph of the fragments is that of [DocVariables.v]. *)
  Definition undefined_in_root_at (d : ldocument) (evs : list levent) (r : root) : option (list ldoc_error) :=
    match used_at evs r with
    | [] => Some []
    | vars =>
        match operations_using (plain_document d) (map plain_event evs) r with
        | None => None
        | Some ops =>
            Some (flat_map (fun i =>
              match nth_error (lops d) i with
              | None => []
              | Some o => flat_map (fun x : lname => if forallb (fun v => negb (teqb (fst (lvd_name v)) (fst x))) (lop_vars o) then [LVariableNotDefined i o x] else []) vars
              end) ops)
        end
    end.
  Definition undefined_variable_errors_at (d : ldocument) (evs : list levent) : option (list ldoc_error) :=
    sequence (map (undefined_in_root_at d evs) (all_roots (plain_document d))).
  (** all_variables_used.rs:77-156 *)
  Definition unused_in_operation_at (d : ldocument) (evs : list levent) (i : nat) (o : loperation) : option (list ldoc_error) :=
    match lop_vars o with
    | [] => Some []
    | vs =>
        match dfs root_dec (references_of (fragment_references (plain_document d) (map plain_event evs))) (roots_fuel (plain_document d)) (ROp i) [] with
        | None => None
        | Some fragments =>
            let usages := flat_map (used_at evs) (fragments ++ [ROp i]) in
            Some (flat_map (fun v => if existsb (fun x : lname => teqb (fst (lvd_name v)) (fst x)) usages then [] else [LVariableDefinitionUnused i v]) vs)
        end
    end.
  Definition unused_variable_errors_at (d : ldocument) (evs : list levent) : option (list ldoc_error) :=
    sequence (mapi (unused_in_operation_at d evs) (lops d)).
  (** all_variable_usages_allowed.rs:66-99 *)
  Fixpoint value_usages_at (l : location) (v : lvalue) : list (lname * location) :=
    match v with
    | LVLeaf x sp => map (fun u => ((fst u, sp), snd u)) (value_usages S l x)
    | LVList vs _ =>
        match loc_type l with
        | TList inner _ => flat_map (value_usages_at (LocItem inner)) vs
        | TBase _ _ => []
        end
    | LVObj es _ =>
        match loc_ivd l with
        | None => []
        | Some i =>
            match get_type S (tref_base (iv_type i)) with
            | Some (DInput io) =>
                flat_map (fun kv => match get_ivd (io_fields io) (fst (fst kv)) with
                                    | Some f => value_usages_at (LocField f) (snd kv)
                                    | None => []
                                    end) es
            | _ => []
            end
        end
    end.
  (** :37-48 *)
  Definition usages_at (evs : list levent) (r : root) : list (lname * location) :=
    flat_map (fun ev => match ev with LEVarArg r' a i => if root_eqb r' r then value_usages_at (LocArg i) (la_value a) else [] | _ => [] end) evs.
  (** :199-239 *)
  Definition disallowed_in_root_at (d : ldocument) (evs : list levent) (r : root) : option (list ldoc_error) :=
    match usages_at evs r with
    | [] => Some []
    | usages =>
        match operations_using (plain_document d) (map plain_event evs) r with
        | None => None
        | Some ops =>
            Some (flat_map (fun i =>
              match nth_error (lops d) i with
              | None => []
              | Some o =>
                  flat_map (fun u : lname * location =>
                              match find (fun v => teqb (fst (lvd_name v)) (fst (fst u))) (lop_vars o) with
                              | Some vd => if usage_allowed S (plain_vardef vd) (snd u) then [] else [LInvalidVariableUsage i (fst u) vd (snd u)]
                              | None => []
                              end) usages
              end) ops)
        end
    end.
  Definition disallowed_usage_errors_at (d : ldocument) (evs : list levent) : option (list ldoc_error) :=
    sequence (map (disallowed_in_root_at d evs) (all_roots (plain_document d))).

  (** ** orchestrator.rs:327-338 [validate] with [BuiltinRules] (rules.rs:55-82) *)
  Variable ord : nat -> list (list fctx) -> list (list fctx).
  Definition validate_at (d : ldocument) : option (list ldoc_error) :=
    let evs := visit_at S d in
    if existsb (fun e => match e with LEPanicked => true | _ => false end) evs then None else
    match merging_errors S (plain_document d) ord, fragment_cycle_errors_at d, undefined_variable_errors_at d evs, unused_variable_errors_at d evs,
          disallowed_usage_errors_at d evs with
    | Some merging, Some cycles, Some undefined, Some unused, Some disallowed => Some (
        operation_name_errors_at evs ++
        lone_anonymous_errors_at d evs ++
        subscription_errors_at d evs ++
        field_selection_errors_at evs ++
        map LFieldSelectionsDoNotMerge merging ++
        operation_type_errors_at evs ++
        leaf_selection_errors_at evs ++
        argument_name_errors_at evs ++
        argument_uniqueness_errors_at evs ++
        required_argument_errors_at evs ++
        fragment_name_errors_at evs ++
        fragment_type_errors_at evs ++
        fragment_composite_errors_at evs ++
        unused_fragment_errors_at d evs ++
        spread_target_errors_at d evs ++
        cycles ++
        spread_possible_errors_at d evs ++
        value_errors_at evs ++
        directive_defined_errors_at evs ++
        directive_location_errors_at evs ++
        directive_uniqueness_errors_at evs ++
        variable_uniqueness_errors_at evs ++
        variable_input_errors_at evs ++
        undefined ++
        unused ++
        disallowed)
    | _, _, _, _, _ => None
    end.
End Rules.

(** ** The conversion [From<Error> for ParserError] *)
(** the selection set at a place of [Merging.v] *)
Definition inner_set (s : lset) (j : nat) : option lset :=
  match nth_error (fst s) j with
  | Some (LField _ _ _ _ (Some sub) _) => Some sub
  | Some (LInline _ _ sub _) => Some sub
  | _ => None
  end.
Definition root_set (d : ldocument) (r : root) : option lset :=
  match r with
  | ROp i => option_map lop_set (nth_error (lops d) i)
  | RFrag i => option_map lf_set (nth_error (lfrags d) i)
  end.
Fixpoint set_along (d : ldocument) (r : root) (path : list nat) : option lset :=
  match path with
  | [] => root_set d r
  | j :: path' => match set_along d r path' with Some s => inner_set s j | None => None end
  end.
Definition set_at (d : ldocument) (id : set_id) : option lset := set_along d (fst id) (snd id).
(** the name of the field whose own selection set has this place *)
Definition field_name_at (d : ldocument) (id : set_id) : option lname :=
  match snd id with
  | [] => None
  | j :: path =>
      match set_along d (fst id) path with
      | Some s => match nth_error (fst s) j with Some (LField _ n _ _ _ _) => Some n | _ => None end
      | None => None
      end
  end.
Definition noted (m : text) (n : option lname) : list annotation := match n with Some n => [(m, snd n)] | None => [] end.
(** error.rs:325-396: the three errors of the merging rule *)
Definition merge_conversion (d : ldocument) (message : text) (id : set_id) (a b : fctx) (note_a note_b : text) : err :=
  {| er_message := tx "Fields in selection set do not merge due to " ++ message;
     er_primary := match set_at d id with Some s => Some (tx "Fields in selection set do not merge", snd s) | None => None end;
     er_secondary := noted note_a (field_name_at d (cx_id a)) ++ noted note_b (field_name_at d (cx_id b)) |}.

Definition quoted (n : text) : text := tx "`" ++ n ++ tx "`".
(** [Field::response_key] (bluejay-parser/src/ast/executable/field.rs:66-72) *)
Definition response_key (al : option lname) (n : lname) : name := match al with Some a => fst a | None => fst n end.
(** error.rs:452-455 *)
Definition operation_words (o : loperation) : text :=
  match lop_name o with Some n => tx "operation " ++ fst n | None => tx "anonymous operation" end.
(** [OperationType]'s [Display] (bluejay-core/src/operation_type.rs:4-11, camelCase) *)
Definition optype_display (t : optype) : text := match t with OQuery => tx "query" | OMutation => tx "mutation" | OSubscription => tx "subscription" end.
(** [HasSpan for VariableType] (variable_type.rs:98-105) *)
Definition type_span (t : ltype) : span := match t with LTBase _ _ sp | LTList _ _ sp => sp end.
(** error.rs:130-524, argument_error.rs:38-135, directive_error.rs:28-73 *)
Definition validation_error (d : ldocument) (e : ldoc_error) : err :=
  let plainly := fun m p => {| er_message := m; er_primary := Some p; er_secondary := [] |} in
  match e with
  | LNonUniqueOperationNames n ops =>
      {| er_message := tx "Multiple operation definitions named " ++ quoted n; er_primary := None;
         er_secondary := flat_map (fun o => noted (tx "Operation definition with name " ++ quoted n) (lop_name o)) ops |}
  | LNotLoneAnonymousOperation ops =>
      {| er_message := tx "Anonymous operation not lone operation in document"; er_primary := None;
         er_secondary := map (fun o => (tx "Anonymous operation definition", snd (lop_set o))) ops |}
  | LSubscriptionRootNotSingleField o =>
      plainly (tx "Subscription root is not a single field") (tx "Selection set contains multiple fields", snd (lop_set o))
  | LFieldDoesNotExistOnType n t =>
      plainly (tx "Field " ++ quoted (fst n) ++ tx " does not exist on type " ++ quoted (td_name t))
        (tx "Field does not exist on type " ++ quoted (td_name t), snd n)
  | LFieldSelectionsDoNotMerge (DifferingArguments id a b) =>
      merge_conversion d (tx "unequal arguments") id a b (tx "First field") (tx "Second field")
  | LFieldSelectionsDoNotMerge (DifferingNames id a b) =>
      merge_conversion d (tx "unequal field names") id a b (tx "First field") (tx "Second field")
  | LFieldSelectionsDoNotMerge (IncompatibleTypes id a b) =>
      merge_conversion d (tx "incompatible types") id a b
        (tx "First field has type " ++ tref_display (fd_type (cx_def a))) (tx "Second field has type " ++ tref_display (fd_type (cx_def b)))
  | LOperationTypeNotDefined o =>
      {| er_message := tx "Schema does not define a " ++ optype_display (lop_type o) ++ tx " root";
         er_primary := match o with
                       | LExplicit ty sp _ _ _ _ _ => Some (tx "Schema does not define a " ++ optype_display ty ++ tx " root", sp)
                       | LImplicit _ => None (* not an operation of the rule *)
                       end;
         er_secondary := [] |}
  | LLeafFieldSelectionNotEmpty _ sub fd =>
      plainly (tx "Selection on field of leaf type " ++ quoted (tref_display (fd_type fd)) ++ tx " was not empty")
        (tx "Selection set on field of leaf type must be empty", snd sub)
  | LNonLeafFieldSelectionEmpty n fd =>
      plainly (tx "No selection on field of non-leaf type " ++ quoted (tref_display (fd_type fd)))
        (tx "Fields of non-leaf types must have a selection", snd n)
  | LArgumentDoesNotExist on a =>
      plainly (match on with
               | OwnField fd => tx "Field " ++ quoted (fd_name fd)
               | OwnDirective dd => tx "Directive " ++ quoted (dd_name dd)
               end ++ tx " does not define an argument named " ++ quoted (fst (la_name a)))
        (tx "No argument definition with this name", snd (la_name a))
  | LNonUniqueArgumentNames n args =>
      {| er_message := tx "Multiple arguments with name " ++ quoted n; er_primary := None;
         er_secondary := map (fun a => (tx "Argument with name " ++ quoted n, snd (la_name a))) args |}
  | LFieldMissingArguments al n args fd missing =>
      plainly (tx "Field " ++ quoted (response_key al n) ++ tx " missing argument(s): " ++ joined (map iv_name missing))
        (tx "Missing argument(s): " ++ joined (map iv_name missing), match args with Some l => merge (snd n) (snd l) | None => snd n end)
  | LDirectiveMissingArguments x dd missing =>
      plainly (tx "Directive " ++ quoted (fst (ld_name x)) ++ tx " missing argument(s): " ++ joined (map iv_name missing))
        (tx "Missing argument(s): " ++ joined (map iv_name missing), ld_span x)
  | LNonUniqueFragmentDefinitionNames n fs =>
      {| er_message := tx "Multiple fragment definitions named " ++ quoted n; er_primary := None;
         er_secondary := map (fun f => (tx "Fragment definition with name " ++ quoted n, snd (lf_name f))) fs |}
  | LFragmentTypeDoesNotExist f =>
      plainly (tx "No type definition with name " ++ quoted (fst (lf_cond f))) (tx "No type with this name", snd (lf_cond f))
  | LInlineTypeDoesNotExist c => plainly (tx "No type definition with name " ++ quoted (fst c)) (tx "No type with this name", snd c)
  | LFragmentTypeNotComposite f =>
      plainly (quoted (fst (lf_cond f)) ++ tx " is not a composite type") (tx "Fragment definition target types must be composite types", snd (lf_cond f))
  | LInlineTypeNotComposite c =>
      plainly (quoted (fst c) ++ tx " is not a composite type") (tx "Inline fragment target types must be composite types", snd c)
  | LFragmentDefinitionUnused f =>
      plainly (tx "Fragment definition " ++ quoted (fst (lf_name f)) ++ tx " is unused") (tx "Fragment definition is unused", snd (lf_name f))
  | LFragmentSpreadTargetUndefined n =>
      plainly (tx "No fragment defined with name " ++ quoted (fst n)) (tx "No fragment defined with this name", snd n)
  | LFragmentSpreadCycle f s =>
      {| er_message := tx "Cycle detected in fragment " ++ quoted (fst (lf_name f)); er_primary := Some (tx "Cycle introduced by fragment spread", snd s);
         er_secondary := [(tx "Affected fragment definition", snd (lf_name f))] |}
  | LFragmentSpreadIsNotPossible n t =>
      plainly (tx "Fragment " ++ quoted (fst n) ++ tx " cannot be spread for type " ++ td_name t) (tx "Cannot be spread for type " ++ td_name t, snd n)
  | LInlineFragmentIsNotPossible c sp t =>
      plainly (tx "Fragment targeting type " ++ fst c ++ tx " cannot be spread for type " ++ td_name t) (tx "Cannot be spread for type " ++ td_name t, sp)
  | LInvalidValue e => coercion_error e
  | LDirectiveDoesNotExist x =>
      plainly (tx "No directive definition with name `@" ++ fst (ld_name x) ++ tx "`") (tx "No directive definition with this name", snd (ld_name x))
  | LDirectiveInInvalidLocation x dd loc =>
      plainly (tx "Directive @" ++ fst (ld_name x) ++ tx " cannot be used at location " ++ dloc_text loc ++
               tx ". It is only allowed at the following locations: " ++ joined (map dloc_text (dd_locs dd)))
        (tx "Cannot be used at location " ++ dloc_text loc, ld_span x)
  | LDirectivesNotUnique xs dd =>
      {| er_message := tx "Directive @" ++ dd_name dd ++ tx " is not repeatable but was used multiple times in the same location"; er_primary := None;
         er_secondary := map (fun x => (tx "Usage of directive", ld_span x)) xs |}
  | LNonUniqueVariableDefinitionNames n vs =>
      {| er_message := tx "Multiple variable definitions named $" ++ n; er_primary := None;
         er_secondary := map (fun v => (tx "Variable definition with name $" ++ n, snd (lvd_name v))) vs |}
  | LVariableDefinitionTypeNotInput v =>
      plainly (tx "Type of variable $" ++ fst (lvd_name v) ++ tx ", " ++ tref_base (plain_type (lvd_type v)) ++ tx ", is not an input type")
        (tx "Not an input type", type_span (lvd_type v))
  | LVariableNotDefined _ o x =>
      plainly (tx "Variable $" ++ fst x ++ tx " not defined in " ++ operation_words o)
        (tx "No variable definition with this name defined in " ++ operation_words o, snd x)
  | LVariableDefinitionUnused _ v =>
      plainly (tx "Variable definition $" ++ fst (lvd_name v) ++ tx " not used") (tx "Variable definition not used", snd (lvd_name v))
  | LInvalidVariableUsage _ x v l =>
      plainly (tx "Variable $" ++ fst x ++ tx " of type " ++ tref_display (plain_type (lvd_type v)) ++ tx " cannot be used here, where " ++
               tref_display (loc_type l) ++ tx " is expected")
        (tx "Cannot use variable of type " ++ tref_display (plain_type (lvd_type v)) ++ tx " where " ++ tref_display (loc_type l) ++ tx " is expected", snd x)
  end.
