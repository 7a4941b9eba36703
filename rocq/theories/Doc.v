(** The document orchestrator (bluejay-validator/src/executable/document/orchestrator.rs) as the sequence of visitor
    calls that it makes. Every rule sees this sequence (visitor.rs:94-220 forwards each call to every rule). *)
From Verif Require Import Base Ast.

(** path.rs:38-41 [PathRoot]. Roots are compared by id (the source span of the definition, path.rs:60-87): the
    model uses the position of the definition in the document. Of [Path] only the root is modelled: [members] is
    never read (path.rs:5-36). *)
Inductive root := ROp (i : nat) | RFrag (i : nat).
Definition root_dec (a b : root) : {a = b} + {a <> b}.
Proof. decide equality; apply Nat.eq_dec. Defined.

(** visitor.rs:5-92: one constructor per visitor method. *)
Inductive event :=
| EPanic (* the panic of orchestrator.rs:88 *)
| EOp (o : operation)
| ESelSet (sels : list selection) (t : tdef)
| EField (r : root) (al : option name) (n : name) (args : list argument) (ds : list directive) (sub : list selection) (fd : fdef)
| EConstDirective (d : directive) (loc : dloc)
| EVarDirective (d : directive) (loc : dloc)
| EConstDirectives (ds : list directive) (loc : dloc)
| EVarDirectives (ds : list directive) (loc : dloc)
| EFrag (f : fragment)
| EInline (cond : option name) (ds : list directive) (sub : list selection) (t : tdef)
| ESpread (r : root) (n : name) (ds : list directive) (t : tdef)
| EConstArg (a : argument) (i : ivd)
| EVarArg (r : root) (a : argument) (i : ivd)
| EVarDef (v : vardef)
| EVarDefs (vs : list vardef).

Section Orchestrator.
  Variable S : schema.

  (** [visit_variable_arguments] (:295-306), [visit_variable_argument] (:317-325) *)
  Definition var_args (r : root) (args : list argument) (defs : list ivd) : list event :=
    flat_map (fun a => match get_ivd defs (fst a) with Some i => [EVarArg r a i] | None => [] end) args.
  (** [visit_const_arguments] (:283-293), [visit_const_argument] (:308-315) *)
  Definition const_args (args : list argument) (defs : list ivd) : list event :=
    flat_map (fun a => match get_ivd defs (fst a) with Some i => [EConstArg a i] | None => [] end) args.
  (** [visit_variable_directive] (:198-214) *)
  Definition var_directive (r : root) (loc : dloc) (d : directive) : list event :=
    EVarDirective d loc ::
    match get_ddef S (dir_name d) with Some dd => var_args r (dir_args d) (dd_args dd) | None => [] end.
  (** [visit_const_directive] (:216-231) *)
  Definition const_directive (loc : dloc) (d : directive) : list event :=
    EConstDirective d loc ::
    match get_ddef S (dir_name d) with Some dd => const_args (dir_args d) (dd_args dd) | None => [] end.
  (** [if let Some(directives)] then [visit_variable_directives] (:175-185) *)
  Definition var_directives (r : root) (ds : list directive) (loc : dloc) : list event :=
    match ds with [] => [] | _ => EVarDirectives ds loc :: flat_map (var_directive r loc) ds end.
  (** [visit_const_directives] (:187-196) *)
  Definition const_directives (ds : list directive) (loc : dloc) : list event :=
    match ds with [] => [] | _ => EConstDirectives ds loc :: flat_map (const_directive loc) ds end.

  (** The body of the loop in [visit_selection_set] (:125-144) with [visit_field] (:147-173),
      [visit_inline_fragment] (:233-255) and [visit_fragment_spread] (:257-270). *)
  Fixpoint visit_selection (r : root) (t : tdef) (s : selection) {struct s} : list event :=
    let visit_set := fun (t' : tdef) (sub : list selection) =>
      ESelSet sub t' :: (fix go (l : list selection) : list event :=
                           match l with [] => [] | x :: l' => visit_selection r t' x ++ go l' end) sub in
    match s with
    | SField al n args ds sub =>
        match get_field (td_fields t) n with
        | None => []
        | Some fd =>
            EField r al n args ds sub fd ::
            var_directives r ds LField ++
            var_args r args (fd_args fd) ++
            match sub with
            | [] => []
            | _ => match get_type S (tref_base (fd_type fd)) with Some t' => visit_set t' sub | None => [] end
            end
        end
    | SInline cond ds sub =>
        var_directives r ds LInlineFragment ++
        match (match cond with Some c => get_type S c | None => Some t end) with
        | Some t' => visit_set t' sub
        | None => []
        end ++
        [EInline cond ds sub t]
    | SSpread n ds => var_directives r ds LFragmentSpread ++ [ESpread r n ds t]
    end.
  (** [visit_selection_set] (:117-145) *)
  Definition visit_selection_set (r : root) (t : tdef) (sels : list selection) : list event :=
    ESelSet sels t :: flat_map (visit_selection r t) sels.

  (** [visit_variable_definitions] (:272-281) *)
  Definition visit_variable_definitions (vs : list vardef) : list event :=
    match vs with
    | [] => []
    | _ => EVarDefs vs :: flat_map (fun v => const_directives (vd_dirs v) LVariableDefinition ++ [EVarDef v]) vs
    end.

  (** bluejay-core/src/operation_type.rs [associated_directive_location] *)
  Definition op_location (t : optype) : dloc :=
    match t with OQuery => LQuery | OMutation => LMutation | OSubscription => LSubscription end.
  (** the root type name of an operation (:70-80) *)
  Definition op_root_name (t : optype) : option name :=
    match t with OQuery => Some (s_query S) | OMutation => s_mutation S | OSubscription => s_subscription S end.

  (** [visit_operation_definition] (:51-96) *)
  Definition visit_operation (i : nat) (o : operation) : list event :=
    EOp o :: var_directives (ROp i) (op_dirs o) (op_location (op_type o)) ++
    visit_variable_definitions (op_vars o) ++
    match op_root_name (op_type o) with
    | None => []
    | Some n => match get_type S n with
                | Some t => visit_selection_set (ROp i) t (op_sel o)
                | None => [EPanic]
                end
    end.
  (** [visit_fragment_definition] (:98-115) *)
  Definition visit_fragment (i : nat) (f : fragment) : list event :=
    match get_type S (fr_cond f) with Some t => visit_selection_set (RFrag i) t (fr_sel f) | None => [] end ++
    var_directives (RFrag i) (fr_dirs f) LFragmentDefinition ++
    [EFrag f].
  (** [visit] (:38-49) *)
  Definition visit (d : document) : list event :=
    concat (mapi visit_operation (doc_ops d)) ++ concat (mapi visit_fragment (doc_frags d)).
End Orchestrator.
