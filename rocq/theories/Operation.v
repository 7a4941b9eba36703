(** The operation orchestrator (bluejay-validator/src/executable/operation/orchestrator.rs) as the sequence of visitor
    calls it makes, and the analyzers (operation/analyzers/*.rs) as functions of that sequence. The visitor's state never
    influences which calls are made, and a tuple of visitors forwards each call to each (visitor.rs:58-116).
    Variable values (variable_values.rs:6-18) are an association list; [get] takes the first entry. *)
From Verif Require Import Base Ast Maps Doc DocRules CoercionTypes Coercion Decimal10.

(** visitor.rs:20-55: one constructor per visitor method; [OPanic] is the panic of orchestrator.rs:133-138 and [OFuel]
    the exhaustion of the model's recursion bound (excluded by the theorems). *)
Inductive oevent :=
| OPanic
| OFuel
| OEnter (al : option name) (n : name) (args : list argument) (ds : list directive) (sub : list selection)
         (fd : fdef) (t : tdef) (included : bool)
| OLeave (included : bool)
| OArg (a : argument) (i : ivd)
| OVarDef (v : vardef).

(** variable_values.rs:35-61 [evaluate_bool] *)
Definition as_bool (v : value) : option bool := match v with VBool b => Some b | _ => None end.
Definition is_named (ty : name) (t : tref) : bool := match t with TBase n _ => teqb n ty | TList _ _ => false end.
Definition evaluate_bool (o : operation) (vals : list (name * value)) (x : name) : option bool :=
  match find (fun v => teqb (vd_name v) x && is_named (tx "Boolean") (vd_type v)) (op_vars o) with
  | None => None
  | Some vd => match assoc x vals with
               | Some v => as_bool v
               | None => match vd_default vd with Some v => as_bool v | None => None end
               end
  end.

Section Orchestrator.
  Variable S : schema.
  Variable d : document.
  Variable o : operation.
  Variable vals : list (name * value).

  (** [evaluate_boolean_directive_argument_value] (:313-334) *)
  Definition directive_bool (ds : list directive) (dn an : name) : option bool :=
    match find (fun x => teqb (dir_name x) dn) ds with
    | None => None
    | Some x => match find (fun a => teqb (fst a) an) (dir_args x) with
                | None => None
                | Some a => match snd a with
                            | VBool b => Some b
                            | VVar v => evaluate_bool o vals v
                            | _ => None
                            end
                end
    end.
  (** [evaluate_selection_inclusion] (:294-311) *)
  Definition selection_included (ds : list directive) : bool :=
    match directive_bool ds (tx "skip") (tx "if"), directive_bool ds (tx "include") (tx "if") with
    | Some true, _ => false
    | _, Some false => false
    | _, _ => true
    end.

  (** [visit_variable_arguments] (:215-225) and the loop in [visit_field] (:192-200) *)
  Definition oargs (args : list argument) (defs : list ivd) : list oevent :=
    flat_map (fun a => match get_ivd defs (fst a) with Some i => [OArg a i] | None => [] end) args.
  (** [visit_variable_directives], [visit_variable_directive] (:77-101) *)
  Definition odirectives (ds : list directive) : list oevent :=
    flat_map (fun x => match get_ddef S (dir_name x) with Some dd => oargs (dir_args x) (dd_args dd) | None => [] end) ds.

  (** the body of the loop of [visit_selection_set] (:149-172) with [visit_field] (:174-213), [visit_inline_fragment]
      (:236-260) and [visit_fragment_spread] (:262-292); [active] is [currently_spread_fragments] *)
  Fixpoint ovisit (fuel : nat) (active : list name) {struct fuel} : tdef -> bool -> selection -> list oevent :=
    fix go (t : tdef) (inc : bool) (s : selection) {struct s} : list oevent :=
      let set := fun (t' : tdef) (inc' : bool) (sub : list selection) =>
        (fix gol (l : list selection) : list oevent := match l with [] => [] | x :: l' => go t' inc' x ++ gol l' end) sub in
      match s with
      | SField al n args ds sub =>
          match get_field (td_fields t) n with
          | None => []
          | Some fd =>
              let inc' := inc && selection_included ds in
              odirectives ds ++
              OEnter al n args ds sub fd t inc' ::
              oargs args (fd_args fd) ++
              match sub with
              | [] => []
              | _ => match get_type S (tref_base (fd_type fd)) with Some t' => set t' inc' sub | None => [] end
              end ++
              [OLeave inc']
          end
      | SInline c ds sub =>
          odirectives ds ++
          match (match c with Some c => get_type S c | None => Some t end) with
          | Some t' => set t' (inc && selection_included ds) sub
          | None => []
          end
      | SSpread n ds =>
          odirectives ds ++
          if tmem n active then []
          else match cached_fragment d n with
               | None => []
               | Some f => match get_type S (fr_cond f) with
                           | None => []
                           | Some t' => match fuel with
                                        | 0 => [OFuel]
                                        | Datatypes.S fuel' =>
                                            flat_map (ovisit fuel' (n :: active) t' (inc && selection_included ds)) (fr_sel f)
                                        end
                           end
               end
      end.
  Definition ovisit_set (fuel : nat) (active : list name) (t : tdef) (inc : bool) (sels : list selection) : list oevent :=
    flat_map (ovisit fuel active t inc) sels.

  (** [visit_operation_definition] (:103-147) *)
  Definition ovisit_operation : list oevent :=
    odirectives (op_dirs o) ++
    match op_root_name S (op_type o) with
    | None => []
    | Some n => match get_type S n with
                | Some t => ovisit_set (length (doc_frags d)) [] t true (op_sel o)
                | None => [OPanic]
                end
    end ++
    map OVarDef (op_vars o).
End Orchestrator.

(** The selection of the operation in [analyze] (:336-379). *)
Inductive resolution_error := NoOperationWithName (n : name) | AnonymousNotEligible.
Definition resolve_operation (d : document) (requested : option name) : operation + resolution_error :=
  match requested with
  | Some n => match find (fun o => match op_name o with Some m => teqb m n | None => false end) (doc_ops d) with
              | Some o => inl o
              | None => inr (NoOperationWithName n)
              end
  | None => match doc_ops d with [o] => inl o | _ => inr AnonymousNotEligible end
  end.
(** [analyze]: the visitor calls made, or the resolution error *)
Definition analyze (S : schema) (d : document) (requested : option name) (vals : list (name * value)) : list oevent + resolution_error :=
  match resolve_operation d requested with
  | inl o => inl (ovisit_operation S d o vals)
  | inr e => inr e
  end.

(** ** query_depth.rs:32-65. [usize] is a natural number; the subtraction never underflows (see the proofs). *)
Definition depth_step (st : nat * nat) (ev : oevent) : nat * nat :=
  let '(cur, mx) := st in
  match ev with
  | OEnter _ _ _ _ _ _ _ true => (cur + 1, Nat.max mx (cur + 1))
  | OLeave true => (cur - 1, mx)
  | _ => (cur, mx)
  end.
Definition query_depth (evs : list oevent) : nat := snd (fold_left depth_step evs (0, 0)).

(** ** input_size.rs *)
Definition dot (base : text) (part : text) : text := base ++ [46%N] ++ part.
Section InputSize.
  Variable max_length : nat.
  (** [find_input_size_offenders_variables] (:154-191), and [find_input_size_offenders_arguments::<true>] on a default
      value, which contains no variable *)
  Fixpoint const_offenders (nm : text) (v : value) {struct v} : list (nat * text) :=
    match v with
    | VList vs =>
        if Nat.ltb max_length (length vs) then [(length vs, nm)]
        else (fix go (i : nat) (l : list value) : list (nat * text) :=
                match l with [] => [] | x :: l' => const_offenders (dot nm (show_nat i)) x ++ go (Datatypes.S i) l' end) 0 vs
    | VObj es =>
        (fix go (l : list (name * value)) : list (nat * text) :=
           match l with [] => [] | (k, x) :: l' => const_offenders (dot nm k) x ++ go l' end) es
    | _ => []
    end.
  Variable vals : list (name * value).
  Variable vdefs : list vardef.
  (** [find_input_size_offenders_arguments] (:72-150) *)
  Fixpoint arg_offenders (nm : text) (v : value) {struct v} : list (nat * text) :=
    match v with
    | VList vs =>
        if Nat.ltb max_length (length vs) then [(length vs, nm)]
        else (fix go (i : nat) (l : list value) : list (nat * text) :=
                match l with [] => [] | x :: l' => arg_offenders (dot nm (show_nat i)) x ++ go (Datatypes.S i) l' end) 0 vs
    | VObj es =>
        (fix go (l : list (name * value)) : list (nat * text) :=
           match l with [] => [] | (k, x) :: l' => arg_offenders (dot nm k) x ++ go l' end) es
    | VVar x =>
        match assoc x vals with
        | Some w => const_offenders nm w
        | None => match find (fun vd => teqb (vd_name vd) nm) vdefs with   (* :131 compares with the argument's name *)
                  | Some vd => match vd_default vd with Some w => const_offenders nm w | None => [] end
                  | None => []
                  end
        end
    | _ => []
    end.
  (** [visit_variable_argument] (:51-64), [into_output] (:198-200) *)
  Definition input_size_offenders (evs : list oevent) : list (nat * text) :=
    flat_map (fun ev => match ev with OArg a _ => arg_offenders (fst a) (snd a) | _ => [] end) evs.
End InputSize.

(** ** variable_values_are_valid.rs. The [HashMap] index is a list without repeated keys (a later entry replaces an
    earlier one); the order of its values is not observable in the theorems. *)
Inductive variable_value_error :=
| MissingValue (v : vardef)
| InvalidValue (v : vardef) (x : value) (errs : list cerr)
| UnusedValue (k : name) (x : value).
Section VariableValues.
  Variable S : schema.
  Variable hook : name -> value -> option text.
  Variable str_enum one_of : bool.
  Definition remove_key (k : name) (l : list (name * value)) : list (name * value) := filter (fun e => negb (teqb (fst e) k)) l.
  (** [new] (:42-45) *)
  Definition index_values (vals : list (name * value)) : list (name * value) :=
    fold_left (fun m e => remove_key (fst e) m ++ [e]) vals [].
  (** cache.rs:50-57 with [VariableDefinitionInputType::try_from] *)
  Definition has_input_type (t : tref) : bool := match get_type S (tref_base t) with Some td => td_is_input td | None => false end.
  (** [visit_variable_definition] (:51-86) *)
  Definition check_variable (st : list (name * value) * list variable_value_error) (v : vardef) : list (name * value) * list variable_value_error :=
    let '(m, errs) := st in
    let found := assoc (vd_name v) m in
    let m' := remove_key (vd_name v) m in
    (m', errs ++
         if has_input_type (vd_type v) then
           match found with
           | Some x => match coerce_value hook str_enum one_of S (vd_type v) x [] with [] => [] | es => [InvalidValue v x es] end
           | None => if vd_required v then [MissingValue v] else []
           end
         else []).
  (** [into_output] (:94-101) *)
  Definition variable_value_errors (vals : list (name * value)) (evs : list oevent) : list variable_value_error :=
    let '(m, errs) := fold_left (fun st ev => match ev with OVarDef v => check_variable st v | _ => st end) evs (index_values vals, []) in
    errs ++ map (fun e => UnusedValue (fst e) (snd e)) m.
End VariableValues.

(** ** deprecation.rs *)
Inductive usage_type := UArgument | UEnumValue | UInputField | UField.
Record deprecation := { dp_reason : text; dp_type : usage_type; dp_name : name }.
(** [get_deprecation_reason] (:135-159) *)
Definition deprecation_reason (ds : list directive) : option text :=
  match find (fun x => teqb (dir_name x) (tx "deprecated")) ds with
  | None => None
  | Some x => Some (match find (fun a => teqb (fst a) (tx "reason")) (dir_args x) with
                    | Some (_, VStr s) => s
                    | _ => tx "No longer supported."
                    end)
  end.
Section Deprecation.
  Variable S : schema.
  (** [str_enum]: does the kind of value represent enum members by strings? ([V::can_coerce_string_value_to_enum],
      bluejay-core/src/value.rs:61 and value/serde_json.rs:44) *)
  Definition deprecated_enum (str_enum : bool) (en : enum_def) (v : value) (nm : name) : list deprecation :=
    match (match v with VEnum x => Some x | VStr x => if str_enum then Some x else None | _ => None end) with
    | None => []
    | Some x => match find (fun e => teqb (ev_name e) x) (en_values en) with
                | None => []
                | Some e => match deprecation_reason (ev_dirs e) with
                            | Some r => [{| dp_reason := r; dp_type := UEnumValue; dp_name := nm |}]
                            | None => []
                            end
                end
    end.
  (** [find_deprecations_for_value] (:162-245). The recursion on the list type for a value that is not a list is done
      first ([strip]); then the recursion is structural in the value. *)
  Fixpoint strip (t : tref) : name := match t with TBase n _ => n | TList i _ => strip i end.
  Fixpoint value_deprecations (str_enum : bool) (nm : name) (v : value) {struct v} : tref -> list deprecation :=
    let base := fun n =>
      match get_type S n with
      | Some (DEnum en) => deprecated_enum str_enum en v nm
      | Some (DInput io) =>
          match v with
          | VObj es =>
              flat_map (fun f =>
                (fix look (l : list (name * value)) : list deprecation :=
                   match l with
                   | [] => []
                   | (k, x) :: l' =>
                       if teqb k (iv_name f)
                       then match deprecation_reason (iv_dirs f) with
                            | Some r => [{| dp_reason := r; dp_type := UInputField; dp_name := iv_name f |}]
                            | None => []
                            end ++ value_deprecations str_enum nm x (iv_type f)
                       else look l'
                   end) es) (io_fields io)
          | _ => []
          end
      | _ => []
      end in
    fun t =>
      match t with
      | TBase n _ => base n
      | TList inner _ =>
          match v with
          | VList vs => (fix go (l : list value) : list deprecation :=
                           match l with [] => [] | x :: l' => value_deprecations str_enum nm x inner ++ go l' end) vs
          | _ => base (strip t)
          end
      end.
  Variable vals : list (name * value).
  Variable str_values : bool.  (* of the variable values' type *)
  (** [visit_variable_definition] (:63-85), [visit_field] (:87-110), [visit_variable_argument] (:112-132) *)
  Definition deprecations (evs : list oevent) : list deprecation :=
    flat_map (fun ev => match ev with
      | OVarDef v =>
          if match get_type S (tref_base (vd_type v)) with Some td => td_is_input td | None => false end then
            match assoc (vd_name v) vals with Some x => value_deprecations str_values (vd_name v) x (vd_type v) | None => [] end ++
            match vd_default v with Some x => value_deprecations false (vd_name v) x (vd_type v) | None => [] end
          else []
      | OEnter _ n _ _ _ fd _ inc =>
          if inc then match deprecation_reason (fd_dirs fd) with
                      | Some r => [{| dp_reason := r; dp_type := UField; dp_name := n |}]
                      | None => []
                      end
          else []
      | OArg a i =>
          match deprecation_reason (iv_dirs i) with
          | Some r => [{| dp_reason := r; dp_type := UArgument; dp_name := fst a |}]
          | None => []
          end ++ value_deprecations false (fst a) (snd a) (iv_type i)
      | _ => []
      end) evs.
End Deprecation.
