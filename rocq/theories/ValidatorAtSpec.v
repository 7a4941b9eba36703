(** The errors of validation with positions: what they are without positions, and what a converted error has to say and mark. *)
From Coq Require Import String.
From Verif Require Import Base Ast Graph Location CoercionTypes CoercionSpec DefParser ParserSpec ParserAt ParserAtSpec Doc DocRules DocSpec DocRulesSpec DocVariables DocVariablesSpec Merging MergingSpec Validator CoercionAt ValidatorAt.
Local Open Scope string_scope.
Local Open Scope list_scope.

Definition plain_cerr (e : lcerr) : cerr :=
  match e with
  | LNullForRequired v ty p => ENullForRequired (plain_value v) ty p
  | LNoImplicit v ty p => ENoImplicit (plain_value v) ty p
  | LNoEnumMember n v ty p => ENoEnumMember n (plain_value v) ty p
  | LNoValueForRequired v fields ty p => ENoValueForRequired (plain_value v) fields ty p
  | LNonUniqueFields v f keys p => ENonUniqueFields (plain_value v) f (length keys) p
  | LNoInputField f ty p => ENoInputField (fst f) ty p
  | LCustomScalar v ty msg p => ECustomScalar (plain_value v) ty msg p
  | LOneOfNull v ty es p => EOneOfNull (plain_value v) ty (map (fun e => fst (fst e)) es) p
  | LOneOfNotSingle v ty es p => EOneOfNotSingle (plain_value v) ty (map (fun e => fst (fst e)) es) p
  | LUnresolved v ty p => EUnresolved (plain_value v) ty p
  end.
Definition plain_error (e : ldoc_error) : doc_error :=
  match e with
  | LNonUniqueOperationNames n ops => NonUniqueOperationNames n (map plain_operation ops)
  | LNotLoneAnonymousOperation ops => NotLoneAnonymousOperation (map plain_operation ops)
  | LSubscriptionRootNotSingleField o => SubscriptionRootNotSingleField (plain_operation o)
  | LFieldDoesNotExistOnType n t => FieldDoesNotExistOnType (fst n) t
  | LFieldSelectionsDoNotMerge e => FieldSelectionsDoNotMerge e
  | LOperationTypeNotDefined o => OperationTypeNotDefined (plain_operation o)
  | LLeafFieldSelectionNotEmpty n _ fd => LeafFieldSelection (LeafNotEmpty (fst n) fd)
  | LNonLeafFieldSelectionEmpty n fd => LeafFieldSelection (NonLeafEmpty (fst n) fd)
  | LArgumentDoesNotExist on a => ArgumentDoesNotExist on (plain_argument a)
  | LNonUniqueArgumentNames n args => NonUniqueArgumentNames n (map plain_argument args)
  | LFieldMissingArguments _ _ _ fd missing => RequiredArgumentsMissing (OwnField fd) missing
  | LDirectiveMissingArguments _ dd missing => RequiredArgumentsMissing (OwnDirective dd) missing
  | LNonUniqueFragmentDefinitionNames n fs => NonUniqueFragmentDefinitionNames n (map plain_fragment fs)
  | LFragmentTypeDoesNotExist f => FragmentTargetTypeDoesNotExist (fst (lf_cond f))
  | LInlineTypeDoesNotExist c => FragmentTargetTypeDoesNotExist (fst c)
  | LFragmentTypeNotComposite f => FragmentTargetTypeNotComposite (fst (lf_cond f))
  | LInlineTypeNotComposite c => FragmentTargetTypeNotComposite (fst c)
  | LFragmentDefinitionUnused f => FragmentDefinitionUnused (plain_fragment f)
  | LFragmentSpreadTargetUndefined n => FragmentSpreadTargetUndefined (fst n)
  | LFragmentSpreadCycle f _ => FragmentSpreadCycle (plain_fragment f)
  | LFragmentSpreadIsNotPossible n t => FragmentSpreadIsNotPossible (SpreadImpossible (fst n) t)
  | LInlineFragmentIsNotPossible c _ t => FragmentSpreadIsNotPossible (InlineImpossible (fst c) t)
  | LInvalidValue e => InvalidValue (plain_cerr e)
  | LDirectiveDoesNotExist x => DirectiveDoesNotExist (plain_directive x)
  | LDirectiveInInvalidLocation x _ loc => DirectiveInInvalidLocation (plain_directive x) loc
  | LDirectivesNotUnique xs _ => DirectivesNotUnique (map plain_directive xs)
  | LNonUniqueVariableDefinitionNames n vs => NonUniqueVariableDefinitionNames n (map plain_vardef vs)
  | LVariableDefinitionTypeNotInput v => VariableDefinitionTypeNotInput (plain_vardef v)
  | LVariableNotDefined i _ x => VariableNotDefined i (fst x)
  | LVariableDefinitionUnused i v => VariableDefinitionUnused i (plain_vardef v)
  | LInvalidVariableUsage i x v l => InvalidVariableUsage i (fst x) (plain_vardef v) l
  end.

(** ** Where the parts of a document are *)
Section Places.
  Variable S : schema.
  Variable d : ldocument.
  (** [at_type r set t]: the selection set [set], somewhere in the operation or fragment [r], selects from the type [t] *)
  Inductive at_type : root -> lset -> tdef -> Prop :=
  | at_operation i o t : nth_error (lops d) i = Some o -> root_type S (lop_type o) t -> at_type (ROp i) (lop_set o) t
  | at_fragment i f t : nth_error (lfrags d) i = Some f -> get_type S (fst (lf_cond f)) = Some t -> at_type (RFrag i) (lf_set f) t
  | at_field r set t al n args ds sub sp fd t' :
      at_type r set t -> In (LField al n args ds (Some sub) sp) (fst set) -> has_field t (fst n) fd -> get_type S (tref_base (fd_type fd)) = Some t' ->
      at_type r sub t'
  | at_inline r set t ds sub sp : at_type r set t -> In (LInline None ds sub sp) (fst set) -> at_type r sub t
  | at_inline_on r set t c ds sub sp t' : at_type r set t -> In (LInline (Some c) ds sub sp) (fst set) -> get_type S (fst c) = Some t' -> at_type r sub t'.
  (** a selection of such a set *)
  Definition selected (r : root) (t : tdef) (s : lselection) : Prop := exists set, at_type r set t /\ In s (fst set).
  (** a field defined by [fd] *)
  Definition field_on (r : root) (al : option lname) (n : lname) (args : option larguments) (ds : option ldirectives) (sub : option lset) (fd : fdef) : Prop :=
    exists t sp, selected r t (LField al n args ds sub sp) /\ has_field t (fst n) fd.
  (** the directives applied to something; [None]: to a variable *)
  Inductive applied : option root -> list ldirective -> dloc -> Prop :=
  | ap_operation i o : nth_error (lops d) i = Some o ->
      applied (Some (ROp i)) (lop_dirs o) match lop_type o with OQuery => LQuery | OMutation => LMutation | OSubscription => LSubscription end
  | ap_fragment i f : nth_error (lfrags d) i = Some f -> applied (Some (RFrag i)) (dirs_of (lf_dirs f)) LFragmentDefinition
  | ap_field r al n args ds sub fd : field_on r al n args ds sub fd -> applied (Some r) (dirs_of ds) Ast.LField
  | ap_spread r t n ds sp : selected r t (LSpread n ds sp) -> applied (Some r) (dirs_of ds) LFragmentSpread
  | ap_inline r t c ds sub sp : selected r t (LInline c ds sub sp) -> applied (Some r) (dirs_of ds) LInlineFragment
  | ap_variable o v : In o (lops d) -> In v (lop_vars o) -> applied None (dirs_of (lvd_dirs v)) LVariableDefinition.
  Definition directive_in (r : option root) (x : ldirective) (loc : dloc) : Prop := exists ds, applied r ds loc /\ In x ds.
  (** the arguments given to a field or directive *)
  Inductive arguments_in : option root -> option owner -> list largument -> Prop :=
  | ai_field r al n args ds sub fd : field_on r al n args ds sub fd -> arguments_in (Some r) (Some (OwnField fd)) (args_of args)
  | ai_directive r x loc : directive_in r x loc -> arguments_in r (option_map OwnDirective (get_ddef S (fst (ld_name x)))) (args_of (ld_args x)).
  Definition owner_args (o : owner) : list ivd := match o with OwnField fd => fd_args fd | OwnDirective dd => dd_args dd end.
  (** an argument defined by [i] *)
  Definition given (r : option root) (a : largument) (i : ivd) : Prop :=
    exists o args, arguments_in r (Some o) args /\ In a args /\ get_ivd (owner_args o) (fst (la_name a)) = Some i.
  (** a value for which a type is expected *)
  Inductive expects : lvalue -> tref -> Prop :=
  | ex_argument r a i : given r a i -> expects (la_value a) (iv_type i)
  | ex_default o v x t : In o (lops d) -> In v (lop_vars o) -> lvd_default v = Some x -> get_type S (tref_base (plain_type (lvd_type v))) = Some t -> td_is_input t = true ->
      expects x (plain_type (lvd_type v)).
  (** [inside v t one p v' t' one' p']: [v], at the path [p], is expected to be of type [t]; then [v'], inside it or itself, at the
      path [p'], is expected to be of type [t']. [one]: a single value stands for a list of one. *)
  Inductive inside : lvalue -> tref -> bool -> path -> lvalue -> tref -> bool -> path -> Prop :=
  | in_here v t one p : inside v t one p v t one p
  | in_single v inner req p v' t' one' p' : (forall vs sp, v <> LVList vs sp) -> inside v inner true p v' t' one' p' -> inside v (TList inner req) true p v' t' one' p'
  | in_item vs sp inner req one p i v v' t' one' p' :
      nth_error vs i = Some v -> inside v inner false (ppush p (PIndex i)) v' t' one' p' -> inside (LVList vs sp) (TList inner req) one p v' t' one' p'
  | in_entry es sp n req io i k v one p v' t' one' p' :
      get_type S n = Some (DInput io) -> In i (io_fields io) -> find (fun e => teqb (iv_name i) (fst (fst e))) es = Some (k, v) ->
      inside v (iv_type i) true (ppush p (PKey (iv_name i))) v' t' one' p' -> inside (LVObj es sp) (TBase n req) one p v' t' one' p'.
  (** [stands l v x l']: in the value [v] at location [l] the variable [x] stands at the location [l'] *)
  Inductive stands : DocVariables.location -> lvalue -> lname -> DocVariables.location -> Prop :=
  | st_here l n sp : stands l (LVLeaf (VVar n) sp) (n, sp) l
  | st_item l inner req vs sp v x l' : loc_type l = TList inner req -> In v vs -> stands (LocItem inner) v x l' -> stands l (LVList vs sp) x l'
  | st_entry l i io es sp k v f x l' : loc_ivd l = Some i -> get_type S (tref_base (iv_type i)) = Some (DInput io) -> In (k, v) es -> get_ivd (io_fields io) (fst k) = Some f ->
      stands (LocField f) v x l' -> stands l (LVObj es sp) x l'.
  (** one fragment spreads another by name *)
  Definition spreads_to (f g : lfragment) : Prop := exists n ds sp, In (NSelection (LSpread n ds sp)) (fragment_nodes f) /\ fst n = fst (lf_name g).
  (** the selection set with this place: the indices of the selections it is in, the innermost first *)
  Inductive set_placed : set_id -> lset -> Prop :=
  | pl_operation i o : nth_error (lops d) i = Some o -> set_placed (ROp i, []) (lop_set o)
  | pl_fragment i f : nth_error (lfrags d) i = Some f -> set_placed (RFrag i, []) (lf_set f)
  | pl_field r path s j al n args ds sub sp : set_placed (r, path) s -> nth_error (fst s) j = Some (LField al n args ds (Some sub) sp) -> set_placed (r, j :: path) sub
  | pl_inline r path s j c ds sub sp : set_placed (r, path) s -> nth_error (fst s) j = Some (LInline c ds sub sp) -> set_placed (r, j :: path) sub.
  (** the field of a context of the merging rule is the selection at this place *)
  Definition stands_at (x : fctx) (n : lname) : Prop :=
    exists r path j s al args ds sub sp, cx_id x = (r, j :: path) /\ set_placed (r, path) s /\ nth_error (fst s) j = Some (LField al n args ds sub sp) /\
      option_map fst al = cx_alias x /\ fst n = cx_name x /\ plain_arguments args = cx_args x /\ map plain_selection (sub_of sub) = cx_sub x.
End Places.

(** ** What the converted errors say and mark *)
Definition at_place (message label : text) (sp : span) : err := {| er_message := message; er_primary := Some (label, sp); er_secondary := [] |}.
Definition at_places (message label : text) (l : list span) : err := {| er_message := message; er_primary := None; er_secondary := map (fun sp => (label, sp)) l |}.
Definition with_name {A} (key : A -> lname) (n : name) (l : list A) : list A := filter (fun x => teqb (fst (key x)) n) l.
Definition op_named (n : name) (o : loperation) : bool := match lop_name o with Some m => teqb (fst m) n | None => false end.
Definition name_spans (ops : list loperation) : list span := flat_map (fun o => match lop_name o with Some m => [snd m] | None => [] end) ops.
Definition anonymous (o : loperation) : bool := match lop_name o with Some _ => false | None => true end.
(** required, without a default, and not given *)
Definition lacks (args : list largument) (defs : list ivd) : list ivd :=
  filter (fun i => tref_required (iv_type i) && match iv_default i with None => true | Some _ => false end && negb (existsb (fun a => teqb (iv_name i) (fst (la_name a))) args)) defs.

(** the words of messages *)
Definition ticks (n : text) : text := tx "`" ++ n ++ tx "`".
Fixpoint listed (l : list text) : text := match l with [] => [] | [x] => x | x :: l' => x ++ tx ", " ++ listed l' end.
Definition kind_of_value (v : value) : text :=
  match v with
  | VVar _ => tx "variable" | VInt _ => tx "integer" | VFloat _ => tx "float" | VStr _ => tx "string" | VBool _ => tx "boolean"
  | VNull => tx "null" | VEnum _ => tx "enum" | VList _ => tx "list" | VObj _ => tx "object"
  end.
Definition location_word (l : dloc) : text :=
  match l with
  | LQuery => tx "QUERY" | LMutation => tx "MUTATION" | LSubscription => tx "SUBSCRIPTION" | Ast.LField => tx "FIELD"
  | LFragmentDefinition => tx "FRAGMENT_DEFINITION" | LFragmentSpread => tx "FRAGMENT_SPREAD" | LInlineFragment => tx "INLINE_FRAGMENT"
  | LVariableDefinition => tx "VARIABLE_DEFINITION" | LSchema => tx "SCHEMA" | LScalar => tx "SCALAR" | LObject => tx "OBJECT"
  | LFieldDefinition => tx "FIELD_DEFINITION" | LArgumentDefinition => tx "ARGUMENT_DEFINITION" | LInterface => tx "INTERFACE"
  | LUnion => tx "UNION" | LEnum => tx "ENUM" | LEnumValue => tx "ENUM_VALUE" | LInputObject => tx "INPUT_OBJECT"
  | LInputFieldDefinition => tx "INPUT_FIELD_DEFINITION"
  end.
(** how a field is called in a message: by its alias, if it has one *)
Definition called (al : option lname) (n : lname) : name := match al with Some a => fst a | None => fst n end.
(** the range from the first to the last byte of two ranges *)
Definition both (a b : span) : span := (Nat.min (fst a) (fst b), Nat.max (snd a) (snd b)).

Section Told.
  Variable S : schema.
  Variable d : ldocument.
  Variable hook : name -> value -> option text.
  Variable str_enum one_of : bool.
  (** the errors of a value: [told_value v p e er] *)
  Inductive told_value (v : lvalue) (p : path) : cerr -> err -> Prop :=
  | tv_null ty : plain_value v = VNull ->
      told_value v p (ENullForRequired (plain_value v) ty p) (at_place (tx "Got null when non-null value of type " ++ ty ++ tx " was expected") (tx "Expected non-null value") (value_span v))
  | tv_implicit ty : told_value v p (ENoImplicit (plain_value v) ty p)
      (at_place (tx "No implicit conversion of " ++ kind_of_value (plain_value v) ++ tx " to " ++ ty) (tx "No implicit conversion to " ++ ty) (value_span v))
  | tv_member n ty : plain_value v = VEnum n \/ plain_value v = VStr n ->
      told_value v p (ENoEnumMember n (plain_value v) ty p) (at_place (tx "No member `" ++ n ++ tx "` on enum " ++ ty) (tx "No such member on enum " ++ ty) (value_span v))
  | tv_required fields ty : told_value v p (ENoValueForRequired (plain_value v) fields ty p)
      (at_place (tx "No value for required fields on input type " ++ ty ++ tx ": " ++ listed fields) (tx "No value for required fields: " ++ listed fields) (value_span v))
  | tv_fields es sp f : v = LVObj es sp -> 2 <= length (with_name fst f es) ->
      told_value v p (ENonUniqueFields (plain_value v) f (length (with_name fst f es)) p)
        (at_places (tx "Object with multiple entries for field " ++ f) (tx "Entry for field") (map (fun e => snd (fst e)) (with_name fst f es)))
  | tv_field es sp f x ty : v = LVObj es sp -> In (f, x) es ->
      told_value v p (ENoInputField (fst f) ty (ppush p (PKey (fst f))))
        (at_place (tx "No field with name " ++ fst f ++ tx " on input type " ++ ty) (tx "No field with this name on input type " ++ ty) (snd f))
  | tv_scalar ty msg : told_value v p (ECustomScalar (plain_value v) ty msg p) (at_place msg msg (value_span v))
  | tv_nulls es sp ty nulls : v = LVObj es sp -> nulls = filter (fun e => is_null (plain_value (snd e))) es ->
      told_value v p (EOneOfNull (plain_value v) ty (map (fun e => fst (fst e)) nulls) p)
        {| er_message := tx "Multiple entries with null values for oneOf input object " ++ ty;
           er_primary := Some (tx "oneOf input object must not contain any null values", value_span v);
           er_secondary := map (fun e => (tx "Entry with null value", both (snd (fst e)) (value_span (snd e)))) nulls |}
  | tv_single es sp ty others : v = LVObj es sp -> others = filter (fun e => negb (is_null (plain_value (snd e)))) es ->
      told_value v p (EOneOfNotSingle (plain_value v) ty (map (fun e => fst (fst e)) others) p)
        {| er_message := tx "Got " ++ Decimal10.show_nat (length others) ++ tx " entries with non-null values for oneOf input object " ++ ty;
           er_primary := Some (tx "oneOf input object must contain single non-null", value_span v);
           er_secondary := map (fun e => (tx "Entry with non-null value", both (snd (fst e)) (value_span (snd e)))) others |}
  (* cannot happen with a resolved schema; see [Coercion.v] *)
  | tv_unresolved ty : told_value v p (EUnresolved (plain_value v) ty p) {| er_message := []; er_primary := None; er_secondary := [] |}.
  (** the errors of fields that do not merge: the message, the labels *)
  Inductive told_merge : merge_error -> err -> Prop :=
  | tm_intro e why la lb id a b s na nb :
      e = IncompatibleTypes id a b /\ why = "incompatible types" /\
        la = tx "First field has type " ++ tref_display (fd_type (cx_def a)) /\ lb = tx "Second field has type " ++ tref_display (fd_type (cx_def b)) /\
        ~ MergingSpec.same_shape_type S (fd_type (cx_def a)) (fd_type (cx_def b)) \/
      e = DifferingNames id a b /\ why = "unequal field names" /\ la = tx "First field" /\ lb = tx "Second field" /\ fst na <> fst nb \/
      e = DifferingArguments id a b /\ why = "unequal arguments" /\ la = tx "First field" /\ lb = tx "Second field" /\ fst na = fst nb /\
        ValueEq.arguments_equivalent (cx_args a) (cx_args b) = false ->
      set_placed d id s -> stands_at d a na -> stands_at d b nb -> cx_key a = cx_key b ->
      told_merge e {| er_message := tx "Fields in selection set do not merge due to " ++ tx why; er_primary := Some (tx "Fields in selection set do not merge", snd s);
                      er_secondary := [(la, snd na); (lb, snd nb)] |}.

  Definition operation_called (o : loperation) : text := match lop_name o with Some n => tx "operation " ++ fst n | None => tx "anonymous operation" end.
  (** [told e er]: the error [e] of the validator is told as [er] *)
  Inductive told : doc_error -> err -> Prop :=
  | to_operations n : 2 <= length (filter (op_named n) (lops d)) ->
      told (NonUniqueOperationNames n (map plain_operation (filter (op_named n) (lops d))))
        (at_places (tx "Multiple operation definitions named " ++ ticks n) (tx "Operation definition with name " ++ ticks n) (name_spans (filter (op_named n) (lops d))))
  | to_anonymous : filter anonymous (lops d) <> [] -> length (lops d) <> 1 ->
      told (NotLoneAnonymousOperation (map plain_operation (filter anonymous (lops d))))
        (at_places (tx "Anonymous operation not lone operation in document") (tx "Anonymous operation definition") (map (fun o => snd (lop_set o)) (filter anonymous (lops d))))
  | to_subscription o : In o (lops d) -> lop_type o = OSubscription ->
      told (SubscriptionRootNotSingleField (plain_operation o)) (at_place (tx "Subscription root is not a single field") (tx "Selection set contains multiple fields") (snd (lop_set o)))
  | to_field r t al n args ds sub sp : selected S d r t (LField al n args ds sub sp) -> get_field (td_fields t) (fst n) = None ->
      told (FieldDoesNotExistOnType (fst n) t)
        (at_place (tx "Field " ++ ticks (fst n) ++ tx " does not exist on type " ++ ticks (td_name t)) (tx "Field does not exist on type " ++ ticks (td_name t)) (snd n))
  | to_merge e er : told_merge e er -> told (FieldSelectionsDoNotMerge e) er
  | to_type ty sp n vs ds sub sp' : In (LExplicit ty sp n vs ds sub sp') (lops d) ->
      match ty with OQuery => False | OMutation => s_mutation S = None | OSubscription => s_subscription S = None end ->
      told (OperationTypeNotDefined (plain_operation (LExplicit ty sp n vs ds sub sp')))
        (at_place (tx "Schema does not define a " ++ optype_word ty ++ tx " root") (tx "Schema does not define a " ++ optype_word ty ++ tx " root") sp)
  | to_leaf r al n args ds sub fd : field_on S d r al n args ds (Some sub) fd -> fst sub <> [] -> (exists u, get_type S (tref_base (fd_type fd)) = Some u /\ is_leaf u) ->
      told (LeafFieldSelection (LeafNotEmpty (fst n) fd))
        (at_place (tx "Selection on field of leaf type " ++ ticks (tref_display (fd_type fd)) ++ tx " was not empty") (tx "Selection set on field of leaf type must be empty") (snd sub))
  | to_no_leaf r al n args ds sub fd : field_on S d r al n args ds sub fd -> sub_of sub = [] -> (forall u, get_type S (tref_base (fd_type fd)) = Some u -> ~ is_leaf u) ->
      told (LeafFieldSelection (NonLeafEmpty (fst n) fd))
        (at_place (tx "No selection on field of non-leaf type " ++ ticks (tref_display (fd_type fd))) (tx "Fields of non-leaf types must have a selection") (snd n))
  | to_argument r o args a : arguments_in S d r (Some o) args -> In a args -> get_ivd (owner_args o) (fst (la_name a)) = None ->
      told (ArgumentDoesNotExist o (plain_argument a))
        (at_place (match o with OwnField fd => tx "Field " ++ ticks (fd_name fd) | OwnDirective dd => tx "Directive " ++ ticks (dd_name dd) end ++
                   tx " does not define an argument named " ++ ticks (fst (la_name a))) (tx "No argument definition with this name") (snd (la_name a)))
  | to_arguments r o args n : arguments_in S d r o args -> 2 <= length (with_name la_name n args) ->
      told (NonUniqueArgumentNames n (map plain_argument (with_name la_name n args)))
        (at_places (tx "Multiple arguments with name " ++ ticks n) (tx "Argument with name " ++ ticks n) (map (fun a => snd (la_name a)) (with_name la_name n args)))
  | to_missing r al n args ds sub fd missing : field_on S d r al n args ds sub fd -> missing = lacks (args_of args) (fd_args fd) -> missing <> [] ->
      told (RequiredArgumentsMissing (OwnField fd) missing)
        (at_place (tx "Field " ++ ticks (called al n) ++ tx " missing argument(s): " ++ listed (map iv_name missing)) (tx "Missing argument(s): " ++ listed (map iv_name missing))
           match args with Some l => both (snd n) (snd l) | None => snd n end)
  | to_missing_on r x loc dd missing : directive_in S d r x loc -> get_ddef S (fst (ld_name x)) = Some dd -> missing = lacks (args_of (ld_args x)) (dd_args dd) -> missing <> [] ->
      told (RequiredArgumentsMissing (OwnDirective dd) missing)
        (at_place (tx "Directive " ++ ticks (fst (ld_name x)) ++ tx " missing argument(s): " ++ listed (map iv_name missing)) (tx "Missing argument(s): " ++ listed (map iv_name missing)) (ld_span x))
  | to_fragments n : 2 <= length (with_name lf_name n (lfrags d)) ->
      told (NonUniqueFragmentDefinitionNames n (map plain_fragment (with_name lf_name n (lfrags d))))
        (at_places (tx "Multiple fragment definitions named " ++ ticks n) (tx "Fragment definition with name " ++ ticks n) (map (fun f => snd (lf_name f)) (with_name lf_name n (lfrags d))))
  | to_target_missing f : In f (lfrags d) -> get_type S (fst (lf_cond f)) = None ->
      told (FragmentTargetTypeDoesNotExist (fst (lf_cond f))) (at_place (tx "No type definition with name " ++ ticks (fst (lf_cond f))) (tx "No type with this name") (snd (lf_cond f)))
  | to_inline_missing r t c ds sub sp : selected S d r t (LInline (Some c) ds sub sp) -> get_type S (fst c) = None ->
      told (FragmentTargetTypeDoesNotExist (fst c)) (at_place (tx "No type definition with name " ++ ticks (fst c)) (tx "No type with this name") (snd c))
  | to_target_kind f t : In f (lfrags d) -> get_type S (fst (lf_cond f)) = Some t -> td_composite t = false ->
      told (FragmentTargetTypeNotComposite (fst (lf_cond f)))
        (at_place (ticks (fst (lf_cond f)) ++ tx " is not a composite type") (tx "Fragment definition target types must be composite types") (snd (lf_cond f)))
  | to_inline_kind r t c ds sub sp t' : selected S d r t (LInline (Some c) ds sub sp) -> get_type S (fst c) = Some t' -> td_composite t' = false ->
      told (FragmentTargetTypeNotComposite (fst c)) (at_place (ticks (fst c) ++ tx " is not a composite type") (tx "Inline fragment target types must be composite types") (snd c))
  | to_unused f : In f (lfrags d) ->
      told (FragmentDefinitionUnused (plain_fragment f)) (at_place (tx "Fragment definition " ++ ticks (fst (lf_name f)) ++ tx " is unused") (tx "Fragment definition is unused") (snd (lf_name f)))
  | to_undefined r t n ds sp : selected S d r t (LSpread n ds sp) -> (forall f, In f (lfrags d) -> fst (lf_name f) <> fst n) ->
      told (FragmentSpreadTargetUndefined (fst n)) (at_place (tx "No fragment defined with name " ++ ticks (fst n)) (tx "No fragment defined with this name") (snd n))
  | to_cycle f g n ds sp : In f (lfrags d) -> In g (lfrags d) -> star spreads_to f g -> In (NSelection (LSpread n ds sp)) (fragment_nodes g) -> fst n = fst (lf_name f) ->
      told (FragmentSpreadCycle (plain_fragment f))
        {| er_message := tx "Cycle detected in fragment " ++ ticks (fst (lf_name f)); er_primary := Some (tx "Cycle introduced by fragment spread", snd n);
           er_secondary := [(tx "Affected fragment definition", snd (lf_name f))] |}
  | to_impossible r t n ds sp : selected S d r t (LSpread n ds sp) ->
      told (FragmentSpreadIsNotPossible (SpreadImpossible (fst n) t))
        (at_place (tx "Fragment " ++ ticks (fst n) ++ tx " cannot be spread for type " ++ td_name t) (tx "Cannot be spread for type " ++ td_name t) (snd n))
  | to_inline_impossible r t c ds sub sp : selected S d r t (LInline (Some c) ds sub sp) ->
      told (FragmentSpreadIsNotPossible (InlineImpossible (fst c) t))
        (at_place (tx "Fragment targeting type " ++ fst c ++ tx " cannot be spread for type " ++ td_name t) (tx "Cannot be spread for type " ++ td_name t) sp)
  | to_value v0 t0 v t one p e er : expects S d v0 t0 -> inside S v0 t0 true [] v t one p -> offence hook str_enum one_of S one t (plain_value v) p e -> told_value v p e er ->
      told (InvalidValue e) er
  | to_directive r x loc : directive_in S d r x loc -> get_ddef S (fst (ld_name x)) = None ->
      told (DirectiveDoesNotExist (plain_directive x)) (at_place (tx "No directive definition with name `@" ++ fst (ld_name x) ++ tx "`") (tx "No directive definition with this name") (snd (ld_name x)))
  | to_location r x loc dd : directive_in S d r x loc -> get_ddef S (fst (ld_name x)) = Some dd -> ~ In loc (dd_locs dd) ->
      told (DirectiveInInvalidLocation (plain_directive x) loc)
        (at_place (tx "Directive @" ++ fst (ld_name x) ++ tx " cannot be used at location " ++ location_word loc ++ tx ". It is only allowed at the following locations: " ++
                   listed (map location_word (dd_locs dd))) (tx "Cannot be used at location " ++ location_word loc) (ld_span x))
  | to_directives r ds loc n dd : applied S d r ds loc -> get_ddef S n = Some dd -> dd_repeatable dd = false -> 2 <= length (with_name ld_name n ds) ->
      told (DirectivesNotUnique (map plain_directive (with_name ld_name n ds)))
        (at_places (tx "Directive @" ++ n ++ tx " is not repeatable but was used multiple times in the same location") (tx "Usage of directive") (map ld_span (with_name ld_name n ds)))
  | to_variables o n : In o (lops d) -> 2 <= length (with_name lvd_name n (lop_vars o)) ->
      told (NonUniqueVariableDefinitionNames n (map plain_vardef (with_name lvd_name n (lop_vars o))))
        (at_places (tx "Multiple variable definitions named $" ++ n) (tx "Variable definition with name $" ++ n) (map (fun v => snd (lvd_name v)) (with_name lvd_name n (lop_vars o))))
  | to_variable_type o v : In o (lops d) -> In v (lop_vars o) ->
      match get_type S (tref_base (plain_type (lvd_type v))) with Some t => td_is_input t = false | None => True end ->
      told (VariableDefinitionTypeNotInput (plain_vardef v))
        (at_place (tx "Type of variable $" ++ fst (lvd_name v) ++ tx ", " ++ tref_base (plain_type (lvd_type v)) ++ tx ", is not an input type") (tx "Not an input type") (type_span (lvd_type v)))
  | to_variable i o r a iv x : nth_error (lops d) i = Some o -> star (refers S (plain_document d)) (ROp i) r -> given S d (Some r) a iv ->
      In (NValue (LVLeaf (VVar (fst x)) (snd x))) (value_nodes (la_value a)) -> (forall v, In v (lop_vars o) -> fst (lvd_name v) <> fst x) ->
      told (VariableNotDefined i (fst x))
        (at_place (tx "Variable $" ++ fst x ++ tx " not defined in " ++ operation_called o) (tx "No variable definition with this name defined in " ++ operation_called o) (snd x))
  | to_variable_unused i o v : nth_error (lops d) i = Some o -> In v (lop_vars o) ->
      told (VariableDefinitionUnused i (plain_vardef v)) (at_place (tx "Variable definition $" ++ fst (lvd_name v) ++ tx " not used") (tx "Variable definition not used") (snd (lvd_name v)))
  | to_usage i o r a iv x v l : nth_error (lops d) i = Some o -> star (refers S (plain_document d)) (ROp i) r -> given S d (Some r) a iv ->
      stands S (LocArg iv) (la_value a) x l -> In v (lop_vars o) -> fst (lvd_name v) = fst x -> 
      ~ usage_ok (plain_type (lvd_type v)) (option_map plain_value (lvd_default v)) (loc_type l) match loc_ivd l with Some i => iv_default i | None => None end ->
      told (InvalidVariableUsage i (fst x) (plain_vardef v) l)
        (at_place (tx "Variable $" ++ fst x ++ tx " of type " ++ tref_display (plain_type (lvd_type v)) ++ tx " cannot be used here, where " ++ tref_display (loc_type l) ++ tx " is expected")
           (tx "Cannot use variable of type " ++ tref_display (plain_type (lvd_type v)) ++ tx " where " ++ tref_display (loc_type l) ++ tx " is expected") (snd x)).
End Told.
