(** What the per-place validation rules are supposed to detect. Independent of the rules' code. *)
From Verif Require Import Base Ast Graph Doc DocSpec DocRules FragmentsSpec.

(** * Schemas as delivered by the parser: references resolve. *)
Definition output_resolves (S : schema) (t : tref) : Prop :=
  exists td, get_type S (tref_base t) = Some td /\ td_is_output td = true.
Record wf_schema (S : schema) : Prop := {
  wf_query : exists t, get_type S (s_query S) = Some t;
  wf_mutation : forall n, s_mutation S = Some n -> exists t, get_type S n = Some t;
  wf_subscription : forall n, s_subscription S = Some n -> exists t, get_type S n = Some t;
  wf_fields : forall t fd, In t (s_types S) -> In fd (td_fields t) -> output_resolves S (fd_type fd)
}.

Section Spec.
  Variable S : schema.

  (** * Selections that make sense on a type (GraphQL 5.3.1, 5.3.3, 5.5.1.2, 5.5.1.3) *)
  Definition is_leaf (t : tdef) : Prop :=
    match t with DBuiltin _ | DScalar _ | DEnum _ => True | _ => False end.
  Inductive sel_ok : tdef -> selection -> Prop :=
  | ok_leaf t al n args ds fd ft :
      get_field (td_fields t) n = Some fd ->
      get_type S (tref_base (fd_type fd)) = Some ft -> is_leaf ft ->
      sel_ok t (SField al n args ds [])
  | ok_composite t al n args ds sub fd ft :
      get_field (td_fields t) n = Some fd ->
      get_type S (tref_base (fd_type fd)) = Some ft -> ~ is_leaf ft -> sub <> [] ->
      (forall s, In s sub -> sel_ok ft s) ->
      sel_ok t (SField al n args ds sub)
  | ok_spread t n ds : sel_ok t (SSpread n ds)
  | ok_inline t ds sub : (forall s, In s sub -> sel_ok t s) -> sel_ok t (SInline None ds sub)
  | ok_inline_on t c ds sub ft :
      get_type S c = Some ft -> td_composite ft = true -> (forall s, In s sub -> sel_ok ft s) ->
      sel_ok t (SInline (Some c) ds sub).
  Definition operation_ok (o : operation) : Prop :=
    exists t, root_type S (op_type o) t /\ forall s, In s (op_sel o) -> sel_ok t s.
  Definition fragment_ok (f : fragment) : Prop :=
    exists t, get_type S (fr_cond f) = Some t /\ td_composite t = true /\ forall s, In s (fr_sel f) -> sel_ok t s.
  Definition document_ok (d : document) : Prop :=
    (forall o, In o (doc_ops d) -> operation_ok o) /\ (forall f, In f (doc_frags d) -> fragment_ok f).

  (** * Which object types can an expression of a given type have at run time? (GraphQL 5.5.2.3, GetPossibleTypes) *)
  Inductive possible : tdef -> name -> Prop :=
  | poss_object o : possible (DObject o) (ob_name o)
  | poss_interface i o : In (DObject o) (s_types S) -> In (if_name i) (ob_ifaces o) -> possible (DInterface i) (ob_name o)
  | poss_union u m : In m (un_members u) -> possible (DUnion u) m.
  Definition overlap (a b : tdef) : Prop := exists n, possible a n /\ possible b n.

  (** * Lists of arguments given to a field or directive, with the definition they belong to *)
  Inductive args_at (d : document) : owner -> list argument -> list ivd -> Prop :=
  | args_field r t al n args ds sub fd :
      sel_at S d r t (SField al n args ds sub) -> has_field t n fd -> args_at d (OwnField fd) args (fd_args fd)
  | args_directive r ds loc x dd :
      directives_at S d r ds loc -> In x ds -> get_ddef S (dir_name x) = Some dd ->
      args_at d (OwnDirective dd) (dir_args x) (dd_args dd)
  | args_const_directive ds x dd :
      const_directives_at d ds -> In x ds -> get_ddef S (dir_name x) = Some dd ->
      args_at d (OwnDirective dd) (dir_args x) (dd_args dd).

  (** * One directive of the document and the kind of place it is in *)
  Inductive directive_at (d : document) : directive -> dloc -> Prop :=
  | dir_var r ds loc x : directives_at S d r ds loc -> In x ds -> directive_at d x loc
  | dir_const ds x : const_directives_at d ds -> In x ds -> directive_at d x LVariableDefinition.
End Spec.

(** * Purely syntactic occurrence: [occurs s sels]: selection [s] is somewhere in [sels], at any depth *)
Inductive occurs (s : selection) : list selection -> Prop :=
| occ_here sels : In s sels -> occurs s sels
| occ_field sels al n args ds sub : In (SField al n args ds sub) sels -> occurs s sub -> occurs s sels
| occ_inline sels c ds sub : In (SInline c ds sub) sels -> occurs s sub -> occurs s sels.
Inductive occurs_in (d : document) (s : selection) : root -> Prop :=
| occ_op i o : nth_error (doc_ops d) i = Some o -> occurs s (op_sel o) -> occurs_in d s (ROp i)
| occ_frag i f : nth_error (doc_frags d) i = Some f -> occurs s (fr_sel f) -> occurs_in d s (RFrag i).

(** * Subscriptions: response names collected at the root, through fragments (GraphQL 5.2.3.1, CollectFields without
    regard to the type conditions) *)
Inductive root_response (d : document) : list selection -> name -> Prop :=
| rr_field sels al n args ds sub : In (SField al n args ds sub) sels -> root_response d sels (response_name al n)
| rr_inline sels c ds sub x : In (SInline c ds sub) sels -> root_response d sub x -> root_response d sels x
| rr_spread sels n ds f x : In (SSpread n ds) sels -> defines d n f -> root_response d (fr_sel f) x -> root_response d sels x.
Definition one_root (d : document) (o : operation) : Prop := exists x, forall y, root_response d (op_sel o) y <-> y = x.
(** the selections that the library counts: those at the root, or if a fragment is all there is at the root, those of the fragment *)
Inductive counted (d : document) (o : operation) : list selection -> Prop :=
| cn_root : (forall s, op_sel o = [s] -> exists al n args ds sub, s = SField al n args ds sub) -> counted d o (op_sel o)
| cn_inline c ds sels : op_sel o = [SInline c ds sels] -> counted d o sels
| cn_spread n ds f : op_sel o = [SSpread n ds] -> defines d n f -> counted d o (fr_sel f).
