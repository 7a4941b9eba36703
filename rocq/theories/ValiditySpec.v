(** When an executable document is valid (GraphQL section 5). Independent of the validator's code. *)
From Verif Require Import Base Ast CoercionSpec Graph Doc DocSpec DocRulesSpec FragmentsSpec DocVariablesSpec MergingSpec.

Section Valid.
  Variable S : schema.
  (** what custom scalars accept, whether strings are accepted for enum values, whether oneOf is enforced *)
  Variable accepts : name -> value -> Prop.
  Variable str_enum one_of : bool.
  Variable d : document.

  Record valid_document : Prop := {
    (** 5.2.1.1 operation names are unique *)
    vd_operation_names : forall i j o o' n, nth_error (doc_ops d) i = Some o -> nth_error (doc_ops d) j = Some o' ->
      op_name o = Some n -> op_name o' = Some n -> i = j;
    (** 5.2.2.1 an anonymous operation is alone *)
    vd_lone_anonymous : forall o, In o (doc_ops d) -> op_name o = None -> doc_ops d = [o];
    (** 5.2.3.1 a subscription has one root field *)
    vd_single_root : forall o, In o (doc_ops d) -> op_type o = OSubscription -> one_root d o;
    (** 5.3.1 fields are defined on their types, 5.3.3 leaf fields have no subselections and others do, 5.5.1.2 and 5.5.1.3 type
        conditions are composite types; and the schema has the operation's root type *)
    vd_selections : document_ok S d;
    (** 5.3.2 fields can be merged *)
    vd_merge : document_can_merge S d can_meet;
    (** 5.4.1 arguments are defined, 5.4.2 and given once, 5.4.2.1 required ones are given *)
    vd_argument_names : forall w args defs, args_at S d w args defs -> forall a, In a args -> exists i, In i defs /\ iv_name i = fst a;
    vd_argument_unique : forall w args defs, args_at S d w args defs -> NoDup (map fst args);
    vd_argument_required : forall w args defs, args_at S d w args defs ->
      forall i, In i defs -> tref_required (iv_type i) = true -> iv_default i = None -> In (iv_name i) (map fst args);
    (** 5.5.1.1 fragment names are unique, 5.5.1.4 fragments are used, 5.5.2.1 spreads name fragments, 5.5.2.2 fragments do not
        spread themselves *)
    vd_fragment_names : NoDup (map fr_name (doc_frags d));
    vd_fragment_used : forall f, In f (doc_frags d) -> exists ds r, occurs_in d (SSpread (fr_name f) ds) r;
    vd_fragment_targets : forall n ds r, occurs_in d (SSpread n ds) r -> In n (map fr_name (doc_frags d));
    vd_fragment_cycles : forall n, ~ on_a_cycle d n;
    (** 5.5.2.3 fragments can apply where they are spread *)
    vd_possible : forall r t s c tc, sel_at S d r t s ->
      (exists n ds f, s = SSpread n ds /\ defines d n f /\ fr_cond f = c) \/ (exists ds sub, s = SInline (Some c) ds sub) ->
      get_type S c = Some tc -> overlap S t tc;
    (** 5.6 values are of the right type, 5.6.2 to 5.6.4 included *)
    vd_values : forall r a i, argument_at S d r a i -> conforms accepts str_enum one_of S (iv_type i) (snd a);
    vd_const_values : forall a i, const_argument_at S d a i -> conforms accepts str_enum one_of S (iv_type i) (snd a);
    vd_defaults : forall o v x, In o (doc_ops d) -> In v (op_vars o) -> vd_default v = Some x -> conforms accepts str_enum one_of S (vd_type v) x;
    (** 5.7.1 directives are defined, 5.7.2 in valid places, 5.7.3 and not repeated *)
    vd_directive_defined : forall x loc, directive_at S d x loc -> exists dd, In dd (s_ddefs S) /\ dd_name dd = dir_name x;
    vd_directive_places : forall x loc dd, directive_at S d x loc -> get_ddef S (dir_name x) = Some dd -> In loc (dd_locs dd);
    vd_directive_unique : forall ds, (exists r loc, directives_at S d r ds loc) \/ const_directives_at d ds ->
      forall i j x y dd, nth_error ds i = Some x -> nth_error ds j = Some y -> dir_name x = dir_name y ->
        get_ddef S (dir_name x) = Some dd -> dd_repeatable dd = false -> i = j;
    (** 5.8.1 variables are unique, 5.8.2 of input types, 5.8.3 defined, 5.8.4 used, 5.8.5 used as their types allow *)
    vd_variable_names : forall o, In o (doc_ops d) -> NoDup (map vd_name (op_vars o));
    vd_variable_types : forall o v, In o (doc_ops d) -> In v (op_vars o) ->
      exists td, get_type S (tref_base (vd_type v)) = Some td /\ td_is_input td = true;
    vd_variable_defined : forall i o x, nth_error (doc_ops d) i = Some o -> operation_writes d i x -> In x (map vd_name (op_vars o));
    vd_variable_used : forall i o v, nth_error (doc_ops d) i = Some o -> In v (op_vars o) -> operation_writes d i (vd_name v);
    vd_variable_usages : forall i o r v t df, nth_error (doc_ops d) i = Some o -> star (refers S d) (ROp i) r -> In v (op_vars o) ->
      used_as S d r (vd_name v) t df -> usage_ok (vd_type v) (vd_default v) t df
  }.

  (** * What the validator gets wrong does not occur in the document *)
  (** a fragment that is alone in the fragment that is alone at the root of a subscription has one response name *)
  Definition nested_roots_single : Prop :=
    forall o sels s, In o (doc_ops d) -> op_type o = OSubscription -> counted d o sels -> sels = [s] ->
      (exists al n args ds sub, s = SField al n args ds sub) \/ one_root d o.
  (** selections at the root of a subscription, or of the fragment alone there, have different response names if they are several *)
  Definition several_roots_differ : Prop :=
    forall o sels, In o (doc_ops d) -> op_type o = OSubscription -> counted d o sels -> 2 <= length sels ->
      exists x y, root_response d (op_sel o) x /\ root_response d (op_sel o) y /\ x <> y.
  (** variables are used as their types allow in arguments where they occur in an input object that is in a list *)
  Definition listed_usages_allowed : Prop :=
    forall i o r a iv v t df, nth_error (doc_ops d) i = Some o -> star (refers S d) (ROp i) r -> In v (op_vars o) ->
      argument_at S d r a iv -> in_object_in_list (vd_name v) (snd a) -> located S (iv_type iv) (iv_default iv) (snd a) (vd_name v) t df ->
      usage_ok (vd_type v) (vd_default v) t df.
End Valid.
