(** What it means that a schema keeps everything an older one offers, as far as documents can tell. Independent of how two schemas
    are compared. *)
From Verif Require Import Base Ast CoercionSpec DocVariablesSpec Compare CompareSpec.

(** [b] accepts what [a] accepts: the same named type, non-null at most where [a] is ([compatible], DocVariablesSpec.v); an
    argument that can be left out still can; a default that stands in for a null value still does. *)
Definition keeps_input (a b : ivd) : Prop :=
  compatible (iv_type a) (iv_type b) /\ (iv_default a <> None -> iv_default b <> None) /\
  (has_non_null_value (iv_default a) -> has_non_null_value (iv_default b)).
(** the arguments, or input fields, are kept, and no new one has to be given *)
Definition keeps_inputs (l l' : list ivd) : Prop :=
  (forall a, In a l -> exists b, In b l' /\ iv_name b = iv_name a /\ keeps_input a b) /\
  (forall b, In b l' -> (forall a, In a l -> iv_name a <> iv_name b) -> iv_required b = false).
(** the field is of the same named type ([shapes]: and of the same type altogether) and keeps its arguments *)
Definition keeps_field (shapes : Prop) (f g : fdef) : Prop :=
  tref_base (fd_type g) = tref_base (fd_type f) /\ (shapes -> fd_type g = fd_type f) /\ keeps_inputs (fd_args f) (fd_args g).
Definition keeps_fields (shapes : Prop) (l l' : list fdef) : Prop :=
  forall f, In f l -> exists g, In g l' /\ fd_name g = fd_name f /\ keeps_field shapes f g.
Definition has_one_of (d : input_def) : Prop := exists x, In x (io_dirs d) /\ dir_name x = tx "oneOf".
Inductive keeps_type (shapes : Prop) : tdef -> tdef -> Prop :=
| kt_builtin b : keeps_type shapes (DBuiltin b) (DBuiltin b)
| kt_scalar a b : sc_name a = sc_name b -> keeps_type shapes (DScalar a) (DScalar b)
| kt_object a b : ob_name a = ob_name b -> (forall n, In n (ob_ifaces a) -> In n (ob_ifaces b)) ->
    keeps_fields shapes (ob_fields a) (ob_fields b) -> keeps_type shapes (DObject a) (DObject b)
| kt_interface a b : if_name a = if_name b -> keeps_fields shapes (if_fields a) (if_fields b) -> keeps_type shapes (DInterface a) (DInterface b)
| kt_union a b : un_name a = un_name b -> (forall n, In n (un_members a) -> In n (un_members b)) ->
    (** only __typename can be selected from a union *)
    un_fields a = un_fields b \/ un_fields a = [] ->
    keeps_type shapes (DUnion a) (DUnion b)
| kt_enum a b : en_name a = en_name b -> (forall v, In v (en_values a) -> exists w, In w (en_values b) /\ ev_name w = ev_name v) ->
    keeps_type shapes (DEnum a) (DEnum b)
| kt_input a b : io_name a = io_name b -> keeps_inputs (io_fields a) (io_fields b) -> (has_one_of b -> has_one_of a) ->
    keeps_type shapes (DInput a) (DInput b).
Definition keeps_directive (d e : ddef) : Prop :=
  keeps_inputs (dd_args d) (dd_args e) /\ (dd_repeatable d = true -> dd_repeatable e = true) /\ (forall l, In l (dd_locs d) -> In l (dd_locs e)).
Record same_roots (old new : schema) : Prop := {
  sr_query : s_query new = s_query old;
  sr_mutation : forall n, s_mutation old = Some n -> s_mutation new = Some n;
  sr_subscription : forall n, s_subscription old = Some n -> s_subscription new = Some n
}.
Record keeps (shapes : Prop) (old new : schema) : Prop := {
  kp_roots : same_roots old new;
  kp_types : forall t, In t (s_types old) -> exists u, In u (s_types new) /\ td_name u = td_name t /\ keeps_type shapes t u;
  kp_directives : forall d, In d (s_ddefs old) -> exists e, In e (s_ddefs new) /\ dd_name e = dd_name d /\ keeps_directive d e
}.

(** The differences between two schemas that the comparison does not report at all, or reports as safe although they can make a
    valid document invalid, and that do not occur: other root types; a directive is no longer repeatable; required first
    arguments, or all arguments gone, of a directive definition; oneOf put on an input type. *)
Record nothing_unseen (old new : schema) : Prop := {
  nu_roots : same_roots old new;
  nu_repeatable : forall d e, common_ddef old new d e -> dd_repeatable d = true -> dd_repeatable e = true;
  nu_first_arguments : forall d e a, common_ddef old new d e -> dd_args d = [] -> In a (dd_args e) -> iv_required a = false;
  nu_all_arguments : forall d e, common_ddef old new d e -> dd_args e = [] -> dd_args d = [];
  nu_one_of : forall a b, common_type old new (DInput a) (DInput b) -> has_one_of b -> has_one_of a
}.
(** The fields that can be selected from a union are built in: they are the same in all schemas that are read from texts
    ([read_unions], CompatProofs.v). *)
Definition same_union_fields (old new : schema) : Prop := forall a b, common_type old new (DUnion a) (DUnion b) -> un_fields a = un_fields b.

(** a change of a default value by which an argument or input field loses it, or by which it no longer stands in for null *)
Definition without_default (a b : ivd) : Prop :=
  (iv_default a <> None /\ iv_default b = None) \/ (has_non_null_value (iv_default a) /\ ~ has_non_null_value (iv_default b)).
Definition loses_default (c : change) : Prop :=
  match c with
  | FieldArgumentDefaultValueChanged _ _ a b => without_default a b
  | InputFieldDefaultValueChanged _ a b => without_default a b
  | DirectiveDefinitionArgumentDefaultValueChanged _ a b => without_default a b
  | _ => False
  end.

(** * The results of a schema *)
(** [t] of the old and [u] of the new schema have the same results: an object type implements the same interfaces, its fields are
    there and their results are results of the old ones (the same named type, non-null at least where it was); unions have the
    same members and enums the same values. *)
Inductive same_type_results : tdef -> tdef -> Prop :=
| sr_builtin b : same_type_results (DBuiltin b) (DBuiltin b)
| sr_scalar a b : sc_name a = sc_name b -> same_type_results (DScalar a) (DScalar b)
| sr_object a b : ob_name a = ob_name b -> (forall n, In n (ob_ifaces a) <-> In n (ob_ifaces b)) ->
    (forall f, In f (ob_fields a) -> exists g, In g (ob_fields b) /\ fd_name g = fd_name f /\ compatible (fd_type g) (fd_type f)) ->
    same_type_results (DObject a) (DObject b)
| sr_interface a b : if_name a = if_name b -> same_type_results (DInterface a) (DInterface b)
| sr_union a b : un_name a = un_name b -> (forall n, In n (un_members a) <-> In n (un_members b)) -> same_type_results (DUnion a) (DUnion b)
| sr_enum a b : en_name a = en_name b -> (forall n, In n (map ev_name (en_values a)) <-> In n (map ev_name (en_values b))) ->
    same_type_results (DEnum a) (DEnum b)
| sr_input a b : io_name a = io_name b -> same_type_results (DInput a) (DInput b).
(** no new object type implements an interface that was there before *)
Definition no_new_implementors (old new : schema) : Prop :=
  forall o i, In (DObject o) (s_types new) -> In (DInterface i) (s_types old) -> In (if_name i) (ob_ifaces o) ->
    exists o', In (DObject o') (s_types old) /\ ob_name o' = ob_name o.
Record same_results (old new : schema) : Prop := {
  sr_roots : same_roots old new;
  sr_types : forall t, In t (s_types old) -> exists u, In u (s_types new) /\ td_name u = td_name t /\ same_type_results t u;
  sr_implementors : no_new_implementors old new
}.
(** Interfaces implement the interfaces that they did before. (The comparison does not look at the interfaces of interfaces.) *)
Definition keeps_interfaces (old new : schema) : Prop :=
  forall a b, In (DInterface a) (s_types old) -> In (DInterface b) (s_types new) -> if_name a = if_name b ->
    forall n, In n (if_ifaces a) -> In n (if_ifaces b).
