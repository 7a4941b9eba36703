(** The schema that a warden leaves of a schema, written out as a plain schema; what it means that lookups give what a plain schema has;
    and which parts of a schema a document may use. Independent of the caches (Visibility.v). *)
From Verif Require Import Base Ast CoercionSpec Graph Maps ResolveSpec Doc DocSpec DocRulesSpec OperationSpec DocVariablesSpec Visibility VisibilitySpec.

Section Scoped.
  Variable S : schema.
  Variable W : warden.

  (** * The schema with the hidden parts left out *)
  (** Names, descriptions and types are those of the schema. Of the applied directives those with a visible definition are left, with the
      arguments that the warden gives; default values are those that the warden gives. Applied directives of enum values, arguments
      and input fields are asked for by the position in what is visible. *)
  Definition narrow_directives (p : dplace) (l : list directive) : list directive :=
    map (fun x => {| dir_name := dir_name (fst x); dir_args := w_arguments W p (fst x) |}) (visible_directives S W l).
  Definition narrow_input (p : place) (x : nat * (ivd * stype)) : ivd :=
    let i := fst (snd x) in
    {| iv_name := iv_name i; iv_desc := iv_desc i; iv_type := iv_type i; iv_default := w_default W p i; iv_dirs := narrow_directives (OnInput p (fst x)) (iv_dirs i) |}.
  Definition narrow_inputs (p : place) (l : list ivd) : list ivd := map (narrow_input p) (numbered (visible_inputs S W p l)).
  Definition narrow_field (t : name) (x : fdef * stype) : fdef :=
    let f := fst x in
    {| fd_name := fd_name f; fd_desc := fd_desc f; fd_args := narrow_inputs (PArgument t (fd_name f)) (fd_args f); fd_type := fd_type f;
       fd_dirs := narrow_directives (OnField t (fd_name f)) (fd_dirs f); fd_builtin := fd_builtin f |}.
  Definition narrow_fields (t : name) (l : list fdef) : list fdef := map (narrow_field t) (visible_fields S W t l).
  Definition narrow_value (t : name) (x : nat * evd) : evd :=
    let v := snd x in {| ev_name := ev_name v; ev_desc := ev_desc v; ev_dirs := narrow_directives (OnValue t (fst x)) (ev_dirs v) |}.
  Definition narrow_type (t : tdef) : tdef :=
    match t with
    | DBuiltin b => DBuiltin b
    | DScalar d => DScalar {| sc_name := sc_name d; sc_desc := sc_desc d; sc_dirs := narrow_directives (OnType (sc_name d)) (sc_dirs d) |}
    | DObject d => DObject {| ob_name := ob_name d; ob_desc := ob_desc d; ob_ifaces := map if_name (visible_interfaces S W (ob_name d) (ob_ifaces d));
        ob_dirs := narrow_directives (OnType (ob_name d)) (ob_dirs d); ob_fields := narrow_fields (ob_name d) (ob_fields d); ob_builtin := ob_builtin d |}
    | DInput d => DInput {| io_name := io_name d; io_desc := io_desc d; io_dirs := narrow_directives (OnType (io_name d)) (io_dirs d);
        io_fields := narrow_inputs (PInputField (io_name d)) (io_fields d) |}
    | DEnum d => DEnum {| en_name := en_name d; en_desc := en_desc d; en_dirs := narrow_directives (OnType (en_name d)) (en_dirs d);
        en_values := map (narrow_value (en_name d)) (numbered (visible_values W (en_name d) (en_values d))); en_builtin := en_builtin d |}
    | DUnion d => DUnion {| un_name := un_name d; un_desc := un_desc d; un_dirs := narrow_directives (OnType (un_name d)) (un_dirs d);
        un_members := map fst (visible_members S W (un_name d) (un_members d)); un_fields := narrow_fields (un_name d) (un_fields d) |}
    | DInterface d => DInterface {| if_name := if_name d; if_desc := if_desc d; if_ifaces := map if_name (visible_interfaces S W (if_name d) (if_ifaces d));
        if_dirs := narrow_directives (OnType (if_name d)) (if_dirs d); if_fields := narrow_fields (if_name d) (if_fields d) |}
    end.
  Definition narrow_ddef (d : ddef) : ddef :=
    {| dd_name := dd_name d; dd_desc := dd_desc d; dd_args := narrow_inputs (PDirectiveArgument (dd_name d)) (dd_args d); dd_repeatable := dd_repeatable d;
       dd_locs := dd_locs d; dd_builtin := dd_builtin d |}.
  Definition narrow_root (n : option name) : option name :=
    match n with Some m => match visible_object S W m with Some _ => Some m | None => None end | None => None end.
  (** all visible definitions, whether they can be reached or not: a lookup by name finds them all *)
  Definition scoped : schema :=
    {| s_desc := s_desc S; s_types := map narrow_type (filter (type_visible W) (s_types S)); s_ddefs := map narrow_ddef (filter (w_ddef W) (s_ddefs S));
       s_query := s_query S; s_mutation := narrow_root (s_mutation S); s_subscription := narrow_root (s_subscription S); s_dirs := narrow_directives OnSchema (s_dirs S) |}.

  (** * What a document uses of the schema [S] is shown *)
  (** [d] names, wherever its selections lead in [S], only fields that are shown; arguments, input fields and enum values in the values
      that it gives; directives and their arguments; types in conditions of fragments and in definitions of variables; root types. *)
  Record uses_shown (str_enum : bool) (d : document) : Prop := {
    us_roots : forall o, In o (doc_ops d) -> exists t, root_type S (op_type o) t /\ shown S W t;
    us_types : forall r t s, sel_at S d r t s -> shown S W t;
    us_fields : forall r t al n args ds sub, sel_at S d r t (SField al n args ds sub) ->
      exists x, shown_field S W (td_name t) x /\ fd_name (fst x) = n;
    us_arguments : forall r t al n args ds sub a, sel_at S d r t (SField al n args ds sub) -> In a args ->
      exists x, shown_input S W (PArgument (td_name t) n) x /\ iv_name (fst x) = fst a;
    us_fragments : forall f, In f (doc_frags d) -> exists t, shown_type S W (fr_cond f) t;
    us_conditions : forall r t c ds sub, sel_at S d r t (SInline (Some c) ds sub) -> exists t', shown_type S W c t';
    us_directives : forall x loc, directive_at S d x loc -> exists dd, shown_ddef S W (dir_name x) dd;
    us_directive_arguments : forall x loc a, directive_at S d x loc -> In a (dir_args x) ->
      exists y, shown_input S W (PDirectiveArgument (dir_name x)) y /\ iv_name (fst y) = fst a;
    us_variables : forall o v, In o (doc_ops d) -> In v (op_vars o) -> exists t, shown_type S W (tref_base (vd_type v)) t;
    us_values : forall t v n r w,
      (exists r a i, argument_at S d r a i /\ t = iv_type i /\ v = snd a) \/ (exists a i, const_argument_at S d a i /\ t = iv_type i /\ v = snd a) \/
      (exists o x, In o (doc_ops d) /\ In x (op_vars o) /\ t = vd_type x /\ vd_default x = Some v) ->
      stands_in S t v (TBase n r) w ->
      (forall k, (w = VEnum k \/ str_enum = true /\ w = VStr k) -> (exists e, get_type S n = Some (DEnum e)) -> exists y, shown_value S W n y /\ ev_name y = k) /\
      (forall es k x, w = VObj es -> In (k, x) es -> (exists io, get_type S n = Some (DInput io)) ->
        exists y, shown_input S W (PInputField n) y /\ iv_name (fst y) = k)
  }.

  (** * Nothing hidden has to be given *)
  (** the arguments and input fields that are hidden, of what is shown, can be left out; no default is made up, nor one made non-null; the
      oneOf directive is shown wherever it is applied *)
  Record hidden_optional : Prop := {
    ho_inputs : forall p l i, inputs_at S W p l -> In i l -> (forall x, In x (visible_inputs S W p l) -> fst x <> i) -> iv_required i = false;
    ho_defaults : forall p i, w_default W p i <> None -> iv_default i <> None;
    ho_nulls : forall p i, has_non_null_value (w_default W p i) -> has_non_null_value (iv_default i);
    ho_one_of : forall t d x, visible_type S W t = Some (DInput d) -> In x (io_dirs d) -> dir_name x = tx "oneOf" -> visible_ddef S W (tx "oneOf") <> None
  }.
End Scoped.

(** * Lookups give what a schema has *)
Definition same_kind (t u : tdef) : Prop :=
  match t, u with
  | DBuiltin b, DBuiltin c => b = c
  | DScalar _, DScalar _ | DObject _, DObject _ | DInput _, DInput _ | DEnum _, DEnum _ | DUnion _, DUnion _ | DInterface _, DInterface _ => True
  | _, _ => False
  end.
Definition field_data (f : fdef) := (fd_name f, fd_desc f, fd_type f, fd_builtin f).
Definition input_data (i : ivd) := (iv_name i, iv_desc i, iv_type i).
Definition value_data (v : evd) := (ev_name v, ev_desc v).
Definition ddef_data (d : ddef) := (dd_name d, dd_desc d, dd_repeatable d, dd_locs d, dd_builtin d).
(** the root object: what the schema [V] has under the name *)
Definition root_is (V : schema) (n : option name) (x : option object_def) : Prop :=
  match n, x with
  | Some m, Some o => ob_name o = m /\ exists o', get_type V m = Some (DObject o')
  | None, None => True
  | _, _ => False
  end.
(** [gives V o a]: the answer [a] to the lookup [o] is what the schema [V] has *)
Definition gives (V : schema) (o : op) (a : answer) : Prop :=
  match o, a with
  | OType n, AType x => match x, get_type V n with
                        | Some t, Some u => td_name t = td_name u /\ td_desc t = td_desc u /\ same_kind t u
                        | None, None => True | _, _ => False end
  | ODirectiveDef n, ADirectiveDef x => option_map ddef_data x = option_map ddef_data (get_ddef V n)
  | OQuery, AObject x => root_is V (Some (s_query V)) x
  | OMutation, AObject x => root_is V (s_mutation V) x
  | OSubscription, AObject x => root_is V (s_subscription V) x
  | OFields t, AFields l => exists u, get_type V t = Some u /\ map (fun x => field_data (fst x)) l = map field_data (td_fields u)
  | OField t n, AField x => exists u, get_type V t = Some u /\ option_map (fun x => field_data (fst x)) x = option_map field_data (get_field (td_fields u) n)
  | OInterfaces t, AInterfaces l => exists u, get_type V t = Some u /\ map if_name l = td_interfaces u
  | OMembers t, AMembers l => exists u, get_type V t = Some (DUnion u) /\ map fst l = un_members u
  | OValues t, AValues l => exists u, get_type V t = Some (DEnum u) /\ map value_data l = map value_data (en_values u)
  | OInputFields t, AInputs l => exists l', plain_inputs_at V (PInputField t) = Some l' /\ map (fun x => input_data (fst x)) l = map input_data l'
  | OArguments t f, AInputs l => exists l', plain_inputs_at V (PArgument t f) = Some l' /\ map (fun x => input_data (fst x)) l = map input_data l'
  | ODirectiveArguments d, AInputs l => exists l', plain_inputs_at V (PDirectiveArgument d) = Some l' /\ map (fun x => input_data (fst x)) l = map input_data l'
  | OImplementors i, AObjects l => map ob_name l = map ob_name (DocRules.implementors V i)
  | ODirectives p, ADirectives l => exists l', plain_directives_at V p = Some l' /\ map (fun x => dir_name (fst x)) l = map dir_name l'
  | ODefault p k, AValue v => exists l i, plain_inputs_at V p = Some l /\ nth_error l k = Some i /\ v = iv_default i
  | OGiven p k, AArguments l => exists l' d, plain_directives_at V p = Some l' /\ nth_error l' k = Some d /\ l = dir_args d
  | _, _ => False
  end.
