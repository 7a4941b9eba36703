(** Where things occur in a document, relative to the schema: the vocabulary used to state what the rules check. *)
From Verif Require Import Base Ast Doc.

Section Places.
  Variable S : schema.
  Variable d : document.

  (** The type on which an operation of the given kind selects. *)
  Definition root_type (ty : optype) (t : tdef) : Prop :=
    match ty with
    | OQuery => get_type S (s_query S) = Some t
    | OMutation => exists n, s_mutation S = Some n /\ get_type S n = Some t
    | OSubscription => exists n, s_subscription S = Some n /\ get_type S n = Some t
    end.

  (** [t] has a field called [n], defined by [fd]. *)
  Definition has_field (t : tdef) (n : name) (fd : fdef) : Prop := get_field (td_fields t) n = Some fd.

  (** [within t sels t' sels']: the selection set [sels'], on type [t'], occurs inside [sels] on type [t] (or is it),
      following fields and inline fragments but not fragment spreads. *)
  Inductive within : tdef -> list selection -> tdef -> list selection -> Prop :=
  | within_here t sels : within t sels t sels
  | within_field t sels al n args ds sub fd t1 t' sels' :
      In (SField al n args ds sub) sels -> sub <> [] -> has_field t n fd ->
      get_type S (tref_base (fd_type fd)) = Some t1 ->
      within t1 sub t' sels' -> within t sels t' sels'
  | within_inline t sels ds sub t' sels' :
      In (SInline None ds sub) sels -> within t sub t' sels' -> within t sels t' sels'
  | within_inline_on t sels c ds sub t1 t' sels' :
      In (SInline (Some c) ds sub) sels -> get_type S c = Some t1 ->
      within t1 sub t' sels' -> within t sels t' sels'.

  (** the outermost selection set of an operation or fragment *)
  Inductive top : root -> tdef -> list selection -> Prop :=
  | top_op i o t : nth_error (doc_ops d) i = Some o -> root_type (op_type o) t -> top (ROp i) t (op_sel o)
  | top_frag i f t : nth_error (doc_frags d) i = Some f -> get_type S (fr_cond f) = Some t -> top (RFrag i) t (fr_sel f).

  (** [set_at r t sels]: a selection set on type [t] somewhere in operation or fragment [r] *)
  Definition set_at (r : root) (t : tdef) (sels : list selection) : Prop :=
    exists t0 sels0, top r t0 sels0 /\ within t0 sels0 t sels.
  (** [sel_at r t s]: selection [s], selected from type [t], somewhere in [r] *)
  Definition sel_at (r : root) (t : tdef) (s : selection) : Prop := exists sels, set_at r t sels /\ In s sels.

  (** [directives_at r ds loc]: a (non-empty) list of directives that may contain variables *)
  Inductive directives_at : root -> list directive -> dloc -> Prop :=
  | dirs_op i o : nth_error (doc_ops d) i = Some o -> op_dirs o <> [] ->
      directives_at (ROp i) (op_dirs o)
        match op_type o with OQuery => LQuery | OMutation => LMutation | OSubscription => LSubscription end
  | dirs_frag i f : nth_error (doc_frags d) i = Some f -> fr_dirs f <> [] ->
      directives_at (RFrag i) (fr_dirs f) LFragmentDefinition
  | dirs_field r t al n args ds sub fd : sel_at r t (SField al n args ds sub) -> has_field t n fd -> ds <> [] ->
      directives_at r ds LField
  | dirs_spread r t n ds : sel_at r t (SSpread n ds) -> ds <> [] -> directives_at r ds LFragmentSpread
  | dirs_inline r t c ds sub : sel_at r t (SInline c ds sub) -> ds <> [] -> directives_at r ds LInlineFragment.
  (** directives on variable definitions *)
  Definition const_directives_at (ds : list directive) : Prop :=
    ds <> [] /\ exists o v, In o (doc_ops d) /\ In v (op_vars o) /\ vd_dirs v = ds.

  (** [argument_at r a i]: the argument [a], defined by [i], is given to a field or directive somewhere in [r] *)
  Inductive argument_at : root -> argument -> ivd -> Prop :=
  | arg_field r t al n args ds sub fd a i :
      sel_at r t (SField al n args ds sub) -> has_field t n fd ->
      In a args -> get_ivd (fd_args fd) (fst a) = Some i -> argument_at r a i
  | arg_directive r ds loc x dd a i :
      directives_at r ds loc -> In x ds -> get_ddef S (dir_name x) = Some dd ->
      In a (dir_args x) -> get_ivd (dd_args dd) (fst a) = Some i -> argument_at r a i.
  Definition const_argument_at (a : argument) (i : ivd) : Prop :=
    exists ds x dd, const_directives_at ds /\ In x ds /\ get_ddef S (dir_name x) = Some dd /\
                    In a (dir_args x) /\ get_ivd (dd_args dd) (fst a) = Some i.
End Places.
