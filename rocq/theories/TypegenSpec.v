(** What a response to an operation looks like (GraphQL section 6: CollectFields, CompleteValue), when a value of the
    generated types shows a response, and when the generated code is accepted by the Rust compiler. *)
From Verif Require Import Base Ast Json Graph Doc DocSpec DocRulesSpec FragmentsSpec DocRules FragmentCycles Typegen TypegenDe.
Local Open Scope string_scope.
Local Open Scope list_scope.

Section Responses.
  Variable S : schema.
  Variable d : document.
  (** the Boolean variables of the request *)
  Variable vals : name -> option bool.
  (** the results a custom scalar may have *)
  Variable scalar_out : name -> json -> Prop.

  (** @skip and @include *)
  Definition condition_holds (x : directive) : bool :=
    match assoc (tx "if") (dir_args x) with
    | Some (VBool b) => b
    | Some (VVar n) => match vals n with Some b => b | None => false end
    | _ => false
    end.
  Definition skipped (ds : list directive) : bool :=
    existsb (fun x => (teqb (dir_name x) (tx "skip") && condition_holds x) ||
                      (teqb (dir_name x) (tx "include") && negb (condition_holds x))) ds.

  (** a selected field: its response name, its name, its subselections *)
  Record node := { nd_key : name; nd_name : name; nd_sub : list selection }.
  (** does a fragment with this type condition apply to objects of type [rt]? *)
  Definition applies (rt c : name) : Prop := exists t, get_type S c = Some t /\ possible S t rt.
  (** CollectFields: the fields that a selection set selects on an object of type [rt], in order. (The specification visits
      each fragment once; visiting it again only repeats fields.) *)
  Inductive collects (rt : name) : list selection -> list node -> Prop :=
  | co_nil : collects rt [] []
  | co_field al n args ds sub rest ns : skipped ds = false -> collects rt rest ns ->
      collects rt (SField al n args ds sub :: rest) ({| nd_key := response_name al n; nd_name := n; nd_sub := sub |} :: ns)
  | co_spread n ds f rest ns ns' : skipped ds = false -> defines d n f -> applies rt (fr_cond f) ->
      collects rt (fr_sel f) ns -> collects rt rest ns' -> collects rt (SSpread n ds :: rest) (ns ++ ns')
  | co_spread_not n ds f rest ns : skipped ds = false -> defines d n f -> ~ applies rt (fr_cond f) ->
      collects rt rest ns -> collects rt (SSpread n ds :: rest) ns
  | co_inline c ds sub rest ns ns' : skipped ds = false -> (forall n, c = Some n -> applies rt n) ->
      collects rt sub ns -> collects rt rest ns' -> collects rt (SInline c ds sub :: rest) (ns ++ ns')
  | co_inline_not c ds sub rest ns : skipped ds = false -> ~ applies rt c ->
      collects rt rest ns -> collects rt (SInline (Some c) ds sub :: rest) ns
  | co_skipped s rest ns : match s with SField _ _ _ ds _ | SSpread _ ds | SInline _ ds _ => skipped ds = true end ->
      collects rt rest ns -> collects rt (s :: rest) ns.

  (** the first occurrences *)
  Fixpoint distinct (l : list name) : list name :=
    match l with [] => [] | k :: l' => k :: filter (fun x => negb (teqb x k)) (distinct l') end.
  Definition under (k : name) (ns : list node) : list node := filter (fun x => teqb (nd_key x) k) ns.

  Definition builtin_out (b : builtin) (j : json) : Prop :=
    match b with
    | BInt => exists z, j = JInt z /\ (-2147483648 <= z <= 2147483647)%Z
    | BFloat => (exists z, j = JInt z) \/ (exists f, j = JFloat f)
    | BString | BID => exists s, j = JStr s
    | BBoolean => exists b, j = JBool b
    end.
  (** CompleteValue: [response t sels j]: [j] may be the result of a field of type [t] with the subselections [sels].
      Errors replace a result by null where the type allows it. *)
  Inductive response : tref -> list selection -> json -> Prop :=
  | re_null t sels : tref_required t = false -> response t sels JNull
  | re_list inner r sels js : (forall j, In j js -> response inner sels j) -> response (TList inner r) sels (JList js)
  | re_builtin n r b sels j : get_type S n = Some (DBuiltin b) -> builtin_out b j -> response (TBase n r) sels j
  | re_enum n r x e sels : get_type S n = Some (DEnum x) -> In e (en_values x) -> response (TBase n r) sels (JStr (ev_name e))
  | re_scalar n r x sels j : get_type S n = Some (DScalar x) -> j <> JNull -> scalar_out n j -> response (TBase n r) sels j
  | re_object n r t sels rt o ns kvs :
      get_type S n = Some t -> possible S t rt -> get_type S rt = Some (DObject o) ->
      collects rt sels ns -> map fst kvs = distinct (map nd_key ns) ->
      (forall k j, In (k, j) kvs -> field_response o (under k ns) j) ->
      response (TBase n r) sels (JObj kvs)
  (** the result of the fields that share a response name, on an object of type [o] *)
  with field_response : object_def -> list node -> json -> Prop :=
  | fr_typename o x ns : nd_name x = tx "__typename" -> field_response o (x :: ns) (JStr (ob_name o))
  | fr_field o x ns fd j : nd_name x <> tx "__typename" -> get_field (ob_fields o) (nd_name x) = Some fd ->
      response (fd_type fd) (flat_map nd_sub (x :: ns)) j -> field_response o (x :: ns) j.

  (** the data of a response to an operation *)
  Definition operation_response (o : operation) (j : json) : Prop :=
    exists t, root_type S (op_type o) t /\ response (TBase (td_name t) true) (op_sel o) j.
End Responses.

(** [shows v j]: the value [v] of a generated type shows exactly what is in the response [j]. *)
Inductive shows : rval -> json -> Prop :=
| sh_none : shows RNone JNull
| sh_some v j : j <> JNull -> shows v j -> shows (RSome v) j
| sh_vec vs js : Forall2 shows vs js -> shows (RVec vs) (JList js)
| sh_struct fs kvs : map fst fs = map fst kvs -> NoDup (map fst fs) ->
    (forall k v j, In (k, v) fs -> In (k, j) kvs -> shows v j) -> shows (RStruct fs) (JObj kvs)
| sh_variant n fs kvs : map fst kvs = tx "__typename" :: map fst fs -> NoDup (map fst kvs) ->
    In (tx "__typename", JStr n) kvs ->
    (forall k v j, In (k, v) fs -> In (k, j) kvs -> shows v j) -> shows (RVariant n fs) (JObj kvs)
| sh_other n : shows ROther (JObj [(tx "__typename", JStr n)])
| sh_bool b : shows (RBool b) (JBool b)
| sh_int z : shows (RInt z) (JInt z)
| sh_float j : shows (RFloat j) j
| sh_str s : shows (RStr s) (JStr s)
| sh_enum n : shows (REnumValue n) (JStr n)
| sh_custom n j : shows (RCustom n j) j.

(** The same, but enum values [s] with [other s] are not shown: they are read as Other. *)
Inductive shows_but (other : name -> Prop) : rval -> json -> Prop :=
| sb_none : shows_but other RNone JNull
| sb_some v j : j <> JNull -> shows_but other v j -> shows_but other (RSome v) j
| sb_vec vs js : Forall2 (shows_but other) vs js -> shows_but other (RVec vs) (JList js)
| sb_struct fs kvs : map fst fs = map fst kvs -> NoDup (map fst fs) ->
    (forall k v j, In (k, v) fs -> In (k, j) kvs -> shows_but other v j) -> shows_but other (RStruct fs) (JObj kvs)
| sb_variant n fs kvs : map fst kvs = tx "__typename" :: map fst fs -> NoDup (map fst kvs) ->
    In (tx "__typename", JStr n) kvs ->
    (forall k v j, In (k, v) fs -> In (k, j) kvs -> shows_but other v j) -> shows_but other (RVariant n fs) (JObj kvs)
| sb_other n : shows_but other ROther (JObj [(tx "__typename", JStr n)])
| sb_bool b : shows_but other (RBool b) (JBool b)
| sb_int z : shows_but other (RInt z) (JInt z)
| sb_float j : shows_but other (RFloat j) j
| sb_str s : shows_but other (RStr s) (JStr s)
| sb_enum n : shows_but other (REnumValue n) (JStr n)
| sb_unknown s : other s -> shows_but other REnumOther (JStr s)
| sb_custom n j : shows_but other (RCustom n j) j.

(** * When the generated code compiles *)
(** [inside e e']: the type [e'] is [e] or occurs in it *)
Inductive inside : etype -> etype -> Prop :=
| in_here e : inside e e
| in_struct p fs k w e : In (k, w) fs -> winside w e -> inside (EStruct p fs) e
| in_enum p vs n fs k w e : In (n, fs) vs -> In (k, w) fs -> winside w e -> inside (EEnum p vs) e
with winside : wtype -> etype -> Prop :=
| win_base e e' : inside e e' -> winside (WBase e) e'
| win_opt w e : winside w e -> winside (WOpt w) e
| win_vec w e : winside w e -> winside (WVec w) e.

(** The conditions of the Rust compiler that depend on the document: identifiers are not defined twice, the types that are
    referred to exist, and (serde_derive's condition) the field by which an enum is tagged is not a field of a variant. The
    corresponding condition for miniserde is not checked by the compiler: see [no_typename_in_variants]. Types do not contain
    themselves. With miniserde, a builder is generated beside each type (executable_struct_builder.rs:121-170,
    executable_enum_builder.rs:135-310): it is called like the type with "Builder" or "BuilderState" appended and so hides
    other types of that name; a struct's has a field [out] of its own; an enum's binds the fields of a variant where it
    reads [k]. [snake] and [pascal] are the conversions of names.rs. (Where the types are in modules, and how they are
    referred to from there, is not modelled.) *)
Definition refers (pascal : name -> name) (types : list etype) (a b : name) : Prop :=
  exists e n bo, In (a, e) (items types) /\ inside e (ERef n bo) /\ pascal n = pascal b.
Fixpoint wbase (w : wtype) : etype := match w with WBase e => e | WOpt w' | WVec w' => wbase w' end.
(** the references to fragments that are types of fields of [e] itself *)
Definition field_refs (e : etype) : list name :=
  let refs := filter_map (fun f : name * wtype => match wbase (snd f) with ERef n _ => Some n | _ => None end) in
  match e with EStruct _ fs => refs fs | EEnum _ vs => flat_map (fun v => refs (snd v)) vs | _ => [] end.
Record compiles (pascal snake : name -> name) (cod : codec) (types : list etype) : Prop := {
  cc_items : NoDup (map (fun it => pascal (fst it)) (items types));
  cc_struct : forall e p fs, In e types -> inside e (EStruct p fs) ->
    NoDup (map (fun f => snake (fst f)) fs) /\
    (cod = Miniserde -> ~ In (tx "out") (map (fun f => snake (fst f)) fs));
  cc_enum : forall e p vs, In e types -> inside e (EEnum p vs) ->
    NoDup (map (fun v => pascal (fst v)) vs ++ [tx "Other"]) /\
    forall n fs, In (n, fs) vs -> NoDup (map (fun f => snake (fst f)) fs) /\
                 (cod = Serde -> ~ In (tx "__typename") (map fst fs)) /\
                 (cod = Miniserde -> ~ In (tx "k") (map (fun f => snake (fst f)) fs));
  cc_refs : forall e n b, In e types -> inside e (ERef n b) -> exists it, In it (items types) /\ pascal (fst it) = pascal n;
  cc_hidden : cod = Miniserde -> forall p e n, In (p, e) (items types) -> In n (field_refs e) ->
    pascal n <> pascal p ++ tx "Builder" /\ pascal n <> pascal p ++ tx "BuilderState";
  cc_finite : forall a, ~ plus (refers pascal types) a a
}.

(** * Conditions on documents *)
Section Conditions.
  Variable S : schema.
  Variable d : document.
  (** No selection is skipped. *)
  Definition nothing_skipped (vals : name -> option bool) : Prop :=
    forall r t s, sel_at S d r t s ->
      match s with SField _ _ _ ds _ | SSpread _ ds | SInline _ ds _ => skipped vals ds = false end.
  (** A fragment that is spread on a union applies to all members. *)
  Definition union_spreads_cover : Prop :=
    forall r u n ds f, sel_at S d r (DUnion u) (SSpread n ds) -> defines d n f ->
      forall m, In m (un_members u) -> applies S m (fr_cond f).
  (** __typename is not selected (and no other field called so) inside an inline fragment on a union. *)
  Definition no_typename_in_variants : Prop :=
    forall r u c ds sub al n args ds' sub', sel_at S d r (DUnion u) (SInline c ds sub) ->
      In (SField al n args ds' sub') sub -> response_name al n <> tx "__typename".
  (** Inside an inline fragment on a union, there is no fragment spread. *)
  Definition no_spread_in_variants : Prop :=
    forall r u c ds sub n ds', sel_at S d r (DUnion u) (SInline c ds sub) -> ~ In (SSpread n ds') sub.
End Conditions.

(** Names in the document do not collide after conversion. *)
Section Names.
  Variable S : schema.
  Variable d : document.
  Variables pascal snake : name -> name.
  Definition item_names : list name := map operation_item_name (doc_ops d) ++ map fr_name (doc_frags d).
  Definition field_names (sels : list selection) : list name :=
    filter_map (fun s => match s with SField al n _ _ _ => Some (response_name al n) | _ => None end) sels.
  Record names_fit : Prop := {
    nf_items : forall a b, In a item_names -> In b item_names -> pascal a = pascal b -> a = b;
    nf_fields : forall r t sels, set_at S d r t sels -> NoDup (map snake (field_names sels));
    nf_members : forall u a b, In (DUnion u) (s_types S) -> In a (un_members u) -> In b (un_members u) -> pascal a = pascal b -> a = b;
    nf_other : forall r u c ds sub, sel_at S d r (DUnion u) (SInline (Some c) ds sub) -> pascal c <> tx "Other"
  }.
  (** With miniserde, names that the generated code uses itself are avoided. *)
  Record names_fit_miniserde : Prop := {
    nm_fields : forall r t sels, set_at S d r t sels -> ~ In (tx "out") (map snake (field_names sels)) /\ ~ In (tx "k") (map snake (field_names sels));
    nm_builders : forall a b, In a item_names -> In b item_names ->
      pascal b <> pascal a ++ tx "Builder" /\ pascal b <> pascal a ++ tx "BuilderState"
  }.
  (** No fragment consists of the spread of another fragment. *)
  Definition no_renamed_fragments : Prop :=
    forall f n ds, In f (doc_frags d) -> fr_sel f <> [SSpread n ds].
End Names.

(** * Conditions on schemas (of the GraphQL specification; the library does not check the first two) *)
(** A result for type [a] is a result for type [b]. *)
Inductive refines (S : schema) : tref -> tref -> Prop :=
| rf_nonnull n r r' : implb r' r = true -> refines S (TBase n r) (TBase n r')
| rf_composite n n' r r' t t' : implb r' r = true -> get_type S n = Some t -> get_type S n' = Some t' ->
    td_composite t = true -> td_composite t' = true -> (forall rt, possible S t rt -> possible S t' rt) ->
    refines S (TBase n r) (TBase n' r')
| rf_list a b r r' : implb r' r = true -> refines S a b -> refines S (TList a r) (TList b r').
Record wf_types (S : schema) : Prop := {
  (** objects have the fields of their interfaces, with suitable types *)
  wt_fields : forall i o fd, In (DInterface i) (s_types S) -> In (DObject o) (s_types S) -> In (if_name i) (ob_ifaces o) ->
    In fd (if_fields i) -> fd_name fd <> tx "__typename" ->
    exists fd', get_field (ob_fields o) (fd_name fd) = Some fd' /\ refines S (fd_type fd') (fd_type fd);
  (** objects implement the interfaces of their interfaces *)
  wt_transitive : forall i o n, In (DInterface i) (s_types S) -> In (DObject o) (s_types S) -> In (if_name i) (ob_ifaces o) ->
    In n (if_ifaces i) -> In n (ob_ifaces o) /\ exists i', get_type S n = Some (DInterface i');
  (** __typename is a String!, and the only field of a union *)
  wt_typename : forall t fd, In t (s_types S) -> In fd (td_fields t) -> fd_name fd = tx "__typename" -> fd_type fd = TBase (tx "String") true;
  wt_string : get_type S (tx "String") = Some (DBuiltin BString);
  wt_union_fields : forall u fd, In (DUnion u) (s_types S) -> In fd (un_fields u) -> fd_name fd = tx "__typename"
}.

(** * Documents that the type generator accepts (executable_definition.rs:47-75) *)
(** what the parser guarantees *)
Record well_parsed (d : document) : Prop := {
  wp_implicit : forall o, In o (doc_ops d) -> op_explicit o = false -> op_type o = OQuery /\ op_name o = None;
  wp_ops : forall o, In o (doc_ops d) -> op_sel o <> [];
  wp_frags : forall f, In f (doc_frags d) -> fr_sel f <> []
}.
(** The rules report nothing. (Of the standard rules only those are listed that the theorems need.) *)
Record validated (S : schema) (d : document) : Prop := {
  va_fields : field_selection_errors (visit S d) = [];
  va_leafs : leaf_selection_errors S (visit S d) = [];
  va_types : fragment_type_errors S (visit S d) = [];
  va_composite : fragment_composite_errors S (visit S d) = [];
  va_optypes : operation_type_errors S (visit S d) = [];
  va_names : fragment_name_errors (visit S d) = [];
  va_targets : spread_target_errors d (visit S d) = [];
  va_possible : spread_possible_errors S d (visit S d) = [];
  va_anonymous : lone_anonymous_errors d (visit S d) = None;
  va_operations : operation_name_errors (visit S d) = [];
  va_cycles : fragment_cycle_errors d = Some [];
  va_typegen : typegen_errors d (visit S d) = []
}.
(** what resolution guarantees of schemas *)
Record resolved (S : schema) : Prop := {
  rs_wf : wf_schema S;
  rs_roots : forall ty t, root_type S ty t -> td_composite t = true;
  rs_names : NoDup (map td_name (s_types S));
  rs_members : forall u n, In (DUnion u) (s_types S) -> In n (un_members u) -> exists o, get_type S n = Some (DObject o)
}.

(** * A server with another schema *)
(** The server's schema [B] is a later version of the schema [A] of the client. [later A B t u]: type [u] of the server gives what
    the client knows of type [t]: the fields have results that suit the old types; object types are still of the interfaces and
    unions of which they were; interfaces still implement the interfaces that they did. There may be more of everything. *)
Inductive later (B : schema) : tdef -> tdef -> Prop :=
| lt_builtin b : later B (DBuiltin b) (DBuiltin b)
| lt_scalar a b : later B (DScalar a) (DScalar b)
| lt_object a b : (forall n, In n (ob_ifaces a) -> In n (ob_ifaces b)) ->
    (forall n f, get_field (ob_fields a) n = Some f -> exists g, get_field (ob_fields b) n = Some g /\ refines B (fd_type g) (fd_type f)) ->
    later B (DObject a) (DObject b)
| lt_interface a b : (forall n, In n (if_ifaces a) -> In n (if_ifaces b)) ->
    (forall n f, get_field (if_fields a) n = Some f -> exists g, get_field (if_fields b) n = Some g /\ refines B (fd_type g) (fd_type f)) ->
    later B (DInterface a) (DInterface b)
| lt_union a b : (forall n, In n (un_members a) -> In n (un_members b)) -> later B (DUnion a) (DUnion b)
| lt_enum a b : later B (DEnum a) (DEnum b)
| lt_input a b : later B (DInput a) (DInput b).
Record serves (A B : schema) : Prop := {
  sv_types : forall n t, get_type A n = Some t -> exists u, get_type B n = Some u /\ later B t u;
  sv_roots : forall ty t u, root_type A ty t -> root_type B ty u -> td_name u = td_name t
}.
(** a fragment that is spread on a union applies to all members that the union of the server has *)
Definition union_spreads_cover_at (B A : schema) (d : document) : Prop :=
  forall r u n ds f, sel_at A d r (DUnion u) (SSpread n ds) -> defines d n f ->
    forall u' m, get_type B (un_name u) = Some (DUnion u') -> In m (un_members u') -> applies B m (fr_cond f).
(** an enum value that the client does not know *)
Definition new_value (A B : schema) (s : name) : Prop :=
  exists n x y, get_type A n = Some (DEnum x) /\ get_type B n = Some (DEnum y) /\ In s (map ev_name (en_values y)) /\ ~ In s (map ev_name (en_values x)).

(** * Borrowed data *)
Section Borrowing.
  Variable S : schema.
  Variable d : document.
  Variable borrow : bool.
  Variable scalar_borrows : name -> option bool.
  (** Results of this type are held as borrowed data: ID and String if borrowing is on; custom scalars whose Rust type has a
      lifetime. *)
  Definition borrowed_leaf (t : tdef) : Prop :=
    match t with
    | DBuiltin BID | DBuiltin BString => borrow = true
    | DScalar x => scalar_borrows (sc_name x) = Some true
    | _ => False
    end.
  (** The selection set, on type [t], selects borrowed data: directly, in a subselection or in a fragment. (On a union,
      __typename is not held as data.) *)
  Inductive selects_borrowed : tdef -> list selection -> Prop :=
  | sb_field t sels al n args ds sub fd t1 :
      In (SField al n args ds sub) sels -> (forall u, t <> DUnion u) -> has_field t n fd ->
      get_type S (tref_base (fd_type fd)) = Some t1 -> borrowed_leaf t1 -> selects_borrowed t sels
  | sb_sub t sels al n args ds sub fd t1 :
      In (SField al n args ds sub) sels -> (forall u, t <> DUnion u) -> has_field t n fd ->
      get_type S (tref_base (fd_type fd)) = Some t1 -> selects_borrowed t1 sub -> selects_borrowed t sels
  | sb_inline t sels c ds sub t1 :
      In (SInline (Some c) ds sub) sels -> get_type S c = Some t1 -> selects_borrowed t1 sub -> selects_borrowed t sels
  | sb_spread t sels n ds f t1 :
      In (SSpread n ds) sels -> defines d n f -> get_type S (fr_cond f) = Some t1 -> selects_borrowed t1 (fr_sel f) ->
      selects_borrowed t sels.
End Borrowing.
