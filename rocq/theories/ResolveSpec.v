(** What a schema document means: which references it makes, what they have to be, and which schema it defines. *)
From Coq Require Import String Sorted Permutation.
From Verif Require Import Base Ast DefParser Resolve.

Section References.
  (** the type definitions and the directive definitions *)
  Variable T : list tdef.
  Variable D : list ddef.

  (** the argument and input field definitions of a document *)
  Inductive value_defined : ivd -> Prop :=
  | vd_input_field i v : In (DInput i) T -> In v (io_fields i) -> value_defined v
  | vd_argument t f v : In t T -> In f (td_fields t) -> In v (fd_args f) -> value_defined v
  | vd_directive_argument d v : In d D -> In v (dd_args d) -> value_defined v.
  Definition implements (t : tdef) (n : name) : Prop :=
    match t with DObject o => In n (ob_ifaces o) | DInterface i => In n (if_ifaces i) | _ => False end.
  Definition own_directives (t : tdef) : list directive :=
    match t with
    | DBuiltin _ => [] | DScalar d => sc_dirs d | DObject d => ob_dirs d | DInput d => io_dirs d | DEnum d => en_dirs d
    | DUnion d => un_dirs d | DInterface d => if_dirs d
    end.
  (** the directives used on the definitions of a document, other than the schema definition *)
  Inductive directive_used : directive -> Prop :=
  | du_type t d : In t T -> In d (own_directives t) -> directive_used d
  | du_field t f d : In t T -> In f (td_fields t) -> In d (fd_dirs f) -> directive_used d
  | du_value v d : value_defined v -> In d (iv_dirs v) -> directive_used d
  | du_enum_value e v d : In (DEnum e) T -> In v (en_values e) -> In d (ev_dirs v) -> directive_used d.

  (** every reference is to something that is defined and of a suitable kind *)
  Record references_ok : Prop := {
    ro_fields : forall t f, In t T -> In f (td_fields t) -> exists u, In u T /\ td_name u = tref_base (fd_type f) /\ td_is_output u = true;
    ro_values : forall v, value_defined v -> exists u, In u T /\ td_name u = tref_base (iv_type v) /\ td_is_input u = true;
    ro_interfaces : forall t n, In t T -> implements t n -> exists i, In (DInterface i) T /\ if_name i = n;
    ro_members : forall u n, In (DUnion u) T -> In n (un_members u) -> exists o, In (DObject o) T /\ ob_name o = n;
    ro_directives : forall d, directive_used d -> exists dd, In dd D /\ dd_name dd = dir_name d }.
  (** a name is used as a type *)
  Inductive refers : name -> Prop :=
  | rf_field t f : In t T -> In f (td_fields t) -> refers (tref_base (fd_type f))
  | rf_value v : value_defined v -> refers (tref_base (iv_type v))
  | rf_interface t n : In t T -> implements t n -> refers n
  | rf_member u n : In (DUnion u) T -> In n (un_members u) -> refers n.
  Definition object_named (n : name) : Prop := exists o, In (DObject o) T /\ ob_name o = n.
  Definition unnamed (n : name) : Prop := forall t, In t T -> td_name t <> n.
End References.

(** the schema definition [e] gives the root of kind [ty]: exactly once, or not at all *)
Definition declarations (ty : optype) (e : esdef) : list (optype * name) := filter (fun p => optype_eqb (fst p) ty) (es_roots e).
Definition declares (e : esdef) (ty : optype) (r : option name) : Prop :=
  declarations ty e = match r with Some n => [(ty, n)] | None => [] end.
Definition roots_are_objects (T : list tdef) (s : schema) : Prop :=
  object_named T (s_query s) /\ (forall n, s_mutation s = Some n -> object_named T n) /\ (forall n, s_subscription s = Some n -> object_named T n).
Definition explicit_roots (d : defdoc) (s : schema) : Prop :=
  exists e, df_schemas d = [e] /\ s_desc s = es_desc e /\ s_dirs s = es_dirs e /\
    declares e OQuery (Some (s_query s)) /\ declares e OMutation (s_mutation s) /\ declares e OSubscription (s_subscription s).
(** the root with the conventional name, if there is a type of that name *)
Definition conventional (T : list tdef) (n : name) (r : option name) : Prop :=
  match r with Some m => m = n | None => unnamed T n end.
Definition implicit_roots (d : defdoc) (s : schema) : Prop :=
  df_schemas d = [] /\ s_desc s = None /\ s_dirs s = [] /\
  s_query s = tx "Query" /\ conventional (df_types d) (tx "Mutation") (s_mutation s) /\ conventional (df_types d) (tx "Subscription") (s_subscription s).

(** the schema a document defines: the definitions, listed by name, no name twice *)
Record schema_of (d : defdoc) (s : schema) : Prop := {
  so_types : Permutation (df_types d) (s_types s);
  so_types_sorted : StronglySorted tlt (map td_name (s_types s));
  so_ddefs : Permutation (df_ddefs d) (s_ddefs s);
  so_ddefs_sorted : StronglySorted tlt (map dd_name (s_ddefs s));
  so_references : references_ok (df_types d) (df_ddefs d);
  so_roots : explicit_roots d s \/ implicit_roots d s;
  so_objects : roots_are_objects (df_types d) s }.

(** what each error says *)
Definition derror_true (d : defdoc) (e : derror) : Prop :=
  let T := df_types d in
  let D := df_ddefs d in
  match e with
  | DuplicateTypes n ts => ts = filter (fun t => teqb (td_name t) n) T /\ 2 <= length ts
  | DuplicateDirectives n ds => ds = filter (fun x => teqb (dd_name x) n) D /\ 2 <= length ds
  | TypeMissing n => refers T D n /\ unnamed T n
  | NotOutput n => exists t f u, In t T /\ In f (td_fields t) /\ tref_base (fd_type f) = n /\ In u T /\ td_name u = n /\ td_is_output u = false
  | NotInput n => exists v u, value_defined T D v /\ tref_base (iv_type v) = n /\ In u T /\ td_name u = n /\ td_is_input u = false
  | MemberNotObject n => exists u t, In (DUnion u) T /\ In n (un_members u) /\ In t T /\ td_name t = n /\ (forall o, t <> DObject o)
  | NotInterface n => exists u t, In u T /\ implements u n /\ In t T /\ td_name t = n /\ (forall i, t <> DInterface i)
  | DirectiveMissing x => directive_used T D x /\ (forall dd, In dd D -> dd_name dd <> dir_name x)
  | ImplicitRootNotObject t =>
      df_schemas d = [] /\ In t T /\ (td_name t = tx "Query" \/ td_name t = tx "Mutation" \/ td_name t = tx "Subscription") /\ (forall o, t <> DObject o)
  | ImplicitMissingQuery => df_schemas d = [] /\ unnamed T (tx "Query") /\ (object_named T (tx "Mutation") \/ object_named T (tx "Subscription"))
  | NoSchema => df_schemas d = [] /\ unnamed T (tx "Query") /\ unnamed T (tx "Mutation") /\ unnamed T (tx "Subscription")
  | ExplicitRootNotObject n => exists e ty t, df_schemas d = [e] /\ In (ty, n) (es_roots e) /\ In t T /\ td_name t = n /\ (forall o, t <> DObject o)
  | ExplicitRootMissing p => exists e, df_schemas d = [e] /\ In p (es_roots e) /\ unnamed T (snd p)
  | ExplicitMissingQuery e => df_schemas d = [e] /\ declares e OQuery None
  | DuplicateSchemas es => es = df_schemas d /\ 2 <= length es
  | DuplicateRoots ty l => exists e, df_schemas d = [e] /\ l = declarations ty e /\ 2 <= length l
  end.
