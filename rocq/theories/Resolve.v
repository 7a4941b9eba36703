(** From definition documents to schemas: bluejay-parser/src/ast/definition/definition_document.rs:274-750. *)
From Verif Require Import Base Ast Maps DefParser.

(** definition_document_error.rs:9-62, without spans *)
Inductive derror :=
| DuplicateDirectives (n : name) (ds : list ddef)
| DuplicateTypes (n : name) (ts : list tdef)
| ImplicitRootNotObject (t : tdef)
| ExplicitRootNotObject (n : name)
| ImplicitMissingQuery
| ExplicitMissingQuery (e : esdef)
| DuplicateSchemas (es : list esdef)
| DuplicateRoots (ty : optype) (l : list (optype * name))
| ExplicitRootMissing (p : optype * name)
| NoSchema
| TypeMissing (n : name)
| NotOutput (n : name)
| NotInput (n : name)
| MemberNotObject (n : name)
| NotInterface (n : name)
| DirectiveMissing (d : directive).

(** [index_directive_definitions], [index_type_definitions] (:274-331): the first definition of each name, and all the
    definitions of the names defined more than once *)
Section Index.
  Context {A : Type} (key : A -> name).
  Definition index_step (m : list (name * A) * list (name * list A)) (x : A) : list (name * A) * list (name * list A) :=
    let '(indexed, dups) := m in
    match assoc (key x) indexed with
    | None => (tinsert (key x) x indexed, dups)
    | Some first => (indexed, tinsert (key x) (match assoc (key x) dups with Some l => l | None => [first] end ++ [x]) dups)
    end.
  Definition index (l : list A) : list (name * A) * list (name * list A) := fold_left index_step l ([], []).
End Index.

Section Resolve.
  Variable types : list (name * tdef).
  Variable ddefs : list (name * ddef).
  (** [resolve_directive_definitions] (:684-700) *)
  Definition resolve_directives (ds : list directive) : list derror :=
    flat_map (fun d => match assoc (dir_name d) ddefs with Some _ => [] | None => [DirectiveMissing d] end) ds.
  (** [resolve_input_types_and_directives] (:654-682) *)
  Definition resolve_ivd (i : ivd) : list derror :=
    let n := tref_base (iv_type i) in
    match assoc n types with
    | Some t => if td_is_input t then [] else [NotInput n]
    | None => [TypeMissing n]
    end ++ resolve_directives (iv_dirs i).
  (** [resolve_interface_implementations] (:633-652) *)
  Definition resolve_interfaces (l : list name) : list derror :=
    flat_map (fun n => match assoc n types with Some (DInterface _) => [] | Some _ => [NotInterface n] | None => [TypeMissing n] end) l.
  (** [resolve_fields_definition_types_and_directives] (:595-631) *)
  Definition resolve_fdef (f : fdef) : list derror :=
    let n := tref_base (fd_type f) in
    match assoc n types with
    | Some t => if td_is_output t then [] else [NotOutput n]
    | None => [TypeMissing n]
    end ++ flat_map resolve_ivd (fd_args f) ++ resolve_directives (fd_dirs f).
  (** [resolve_type_and_directive_definitions] (:489-593) *)
  Definition resolve_tdef (t : tdef) : list derror :=
    match t with
    | DObject o => flat_map resolve_fdef (ob_fields o) ++ resolve_interfaces (ob_ifaces o) ++ resolve_directives (ob_dirs o)
    | DInterface i => flat_map resolve_fdef (if_fields i) ++ resolve_interfaces (if_ifaces i) ++ resolve_directives (if_dirs i)
    | DUnion u =>
        flat_map resolve_fdef (un_fields u) ++
        flat_map (fun n => match assoc n types with Some (DObject _) => [] | Some _ => [MemberNotObject n] | None => [TypeMissing n] end) (un_members u) ++
        resolve_directives (un_dirs u)
    | DInput i => flat_map resolve_ivd (io_fields i) ++ resolve_directives (io_dirs i)
    | DScalar s => resolve_directives (sc_dirs s)
    | DEnum e => resolve_directives (en_dirs e) ++ flat_map (fun v => resolve_directives (ev_dirs v)) (en_values e)
    | DBuiltin _ => []
    end.
  Definition resolve_all : list derror :=
    flat_map resolve_tdef (map snd types) ++ flat_map (fun d => flat_map resolve_ivd (dd_args d)) (map snd ddefs).

  (** [implicit_root_operation_type] (:365-381) *)
  Definition implicit_root (n : name) : option name * list derror :=
    match assoc n types with
    | Some (DObject o) => (Some (ob_name o), [])
    | Some t => (None, [ImplicitRootNotObject t])
    | None => (None, [])
    end.
  (** [implicit_schema_definition] (:333-363) *)
  Definition implicit_schema : option (name * option name * option name) + list derror :=
    let '(q, e1) := implicit_root (tx "Query") in
    let '(m, e2) := implicit_root (tx "Mutation") in
    let '(s, e3) := implicit_root (tx "Subscription") in
    match e1 ++ e2 ++ e3 with
    | [] => match q with
            | Some q => inl (Some (q, m, s))
            | None => match m, s with None, None => inl None | _, _ => inr [ImplicitMissingQuery] end
            end
    | es => inr es
    end.
  (** [explicit_operation_type_definition] (:447-487) *)
  Definition explicit_root (ty : optype) (e : esdef) : option name + derror :=
    match filter (fun p => optype_eqb (fst p) ty) (es_roots e) with
    | [] => inl None
    | [p] => match assoc (snd p) types with
             | Some (DObject o) => inl (Some (ob_name o))
             | Some _ => inr (ExplicitRootNotObject (snd p))
             | None => inr (ExplicitRootMissing p)
             end
    | l => inr (DuplicateRoots ty l)
    end.
  (** [explicit_schema_definition] (:383-445) *)
  Definition root_or (x : option name + derror) : option name * list derror := match x with inl r => (r, []) | inr e => (None, [e]) end.
  Definition explicit_schema (es : list esdef) : option (esdef * name * option name * option name) + list derror :=
    match es with
    | [] => inl None
    | [e] =>
        let '(q, e1) := root_or (explicit_root OQuery e) in
        let '(m, e2) := root_or (explicit_root OMutation e) in
        let '(s, e3) := root_or (explicit_root OSubscription e) in
        match e1 ++ e2 ++ e3 with
        | [] => match q with Some q => inl (Some (e, q, m, s)) | None => inr [ExplicitMissingQuery e] end
        | errs => inr errs
        end
    | _ => inr [DuplicateSchemas es]
    end.
End Resolve.

(** [TryFrom<&DefinitionDocument> for SchemaDefinition] (:702-750) *)
Definition resolve (d : defdoc) : schema + list derror :=
  let '(types, dup_types) := index td_name (df_types d) in
  let '(ddefs, dup_ddefs) := index dd_name (df_ddefs d) in
  let build desc q m s dirs :=
    {| s_desc := desc; s_types := map snd types; s_ddefs := map snd ddefs; s_query := q; s_mutation := m; s_subscription := s; s_dirs := dirs |} in
  match map (fun p => DuplicateTypes (fst p) (snd p)) dup_types ++ map (fun p => DuplicateDirectives (fst p) (snd p)) dup_ddefs ++ resolve_all types ddefs with
  | [] =>
      match explicit_schema types (df_schemas d) with
      | inr es => inr es
      | inl (Some (e, q, m, s)) => inl (build (es_desc e) q m s (es_dirs e))
      | inl None =>
          match implicit_schema types with
          | inr es => inr es
          | inl (Some (q, m, s)) => inl (build None q m s [])
          | inl None => inr [NoSchema]
          end
      end
  | es => inr es
  end.

(** *** What the objects of a schema can be asked; None stands for a panic *)
(** [InputType::as_ref], [OutputType::as_ref] at the innermost type (input_type.rs:61-83, output_type.rs:73-97) *)
Definition input_lookup (s : schema) (t : tref) : option tdef :=
  match get_type s (tref_base t) with Some d => if td_is_input d then Some d else None | None => None end.
Definition output_lookup (s : schema) (t : tref) : option tdef :=
  match get_type s (tref_base t) with Some d => if td_is_output d then Some d else None | None => None end.
(** [InterfaceImplementation::interface] (interface_implementation.rs:20-32), [UnionMemberType::member_type]
    (union_member_type.rs:17-26), [Directive::definition] (directive.rs:30-37) *)
Definition interface_lookup (s : schema) (n : name) : option iface_def :=
  match get_type s n with Some (DInterface i) => Some i | _ => None end.
Definition member_lookup (s : schema) (n : name) : option object_def :=
  match get_type s n with Some (DObject o) => Some o | _ => None end.
Definition directive_lookup (s : schema) (d : directive) : option ddef := get_ddef s (dir_name d).
