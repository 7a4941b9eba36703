(** bluejay-visibility: a schema seen through a warden. The scoped definitions are made lazily and kept in caches; the state of
    all of them together is [cache]. A scoped definition is named by where it is found: a type by its name, a field by its type
    and name, and so on; its unfiltered counterpart stands for it in answers. *)
From Verif Require Import Base Ast Maps Resolve DocRules.

(** where argument definitions and input fields are found, and where directives are applied; [k] counts positions in the scoped list *)
Inductive place := PArgument (t f : name) | PInputField (t : name) | PDirectiveArgument (d : name).
Inductive dplace := OnSchema | OnType (t : name) | OnField (t f : name) | OnValue (t : name) (k : nat) | OnInput (p : place) (k : nat).
Definition name_dec (a b : name) : {a = b} + {a <> b} := list_eq_dec N.eq_dec a b.
Definition pair_dec (a b : name * name) : {a = b} + {a <> b}.
Proof. decide equality; apply name_dec. Defined.
Definition place_dec (a b : place) : {a = b} + {a <> b}.
Proof. decide equality; apply name_dec. Defined.
Definition dplace_dec (a b : dplace) : {a = b} + {a <> b}.
Proof. decide equality; solve [apply name_dec | apply Nat.eq_dec | apply place_dec]. Defined.

(** warden.rs:10-162 [Warden]. Its methods get references; so that a warden can tell apart definitions that are equal but found at
    different places, those of members also get the place. [w_type] is the six [is_…_type_definition_visible] methods in one;
    [w_equal] the six […_type_definitions_equal]. The methods have no side effects. [custom_scalar_definition_coerce_input] is not
    modelled. *)
Record warden := {
  w_type : tdef -> bool;
  w_field : name -> fdef -> bool;
  w_input : place -> ivd -> bool;
  w_value : name -> evd -> bool;
  w_member : name -> name -> bool;
  w_implements : name -> name -> bool;
  w_ddef : ddef -> bool;
  w_default : place -> ivd -> option value;
  w_arguments : dplace -> directive -> list argument;
  w_candidates : name -> list tdef;
  w_equal : tdef -> tdef -> bool }.
(** [NullWarden] (warden.rs:163-267) and the default methods *)
Definition null_warden (s : schema) : warden :=
  {| w_type := fun _ => true; w_field := fun _ _ => true; w_input := fun _ _ => true; w_value := fun _ _ => true;
     w_member := fun _ _ => true; w_implements := fun _ _ => true; w_ddef := fun _ => true;
     w_default := fun _ i => iv_default i; w_arguments := fun _ d => dir_args d;
     w_candidates := fun n => match get_type s n with Some t => [t] | None => [] end;
     w_equal := fun a b => teqb (td_name a) (td_name b) |}.

(** the scoped versions of an input or output type: its shape, and the definition of its base type *)
Definition stype := (tref * tdef)%type.
(** what has been made so far: [Cache] (cache.rs:5-10), the [OnceCell]s of the scoped definitions, the index of each
    [FieldsDefinition] and, of [SchemaDefinition] (schema_definition.rs:27-36), the implementors and the two lists *)
Record cache := {
  c_types : list (name * tdef);
  c_ddefs : list (name * ddef);
  c_index : list ((name * name) * (fdef * stype));
  c_fields : list (name * list (fdef * stype));
  c_ifaces : list (name * list iface_def);
  c_members : list (name * list (name * object_def));
  c_values : list (name * list evd);
  c_inputs : list (place * list (ivd * stype));
  c_dirs : list (dplace * list (directive * ddef));
  c_impls : list (name * list object_def);
  c_all : option (list (name * tdef) * list (name * ddef)) }.
(** [Cache::new] (cache.rs:13-20) *)
Definition fresh : cache :=
  {| c_types := []; c_ddefs := []; c_index := []; c_fields := []; c_ifaces := []; c_members := []; c_values := []; c_inputs := [];
     c_dirs := []; c_impls := []; c_all := None |}.
Definition set_types x c := {| c_types := x; c_ddefs := c_ddefs c; c_index := c_index c; c_fields := c_fields c; c_ifaces := c_ifaces c; c_members := c_members c; c_values := c_values c; c_inputs := c_inputs c; c_dirs := c_dirs c; c_impls := c_impls c; c_all := c_all c |}.
Definition set_ddefs x c := {| c_types := c_types c; c_ddefs := x; c_index := c_index c; c_fields := c_fields c; c_ifaces := c_ifaces c; c_members := c_members c; c_values := c_values c; c_inputs := c_inputs c; c_dirs := c_dirs c; c_impls := c_impls c; c_all := c_all c |}.
Definition set_index x c := {| c_types := c_types c; c_ddefs := c_ddefs c; c_index := x; c_fields := c_fields c; c_ifaces := c_ifaces c; c_members := c_members c; c_values := c_values c; c_inputs := c_inputs c; c_dirs := c_dirs c; c_impls := c_impls c; c_all := c_all c |}.
Definition set_fields x c := {| c_types := c_types c; c_ddefs := c_ddefs c; c_index := c_index c; c_fields := x; c_ifaces := c_ifaces c; c_members := c_members c; c_values := c_values c; c_inputs := c_inputs c; c_dirs := c_dirs c; c_impls := c_impls c; c_all := c_all c |}.
Definition set_ifaces x c := {| c_types := c_types c; c_ddefs := c_ddefs c; c_index := c_index c; c_fields := c_fields c; c_ifaces := x; c_members := c_members c; c_values := c_values c; c_inputs := c_inputs c; c_dirs := c_dirs c; c_impls := c_impls c; c_all := c_all c |}.
Definition set_members x c := {| c_types := c_types c; c_ddefs := c_ddefs c; c_index := c_index c; c_fields := c_fields c; c_ifaces := c_ifaces c; c_members := x; c_values := c_values c; c_inputs := c_inputs c; c_dirs := c_dirs c; c_impls := c_impls c; c_all := c_all c |}.
Definition set_values x c := {| c_types := c_types c; c_ddefs := c_ddefs c; c_index := c_index c; c_fields := c_fields c; c_ifaces := c_ifaces c; c_members := c_members c; c_values := x; c_inputs := c_inputs c; c_dirs := c_dirs c; c_impls := c_impls c; c_all := c_all c |}.
Definition set_inputs x c := {| c_types := c_types c; c_ddefs := c_ddefs c; c_index := c_index c; c_fields := c_fields c; c_ifaces := c_ifaces c; c_members := c_members c; c_values := c_values c; c_inputs := x; c_dirs := c_dirs c; c_impls := c_impls c; c_all := c_all c |}.
Definition set_dirs x c := {| c_types := c_types c; c_ddefs := c_ddefs c; c_index := c_index c; c_fields := c_fields c; c_ifaces := c_ifaces c; c_members := c_members c; c_values := c_values c; c_inputs := c_inputs c; c_dirs := x; c_impls := c_impls c; c_all := c_all c |}.
Definition set_impls x c := {| c_types := c_types c; c_ddefs := c_ddefs c; c_index := c_index c; c_fields := c_fields c; c_ifaces := c_ifaces c; c_members := c_members c; c_values := c_values c; c_inputs := c_inputs c; c_dirs := c_dirs c; c_impls := x; c_all := c_all c |}.
Definition set_all x c := {| c_types := c_types c; c_ddefs := c_ddefs c; c_index := c_index c; c_fields := c_fields c; c_ifaces := c_ifaces c; c_members := c_members c; c_values := c_values c; c_inputs := c_inputs c; c_dirs := c_dirs c; c_impls := c_impls c; c_all := x |}.

(** Computations on the caches. [Panic]: an [unwrap], [expect] or [panic!] is reached; [NoFuel]: the recursion of the model ran out
    of its bound, which is proved not to happen. *)
Inductive res (A : Type) := Ok (a : A) (c : cache) | Panic | NoFuel.
Arguments Ok {A}. Arguments Panic {A}. Arguments NoFuel {A}.
Definition M (A : Type) := cache -> res A.
Definition ret {A} (a : A) : M A := fun c => Ok a c.
Definition bind {A B} (m : M A) (f : A -> M B) : M B := fun c => match m c with Ok a c' => f a c' | Panic => Panic | NoFuel => NoFuel end.
Notation "'let!' x := m 'in' k" := (bind m (fun x => k)) (at level 200, x pattern, m at level 100, k at level 200).
Definition panic {A} : M A := fun _ => Panic.
(** [Option::unwrap] *)
Definition unwrap {A} (o : option A) : M A := match o with Some a => ret a | None => panic end.
Fixpoint filter_mapM {A B} (f : A -> M (option B)) (l : list A) : M (list B) :=
  match l with
  | [] => ret []
  | x :: l' => let! o := f x in let! r := filter_mapM f l' in ret (match o with Some y => y :: r | None => r end)
  end.
Fixpoint find_mapM {A B} (f : A -> M (option B)) (l : list A) : M (option B) :=
  match l with [] => ret None | x :: l' => let! o := f x in match o with Some y => ret (Some y) | None => find_mapM f l' end end.
Fixpoint foldM {A B} (f : A -> B -> M B) (l : list A) (b : B) : M B :=
  match l with [] => ret b | x :: l' => let! b' := f x b in foldM f l' b' end.
(** a map kept as a list *)
Fixpoint lookup {K A} (dec : forall a b : K, {a = b} + {a <> b}) (k : K) (l : list (K * A)) : option A :=
  match l with [] => None | (k', a) :: l' => if dec k k' then Some a else lookup dec k l' end.
(** [OnceCell::get_or_init]: the cell of [k] *)
Definition get_or_init {K A} dec (get : cache -> list (K * A)) (set : list (K * A) -> cache -> cache) (k : K) (init : M A) : M A := fun c =>
  match lookup dec k (get c) with
  | Some a => Ok a c
  | None => match init c with Ok a c' => Ok a (set ((k, a) :: get c') c') | Panic => Panic | NoFuel => NoFuel end
  end.
Fixpoint numbered_from {A} (n : nat) (l : list A) : list (nat * A) := match l with [] => [] | x :: l' => (n, x) :: numbered_from (S n) l' end.
Definition numbered {A} (l : list A) : list (nat * A) := numbered_from 0 l.

Section Scoped.
  Variable S : schema.
  Variable W : warden.

  (** cache.rs:71-106 [Cache::type_definitions_equal] *)
  Definition types_equal (a b : tdef) : bool :=
    match a, b with
    | DBuiltin x, DBuiltin y => teqb (builtin_name x) (builtin_name y)
    | DScalar _, DScalar _ | DEnum _, DEnum _ | DInput _, DInput _ | DInterface _, DInterface _ | DObject _, DObject _ | DUnion _, DUnion _ => w_equal W a b
    | _, _ => false
    end.
  (** type_definition.rs:21-47 [TypeDefinition::new]: whether it is [Some] *)
  Definition type_new (t : tdef) : bool := match t with DBuiltin _ => true | _ => w_type W t end.
  (** cache.rs:30-43 [Cache::get_or_create_type_definition] *)
  Definition get_or_create_type (t : tdef) : M (option tdef) := fun c =>
    match lookup name_dec (td_name t) (c_types c) with
    | Some e => Ok (if types_equal e t then Some e else None) c
    | None => if type_new t then Ok (Some t) (set_types ((td_name t, t) :: c_types c) c) else Ok None c
    end.
  (** cache.rs:52-64 [Cache::get_or_create_directive_definition], directive_definition.rs:12-21 [DirectiveDefinition::new] *)
  Definition get_or_create_ddef (d : ddef) : M (option ddef) := fun c =>
    match lookup name_dec (dd_name d) (c_ddefs c) with
    | Some e => Ok (Some e) c
    | None => if w_ddef W d then Ok (Some d) (set_ddefs ((dd_name d, d) :: c_ddefs c) c) else Ok None c
    end.

  (** output_type.rs:16-57 [OutputType::new], [new_base]; [as_ref] of the underlying type looks the base type up *)
  Fixpoint output_type (r : tref) : M (option stype) :=
    match r with
    | TBase n req =>
        let! t := unwrap (output_lookup S (TBase n req)) in
        let! o := get_or_create_type t in
        match o with
        | Some (DInput _) => panic
        | Some u => ret (Some (TBase (td_name u) req, u))
        | None => ret None
        end
    | TList i req => let! o := output_type i in ret (match o with Some (i', u) => Some (TList i' req, u) | None => None end)
    end.
  (** input_type.rs:16-54 [InputType::new], [new_base] *)
  Fixpoint input_type (r : tref) : M (option stype) :=
    match r with
    | TBase n req =>
        let! t := unwrap (input_lookup S (TBase n req)) in
        let! o := get_or_create_type t in
        match o with
        | Some (DObject _) | Some (DInterface _) | Some (DUnion _) => panic
        | Some u => ret (Some (TBase (td_name u) req, u))
        | None => ret None
        end
    | TList i req => let! o := input_type i in ret (match o with Some (i', u) => Some (TList i' req, u) | None => None end)
    end.

  (** field_definition.rs:15-31 [FieldDefinition::new] *)
  Definition field_new (t : name) (f : fdef) : M (option (fdef * stype)) :=
    if w_field W t f then let! o := output_type (fd_type f) in ret (option_map (pair f) o) else ret None.
  Definition index_insert (t : name) (x : fdef * stype) : M (fdef * stype) := fun c => Ok x (set_index (((t, fd_name (fst x)), x) :: c_index c) c).
  Definition index_get (t n : name) : M (option (fdef * stype)) := fun c => Ok (lookup pair_dec (t, n) (c_index c)) c.
  (** fields_definition.rs:34-58 [FieldsDefinition::iter] *)
  Definition fields (t : name) (fs : list fdef) : M (list (fdef * stype)) :=
    get_or_init name_dec c_fields set_fields t
      (filter_mapM (fun f =>
         if w_field W t f then
           let! o := index_get t (fd_name f) in
           match o with
           | Some x => ret (Some x)
           | None => let! o' := field_new t f in match o' with Some x => let! y := index_insert t x in ret (Some y) | None => ret None end
           end
         else ret None) fs).
  (** fields_definition.rs:67-88 [FieldsDefinition::get] *)
  Definition field_get (t n : name) (fs : list fdef) : M (option (fdef * stype)) :=
    let! o := index_get t n in
    match o with
    | Some x => ret (Some x)
    | None =>
        let! o' := find_mapM (field_new t) (filter (fun f => teqb (fd_name f) n) fs) in
        match o' with Some x => let! y := index_insert t x in ret (Some y) | None => ret None end
    end.
  (** input_value_definition.rs:12-31 [InputValueDefinition::new] *)
  Definition input_new (p : place) (i : ivd) : M (option (ivd * stype)) :=
    if w_input W p i then let! o := input_type (iv_type i) in ret (option_map (pair i) o) else ret None.
  (** arguments_definition.rs:28-37, input_fields_definition.rs:28-37 [iter] *)
  Definition inputs (p : place) (l : list ivd) : M (list (ivd * stype)) :=
    get_or_init place_dec c_inputs set_inputs p (filter_mapM (input_new p) l).
  (** interface_implementation.rs:9-31 [InterfaceImplementation::new] *)
  Definition implements_new (t n : name) : M (option iface_def) :=
    if w_implements W t n then
      let! i := unwrap (interface_lookup S n) in
      let! o := get_or_create_type (DInterface i) in
      match o with Some (DInterface j) => ret (Some j) | Some _ => panic | None => ret None end
    else ret None.
  (** interface_implementations.rs:28-37 [iter] *)
  Definition interfaces (t : name) (l : list name) : M (list iface_def) :=
    get_or_init name_dec c_ifaces set_ifaces t (filter_mapM (implements_new t) l).
  (** union_member_type.rs:9-29 [UnionMemberType::new] *)
  Definition member_new (t n : name) : M (option (name * object_def)) :=
    if w_member W t n then
      let! o := unwrap (member_lookup S n) in
      let! x := get_or_create_type (DObject o) in
      match x with Some (DObject o') => ret (Some (n, o')) | Some _ => panic | None => ret None end
    else ret None.
  (** union_member_types.rs:28-37 [iter] *)
  Definition members (t : name) (l : list name) : M (list (name * object_def)) :=
    get_or_init name_dec c_members set_members t (filter_mapM (member_new t) l).
  (** enum_value_definitions.rs:28-37 [iter], enum_value_definition.rs:12-25 [EnumValueDefinition::new] *)
  Definition values (t : name) (l : list evd) : M (list evd) :=
    get_or_init name_dec c_values set_values t (filter_mapM (fun v => ret (if w_value W t v then Some v else None)) l).
  (** directives.rs:34-49 [iter] *)
  Definition directives (p : dplace) (l : list directive) : M (list (directive * ddef)) :=
    get_or_init dplace_dec c_dirs set_dirs p
      (filter_mapM (fun d => let! e := unwrap (directive_lookup S d) in let! o := get_or_create_ddef e in ret (option_map (pair d) o)) l).
  (** schema_definition.rs:97-132 [get_interface_implementors] *)
  Definition scoped_implementors (n : name) : M (list object_def) :=
    get_or_init name_dec c_impls set_impls n
      (filter_mapM (fun o =>
         let! x := get_or_create_type (DObject o) in
         match x with
         | None => ret None
         | Some (DObject o') =>
             let! l := interfaces (ob_name o') (ob_ifaces o') in
             ret (if existsb (fun i => teqb (if_name i) n) l then Some o' else None)
         | Some _ => panic
         end) (implementors S n)).
  (** schema_definition.rs:184-196 [get_type_definition] *)
  Definition scoped_type (n : name) : M (option tdef) := fun c =>
    match lookup name_dec n (c_types c) with Some t => Ok (Some t) c | None => find_mapM get_or_create_type (w_candidates W n) c end.
  (** schema_definition.rs:87-93 [get_directive_definition] *)
  Definition scoped_ddef (n : name) : M (option ddef) := fun c =>
    match lookup name_dec n (c_ddefs c) with
    | Some d => Ok (Some d) c
    | None => match get_ddef S n with Some d => get_or_create_ddef d c | None => Ok None c end
    end.

  (** schema_definition.rs:41-70 [SchemaDefinition::new]; [None]: QueryRootNotVisible *)
  Record roots := { r_query : object_def; r_mutation : option object_def; r_subscription : option object_def }.
  Definition root_object (n : name) : M (option object_def) :=
    let! o := unwrap (member_lookup S n) in
    let! x := get_or_create_type (DObject o) in
    match x with Some (DObject o') => ret (Some o') | Some _ => panic | None => ret None end.
  Definition optional_root (n : option name) : M (option object_def) := match n with Some n => root_object n | None => ret None end.
  Definition new_schema : M (option roots) :=
    let! q := root_object (s_query S) in
    match q with
    | None => ret None
    | Some q =>
        let! m := optional_root (s_mutation S) in
        let! u := optional_root (s_subscription S) in
        ret (Some {| r_query := q; r_mutation := m; r_subscription := u |})
    end.

  (** schema_definition.rs:260-481 [VisibilityVisitor]: the two maps *)
  Definition visited := (list (name * tdef) * list (name * ddef))%type.
  Section Visitor.
    (** [visit_type_definition] and [visit_directive_definition] *)
    Variable visit : tdef + ddef -> visited -> M visited.
    (** (:400-415) *)
    Definition visit_directives (p : dplace) (l : list directive) (v : visited) : M visited :=
      let! ds := directives p l in
      foldM (fun d v => let! o := scoped_ddef (dir_name (fst d)) in match o with Some e => visit (inr e) v | None => ret v end) ds v.
    (** (:453-472) [visit_arguments_definition], [visit_input_value_definition] *)
    Definition visit_inputs (p : place) (l : list ivd) (v : visited) : M visited :=
      let! is := inputs p l in
      foldM (fun x v => let! v' := visit_directives (OnInput p (fst x)) (iv_dirs (fst (snd x))) v in visit (inl (snd (snd (snd x)))) v') (numbered is) v.
    (** (:434-451) [visit_fields_definition], [visit_field_definition] *)
    Definition visit_fields (t : name) (l : list fdef) (v : visited) : M visited :=
      let! fs := fields t l in
      foldM (fun x v =>
        let! v1 := visit_directives (OnField t (fd_name (fst x))) (fd_dirs (fst x)) v in
        let! v2 := visit_inputs (PArgument t (fd_name (fst x))) (fd_args (fst x)) v1 in
        visit (inl (snd (snd x))) v2) fs v.
    (** (:474-481) *)
    Definition visit_interfaces (t : name) (l : list name) (v : visited) : M visited :=
      let! is := interfaces t l in foldM (fun i v => visit (inl (DInterface i)) v) is v.
    (** (:329-398) *)
    Definition visit_members (t : tdef) (v : visited) : M visited :=
      match t with
      | DBuiltin _ => ret v
      | DScalar d => visit_directives (OnType (sc_name d)) (sc_dirs d) v
      | DObject d =>
          let! v1 := visit_directives (OnType (ob_name d)) (ob_dirs d) v in
          let! v2 := visit_fields (ob_name d) (ob_fields d) v1 in
          visit_interfaces (ob_name d) (ob_ifaces d) v2
      | DInterface d =>
          let! v1 := visit_directives (OnType (if_name d)) (if_dirs d) v in
          let! v2 := visit_fields (if_name d) (if_fields d) v1 in
          let! v3 := visit_interfaces (if_name d) (if_ifaces d) v2 in
          let! os := scoped_implementors (if_name d) in
          foldM (fun o v => visit (inl (DObject o)) v) os v3
      | DUnion d =>
          let! v1 := visit_directives (OnType (un_name d)) (un_dirs d) v in
          let! ms := members (un_name d) (un_members d) in
          foldM (fun m v => visit (inl (DObject (snd m))) v) ms v1
      | DEnum d =>
          let! v1 := visit_directives (OnType (en_name d)) (en_dirs d) v in
          let! vs := values (en_name d) (en_values d) in
          foldM (fun x v => visit_directives (OnValue (en_name d) (fst x)) (ev_dirs (snd x)) v) (numbered vs) v1
      | DInput d =>
          let! v1 := visit_directives (OnType (io_name d)) (io_dirs d) v in
          visit_inputs (PInputField (io_name d)) (io_fields d) v1
      end.
  End Visitor.
  (** (:305-327) [visit_type_definition], (:417-432) [visit_directive_definition] *)
  Fixpoint visit (fuel : nat) (x : tdef + ddef) (v : visited) : M visited :=
    match fuel with
    | O => fun _ => NoFuel
    | Datatypes.S fuel' =>
        match x with
        | inl t => match assoc (td_name t) (fst v) with
                   | Some _ => ret v
                   | None => visit_members (visit fuel') t (tinsert (td_name t) t (fst v), snd v)
                   end
        | inr d => match assoc (dd_name d) (snd v) with
                   | Some _ => ret v
                   | None => visit_inputs (visit fuel') (PDirectiveArgument (dd_name d)) (dd_args d) (fst v, tinsert (dd_name d) d (snd v))
                   end
        end
    end.
  (** (:272-303) [VisibilityVisitor::visit] *)
  Definition visit_root (fuel : nat) (o : option object_def) (v : visited) : M visited :=
    match o with Some o => visit fuel (inl (DObject o)) v | None => ret v end.
  Definition visit_schema (r : roots) : M visited :=
    let fuel := Datatypes.S (length (s_types S) + length (s_ddefs S)) in
    let! v := foldM (fun d v =>
      if dd_builtin d || existsb dloc_executable (dd_locs d) then
        let! o := get_or_create_ddef d in
        match o with Some e => visit fuel (inr e) v | None => ret v end
      else ret v) (s_ddefs S) ([], []) in
    let! v := visit fuel (inl (DObject (r_query r))) v in
    let! v := visit_root fuel (r_mutation r) v in
    visit_root fuel (r_subscription r) v.
  (** (:80-85) [type_definitions_and_directive_definitions] *)
  Definition all_definitions (r : roots) : M visited := fun c =>
    match c_all c with
    | Some v => Ok v c
    | None => match visit_schema r c with Ok v c' => Ok v (set_all (Some v) c') | Panic => Panic | NoFuel => NoFuel end
    end.

  (** * Lookups *)
  (** What can be asked. A lookup on a scoped definition needs a reference to it, which an earlier lookup has given. *)
  Inductive op :=
  | OType (n : name) | ODirectiveDef (n : name) | OTypes | ODirectiveDefs | OQuery | OMutation | OSubscription
  | OFields (t : name) | OField (t n : name) | OInterfaces (t : name) | OMembers (t : name) | OValues (t : name) | OInputFields (t : name)
  | OArguments (t f : name) | ODirectiveArguments (d : name) | OImplementors (i : name) | ODirectives (p : dplace)
  | ODefault (p : place) (k : nat) | OGiven (p : dplace) (k : nat).
  Inductive answer :=
  | AType (o : option tdef) | ADirectiveDef (o : option ddef) | ATypes (l : list tdef) | ADirectiveDefs (l : list ddef) | AObject (o : option object_def)
  | AFields (l : list (fdef * stype)) | AField (o : option (fdef * stype)) | AInterfaces (l : list iface_def) | AMembers (l : list (name * object_def))
  | AValues (l : list evd) | AInputs (l : list (ivd * stype)) | AObjects (l : list object_def) | ADirectives (l : list (directive * ddef))
  | AValue (o : option value) | AArguments (l : list argument).
  Definition answered {A} (k : A -> answer) (m : M A) : M answer := let! a := m in ret (k a).

  (** [None]: there is no reference to the definition yet, so the lookup cannot be made *)
  Definition held (t : name) (c : cache) : option tdef := lookup name_dec t (c_types c).
  Definition run_directives (p : dplace) (c : cache) : option (M (list (directive * ddef))) :=
    match p with
    | OnSchema => Some (directives p (s_dirs S))
    | OnType t =>
        match held t c with
        | Some (DScalar d) => Some (directives p (sc_dirs d)) | Some (DObject d) => Some (directives p (ob_dirs d))
        | Some (DInterface d) => Some (directives p (if_dirs d)) | Some (DUnion d) => Some (directives p (un_dirs d))
        | Some (DEnum d) => Some (directives p (en_dirs d)) | Some (DInput d) => Some (directives p (io_dirs d))
        | _ => None
        end
    | OnField t f => match lookup pair_dec (t, f) (c_index c) with Some x => Some (directives p (fd_dirs (fst x))) | None => None end
    | OnValue t k =>
        match lookup name_dec t (c_values c) with
        | Some l => match nth_error l k with Some v => Some (directives p (ev_dirs v)) | None => None end
        | None => None
        end
    | OnInput q k =>
        match lookup place_dec q (c_inputs c) with
        | Some l => match nth_error l k with Some x => Some (directives p (iv_dirs (fst x))) | None => None end
        | None => None
        end
    end.
  Definition run (r : roots) (o : op) (c : cache) : option (res answer) :=
    match o with
    | OType n => Some (answered AType (scoped_type n) c)
    | ODirectiveDef n => Some (answered ADirectiveDef (scoped_ddef n) c)
    | OTypes => Some (answered (fun v => ATypes (map snd (fst v))) (all_definitions r) c)
    | ODirectiveDefs => Some (answered (fun v => ADirectiveDefs (map snd (snd v))) (all_definitions r) c)
    | OQuery => Some (Ok (AObject (Some (r_query r))) c)
    | OMutation => Some (Ok (AObject (r_mutation r)) c)
    | OSubscription => Some (Ok (AObject (r_subscription r)) c)
    | OFields t => match held t c with Some d => if td_composite d then Some (answered AFields (fields t (td_fields d)) c) else None | None => None end
    | OField t n => match held t c with Some d => if td_composite d then Some (answered AField (field_get t n (td_fields d)) c) else None | None => None end
    | OInterfaces t =>
        match held t c with
        | Some (DObject d) => Some (answered AInterfaces (interfaces t (ob_ifaces d)) c)
        | Some (DInterface d) => Some (answered AInterfaces (interfaces t (if_ifaces d)) c)
        | _ => None
        end
    | OMembers t => match held t c with Some (DUnion d) => Some (answered AMembers (members t (un_members d)) c) | _ => None end
    | OValues t => match held t c with Some (DEnum d) => Some (answered AValues (values t (en_values d)) c) | _ => None end
    | OInputFields t => match held t c with Some (DInput d) => Some (answered AInputs (inputs (PInputField t) (io_fields d)) c) | _ => None end
    | OArguments t f =>
        match lookup pair_dec (t, f) (c_index c) with Some x => Some (answered AInputs (inputs (PArgument t f) (fd_args (fst x))) c) | None => None end
    | ODirectiveArguments d =>
        match lookup name_dec d (c_ddefs c) with Some e => Some (answered AInputs (inputs (PDirectiveArgument d) (dd_args e)) c) | None => None end
    | OImplementors i => match held i c with Some (DInterface _) => Some (answered AObjects (scoped_implementors i) c) | _ => None end
    | ODirectives p => match run_directives p c with Some m => Some (answered ADirectives m c) | None => None end
    | ODefault p k =>
        match lookup place_dec p (c_inputs c) with
        | Some l => match nth_error l k with Some x => Some (Ok (AValue (w_default W p (fst x))) c) | None => None end
        | None => None
        end
    | OGiven p k =>
        match lookup dplace_dec p (c_dirs c) with
        | Some l => match nth_error l k with Some x => Some (Ok (AArguments (w_arguments W p (fst x))) c) | None => None end
        | None => None
        end
    end.
  (** a history: [new], then lookups *)
  Inductive history (r : roots) : cache -> Prop :=
  | h_new c : new_schema fresh = Ok (Some r) c -> history r c
  | h_step c o a c' : history r c -> run r o c = Some (Ok a c') -> history r c'.
End Scoped.
