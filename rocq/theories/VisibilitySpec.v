(** What may be seen of a schema through a warden, without any caches. *)
From Coq Require Import Sorted.
From Verif Require Import Base Ast Maps Resolve ResolveSpec DocRules Visibility.

(** the [Some] results of [f], in order *)
Fixpoint filter_map {A B} (f : A -> option B) (l : list A) : list B :=
  match l with [] => [] | x :: l' => match f x with Some y => y :: filter_map f l' | None => filter_map f l' end end.

Section Spec.
  Variable S : schema.
  Variable W : warden.

  (** built-in scalars cannot be hidden *)
  Definition type_visible (t : tdef) : bool := match t with DBuiltin _ => true | _ => w_type W t end.
  (** the visible definitions with a name *)
  Definition visible_type (n : name) : option tdef := match get_type S n with Some t => if type_visible t then Some t else None | None => None end.
  Definition visible_object (n : name) : option object_def := match visible_type n with Some (DObject o) => Some o | _ => None end.
  Definition visible_interface (n : name) : option iface_def := match visible_type n with Some (DInterface i) => Some i | _ => None end.
  Definition visible_ddef (n : name) : option ddef := match get_ddef S n with Some d => if w_ddef W d then Some d else None | None => None end.
  (** a type whose base type is visible *)
  Definition visible_ref (r : tref) : option stype := option_map (pair r) (visible_type (tref_base r)).

  (** the visible members, in the order of the schema: the warden shows the member and its type *)
  Definition visible_fields (t : name) : list fdef -> list (fdef * stype) :=
    filter_map (fun f => if w_field W t f then option_map (pair f) (visible_ref (fd_type f)) else None).
  Definition visible_inputs (p : place) : list ivd -> list (ivd * stype) :=
    filter_map (fun i => if w_input W p i then option_map (pair i) (visible_ref (iv_type i)) else None).
  Definition visible_interfaces (t : name) : list name -> list iface_def :=
    filter_map (fun n => if w_implements W t n then visible_interface n else None).
  Definition visible_members (t : name) : list name -> list (name * object_def) :=
    filter_map (fun n => if w_member W t n then option_map (pair n) (visible_object n) else None).
  Definition visible_values (t : name) : list evd -> list evd := filter (w_value W t).
  Definition visible_directives : list directive -> list (directive * ddef) :=
    filter_map (fun d => option_map (pair d) (visible_ddef (dir_name d))).
  (** the visible objects that visibly implement the interface *)
  Definition visible_implementors (n : name) : list object_def :=
    filter_map (fun o => if type_visible (DObject o) && existsb (fun i => teqb (if_name i) n) (visible_interfaces (ob_name o) (ob_ifaces o))
                         then Some o else None) (implementors S n).
  Definition td_interfaces (t : tdef) : list name := match t with DObject o => ob_ifaces o | DInterface i => if_ifaces i | _ => [] end.

  (** * Places *)
  Definition visible_field (t f : name) (x : fdef * stype) : Prop :=
    exists d, visible_type t = Some d /\ In x (visible_fields t (td_fields d)) /\ fd_name (fst x) = f.
  Inductive inputs_at : place -> list ivd -> Prop :=
  | ia_argument t f x : visible_field t f x -> inputs_at (PArgument t f) (fd_args (fst x))
  | ia_input_field t d : visible_type t = Some (DInput d) -> inputs_at (PInputField t) (io_fields d)
  | ia_directive d e : visible_ddef d = Some e -> inputs_at (PDirectiveArgument d) (dd_args e).
  Inductive directives_at : dplace -> list directive -> Prop :=
  | da_schema : directives_at OnSchema (s_dirs S)
  | da_type t d : visible_type t = Some d -> directives_at (OnType t) (own_directives d)
  | da_field t f x : visible_field t f x -> directives_at (OnField t f) (fd_dirs (fst x))
  | da_value t d k v : visible_type t = Some (DEnum d) -> nth_error (visible_values t (en_values d)) k = Some v -> directives_at (OnValue t k) (ev_dirs v)
  | da_input p l k x : inputs_at p l -> nth_error (visible_inputs p l) k = Some x -> directives_at (OnInput p k) (iv_dirs (fst x)).

  (** * The reachable part *)
  Definition node := (tdef + ddef)%type.
  (** what a list of applied directives, of arguments or input fields, of fields visibly refers to *)
  Inductive directive_of (l : list directive) : node -> Prop :=
  | do_intro d e : In (d, e) (visible_directives l) -> directive_of l (inr e).
  Inductive input_of (p : place) (l : list ivd) : node -> Prop :=
  | io_directive x z : In x (visible_inputs p l) -> directive_of (iv_dirs (fst x)) z -> input_of p l z
  | io_type x : In x (visible_inputs p l) -> input_of p l (inl (snd (snd x))).
  Inductive field_of (t : name) (l : list fdef) : node -> Prop :=
  | fo_directive x z : In x (visible_fields t l) -> directive_of (fd_dirs (fst x)) z -> field_of t l z
  | fo_argument x z : In x (visible_fields t l) -> input_of (PArgument t (fd_name (fst x))) (fd_args (fst x)) z -> field_of t l z
  | fo_type x : In x (visible_fields t l) -> field_of t l (inl (snd (snd x))).
  Inductive mentions : node -> node -> Prop :=
  | mn_directive t z : directive_of (own_directives t) z -> mentions (inl t) z
  | mn_object_field o z : field_of (ob_name o) (ob_fields o) z -> mentions (inl (DObject o)) z
  | mn_interface_field i z : field_of (if_name i) (if_fields i) z -> mentions (inl (DInterface i)) z
  | mn_interface t i : In i (visible_interfaces (td_name t) (td_interfaces t)) -> mentions (inl t) (inl (DInterface i))
  | mn_implementor i o : In o (visible_implementors (if_name i)) -> mentions (inl (DInterface i)) (inl (DObject o))
  | mn_member u m : In m (visible_members (un_name u) (un_members u)) -> mentions (inl (DUnion u)) (inl (DObject (snd m)))
  | mn_value e v z : In v (visible_values (en_name e) (en_values e)) -> directive_of (ev_dirs v) z -> mentions (inl (DEnum e)) z
  | mn_input i z : input_of (PInputField (io_name i)) (io_fields i) z -> mentions (inl (DInput i)) z
  | mn_ddef d z : input_of (PDirectiveArgument (dd_name d)) (dd_args d) z -> mentions (inr d) z.
  (** where directives stand in executable documents *)
  Definition in_documents (l : dloc) : Prop :=
    In l [LQuery; LMutation; LSubscription; LField; LFragmentDefinition; LFragmentSpread; LInlineFragment; LVariableDefinition].
  (** from the root operation types, the built-in directives and the directives for operations *)
  Inductive reached : node -> Prop :=
  | re_root n o : s_query S = n \/ s_mutation S = Some n \/ s_subscription S = Some n -> visible_object n = Some o -> reached (inl (DObject o))
  | re_ddef d : In d (s_ddefs S) -> w_ddef W d = true -> dd_builtin d = true \/ (exists l, In l (dd_locs d) /\ in_documents l) -> reached (inr d)
  | re_step x y : reached x -> mentions x y -> reached y.
  (** exactly the reachable definitions, listed by name *)
  Definition lists_types (l : list tdef) : Prop := StronglySorted tlt (map td_name l) /\ forall t, In t l <-> reached (inl t).
  Definition lists_ddefs (l : list ddef) : Prop := StronglySorted tlt (map dd_name l) /\ forall d, In d l <-> reached (inr d).

  (** * Lookups *)
  Inductive answers : op -> answer -> Prop :=
  | as_type n : answers (OType n) (AType (visible_type n))
  | as_ddef n : answers (ODirectiveDef n) (ADirectiveDef (visible_ddef n))
  | as_types l : lists_types l -> answers OTypes (ATypes l)
  | as_ddefs l : lists_ddefs l -> answers ODirectiveDefs (ADirectiveDefs l)
  | as_query : answers OQuery (AObject (visible_object (s_query S)))
  | as_mutation : answers OMutation (AObject (match s_mutation S with Some n => visible_object n | None => None end))
  | as_subscription : answers OSubscription (AObject (match s_subscription S with Some n => visible_object n | None => None end))
  | as_fields t d : visible_type t = Some d -> answers (OFields t) (AFields (visible_fields t (td_fields d)))
  | as_field t d n : visible_type t = Some d ->
      answers (OField t n) (AField (find (fun x => teqb (fd_name (fst x)) n) (visible_fields t (td_fields d))))
  | as_interfaces t d : visible_type t = Some d -> answers (OInterfaces t) (AInterfaces (visible_interfaces t (td_interfaces d)))
  | as_members t d : visible_type t = Some (DUnion d) -> answers (OMembers t) (AMembers (visible_members t (un_members d)))
  | as_values t d : visible_type t = Some (DEnum d) -> answers (OValues t) (AValues (visible_values t (en_values d)))
  | as_input_fields t l : inputs_at (PInputField t) l -> answers (OInputFields t) (AInputs (visible_inputs (PInputField t) l))
  | as_arguments t f l : inputs_at (PArgument t f) l -> answers (OArguments t f) (AInputs (visible_inputs (PArgument t f) l))
  | as_ddef_arguments d l : inputs_at (PDirectiveArgument d) l -> answers (ODirectiveArguments d) (AInputs (visible_inputs (PDirectiveArgument d) l))
  | as_implementors i : answers (OImplementors i) (AObjects (visible_implementors i))
  | as_directives p l : directives_at p l -> answers (ODirectives p) (ADirectives (visible_directives l))
  | as_default p l k x : inputs_at p l -> nth_error (visible_inputs p l) k = Some x -> answers (ODefault p k) (AValue (w_default W p (fst x)))
  | as_given p l k x : directives_at p l -> nth_error (visible_directives l) k = Some x -> answers (OGiven p k) (AArguments (w_arguments W p (fst x))).

  (** * Nothing hidden is in an answer *)
  Definition shown (t : tdef) : Prop := In t (s_types S) /\ type_visible t = true.
  Definition shown_type (n : name) (t : tdef) : Prop := shown t /\ td_name t = n.
  Definition shown_ddef (n : name) (d : ddef) : Prop := In d (s_ddefs S) /\ dd_name d = n /\ w_ddef W d = true.
  Definition shown_ref (r : tref) (x : stype) : Prop := fst x = r /\ shown_type (tref_base r) (snd x).
  Definition shown_field (t : name) (x : fdef * stype) : Prop :=
    (exists d, shown_type t d /\ In (fst x) (td_fields d)) /\ w_field W t (fst x) = true /\ shown_ref (fd_type (fst x)) (snd x).
  Definition shown_inputs_at (p : place) (l : list ivd) : Prop :=
    match p with
    | PArgument t f => exists x, shown_field t x /\ fd_name (fst x) = f /\ l = fd_args (fst x)
    | PInputField t => exists d, shown_type t (DInput d) /\ l = io_fields d
    | PDirectiveArgument n => exists d, shown_ddef n d /\ l = dd_args d
    end.
  Definition shown_input (p : place) (x : ivd * stype) : Prop :=
    (exists l, shown_inputs_at p l /\ In (fst x) l) /\ w_input W p (fst x) = true /\ shown_ref (iv_type (fst x)) (snd x).
  Definition shown_value (t : name) (v : evd) : Prop := (exists d, shown_type t (DEnum d) /\ In v (en_values d)) /\ w_value W t v = true.
  Definition shown_interface (t : name) (i : iface_def) : Prop :=
    (exists d, shown_type t d /\ implements d (if_name i)) /\ w_implements W t (if_name i) = true /\ shown (DInterface i).
  Definition shown_member (t : name) (m : name * object_def) : Prop :=
    (exists d, shown_type t (DUnion d) /\ In (fst m) (un_members d)) /\ w_member W t (fst m) = true /\ shown_type (fst m) (DObject (snd m)).
  Definition shown_directive (p : dplace) (x : directive * ddef) : Prop :=
    match p with
    | OnSchema => In (fst x) (s_dirs S)
    | OnType t => exists d, shown_type t d /\ In (fst x) (own_directives d)
    | OnField t f => exists y, shown_field t y /\ fd_name (fst y) = f /\ In (fst x) (fd_dirs (fst y))
    | OnValue t k => exists v, shown_value t v /\ In (fst x) (ev_dirs v)
    | OnInput q k => exists y, shown_input q y /\ In (fst x) (iv_dirs (fst y))
    end /\ shown_ddef (dir_name (fst x)) (snd x).
  Definition nothing_hidden (o : op) (a : answer) : Prop :=
    match o, a with
    | OType n, AType x => forall t, x = Some t -> shown_type n t
    | ODirectiveDef n, ADirectiveDef x => forall d, x = Some d -> shown_ddef n d
    | OTypes, ATypes l => forall t, In t l -> shown t
    | ODirectiveDefs, ADirectiveDefs l => forall d, In d l -> shown_ddef (dd_name d) d
    | OQuery, AObject x => forall o, x = Some o -> shown_type (s_query S) (DObject o)
    | OMutation, AObject x => forall o, x = Some o -> exists n, s_mutation S = Some n /\ shown_type n (DObject o)
    | OSubscription, AObject x => forall o, x = Some o -> exists n, s_subscription S = Some n /\ shown_type n (DObject o)
    | OFields t, AFields l => forall x, In x l -> shown_field t x
    | OField t n, AField o => forall x, o = Some x -> shown_field t x /\ fd_name (fst x) = n
    | OInterfaces t, AInterfaces l => forall i, In i l -> shown_interface t i
    | OMembers t, AMembers l => forall m, In m l -> shown_member t m
    | OValues t, AValues l => forall v, In v l -> shown_value t v
    | OInputFields t, AInputs l => forall x, In x l -> shown_input (PInputField t) x
    | OArguments t f, AInputs l => forall x, In x l -> shown_input (PArgument t f) x
    | ODirectiveArguments d, AInputs l => forall x, In x l -> shown_input (PDirectiveArgument d) x
    | OImplementors i, AObjects l => forall o, In o l -> shown (DObject o) /\ exists d, shown_interface (ob_name o) d /\ if_name d = i
    | ODirectives p, ADirectives l => forall x, In x l -> shown_directive p x
    | ODefault p k, AValue v => exists x, shown_input p x /\ v = w_default W p (fst x)
    | OGiven p k, AArguments l => exists x, shown_directive p x /\ l = w_arguments W p (fst x)
    | _, _ => False
    end.

  (** A schema as resolution gives it (C13, C14), in which no type has two fields with one name, and a warden that finds the
      definitions of the schema by their names and tells no definition apart from itself. *)
  Record proper : Prop := {
    p_types : NoDup (map td_name (s_types S));
    p_ddefs : NoDup (map dd_name (s_ddefs S));
    p_fields : forall t, In t (s_types S) -> NoDup (map fd_name (td_fields t));
    p_references : references_ok (s_types S) (s_ddefs S);
    p_roots : roots_are_objects (s_types S) S;
    p_candidates : forall n t, In t (w_candidates W n) <-> get_type S n = Some t;
    p_equal : forall t, w_equal W t t = true }.

  (** * Everything is in the answer, and in the order of the schema *)
  Definition same_ref (r : tref) (x : stype) : Prop := fst x = r /\ get_type S (tref_base r) = Some (snd x).
  Definition same_inputs (l : list (ivd * stype)) (l0 : list ivd) : Prop := map fst l = l0 /\ forall x, In x l -> same_ref (iv_type (fst x)) (snd x).
  Definition plain_inputs_at (p : place) : option (list ivd) :=
    match p with
    | PArgument t f => match get_type S t with Some d => option_map fd_args (get_field (td_fields d) f) | None => None end
    | PInputField t => match get_type S t with Some (DInput d) => Some (io_fields d) | _ => None end
    | PDirectiveArgument n => option_map dd_args (get_ddef S n)
    end.
  Definition plain_directives_at (p : dplace) : option (list directive) :=
    match p with
    | OnSchema => Some (s_dirs S)
    | OnType t => option_map own_directives (get_type S t)
    | OnField t f => match get_type S t with Some d => option_map fd_dirs (get_field (td_fields d) f) | None => None end
    | OnValue t k => match get_type S t with Some (DEnum d) => option_map ev_dirs (nth_error (en_values d) k) | _ => None end
    | OnInput p k => match plain_inputs_at p with Some l => option_map iv_dirs (nth_error l k) | None => None end
    end.
  Definition nothing_missing (o : op) (a : answer) : Prop :=
    match o, a with
    | OType n, AType x => x = get_type S n
    | ODirectiveDef n, ADirectiveDef x => x = get_ddef S n
    | OTypes, ATypes l => StronglySorted tlt (map td_name l) /\ forall t, In t l <-> reached (inl t)
    | ODirectiveDefs, ADirectiveDefs l => StronglySorted tlt (map dd_name l) /\ forall d, In d l <-> reached (inr d)
    | OQuery, AObject x => exists o, x = Some o /\ get_type S (s_query S) = Some (DObject o)
    | OMutation, AObject x => option_map DObject x = match s_mutation S with Some n => get_type S n | None => None end
    | OSubscription, AObject x => option_map DObject x = match s_subscription S with Some n => get_type S n | None => None end
    | OFields t, AFields l => exists d, get_type S t = Some d /\ map fst l = td_fields d /\ forall x, In x l -> same_ref (fd_type (fst x)) (snd x)
    | OField t n, AField x => exists d, get_type S t = Some d /\ option_map fst x = get_field (td_fields d) n
    | OInterfaces t, AInterfaces l => exists d, get_type S t = Some d /\ map if_name l = td_interfaces d /\ forall i, In i l -> get_type S (if_name i) = Some (DInterface i)
    | OMembers t, AMembers l => exists d, get_type S t = Some (DUnion d) /\ map fst l = un_members d /\ forall m, In m l -> get_type S (fst m) = Some (DObject (snd m))
    | OValues t, AValues l => exists d, get_type S t = Some (DEnum d) /\ l = en_values d
    | OInputFields t, AInputs l => exists l0, plain_inputs_at (PInputField t) = Some l0 /\ same_inputs l l0
    | OArguments t f, AInputs l => exists l0, plain_inputs_at (PArgument t f) = Some l0 /\ same_inputs l l0
    | ODirectiveArguments d, AInputs l => exists l0, plain_inputs_at (PDirectiveArgument d) = Some l0 /\ same_inputs l l0
    | OImplementors i, AObjects l => l = implementors S i
    | ODirectives p, ADirectives l => exists l0, plain_directives_at p = Some l0 /\
        ((forall d, In d l0 -> get_ddef S (dir_name d) <> None) -> map fst l = l0) /\ forall x, In x l -> get_ddef S (dir_name (fst x)) = Some (snd x)
    | ODefault p k, AValue v => exists l i, plain_inputs_at p = Some l /\ nth_error l k = Some i /\ v = iv_default i
    | OGiven p k, AArguments l => exists ds d, plain_directives_at p = Some ds /\ (p <> OnSchema -> nth_error ds k = Some d) /\ In d ds /\ l = dir_args d
    | _, _ => False
    end.
End Spec.
