(** Generation of Rust types for a query document: model of bluejay-typegen-macro/src/validation/*.rs and
    src/executable_definition/intermediate_representation.rs. Descriptions (doc comments) are left out. *)
From Verif Require Import Base Ast Maps Doc DocRules.
Local Open Scope string_scope.
Local Open Scope list_scope.

(** * Validation *)
(** validation/error.rs:11-44 [Error]. Simplification: a selection set or inline fragment is represented by its type
    condition or not at all. *)
Inductive tgerr :=
| TInlineOnObject (c : option name)
| TInlineOnInterface (c : option name)
| TSpreadNotIsolated (n : name)
| TNoTypename
| TInlineNotMember (c : option name) (u : name)
| TRepeatedCondition (c : name) (count : nat)
| TFieldOnUnion (al : option name) (n : name)
| TSpreadInvalidTarget (n : name)
| TNameClash (n : name)
| TPanic.

Definition sel_spread (s : selection) : option name := match s with SSpread n _ => Some n | _ => None end.
Definition sel_inline (s : selection) : option (option name) := match s with SInline c _ _ => Some c | _ => None end.
Fixpoint find_map {A B} (f : A -> option B) (l : list A) : option B :=
  match l with [] => None | x :: l' => match f x with Some b => Some b | None => find_map f l' end end.
Fixpoint filter_map {A B} (f : A -> option B) (l : list A) : list B :=
  match l with [] => [] | x :: l' => match f x with Some b => b :: filter_map f l' | None => filter_map f l' end end.

(** selections_are_valid.rs:244-263 [isolated_fragment_spread] *)
Inductive isolation := IsoNone | IsoSpread (n : name) | IsoError (n : name).
Definition isolated (sels : list selection) : isolation :=
  match find_map sel_spread sels with
  | Some n => if negb (Nat.eqb (length sels) 1) then IsoError n else IsoSpread n
  | None => IsoNone
  end.

(** :218-240 [typename_first_selection]: is the first selection an unaliased __typename, and the other fields *)
Definition plain_typename (al : option name) (n : name) : bool :=
  match al with None => teqb n (tx "__typename") | Some _ => false end.
Definition typename_first (sels : list selection) : bool * list (option name * name) :=
  let fields := concat (mapi (fun i s => match s with SField al n _ _ _ => [(i, (al, n))] | _ => [] end) sels) in
  let is_first (x : nat * (option name * name)) := Nat.eqb (fst x) 0 && plain_typename (fst (snd x)) (snd (snd x)) in
  (existsb is_first fields, map snd (filter (fun x => negb (is_first x)) fields)).

Section Rule.
  Variable S : schema.
  Variable d : document.

  (** :53-69 [visit_object_selection_set] *)
  Definition object_set_errors (sels : list selection) : list tgerr :=
    match isolated sels with IsoError n => [TSpreadNotIsolated n] | _ => [] end ++
    map TInlineOnObject (filter_map sel_inline sels).
  (** :71-143 [visit_interface_selection_set] *)
  Definition interface_set_errors (i : iface_def) (sels : list selection) : list tgerr :=
    match isolated sels with
    | IsoSpread n =>
        match cached_fragment d n with
        | None => [TPanic]
        | Some f => if tmem (fr_cond f) (if_ifaces i ++ [if_name i]) then [] else [TSpreadInvalidTarget n]
        end
    | IsoNone => []
    | IsoError n => [TSpreadNotIsolated n]
    end ++
    map TInlineOnInterface (filter_map sel_inline sels).
  (** :145-213 [visit_union_selection_set] *)
  Definition union_set_errors (u : union_def) (sels : list selection) : list tgerr :=
    let rest :=
      let '(has_typename, others) := typename_first sels in
      let is_member (c : option name) := match c with Some n => tmem n (un_members u) | None => false end in
      let inlines := filter_map sel_inline sels in
      (if has_typename then [] else [TNoTypename]) ++
      map (fun f => TFieldOnUnion (fst f) (snd f)) others ++
      map (fun c => TInlineNotMember c (un_name u)) (filter (fun c => negb (is_member c)) inlines) ++
      map (fun g => TRepeatedCondition (fst g) (length (snd g)))
        (duplicates (fun c : option name => match c with Some n => n | None => [] end) (filter is_member inlines)) in
    match isolated sels with
    | IsoSpread _ => []
    | IsoNone => rest
    | IsoError n => TSpreadNotIsolated n :: rest
    end.
  (** :34-49 [visit_selection_set] *)
  Definition set_errors (sels : list selection) (t : tdef) : list tgerr :=
    match t with
    | DObject _ => object_set_errors sels
    | DUnion u => union_set_errors u sels
    | DInterface i => interface_set_errors i sels
    | _ => []
    end.
  (** fragment_and_operation_names_do_not_clash.rs:30-44 [visit_operation_definition]; names.rs:5
      [ANONYMOUS_OPERATION_STRUCT_NAME] *)
  Definition operation_item_name (o : operation) : name := match op_name o with Some n => n | None => tx "Root" end.
  Definition clash_errors (o : operation) : list tgerr :=
    match cached_fragment d (operation_item_name o) with Some _ => [TNameClash (operation_item_name o)] | None => [] end.
  (** validation.rs:9-12 [Rule], run by the orchestrator (executable_definition.rs:62-67) *)
  Definition typegen_errors (evs : list event) : list tgerr :=
    flat_map (fun e => match e with ESelSet sels t => set_errors sels t | _ => [] end) evs ++
    flat_map (fun e => match e with EOp o => clash_errors o | _ => [] end) evs.
End Rule.

(** * Intermediate representation *)
(** intermediate_representation.rs:18-32 [ExecutableType], :112-116 [WrappedExecutableType], :87-93 [ExecutableStruct],
    :104-109 [ExecutableEnum], :136-146 [ExecutableField], [ExecutableEnumVariant] *)
Inductive etype : Type :=
| EStruct (parent : name) (fields : list (name * wtype))
| EEnum (parent : name) (variants : list (name * list (name * wtype)))
| ERef (n : name) (borrows : bool)
| EBuiltin (b : builtin) (borrows : bool)
| ELeaf (n : name) (borrows : bool)
with wtype : Type :=
| WBase (e : etype)
| WOpt (w : wtype)
| WVec (w : wtype).

Section EtypeInd.
  Variable P : etype -> Prop.
  Variable Q : wtype -> Prop.
  Hypothesis HS : forall p fs, Forall (fun f => Q (snd f)) fs -> P (EStruct p fs).
  Hypothesis HE : forall p vs, Forall (fun v => Forall (fun f => Q (snd f)) (snd v)) vs -> P (EEnum p vs).
  Hypothesis HR : forall n b, P (ERef n b).
  Hypothesis HB : forall x b, P (EBuiltin x b).
  Hypothesis HL : forall n b, P (ELeaf n b).
  Hypothesis HWB : forall e, P e -> Q (WBase e).
  Hypothesis HWO : forall w, Q w -> Q (WOpt w).
  Hypothesis HWV : forall w, Q w -> Q (WVec w).
  Fixpoint etype_ind' (e : etype) : P e :=
    let fields := fix go (l : list (name * wtype)) : Forall (fun f => Q (snd f)) l :=
                    match l with [] => Forall_nil _ | f :: l' => Forall_cons f (wtype_ind' (snd f)) (go l') end in
    match e with
    | EStruct p fs => HS p fs (fields fs)
    | EEnum p vs =>
        HE p vs ((fix go (l : list (name * list (name * wtype))) : Forall (fun v => Forall (fun f => Q (snd f)) (snd v)) l :=
                    match l with [] => Forall_nil _ | v :: l' => Forall_cons v (fields (snd v)) (go l') end) vs)
    | ERef n b => HR n b
    | EBuiltin x b => HB x b
    | ELeaf n b => HL n b
    end
  with wtype_ind' (w : wtype) : Q w :=
    match w with
    | WBase e => HWB e (etype_ind' e)
    | WOpt w' => HWO w' (wtype_ind' w')
    | WVec w' => HWV w' (wtype_ind' w')
    end.
  Lemma etype_wtype_ind : (forall e, P e) /\ (forall w, Q w).
  Proof. split; [exact etype_ind'|exact wtype_ind']. Qed.
End EtypeInd.

(** the panics of the conversion *)
Inductive panic :=
| PNotIsolated          (* :275, :305 "contains a fragment spread and more than one selection" *)
| PNotOnlyFields        (* :283, :470 "does not contains exclusively fields" *)
| PNoSelections         (* :389, :417, :445 *)
| PNoField              (* :400, :428, :466 *)
| PNoCondition          (* :453 *)
| PNoMember             (* :457 *)
| PNoRoot               (* :224, :229 *)
| PNoType               (* :248 *)
| PNotOutput            (* :254 *)
| PNoAlias              (* lib.rs:53 *)
| PNoFragment           (* :516 *)
| POutOfFuel.           (* not in the code *)
Inductive built (A : Type) := Built (a : A) | Panics (p : panic).
Arguments Built {A} a.
Arguments Panics {A} p.
Definition bbind {A B} (x : built A) (f : A -> built B) : built B := match x with Built a => f a | Panics p => Panics p end.
Definition bmap {A B} (f : A -> B) (x : built A) : built B := bbind x (fun a => Built (f a)).
Fixpoint bseq {A} (l : list (built A)) : built (list A) :=
  match l with
  | [] => Built []
  | x :: l' => bbind x (fun a => bmap (cons a) (bseq l'))
  end.

Section Build.
  Variable S : schema.
  (** lib.rs:33-63 [Config]: the [borrow] option, and whether the type alias of a custom scalar borrows ([None]: there is
      no alias, [expect] panics). Simplification: [custom_scalar_borrows] looks the alias up by the scalar's name in
      Pascal case. *)
  Variable borrow : bool.
  Variable scalar_borrows : name -> option bool.

  (** builtin_scalar.rs:18-23 [scalar_is_reference], lib.rs:56-58 [builtin_scalar_borrows] *)
  Definition is_reference (b : builtin) : bool := match b with BID | BString => true | _ => false end.
  Definition builtin_borrows (b : builtin) : bool := borrow && is_reference b.

  (** :258-287 [fields_or_fragment_spread], :289-318 [inline_fragments_or_fragment_spread]: the fragment spread, if the set
      is one; otherwise [others] is called for the selections *)
  Definition spread_or (sels : list selection) (others : built etype) : built etype :=
    match find_map sel_spread sels with
    | Some n => if Nat.eqb (length sels) 1 then Built (ERef n false) else Panics PNotIsolated
    | None => others
    end.
  (** :339-368 [build_field_type]: the wrapping of a type around the base *)
  Fixpoint wrap (t : tref) (base : etype) : wtype :=
    match t with
    | TList inner req => let l := WVec (wrap inner base) in if req then l else WOpt l
    | TBase _ req => if req then WBase base else WOpt (WBase base)
    end.
  (** :370-489 [build_base_type]. [fields fds] are the fields of the set, on a type with the field definitions [fds];
      [variants u] the inline fragments. *)
  Definition build_base (parent : name) (t : tdef) (sels : list selection)
             (fields : list fdef -> built (list (name * wtype)))
             (variants : union_def -> built (list (name * list (name * wtype)))) : built etype :=
    match t with
    | DBuiltin b => Built (EBuiltin b (builtin_borrows b))
    | DScalar x => match scalar_borrows (sc_name x) with Some b => Built (ELeaf (sc_name x) b) | None => Panics PNoAlias end
    | DEnum x => Built (ELeaf (en_name x) false)
    | DObject o =>
        match sels with [] => Panics PNoSelections
        | _ => spread_or sels (bmap (EStruct parent) (fields (ob_fields o))) end
    | DInterface i =>
        match sels with [] => Panics PNoSelections
        | _ => spread_or sels (bmap (EStruct parent) (fields (if_fields i))) end
    | DUnion u =>
        match sels with [] => Panics PNoSelections
        | _ => spread_or sels (bmap (EEnum parent) (variants u)) end
    | DInput _ => Panics PNotOutput
    end.
  (** :455-458: the object type that an inline fragment on a union targets *)
  Definition variant_fields (u : union_def) (c : option name) : built (name * list fdef) :=
    match c with
    | None => Panics PNoCondition
    | Some n => if tmem n (un_members u)
                then match get_type S n with Some (DObject o) => Built (n, ob_fields o) | _ => Panics PNoMember end
                else Panics PNoMember
    end.
  (** :320-337 [build_field] with the two loops of [build_base_type] (:394-404, :449-475). A selection that is not a field
      panics where a field is expected. *)
  Fixpoint build_selection (fds : list fdef) (s : selection) {struct s} : built (name * wtype) :=
    match s with
    | SField al n _ _ sub =>
        match get_field fds n with
        | None => Panics PNoField
        | Some fd =>
            let fields := fun fds' =>
              (fix go (l : list selection) : built (list (name * wtype)) :=
                 match l with [] => Built [] | x :: l' => bbind (build_selection fds' x) (fun f => bmap (cons f) (go l')) end) in
            let variants := fun u =>
              (fix go (l : list selection) : built (list (name * list (name * wtype))) :=
                 match l with
                 | [] => Built []
                 | SInline c _ sub' :: l' =>
                     bbind (variant_fields u c) (fun v =>
                     bbind (fields (snd v) sub') (fun fs => bmap (cons (fst v, fs)) (go l')))
                 | _ :: l' => go l'
                 end) in
            match get_type S (tref_base (fd_type fd)) with
            | None => Panics PNoType
            | Some t =>
                bmap (fun e => (response_name al n, wrap (fd_type fd) e))
                  (build_base (response_name al n) t sub (fun fds' => fields fds' sub) (fun u => variants u sub))
            end
        end
    | _ => Panics PNotOnlyFields
    end.
  Definition build_fields (fds : list fdef) (sels : list selection) : built (list (name * wtype)) :=
    bseq (map (build_selection fds) sels).
  Fixpoint build_variants (u : union_def) (sels : list selection) : built (list (name * list (name * wtype))) :=
    match sels with
    | [] => Built []
    | SInline c _ sub :: l' =>
        bbind (variant_fields u c) (fun v =>
        bbind (build_fields (snd v) sub) (fun fs => bmap (cons (fst v, fs)) (build_variants u l')))
    | _ :: l' => build_variants u l'
    end.
  Definition build_set (parent : name) (t : tdef) (sels : list selection) : built etype :=
    build_base parent t sels (fun fds => build_fields fds sels) (fun u => build_variants u sels).

  (** :213-238 [build_operation_definition] *)
  Definition build_operation (o : operation) : built etype :=
    match op_root_name S (op_type o) with
    | None => Panics PNoRoot
    | Some n => match get_type S n with
                | Some t => build_set (operation_item_name o) t (op_sel o)
                | None => Panics PNoType
                end
    end.
  (** :240-256 [build_fragment_definition] *)
  Definition build_fragment (f : fragment) : built etype :=
    match get_type S (fr_cond f) with
    | None => Panics PNoType
    | Some t => build_set (fr_name f) t (fr_sel f)
    end.

  (** ** Which types borrow *)
  (** the base types inside a type, in the order in which :491-530 [type_borrows] looks at them *)
  Inductive atom := AFlag (b : bool) | ARef (n : name).
  Fixpoint atoms (e : etype) : list atom :=
    match e with
    | EStruct _ fs => flat_map (fun f => watoms (snd f)) fs
    | EEnum _ vs => flat_map (fun v => flat_map (fun f => watoms (snd f)) (snd v)) vs
    | ERef n _ => [ARef n]
    | EBuiltin _ b | ELeaf _ b => [AFlag b]
    end
  with watoms (w : wtype) : list atom :=
    match w with WBase e => atoms e | WOpt w' | WVec w' => watoms w' end.
  (** :491-530 [type_borrows]: the nested [any]s are one [any] over the atoms. Returns the answer and the visited set. *)
  Section TypeBorrows.
    Variable frags : list (name * etype).
    Fixpoint type_borrows (fuel : nat) : list atom -> list name -> built (bool * list name) :=
      fix go (l : list atom) (visited : list name) {struct l} : built (bool * list name) :=
        match l with
        | [] => Built (false, visited)
        | AFlag b :: l' => if b then Built (true, visited) else go l' visited
        | ARef n :: l' =>
            if tmem n visited then go l' visited
            else match assoc n frags with
                 | None => Panics PNoFragment
                 | Some e =>
                     match fuel with
                     | 0 => Panics POutOfFuel
                     | Datatypes.S fuel' =>
                         bbind (type_borrows fuel' (atoms e) (n :: visited)) (fun r =>
                           if fst r then Built r else go l' (snd r))
                     end
                 end
        end.
  End TypeBorrows.
  (** :77-86, :96-101, :111-115, :153-158 [borrows] *)
  Fixpoint borrows (e : etype) : bool :=
    match e with
    | EStruct _ fs => existsb (fun f => wborrows (snd f)) fs
    | EEnum _ vs => existsb (fun v => existsb (fun f => wborrows (snd f)) (snd v)) vs
    | ERef _ b | EBuiltin _ b | ELeaf _ b => b
    end
  with wborrows (w : wtype) : bool :=
    match w with WBase e => borrows e | WOpt w' | WVec w' => wborrows w' end.
  (** :43-75 [update_fragment_definition_references_borrow]. A name that is not in the map panics in the code; here it
      keeps its flag ([type_borrows] has panicked before). *)
  Section Update.
    Variable flags : list (name * bool).
    Fixpoint update (e : etype) : etype :=
      match e with
      | EStruct p fs => EStruct p (map (fun f => (fst f, wupdate (snd f))) fs)
      | EEnum p vs => EEnum p (map (fun v => (fst v, map (fun f => (fst f, wupdate (snd f))) (snd v))) vs)
      | ERef n b => ERef n (match assoc n flags with Some b' => b' | None => b end)
      | EBuiltin _ _ | ELeaf _ _ => e
      end
    with wupdate (w : wtype) : wtype :=
      match w with WBase e => WBase (update e) | WOpt w' => WOpt (wupdate w') | WVec w' => WVec (wupdate w') end.
  End Update.

  (** :166-211 [convert] *)
  Definition convert (d : document) : built (list etype) :=
    bbind (bseq (map (fun f => bmap (fun e => (fr_name f, e)) (build_fragment f)) (doc_frags d))) (fun named =>
    let frags := tmap_of named in
    bbind (bseq (map (fun ne => bmap (fun r => (fst ne, fst r)) (type_borrows frags (Datatypes.S (length frags)) (atoms (snd ne)) [])) frags)) (fun flags =>
    bbind (bseq (map build_operation (doc_ops d))) (fun ops =>
    Built (map (update flags) (ops ++ map snd frags))))).
End Build.
