(** The field selection merging rule (bluejay-validator/src/executable/document/rules/field_selection_merging.rs). *)
From Verif Require Import Base Ast Doc ValueEq.

(** [Indexed<SelectionSet>] compares selection sets by id, the source span (selection_set.rs:36-42). The model uses the
    place of the selection set in the document: the operation or fragment, and the positions of the selections on the way
    to it, innermost first. Different selection sets have different spans
    ([SpanProps.c63_identity]) and different places. *)
Definition set_id : Type := root * list nat.
Definition set_id_dec (a b : set_id) : {a = b} + {a <> b}.
Proof. decide equality; [apply list_eq_dec, Nat.eq_dec|apply root_dec]. Defined.
(** the selection set of the [j]-th selection of a set *)
Definition inner_id (id : set_id) (j : nat) : set_id := (fst id, j :: snd id).

(** (:379-384) [FieldContext]; [cx_id] is the place of the field's own selection set *)
Record fctx := { cx_id : set_id; cx_alias : option name; cx_name : name; cx_args : list argument; cx_sub : list selection;
                 cx_def : fdef; cx_type : tdef; cx_frags : list name }.
(** [Field::response_name] (bluejay-core/src/executable/field.rs) *)
Definition cx_key (x : fctx) : name := match cx_alias x with Some a => a | None => cx_name x end.

(** the three errors of the rule (document/error.rs), with the selection set they are found in *)
Inductive merge_error :=
| IncompatibleTypes (id : set_id) (a b : fctx)
| DifferingNames (id : set_id) (a b : fctx)
| DifferingArguments (id : set_id) (a b : fctx).

(** The state: [cached_errors] (:20) as an association list, and the number of hash maps iterated so far. *)
Record mstate := { ms_cache : list (set_id * list merge_error); ms_tick : nat }.
Fixpoint lookup (id : set_id) (l : list (set_id * list merge_error)) : option (list merge_error) :=
  match l with [] => None | (id', es) :: l' => if set_id_dec id id' then Some es else lookup id l' end.
(** [BTreeMap::insert]; the order of entries is that of the ids in the code, here that of insertion *)
Definition insert (id : set_id) (es : list merge_error) (st : mstate) : mstate :=
  {| ms_cache := (id, es) :: filter (fun e => if set_id_dec id (fst e) then false else true) (ms_cache st); ms_tick := ms_tick st |}.
Definition tick (st : mstate) : mstate := {| ms_cache := ms_cache st; ms_tick := 1 + ms_tick st |}.

(** Computations with this state; [None] means that the recursion bound was too small. *)
Definition M (A : Type) : Type := mstate -> option (A * mstate).
Definition ret {A} (a : A) : M A := fun st => Some (a, st).
Definition bind {A B} (m : M A) (f : A -> M B) : M B := fun st => match m st with Some (a, st') => f a st' | None => None end.
Notation "'let!' x := m 'in' k" := (bind m (fun x => k)) (at level 200, x binder, m at level 100, k at level 200).
Fixpoint foldM {A B} (f : B -> A -> M B) (l : list A) (b : B) : M B :=
  match l with [] => ret b | a :: l' => let! b' := f b a in foldM f l' b' end.
(** [flat_map(..).collect()], [for_each(.. errors.append(..))] *)
Definition collectM {A B} (f : A -> M (list B)) (l : list A) : M (list B) :=
  foldM (fun acc a => let! x := f a in ret (acc ++ x)) l [].
(** numbered elements *)
Definition numbered {A} (l : list A) : list (nat * A) := mapi (fun i a => (i, a)) l.

Definition is_nil {A} (l : list A) : bool := match l with [] => true | _ => false end.

(** A [HashMap] from keys to vectors, filled by [entry(..).or_default().push(..)], as the list of everything pushed:
    its values are the elements of one key, in order. *)
Fixpoint distinct (l : list name) : list name :=
  match l with [] => [] | k :: l' => k :: filter (fun k' => negb (teqb k k')) (distinct l') end.
Definition groups_by (key : fctx -> name) (l : list fctx) : list (list fctx) :=
  map (fun k => filter (fun x => teqb (key x) k) l) (distinct (map key l)).

Section Merging.
  Variable S : schema.
  Variable d : document.
  (** [ord k] is the order in which the [k]-th hash map is iterated: hash maps are seeded at random. *)
  Variable ord : nat -> list (list fctx) -> list (list fctx).
  Definition in_some_order (l : list (list fctx)) : M (list (list fctx)) := fun st => Some (ord (ms_tick st) l, tick st).

  (** cache.rs:41-45, :60-62 [fragment_definition]: the last one of the name, with its position *)
  Definition fragment_named (n : name) : option (nat * fragment) :=
    assoc_last n (mapi (fun i f => (fr_name f, (i, f))) (doc_frags d)).

  (** [same_output_type_shape] (:334-363); bluejay-core/src/definition/output_type.rs:29-34 [is_scalar_or_enum] *)
  Definition scalar_or_enum (n : name) : bool :=
    match get_type S n with Some (DBuiltin _) | Some (DScalar _) | Some (DEnum _) => true | _ => false end.
  Fixpoint same_type_shape (a b : tref) : bool :=
    match a, b with
    | TBase n r, TBase n' r' => Bool.eqb r r' && (negb (scalar_or_enum n || scalar_or_enum n') || teqb n n')
    | TList i r, TList i' r' => Bool.eqb r r' && same_type_shape i i'
    | _, _ => false
    end.
  (** the comparison of the first field with the others (:95-112) *)
  Definition shape_errors (id : set_id) (first : fctx) (rest : list fctx) : list merge_error :=
    flat_map (fun other => if same_type_shape (fd_type (cx_def first)) (fd_type (cx_def other)) then [] else [IncompatibleTypes id first other]) rest.
  (** (:180-202) *)
  Definition parent_errors (id : set_id) (g : list fctx) : list merge_error :=
    match g with
    | [] => []
    | first :: rest =>
        flat_map (fun other => if negb (teqb (cx_name first) (cx_name other)) then [DifferingNames id first other]
                               else if negb (arguments_equivalent (cx_args first) (cx_args other)) then [DifferingArguments id first other]
                               else []) rest
    end.
  (** the groups by parent type (:143-172), before [into_values] *)
  Definition concrete (x : fctx) : bool := match cx_type x with DObject _ => true | _ => false end.
  Definition abstract (x : fctx) : bool := match cx_type x with DInterface _ => true | _ => false end.
  Definition parent_groups (g : list fctx) : list (list fctx) :=
    match groups_by (fun x => td_name (cx_type x)) (filter concrete g) with
    | [] => [filter abstract g]
    | cs => map (fun c => c ++ filter abstract g) cs
    end.
  (** a new [FieldContext] (:272-283); nothing if the type has no such field *)
  Definition field_context (id : set_id) (j : nat) (t : tdef) (frags : list name) al n args sub : list fctx :=
    match get_field (td_fields t) n with
    | Some fd => [{| cx_id := inner_id id j; cx_alias := al; cx_name := n; cx_args := args; cx_sub := sub; cx_def := fd; cx_type := t; cx_frags := frags |}]
    | None => []
    end.

  (** the two functions that the others call: [selection_set_valid] and [visit_selections_for_fields] *)
  Definition valid_fn : Type := set_id -> list selection -> tdef -> M bool.
  Definition visit_fn : Type := set_id -> list selection -> tdef -> list name -> list fctx -> M (list fctx).
  (** [field_contexts_contained_fields] (:237-262) *)
  Definition nested_fields (valid : valid_fn) (visit : visit_fn) (g : list fctx) : M (list fctx) :=
    foldM (fun acc x =>
      match cx_sub x with
      | [] => ret acc
      | _ =>
          match get_type S (tref_base (fd_type (cx_def x))) with
          | None => ret acc
          | Some t => let! b := valid (cx_id x) (cx_sub x) t in
                      if b then visit (cx_id x) (cx_sub x) t (cx_frags x) acc else ret acc
          end
      end) g [].
  (** the loop body of [visit_selections_for_fields] (:271-330) *)
  Definition visit_one (valid : valid_fn) (visit : visit_fn) (id : set_id) (t : tdef) (frags : list name) (acc : list fctx) (js : nat * selection) : M (list fctx) :=
    match snd js with
    | SField al n args _ sub => ret (acc ++ field_context id (fst js) t frags al n args sub)
    | SSpread n _ =>
        if tmem n frags then ret acc
        else match fragment_named n with
             | None => ret acc
             | Some (i, f) =>
                 match get_type S (fr_cond f) with
                 | None => ret acc
                 | Some t1 => let! b := valid (RFrag i, []) (fr_sel f) t in
                              if b then visit (RFrag i, []) (fr_sel f) t1 (n :: frags) acc else ret acc
                 end
             end
    | SInline c _ sub =>
        match (match c with Some c => get_type S c | None => Some t end) with
        | None => ret acc
        | Some t1 => let! b := valid (inner_id id (fst js)) sub t1 in
                     if b then visit (inner_id id (fst js)) sub t1 frags acc else ret acc
        end
    end.

  (** [selection_set_valid] (:44-64) with [fields_in_set_can_merge] (:66-83) and [selection_set_contained_fields] (:221-234),
      [visit_selections_for_fields] (:264-332), [same_response_shape] (:85-127),
      [same_for_common_parents_by_name] (:129-219) *)
  Fixpoint set_valid (fuel : nat) : valid_fn :=
    fun id sels t st =>
    match fuel with
    | 0 => None
    | Datatypes.S fuel' =>
        match lookup id (ms_cache st) with
        | Some es => Some (is_nil es, st)
        | None =>
            (let! fields := visit_fields fuel' id sels t [] [] in
             let! gs := in_some_order (groups_by cx_key fields) in
             let! es := collectM (fun g => let! e1 := same_shape fuel' id g in
                                           let! e2 := same_parents fuel' id g in ret (e1 ++ e2)) gs in
             (fun st' => Some (is_nil es, insert id es st'))) (insert id [] st)
        end
    end
  with visit_fields (fuel : nat) : visit_fn :=
    fun id sels t frags acc =>
    match fuel with
    | 0 => fun _ => None
    | Datatypes.S fuel' => foldM (visit_one (set_valid fuel') (visit_fields fuel') id t frags) (numbered sels) acc
    end
  with same_shape (fuel : nat) : set_id -> list fctx -> M (list merge_error) :=
    fun id g =>
    match fuel with
    | 0 => fun _ => None
    | Datatypes.S fuel' =>
        match g with
        | [] | [_] => ret []
        | first :: rest =>
            let es := shape_errors id first rest in
            if is_nil es then
              let! nested := nested_fields (set_valid fuel') (visit_fields fuel') g in
              let! gs := in_some_order (groups_by cx_key nested) in
              collectM (same_shape fuel' id) gs
            else ret es
        end
    end
  with same_parents (fuel : nat) : set_id -> list fctx -> M (list merge_error) :=
    fun id g =>
    match fuel with
    | 0 => fun _ => None
    | Datatypes.S fuel' =>
        match g with
        | [] | [_] => ret []
        | _ =>
            let! pgs := in_some_order (parent_groups g) in
            collectM (fun pg =>
              let es := parent_errors id pg in
              if is_nil es then
                let! nested := nested_fields (set_valid fuel') (visit_fields fuel') pg in
                let! gs := in_some_order (groups_by cx_key nested) in
                collectM (same_parents fuel' id) gs
              else ret es) pgs
        end
    end.

  (** The selection sets in the order in which the orchestrator passes them to [visit_selection_set] (:34-40), with their
      places: Doc.v's [visit_selection] reduced to these calls. *)
  Fixpoint sets_in (id : set_id) (t : tdef) (j : nat) (s : selection) {struct s} : list (set_id * list selection * tdef) :=
    let sets_of := fun (id' : set_id) (t' : tdef) (sub : list selection) =>
      (id', sub, t') :: (fix go (i : nat) (l : list selection) : list (set_id * list selection * tdef) :=
                           match l with [] => [] | x :: l' => sets_in id' t' i x ++ go (1 + i) l' end) 0 sub in
    match s with
    | SField _ n _ _ sub =>
        match get_field (td_fields t) n with
        | None => []
        | Some fd =>
            match sub with
            | [] => []
            | _ => match get_type S (tref_base (fd_type fd)) with Some t' => sets_of (inner_id id j) t' sub | None => [] end
            end
        end
    | SInline c _ sub =>
        match (match c with Some c => get_type S c | None => Some t end) with
        | Some t' => sets_of (inner_id id j) t' sub
        | None => []
        end
    | SSpread _ _ => []
    end.
  Fixpoint sets_from (id : set_id) (t : tdef) (i : nat) (l : list selection) : list (set_id * list selection * tdef) :=
    match l with [] => [] | x :: l' => sets_in id t i x ++ sets_from id t (1 + i) l' end.
  Definition sets_of (id : set_id) (t : tdef) (sels : list selection) : list (set_id * list selection * tdef) :=
    (id, sels, t) :: sets_from id t 0 sels.
  Definition document_sets : list (set_id * list selection * tdef) :=
    concat (mapi (fun i o => match op_root_name S (op_type o) with
                             | Some n => match get_type S n with Some t => sets_of (ROp i, []) t (op_sel o) | None => [] end
                             | None => []
                             end) (doc_ops d)) ++
    concat (mapi (fun i f => match get_type S (fr_cond f) with Some t => sets_of (RFrag i, []) t (fr_sel f) | None => [] end) (doc_frags d)).

  (** [visit_selection_set] (:34-40) for each, then [into_errors] (:372-374) *)
  Definition merging_run (fuel : nat) : option mstate :=
    match foldM (fun _ e => set_valid fuel (fst (fst e)) (snd (fst e)) (snd e)) document_sets true {| ms_cache := []; ms_tick := 0 |} with
    | Some (_, st) => Some st
    | None => None
    end.

  (** a recursion bound: see [merging_terminates] *)
  Fixpoint sel_size (s : selection) : nat :=
    match s with
    | SField _ _ _ _ sub | SInline _ _ sub => 1 + (fix go (l : list selection) : nat := match l with [] => 0 | x :: l' => sel_size x + go l' end) sub
    | SSpread _ _ => 1
    end.
  Definition set_size (l : list selection) : nat := list_sum (map sel_size l).
  Definition document_size : nat := list_sum (map (fun o => set_size (op_sel o)) (doc_ops d)) + list_sum (map (fun f => set_size (fr_sel f)) (doc_frags d)).
  Definition merging_fuel : nat :=
    let places := length (doc_ops d) + length (doc_frags d) + document_size in
    (1 + places) * (4 + (1 + length (doc_frags d)) * (1 + document_size)).
  Definition merging_errors : option (list merge_error) :=
    match merging_run merging_fuel with Some st => Some (flat_map snd (ms_cache st)) | None => None end.
End Merging.
