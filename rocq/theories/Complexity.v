(** The complexity cost analyzer (bluejay-validator/src/executable/operation/analyzers/complexity_cost.rs) as a function of
    the visitor calls of Operation.v. [usize] is [N]: overflow is not modelled. The hash maps of the code are association
    lists in the order of insertion; their values and keys are only collected into maxima and sums. *)
From Verif Require Import Base Ast Maps Doc DocRules CoercionTypes Operation.

(** complexity_cost/arena.rs: a vector; [get] and [get_mut] by index *)
Fixpoint upd {A} (l : list A) (i : nat) (f : A -> A) : list A :=
  match l, i with
  | [], _ => []
  | x :: l', 0 => f x :: l'
  | x :: l', Datatypes.S i' => x :: upd l' i' f
  end.
(** [HashMap::entry(k).or_insert(v)] followed by an update of the entry *)
Fixpoint entry {A} (k : name) (v : A) (f : A -> A) (l : list (name * A)) : list (name * A) :=
  match l with
  | [] => [(k, f v)]
  | (k', a) :: l' => if teqb k' k then (k', f a) :: l' else (k', a) :: entry k v f l'
  end.
(** [Itertools::unique] on names; [unique_by] *)
Fixpoint unique_from {A} (key : A -> name) (seen : list name) (l : list A) : list A :=
  match l with
  | [] => []
  | x :: l' => if tmem (key x) seen then unique_from key seen l' else x :: unique_from key (key x :: seen) l'
  end.
Definition unique_by {A} (key : A -> name) (l : list A) : list A := unique_from key [] l.

(** [Iterator::max().unwrap_or(0)], [Iterator::sum] over results that may be missing (the recursion bound) *)
Fixpoint omax (l : list (option N)) : option N :=
  match l with
  | [] => Some 0%N
  | x :: l' => match x, omax l' with Some a, Some b => Some (N.max a b) | _, _ => None end
  end.
Fixpoint osum (l : list (option N)) : option N :=
  match l with
  | [] => Some 0%N
  | x :: l' => match x, osum l' with Some a, Some b => Some (a + b)%N | _, _ => None end
  end.

Section ComplexityCost.
  Variable S : schema.
  (** The cost computer (cost_computer.rs:5-25): the type of field multipliers with its default,
      [multiplier_for_field], [cost_for_field_definition] and [field_multipliers]. A field is passed as the selection. *)
  Variable M : Type.
  Variable mdefault : M.
  Variable multiplier_for : M -> selection -> N.
  Variable cost_of : fdef -> N.
  Variable multipliers_of : fdef -> selection -> M.

  (** (:304-340) [ComplexityScope], [TypedSelection] *)
  Record cscope := { cs_cost : N; cs_mult : N; cs_typed : list (name * (tdef * list (name * nat))); cs_fm : M }.
  (** [Default] (:327-336) *)
  Definition default_scope (m : M) : cscope := {| cs_cost := 0; cs_mult := 1; cs_typed := []; cs_fm := m |}.
  Definition arena := list cscope.
  (** [Visitor::new] (:47-61) *)
  Definition complexity_start : arena * list (option nat) := ([default_scope mdefault], [Some 0]).

  (** [response_name] (bluejay-core/src/executable/field.rs): the alias or the name *)
  Definition field_key (al : option name) (n : name) : name := match al with Some a => a | None => n end.
  (** [field_definition.type().base(schema).is_composite()] (:78-83) *)
  Definition base_composite (fd : fdef) : bool :=
    match get_type S (tref_base (fd_type fd)) with Some t => td_composite t | None => false end.

  (** the lookup in [typed_selections] and in [inner_selection] (:104-116): the id found, or [next] *)
  Definition find_scope (sc : cscope) (tn key : name) : option nat :=
    match assoc tn (cs_typed sc) with Some (_, inner) => assoc key inner | None => None end.
  Definition insert_scope (t : tdef) (key : name) (next : nat) (sc : cscope) : cscope :=
    {| cs_cost := cs_cost sc; cs_mult := cs_mult sc; cs_fm := cs_fm sc;
       cs_typed := entry (td_name t) (t, []) (fun e => (fst e, entry key next (fun i => i) (snd e))) (cs_typed sc) |}.
  Definition set_costs (mult cost : N) (sc : cscope) : cscope :=
    {| cs_cost := N.max (cs_cost sc) cost; cs_mult := mult; cs_typed := cs_typed sc; cs_fm := cs_fm sc |}.

  (** [visit_field] (:63-146) for an included field; [None] is the panic of :101 *)
  Definition enter_field (f : selection) (key : name) (fd : fdef) (t : tdef) (st : arena * list (option nat)) : option (arena * list (option nat)) :=
    let '(A, stk) := st in
    let cost := cost_of fd in
    if (cost =? 0)%N && negb (base_composite fd) then Some (A, None :: stk)
    else
      let next := length A in
      match stk with
      | Some i :: _ =>
          match nth_error A i with
          | Some parent =>
              let mult := multiplier_for (cs_fm parent) f in
              let A1 := upd A i (insert_scope t key next) in
              match find_scope parent (td_name t) key with
              | Some j => Some (upd A1 j (set_costs mult cost), Some j :: stk)
              | None => Some (upd (A1 ++ [default_scope (multipliers_of fd f)]) next (set_costs mult cost), Some next :: stk)
              end
          | None => None
          end
      | _ => None
      end.
  (** one visitor call; [leave_field] (:148-158) *)
  Definition complexity_step (st : option (arena * list (option nat))) (ev : oevent) : option (arena * list (option nat)) :=
    match st with
    | None => None
    | Some st =>
        match ev with
        | OEnter al n args ds sub fd t true => enter_field (SField al n args ds sub) (field_key al n) fd t st
        | OLeave true => match snd st with [] => None | _ :: stk => Some (fst st, stk) end
        | _ => Some st
        end
    end.

  (** [possible_type_names] (:285-303) *)
  Definition possible_type_names (t : tdef) : list name := match possible_types S t with Some l => l | None => [] end.

  (** [merged_max_complexity_for_scopes] (:195-235) and [merged_max_complexity_for_selections] (:237-283); scopes are
      given by their ids *)
  Definition scopes_at (A : arena) (ids : list nat) : list cscope :=
    flat_map (fun i => match nth_error A i with Some sc => [sc] | None => [] end) ids.
  Definition inner_for (T : name) (scs : list cscope) : list (list (name * nat)) :=
    flat_map (fun sc => flat_map (fun e => if tmem T (possible_type_names (fst (snd e))) then [snd (snd e)] else []) (cs_typed sc)) scs.
  Definition children_for (key : name) (inners : list (list (name * nat))) : list nat :=
    flat_map (fun inner => match assoc key inner with Some j => [j] | None => [] end) inners.
  Definition list_max (l : list N) : N := fold_left N.max l 0%N.
  Definition selections_cost (rec : list nat -> option N) (A : arena) (inners : list (list (name * nat))) : option N :=
    osum (map (fun key =>
      let ids := children_for key inners in
      let base := list_max (map cs_cost (scopes_at A ids)) in
      let mult := list_max (map cs_mult (scopes_at A ids)) in
      let composite := filter (fun j => match nth_error A j with Some sc => negb (match cs_typed sc with [] => true | _ => false end) | None => false end) ids in
      match rec composite with Some c => Some ((base + c) * mult)%N | None => None end)
      (unique_by (fun k => k) (flat_map (map fst) inners))).
  Fixpoint scopes_cost (fuel : nat) (A : arena) (ids : list nat) : option N :=
    match fuel with
    | 0 => None
    | Datatypes.S fuel' =>
        let scs := scopes_at A ids in
        let types := unique_by td_name (flat_map (fun sc => map (fun e => fst (snd e)) (cs_typed sc)) scs) in
        let names := unique_by (fun n => n) (flat_map possible_type_names types) in
        omax (map (fun T => selections_cost (scopes_cost fuel' A) A (inner_for T scs)) names)
    end.

  (** [result] (:183-192) *)
  Inductive complexity_result := CCost (n : N) | CPanic | CFuel.
  Definition complexity (evs : list oevent) : complexity_result :=
    match fold_left complexity_step evs (Some complexity_start) with
    | Some (A, _) => match scopes_cost (1 + length A) A [0] with Some n => CCost n | None => CFuel end
    | None => CPanic
    end.
End ComplexityCost.

(** ** cost_computer.rs:27-57 [DefaultCostComputer]: every field costs 1, every multiplier is 1 *)
Definition default_complexity (S : schema) (evs : list oevent) : complexity_result :=
  complexity S unit tt (fun _ _ => 1%N) (fun _ => 1%N) (fun _ _ => tt) evs.

(** ** relay_cost_computer.rs [RelayCostComputer] *)
Section Relay.
  Variable S : schema.
  Variable o : operation.
  Variable vals : list (name * value).
  (** [str.parse::<f32>().ok().map(|w| w.max(0) as usize)] (:60-62) and [floor(2 * ln(max(2, size)))] in [f32] (:139-146):
      floating point arithmetic is a parameter *)
  Variable parse_weight : text -> option N.
  Variable twice_ln : N -> N.
  (** the string argument [an] of the first [@cost] (:47-66, :77-97) *)
  Definition cost_argument (an : name) (ds : list directive) : option text :=
    match find (fun x => teqb (dir_name x) (tx "cost")) ds with
    | None => None
    | Some x => match find (fun a => teqb (fst a) an) (dir_args x) with
                | Some (_, VStr s) => Some s
                | _ => None
                end
    end.
  (** [cost_for_field_definition] (:41-68) *)
  Definition relay_cost (fd : fdef) : N :=
    match (match cost_argument (tx "weight") (fd_dirs fd) with Some s => parse_weight s | None => None end) with
    | Some w => w
    | None => if base_composite S fd then 1%N else 0%N
    end.
  (** variable_values.rs:63-89 [evaluate_int] *)
  Definition as_int (v : value) : option Z := match v with VInt z => Some z | _ => None end.
  Definition evaluate_int (x : name) : option Z :=
    match find (fun v => teqb (vd_name v) x && is_named (tx "Int") (vd_type v)) (op_vars o) with
    | None => None
    | Some vd => match assoc x vals with
                 | Some v => as_int v
                 | None => match vd_default vd with Some v => as_int v | None => None end
                 end
    end.
  (** [extract_field_sizing_argument] (:121-137) *)
  Definition sizing_argument (args : list argument) (an : name) : option N :=
    match find (fun a => teqb (fst a) an) args with
    | Some (_, VInt z) => Some (Z.to_N z)
    | Some (_, VVar x) => option_map Z.to_N (evaluate_int x)
    | _ => None
    end.
  (** [field_multipliers] (:70-117), [multiplier_for_static_size] (:139-146) *)
  Definition relay_multipliers (fd : fdef) (f : selection) : option N :=
    match f with
    | SField _ _ args _ _ =>
        match cost_argument (tx "kind") (fd_dirs fd) with
        | Some k =>
            if teqb k (tx "connection") then
              let size := match sizing_argument args (tx "first"), sizing_argument args (tx "last") with
                          | Some a, Some b => N.max a b
                          | Some a, None | None, Some a => a
                          | None, None => 0%N
                          end in
              Some (if (0 <? size)%N then twice_ln (N.max 2 size) else 0%N)
            else None
        | None => None
        end
    | _ => None
    end.
  (** [multiplier_for_field] (:163-173) *)
  Definition relay_multiplier_for (m : option N) (f : selection) : N :=
    match m, f with
    | Some k, SField _ n _ _ _ => if teqb n (tx "edges") || teqb n (tx "nodes") then k else 1%N
    | _, _ => 1%N
    end.
  Definition relay_complexity (evs : list oevent) : complexity_result :=
    complexity S (option N) None relay_multiplier_for relay_cost relay_multipliers evs.
End Relay.
