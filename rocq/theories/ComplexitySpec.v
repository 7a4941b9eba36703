(** What an operation can cost: the fields it selects, grouped by response key for one concrete type at each place, as
    execution groups them. Independent of the analyzer's code. *)
From Verif Require Import Base Ast Graph Doc DocSpec DocRulesSpec FragmentsSpec OperationSpec.

(** A field selected in the operation: the field itself, its definition, the type it is selected from, the types of the
    enclosing type conditions up to and including the type of the enclosing field (or the root type), the fragments it is
    inside of, and its multiplier. *)
Record node := { nd_alias : option name; nd_name : name; nd_args : list argument; nd_dirs : list directive; nd_sub : list selection;
                 nd_def : fdef; nd_type : tdef; nd_outer : list tdef; nd_active : list name; nd_mult : N }.
Definition nd_field (x : node) : selection := SField (nd_alias x) (nd_name x) (nd_args x) (nd_dirs x) (nd_sub x).
(** the response key *)
Definition nd_key (x : node) : name := match nd_alias x with Some a => a | None => nd_name x end.

(** [m] is the greatest of the numbers in [P] *)
Definition is_max (P : N -> Prop) (m : N) : Prop := P m /\ forall k, P k -> (k <= m)%N.
Definition total (l : list N) : N := fold_right N.add 0%N l.

Section Cost.
  Variable S : schema.
  Variable d : document.
  Variable o : operation.
  (** is a selection with these directives kept? *)
  Variable kept : list directive -> Prop.
  (** the cost of a field; the multipliers a field gives to the fields below it, and gives at the root *)
  Variable M : Type.
  Variable mdefault : M.
  Variable multiplier_for : M -> selection -> N.
  Variable cost_of : fdef -> N.
  Variable multipliers_of : fdef -> selection -> M.

  (** [in_set act t ts sels act' t' ts' f]: expanding fragments in place, the selection set [sels] on type [t] contains the
      field [f], selected from type [t']. [act] are the fragments [sels] is inside of; no fragment is entered inside
      itself. *)
  Inductive in_set : list name -> tdef -> list tdef -> list selection -> list name -> tdef -> list tdef -> selection -> Prop :=
  | is_field act t ts sels al n args ds sub :
      In (SField al n args ds sub) sels -> kept ds -> in_set act t ts sels act t ts (SField al n args ds sub)
  | is_inline act t ts sels ds sub act' t' ts' f :
      In (SInline None ds sub) sels -> kept ds -> in_set act t ts sub act' t' ts' f -> in_set act t ts sels act' t' ts' f
  | is_inline_on act t ts sels c ds sub t1 act' t' ts' f :
      In (SInline (Some c) ds sub) sels -> kept ds -> get_type S c = Some t1 ->
      in_set act t1 (t :: ts) sub act' t' ts' f -> in_set act t ts sels act' t' ts' f
  | is_spread act t ts sels n ds fr t1 act' t' ts' f :
      In (SSpread n ds) sels -> kept ds -> ~ In n act -> defines d n fr -> get_type S (fr_cond fr) = Some t1 ->
      in_set (n :: act) t1 (t :: ts) (fr_sel fr) act' t' ts' f -> in_set act t ts sels act' t' ts' f.

  (** the fields of a selection set, given the multipliers of the enclosing field *)
  Definition set_node (m : M) (act : list name) (t : tdef) (sels : list selection) (x : node) : Prop :=
    in_set act t [] sels (nd_active x) (nd_type x) (nd_outer x) (nd_field x) /\ has_field (nd_type x) (nd_name x) (nd_def x) /\
    nd_mult x = multiplier_for m (nd_field x).
  Definition root_node (x : node) : Prop :=
    exists t, root_type S (op_type o) t /\ set_node mdefault [] t (op_sel o) x.
  (** [y] is selected directly below [x] *)
  Definition child_node (x y : node) : Prop :=
    exists t, get_type S (tref_base (fd_type (nd_def x))) = Some t /\
      set_node (multipliers_of (nd_def x) (nd_field x)) (nd_active x) t (nd_sub x) y.

  (** Fields of a leaf type without cost do not count. *)
  Definition leaf_definition (fd : fdef) : Prop :=
    forall t, get_type S (tref_base (fd_type fd)) = Some t -> td_composite t = false.
  Definition counted (x : node) : Prop := cost_of (nd_def x) <> 0%N \/ ~ leaf_definition (nd_def x).

  (** [applies T x]: is the field [x] part of the result for an object of the concrete type [T]? *)
  Variable applies : name -> node -> Prop.
  (** the fields among [G] which merge under the response key [k] in an object of type [T] *)
  Definition merges (G : node -> Prop) (T k : name) (x : node) : Prop := G x /\ counted x /\ applies T x /\ nd_key x = k.
  Record item := { it_key : name; it_cost : N; it_mult : N; it_below : N }.
  (** [possible_cost G c]: an object on which the fields [G] are selected may cost [c]. Its concrete type is any [T]; each
      response key counts once, with the greatest cost and multiplier of the fields merged under it; what is selected
      below them is merged, and may have any concrete type in turn. *)
  Inductive possible_cost : (node -> Prop) -> N -> Prop :=
  | pc_object (G : node -> Prop) (T : name) (items : list item) :
      NoDup (map it_key items) ->
      (forall k, In k (map it_key items) <-> exists x, merges G T k x) ->
      (forall i, In i items ->
         is_max (fun c => exists x, merges G T (it_key i) x /\ c = cost_of (nd_def x)) (it_cost i) /\
         is_max (fun m => exists x, merges G T (it_key i) x /\ m = nd_mult x) (it_mult i)) ->
      (forall i, In i items -> possible_cost (fun y => exists x, merges G T (it_key i) x /\ child_node x y) (it_below i)) ->
      possible_cost G (total (map (fun i => (it_cost i + it_below i) * it_mult i)%N items)).

  (** [x] and [y] are selected from the same type under the same key, and so are the fields around them. *)
  Inductive same_scope : node -> node -> Prop :=
  | ss_root x y : root_node x -> root_node y -> td_name (nd_type x) = td_name (nd_type y) -> nd_key x = nd_key y -> same_scope x y
  | ss_child x y x' y' : same_scope x y -> child_node x x' -> child_node y y' ->
      td_name (nd_type x') = td_name (nd_type y') -> nd_key x' = nd_key y' -> same_scope x' y'.
  (** Such fields get the same multipliers and give the same multipliers (they are the same field with the same arguments
      in a valid document). *)
  Definition consistent_multipliers : Prop :=
    forall x y, same_scope x y ->
      multipliers_of (nd_def x) (nd_field x) = multipliers_of (nd_def y) (nd_field y) /\
      forall m, multiplier_for m (nd_field x) = multiplier_for m (nd_field y).

  (** any field of the operation *)
  Inductive op_node : node -> Prop :=
  | on_root x : root_node x -> op_node x
  | on_child x y : op_node x -> child_node x y -> op_node y.
  (** Nothing is selected below fields that do not count: they have leaf types. *)
  Definition leaves_have_no_selections : Prop := forall x y, op_node x -> ~ counted x -> ~ child_node x y.
End Cost.

(** The type condition of the innermost fragment (or else the type of the enclosing field) allows the type [T]. *)
Definition allowed_by_innermost (S : schema) (T : name) (x : node) : Prop := possible S (nd_type x) T.
(** All enclosing type conditions, and the type of the enclosing field, allow [T] (GraphQL 6.3.2, CollectFields). *)
Definition allowed_by_all (S : schema) (T : name) (x : node) : Prop :=
  possible S (nd_type x) T /\ forall t, In t (nd_outer x) -> possible S t T.
