(** When the fields of a selection set can be merged (GraphQL 5.3.2, FieldsInSetCanMerge and SameResponseShape).
    Independent of the rule's code. *)
From Verif Require Import Base Ast Graph Doc DocSpec DocRulesSpec FragmentsSpec ValueEqSpec.

(** A field selected somewhere: the field, its definition and the type it is selected from. *)
Record sfield := { sf_alias : option name; sf_name : name; sf_args : list argument; sf_sub : list selection; sf_def : fdef; sf_parent : tdef }.
(** the response name *)
Definition sf_key (x : sfield) : name := match sf_alias x with Some a => a | None => sf_name x end.

Section Merging.
  Variable S : schema.
  Variable d : document.

  (** The fields of a selection set on type [t], including those of its fragments ("including visiting fragments and inline
      fragments"). *)
  Inductive collected : tdef -> list selection -> sfield -> Prop :=
  | col_field t sels al n args ds sub fd :
      In (SField al n args ds sub) sels -> has_field t n fd ->
      collected t sels {| sf_alias := al; sf_name := n; sf_args := args; sf_sub := sub; sf_def := fd; sf_parent := t |}
  | col_inline t sels ds sub x : In (SInline None ds sub) sels -> collected t sub x -> collected t sels x
  | col_inline_on t sels c ds sub t1 x :
      In (SInline (Some c) ds sub) sels -> get_type S c = Some t1 -> collected t1 sub x -> collected t sels x
  | col_spread t sels n ds f t1 x :
      In (SSpread n ds) sels -> defines d n f -> get_type S (fr_cond f) = Some t1 -> collected t1 (fr_sel f) x -> collected t sels x.
  (** the fields selected directly below a field *)
  Definition below (x y : sfield) : Prop :=
    exists t, get_type S (tref_base (fd_type (sf_def x))) = Some t /\ collected t (sf_sub x) y.

  (** the types of two fields have the same shape (steps 1 to 6 of SameResponseShape) *)
  Definition leaf_name (n : name) : Prop := exists t, get_type S n = Some t /\ is_leaf t.
  Inductive same_shape_type : tref -> tref -> Prop :=
  | ss_leaf n r : leaf_name n -> same_shape_type (TBase n r) (TBase n r)
  | ss_composite n n' r : ~ leaf_name n -> ~ leaf_name n' -> same_shape_type (TBase n r) (TBase n' r)
  | ss_list a b r : same_shape_type a b -> same_shape_type (TList a r) (TList b r).

  (** Two fields can meet in one response object if they are selected from the same type or one of the types is not an
      object type. *)
  Definition is_object (t : tdef) : Prop := match t with DObject _ => True | _ => False end.
  Definition can_meet (x y : sfield) : Prop :=
    td_name (sf_parent x) = td_name (sf_parent y) \/ ~ is_object (sf_parent x) \/ ~ is_object (sf_parent y).

  (** [x'] and [y'] are in the merged set of [x] and [y], under the same response name *)
  Definition merged (x y x' y' : sfield) : Prop :=
    (below x x' \/ below y x') /\ (below x y' \/ below y y') /\ sf_key x' = sf_key y'.
  (** SameResponseShape does not hold *)
  Inductive shapes_conflict : sfield -> sfield -> Prop :=
  | sc_type x y : ~ same_shape_type (fd_type (sf_def x)) (fd_type (sf_def y)) -> shapes_conflict x y
  | sc_below x y x' y' : merged x y x' y' -> shapes_conflict x' y' -> shapes_conflict x y.
  (** the rest of FieldsInSetCanMerge does not hold; [meet] says which pairs it is about *)
  Inductive selections_conflict (meet : sfield -> sfield -> Prop) : sfield -> sfield -> Prop :=
  | fc_name x y : meet x y -> sf_name x <> sf_name y -> selections_conflict meet x y
  | fc_args x y : meet x y -> ~ same_value (VObj (sf_args x)) (VObj (sf_args y)) -> selections_conflict meet x y
  | fc_below x y x' y' : meet x y -> merged x y x' y' -> selections_conflict meet x' y' -> selections_conflict meet x y.
  (** FieldsInSetCanMerge for the set *)
  Definition fields_can_merge (meet : sfield -> sfield -> Prop) (t : tdef) (sels : list selection) : Prop :=
    forall x y, collected t sels x -> collected t sels y -> sf_key x = sf_key y ->
      ~ shapes_conflict x y /\ ~ selections_conflict meet x y.
  (** for every selection set of the document *)
  Definition document_can_merge (meet : sfield -> sfield -> Prop) : Prop :=
    forall r t sels, set_at S d r t sels -> fields_can_merge meet t sels.

  (** The pairs the rule compares: as [can_meet], leaving out fields selected from a union, of which __typename is the only
      one. *)
  Definition is_union (t : tdef) : Prop := match t with DUnion _ => True | _ => False end.
  Definition can_meet_not_union (x y : sfield) : Prop := can_meet x y /\ ~ is_union (sf_parent x) /\ ~ is_union (sf_parent y).
  (** __typename is selected under its own name, without arguments, and nothing else is; and it is all that is selected
      from unions. *)
  Definition typename_plain : Prop :=
    forall r t al n args ds sub, sel_at S d r t (SField al n args ds sub) ->
      (is_union t -> n = tx "__typename") /\
      (n = tx "__typename" \/ al = Some (tx "__typename") -> n = tx "__typename" /\ al = None /\ args = [] /\ sub = []).

  (** The field [x] is executed at the response path [p]: a list of response names and concrete object types, innermost
      first. All fields under one response name are executed together. (Enclosing type conditions other than the innermost
      are not asked for: more pairs are compared.) *)
  Inductive executed_at (o : operation) : list (name * name) -> sfield -> Prop :=
  | ex_root t x T : root_type S (op_type o) t -> collected t (op_sel o) x -> possible S (sf_parent x) T ->
      executed_at o [(sf_key x, T)] x
  | ex_below p y x T : executed_at o p y -> below y x -> possible S (sf_parent x) T -> executed_at o ((sf_key x, T) :: p) x.

  (** Comparing [x] with [y] comes down to comparing [a] with [b]. *)
  Inductive reached (meet : sfield -> sfield -> Prop) : sfield -> sfield -> sfield -> sfield -> Prop :=
  | re_here x y : meet x y -> reached meet x y x y
  | re_below x y x' y' a b : meet x y -> merged x y x' y' -> reached meet x' y' a b -> reached meet x y a b.
  Definition same_selection (a b : sfield) : Prop :=
    sf_alias a = sf_alias b /\ sf_name a = sf_name b /\ sf_args a = sf_args b /\ sf_sub a = sf_sub b /\ fd_type (sf_def a) = fd_type (sf_def b).
  (** The fields of some selection set in operation or fragment [r] have to be merged, and for this [a] and [b] have to be. *)
  Definition have_to_merge (meet : sfield -> sfield -> Prop) (r : root) (a b : sfield) : Prop :=
    exists t sels x y a' b', set_at S d r t sels /\ collected t sels x /\ collected t sels y /\ sf_key x = sf_key y /\
      reached meet x y a' b' /\ same_selection a a' /\ same_selection b b'.

  (** no fragment spreads itself *)
  Definition acyclic : Prop := forall n, ~ on_a_cycle d n.
  (** numbers in arguments are 64-bit floats other than NaN: all the parser produces *)
  Definition plain_numbers : Prop :=
    forall r al n args ds sub, occurs_in d (SField al n args ds sub) r -> f64s (VObj args) /\ no_nan (VObj args).

  (** [entered t t' sels]: the selection set [sels] on type [t'] is entered from type [t], without passing the type condition
      of an inline fragment. *)
  Inductive entered : tdef -> tdef -> list selection -> Prop :=
  | ent_set r t sels : set_at S d r t sels -> entered t t sels
  | ent_spread t t' sels n ds f t1 : entered t t' sels -> In (SSpread n ds) sels -> defines d n f -> get_type S (fr_cond f) = Some t1 ->
      entered t t1 (fr_sel f)
  | ent_inline t t' sels ds sub : entered t t' sels -> In (SInline None ds sub) sels -> entered t t' sub.
  (** Where a fragment is entered from another type, the fields it selects that are also fields of that type have the same
      named type there. *)
  Definition fields_agree : Prop :=
    forall t t' sels al n args ds sub fd, entered t t' sels -> In (SField al n args ds sub) sels -> has_field t n fd ->
      exists fd', has_field t' n fd' /\ tref_base (fd_type fd) = tref_base (fd_type fd').
  (** Fragments are spread only on the type of their type condition, or consist of fields only, each of which has the same
      type on both types if it is on both. *)
  Definition spreads_simple : Prop :=
    forall r t n ds f t1, sel_at S d r t (SSpread n ds) -> defines d n f -> get_type S (fr_cond f) = Some t1 ->
      t1 = t \/
      ~ is_union t1 /\ (forall s, In s (fr_sel f) -> exists al n args ds sub, s = SField al n args ds sub) /\
      (forall al n args ds sub fd, In (SField al n args ds sub) (fr_sel f) -> has_field t n fd ->
         exists fd', has_field t1 n fd' /\ fd_type fd = fd_type fd').
End Merging.
