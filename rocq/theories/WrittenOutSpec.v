(** Values written in the query instead of being given in variables (C91). *)
From Verif Require Import Base Ast DocVariablesSpec.

Section Written.
  Variable o : operation.
  Variable vals : list (name * value).
  (** the value of a variable of the operation: the one given, or else the default *)
  Definition value_of (x : name) : option value :=
    match assoc x vals with
    | Some w => Some w
    | None => match find (fun v => teqb (vd_name v) x) (op_vars o) with Some v => vd_default v | None => None end
    end.
  (** variables that have a value replaced by it *)
  Definition written_value : value -> value := subst (fun x => match value_of x with Some w => w | None => VVar x end).
  Definition written_argument (a : argument) : argument := (fst a, written_value (snd a)).
  Definition written_directive (x : directive) : directive := {| dir_name := dir_name x; dir_args := map written_argument (dir_args x) |}.
  Fixpoint written_selection (s : selection) : selection :=
    match s with
    | SField al n args ds sub => SField al n (map written_argument args) (map written_directive ds) (map written_selection sub)
    | SInline c ds sub => SInline c (map written_directive ds) (map written_selection sub)
    | SSpread n ds => SSpread n (map written_directive ds)
    end.
  (** the declarations of the variables stay *)
  Definition written_operation (p : operation) : operation :=
    {| op_explicit := op_explicit p; op_type := op_type p; op_name := op_name p; op_vars := op_vars p;
       op_dirs := map written_directive (op_dirs p); op_sel := map written_selection (op_sel p) |}.
  Definition written_fragment (f : fragment) : fragment :=
    {| fr_name := fr_name f; fr_cond := fr_cond f; fr_dirs := map written_directive (fr_dirs f); fr_sel := map written_selection (fr_sel f) |}.
  Definition written_document (d : document) : document :=
    {| doc_ops := map written_operation (doc_ops d); doc_frags := map written_fragment (doc_frags d) |}.

  (** What is asked of the operation and the values. Variables are declared once, and values contain no variables. *)
  Definition plain_values : Prop :=
    NoDup (map vd_name (op_vars o)) /\ forall x w y, value_of x = Some w -> ~ var_in y w.
End Written.

Section Typed.
  Variable d : document.
  Variable o : operation.
  Variable vals : list (name * value).
  (** the selections of the operation, also those in fragments that it spreads *)
  Inductive reached : selection -> Prop :=
  | re_root s : In s (op_sel o) -> reached s
  | re_field al n args ds sub s : reached (SField al n args ds sub) -> In s sub -> reached s
  | re_inline c ds sub s : reached (SInline c ds sub) -> In s sub -> reached s
  | re_spread n ds f s : reached (SSpread n ds) -> assoc_last n (map (fun f => (fr_name f, f)) (doc_frags d)) = Some f -> In s (fr_sel f) -> reached s.
  Definition directives_of (s : selection) : list directive := match s with SField _ _ _ ds _ | SInline _ ds _ | SSpread _ ds => ds end.
  Definition declared_as (ty x : name) : Prop := exists v r, In v (op_vars o) /\ vd_name v = x /\ vd_type v = TBase ty r.
  (** Variables with a Boolean for a value that are used as conditions of [@skip] and [@include] are declared with the type Boolean ... *)
  Definition conditions_typed : Prop :=
    forall s x dr b, reached s -> In dr (directives_of s) -> dir_name dr = tx "skip" \/ dir_name dr = tx "include" -> In (tx "if", VVar x) (dir_args dr) ->
      value_of o vals x = Some (VBool b) -> declared_as (tx "Boolean") x.
  (** ... and those with an integer for a value that are used for [first] and [last] with the type Int. *)
  Definition sizes_typed : Prop :=
    forall al n args ds sub x k z, reached (SField al n args ds sub) -> k = tx "first" \/ k = tx "last" -> In (k, VVar x) args ->
      value_of o vals x = Some (VInt z) -> declared_as (tx "Int") x.
End Typed.
