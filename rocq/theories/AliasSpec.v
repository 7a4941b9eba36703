(** Other response names: aliases replaced consistently (C93). *)
From Verif Require Import Base Ast.

(** the alias that a field called [n] needs to have the name [k] in the response *)
Definition alias_for (k n : name) : option name := if teqb k n then None else Some k.

Section Aliases.
  Variable new : name -> name.
  (** fields get aliases such that what was called [k] in the response is called [new k] *)
  Fixpoint aliased_selection (s : selection) : selection :=
    match s with
    | SField al n args ds sub => SField (alias_for (new (response_name al n)) n) n args ds (map aliased_selection sub)
    | SInline c ds sub => SInline c ds (map aliased_selection sub)
    | SSpread n ds => SSpread n ds
    end.
  Definition aliased_operation (o : operation) : operation :=
    {| op_explicit := op_explicit o; op_type := op_type o; op_name := op_name o; op_vars := op_vars o; op_dirs := op_dirs o; op_sel := map aliased_selection (op_sel o) |}.
  Definition aliased_fragment (f : fragment) : fragment :=
    {| fr_name := fr_name f; fr_cond := fr_cond f; fr_dirs := fr_dirs f; fr_sel := map aliased_selection (fr_sel f) |}.
  Definition aliased_document (d : document) : document :=
    {| doc_ops := map aliased_operation (doc_ops d); doc_frags := map aliased_fragment (doc_frags d) |}.
End Aliases.

(** The same as a relation: the order of selections does not matter, nor does how often one is written. *)
Section Alike.
  Variable new : name -> name.
  Inductive alike : selection -> selection -> Prop :=
  | ak_field al n args ds sub sub' al' : response_name al' n = new (response_name al n) ->
      (forall s', In s' sub' -> exists s, In s sub /\ alike s s') -> (forall s, In s sub -> exists s', In s' sub' /\ alike s s') ->
      alike (SField al n args ds sub) (SField al' n args ds sub')
  | ak_inline c ds sub sub' :
      (forall s, In s sub -> exists s', In s' sub' /\ alike s s') -> (forall s', In s' sub' -> exists s, In s sub /\ alike s s') ->
      alike (SInline c ds sub) (SInline c ds sub')
  | ak_spread n ds : alike (SSpread n ds) (SSpread n ds).
  Definition alikes (sels sels' : list selection) : Prop :=
    (forall s, In s sels -> exists s', In s' sels' /\ alike s s') /\ (forall s', In s' sels' -> exists s, In s sels /\ alike s s').
  Record alike_operation (o o' : operation) : Prop := {
    ao_name : op_name o' = op_name o; ao_type : op_type o = op_type o'; ao_vars : op_vars o = op_vars o';
    ao_dirs : op_dirs o = op_dirs o'; ao_sel : alikes (op_sel o) (op_sel o') }.
  Record alike_fragment (f f' : fragment) : Prop := {
    af_name : fr_name f' = fr_name f; af_cond : fr_cond f = fr_cond f'; af_dirs : fr_dirs f = fr_dirs f'; af_sel : alikes (fr_sel f) (fr_sel f') }.
  Record realiased (d d' : document) : Prop := {
    ra_ops : Forall2 alike_operation (doc_ops d) (doc_ops d');
    ra_frags : Forall2 alike_fragment (doc_frags d) (doc_frags d') }.
End Alike.
