(** Other names for fragments and operations (C89). *)
From Verif Require Import Base Ast Graph Doc DocSpec DocRulesSpec FragmentsSpec DocVariablesSpec.

Section Names.
  (** the new names of fragments and of operations *)
  Variables fragment_name operation_name : name -> name.
  (** [like s s']: the same selection with the new names of fragments; the order of the selections below it does not matter, nor does
      how often one is written *)
  Inductive like : selection -> selection -> Prop :=
  | lk_field al n args ds sub sub' :
      (forall s', In s' sub' -> exists s, In s sub /\ like s s') -> (forall s, In s sub -> exists s', In s' sub' /\ like s s') ->
      like (SField al n args ds sub) (SField al n args ds sub')
  | lk_inline c ds sub sub' :
      (forall s, In s sub -> exists s', In s' sub' /\ like s s') -> (forall s', In s' sub' -> exists s, In s sub /\ like s s') ->
      like (SInline c ds sub) (SInline c ds sub')
  | lk_spread n ds : like (SSpread n ds) (SSpread (fragment_name n) ds).
  Definition likes (sels sels' : list selection) : Prop :=
    (forall s, In s sels -> exists s', In s' sels' /\ like s s') /\ (forall s', In s' sels' -> exists s, In s sels /\ like s s').
  Record like_operation (o o' : operation) : Prop := {
    lo_name : op_name o' = option_map operation_name (op_name o); lo_type : op_type o = op_type o'; lo_vars : op_vars o = op_vars o';
    lo_dirs : op_dirs o = op_dirs o'; lo_sel : likes (op_sel o) (op_sel o') }.
  Record like_fragment (f f' : fragment) : Prop := {
    lf_name : fr_name f' = fragment_name (fr_name f); lf_cond : fr_cond f = fr_cond f'; lf_dirs : fr_dirs f = fr_dirs f'; lf_sel : likes (fr_sel f) (fr_sel f') }.
  Record renamed (d d' : document) : Prop := {
    rn_ops : Forall2 like_operation (doc_ops d) (doc_ops d');
    rn_frags : Forall2 like_fragment (doc_frags d) (doc_frags d') }.
End Names.

(** The document with the new names written in it, and nothing else changed. *)
Section Written.
  Variables fragment_name operation_name : name -> name.
  Fixpoint rename_selection (s : selection) : selection :=
    match s with
    | SField al n args ds sub => SField al n args ds (map rename_selection sub)
    | SInline c ds sub => SInline c ds (map rename_selection sub)
    | SSpread n ds => SSpread (fragment_name n) ds
    end.
  Definition rename_operation (o : operation) : operation :=
    {| op_explicit := op_explicit o; op_type := op_type o; op_name := option_map operation_name (op_name o); op_vars := op_vars o; op_dirs := op_dirs o;
       op_sel := map rename_selection (op_sel o) |}.
  Definition rename_fragment (f : fragment) : fragment :=
    {| fr_name := fragment_name (fr_name f); fr_cond := fr_cond f; fr_dirs := fr_dirs f; fr_sel := map rename_selection (fr_sel f) |}.
  Definition rename_document (d : document) : document :=
    {| doc_ops := map rename_operation (doc_ops d); doc_frags := map rename_fragment (doc_frags d) |}.
End Written.
