(** Leaving out parts of a document (C87). *)
From Verif Require Import Base Ast Graph Doc DocSpec DocRulesSpec FragmentsSpec DocVariablesSpec.

(** [trim s s']: [s] is [s'] without some of the selections below it; a field that has selections below it keeps some. *)
Inductive trim : selection -> selection -> Prop :=
| tm_field al n args ds sub sub' : (sub = [] -> sub' = []) -> (forall s, In s sub -> exists s', In s' sub' /\ trim s s') ->
    trim (SField al n args ds sub) (SField al n args ds sub')
| tm_inline c ds sub sub' : (forall s, In s sub -> exists s', In s' sub' /\ trim s s') -> trim (SInline c ds sub) (SInline c ds sub')
| tm_spread n ds : trim (SSpread n ds) (SSpread n ds).
(** every selection is one of the other set, trimmed; the order does not matter, nor does how often it is written *)
Definition trims (sels sels' : list selection) : Prop := forall s, In s sels -> exists s', In s' sels' /\ trim s s'.
Record trim_operation (o o' : operation) : Prop := {
  to_name : op_name o = op_name o'; to_type : op_type o = op_type o'; to_vars : op_vars o = op_vars o'; to_dirs : op_dirs o = op_dirs o';
  to_sel : trims (op_sel o) (op_sel o') }.
Record trim_fragment (f f' : fragment) : Prop := {
  tf_name : fr_name f = fr_name f'; tf_cond : fr_cond f = fr_cond f'; tf_dirs : fr_dirs f = fr_dirs f'; tf_sel : trims (fr_sel f) (fr_sel f') }.
(** [thinner R l l']: [l] has the same elements as [l'], up to [R], in the same order, but for some that are left out. *)
Inductive thinner {A} (R : A -> A -> Prop) : list A -> list A -> Prop :=
| th_end l' : thinner R [] l'
| th_keep a b l l' : R a b -> thinner R l l' -> thinner R (a :: l) (b :: l')
| th_drop l b l' : thinner R l l' -> thinner R l (b :: l').
(** [d] is [d'] without some operations, fragments and selections. *)
Record trimmed (d d' : document) : Prop := {
  tr_ops : thinner trim_operation (doc_ops d) (doc_ops d');
  tr_frags : thinner trim_fragment (doc_frags d) (doc_frags d') }.

(** What leaving out can break: something that was used is not used any more, or something used is not there. *)
Record nothing_loose (d : document) : Prop := {
  (** subscriptions select a field *)
  nl_roots : forall o, In o (doc_ops d) -> op_type o = OSubscription -> exists x, root_response d (op_sel o) x;
  (** fragments that are spread are defined, and those defined are spread *)
  nl_targets : forall n ds r, occurs_in d (SSpread n ds) r -> In n (map fr_name (doc_frags d));
  nl_used : forall f, In f (doc_frags d) -> exists ds r, occurs_in d (SSpread (fr_name f) ds) r;
  (** variables that are declared are used *)
  nl_variables : forall i o v, nth_error (doc_ops d) i = Some o -> In v (op_vars o) -> operation_writes d i (vd_name v) }.
