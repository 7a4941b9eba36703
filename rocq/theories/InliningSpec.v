(** Writing fragments out where they are spread. *)
From Verif Require Import Base Ast Graph FragmentsSpec.

(** [written_out d s s']: [s'] is [s] with some of its spreads [... F @ds] replaced by [... on T @ds { … }], where T and the
    selections are those of the definition of F in [d]; in these, too, some spreads may have been replaced. *)
Inductive written_out (d : document) : selection -> selection -> Prop :=
| wo_field al n args ds sub sub' : Forall2 (written_out d) sub sub' ->
    written_out d (SField al n args ds sub) (SField al n args ds sub')
| wo_inline c ds sub sub' : Forall2 (written_out d) sub sub' -> written_out d (SInline c ds sub) (SInline c ds sub')
| wo_spread n ds : written_out d (SSpread n ds) (SSpread n ds)
| wo_replaced n ds f sub' : defines d n f -> Forall2 (written_out d) (fr_sel f) sub' ->
    written_out d (SSpread n ds) (SInline (Some (fr_cond f)) ds sub').

(** [n] is spread somewhere in the document. *)
Definition spread_in_document (n : name) (d : document) : Prop :=
  (exists o, In o (doc_ops d) /\ spreads n (op_sel o)) \/ (exists f, In f (doc_frags d) /\ spreads n (fr_sel f)).

(** The document [d'] is [d] with fragments written out, in operations and in fragments; definitions that are not spread any
    more may have been dropped. *)
Record document_written_out (d d' : document) : Prop := {
  wo_operations : Forall2 (fun o o' => op_type o' = op_type o /\ op_name o' = op_name o /\ op_vars o' = op_vars o /\
                             op_dirs o' = op_dirs o /\ Forall2 (written_out d) (op_sel o) (op_sel o')) (doc_ops d) (doc_ops d');
  wo_fragments : forall n f', defines d' n f' ->
    exists f, defines d n f /\ fr_cond f' = fr_cond f /\ Forall2 (written_out d) (fr_sel f) (fr_sel f');
  wo_kept : forall n f, defines d n f -> spread_in_document n d' -> exists f', defines d' n f' }.
