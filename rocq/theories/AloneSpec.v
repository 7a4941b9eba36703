(** Taking one operation out of a document, with the fragments it needs (C88). *)
From Verif Require Import Base Ast Graph Doc DocSpec DocRulesSpec FragmentsSpec TrimSpec.

(** [needs d sels n]: the fragment [n] is spread in [sels], or in a fragment needed by [sels]. *)
Inductive needs (d : document) (sels : list selection) : name -> Prop :=
| nd_here n ds : occurs (SSpread n ds) sels -> needs d sels n
| nd_through n ds m f : needs d sels m -> defines d m f -> occurs (SSpread n ds) (fr_sel f) -> needs d sels n.
(** [alone d o d1]: [d1] is the operation [o] with the fragments of [d] that it needs. *)
Record alone (d : document) (o : operation) (d1 : document) : Prop := {
  an_op : doc_ops d1 = [o];
  an_order : thinner eq (doc_frags d1) (doc_frags d);
  an_frags : forall f, In f (doc_frags d) -> (In f (doc_frags d1) <-> needs d (op_sel o) (fr_name f)) }.
