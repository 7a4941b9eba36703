(** Queries from which some of what is skipped has been left out (C92). *)
From Verif Require Import Base Ast OperationSpec.

Section Skipped.
  (** the operation, whose variables conditions may use, and the values given *)
  Variable o : operation.
  Variable vals : list (name * value).
  (** [left_out sels sels']: [sels'] is [sels] without some of the selections, at any depth, that [@skip] or [@include] exclude
      ([conditions_once]: neither is given twice at one place). *)
  Inductive left_out : list selection -> list selection -> Prop :=
  | lo_nil : left_out [] []
  | lo_skipped s l l' : excluded o vals (sel_dirs s) -> conditions_once (sel_dirs s) -> left_out l l' -> left_out (s :: l) l'
  | lo_field al n args ds sub sub' l l' : left_out sub sub' -> left_out l l' -> left_out (SField al n args ds sub :: l) (SField al n args ds sub' :: l')
  | lo_inline c ds sub sub' l l' : left_out sub sub' -> left_out l l' -> left_out (SInline c ds sub :: l) (SInline c ds sub' :: l')
  | lo_spread n ds l l' : left_out l l' -> left_out (SSpread n ds :: l) (SSpread n ds :: l').
  Definition left_out_fragment (f f' : fragment) : Prop :=
    fr_name f' = fr_name f /\ fr_cond f' = fr_cond f /\ fr_dirs f' = fr_dirs f /\ left_out (fr_sel f) (fr_sel f').
End Skipped.
(** the same of the fragments of a query and of its operation [o] *)
Definition left_out_query (vals : list (name * value)) (d : document) (o : operation) (d' : document) (o' : operation) : Prop :=
  Forall2 (left_out_fragment o vals) (doc_frags d) (doc_frags d') /\
  op_type o' = op_type o /\ op_name o' = op_name o /\ op_vars o' = op_vars o /\ op_dirs o' = op_dirs o /\ left_out o vals (op_sel o) (op_sel o').
