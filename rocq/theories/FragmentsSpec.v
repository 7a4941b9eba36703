(** Fragments of a document and how they refer to each other. *)
From Verif Require Import Base Ast Graph.

(** A spread of fragment [n] occurs in the selection, at any depth. *)
Inductive spread_in (n : name) : selection -> Prop :=
| spread_here ds : spread_in n (SSpread n ds)
| spread_field al fn args ds sub s : In s sub -> spread_in n s -> spread_in n (SField al fn args ds sub)
| spread_inline c ds sub s : In s sub -> spread_in n s -> spread_in n (SInline c ds sub).
Definition spreads (n : name) (sels : list selection) : Prop := exists s, In s sels /\ spread_in n s.

(** The definition that the name [n] denotes: the last one with that name. (Names are unique in a valid document:
    another rule checks it.) *)
Definition defines (d : document) (n : name) (f : fragment) : Prop :=
  exists before after, doc_frags d = before ++ f :: after /\ fr_name f = n /\ ~ In n (map fr_name after).

(** Fragment [a] spreads fragment [b]. *)
Definition fragment_uses (d : document) (a b : name) : Prop :=
  exists f, defines d a f /\ spreads b (fr_sel f).
Definition on_a_cycle (d : document) (a : name) : Prop := plus (fragment_uses d) a a.
