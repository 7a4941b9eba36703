(** What it means for an input object to be impossible to provide: it requires itself. *)
From Verif Require Import Base Ast Graph.

(** Input object [a] requires a value of input object [b] : one of its fields has type [b!]. *)
Definition requires (S : schema) (a b : name) : Prop :=
  exists da f db, get_type S a = Some (DInput da) /\ In f (io_fields da) /\
                  iv_type f = TBase b true /\ get_type S b = Some (DInput db).
(** Through one or more such fields, [a] requires itself. *)
Definition requires_itself (S : schema) (a : name) : Prop := plus (requires S) a a.
