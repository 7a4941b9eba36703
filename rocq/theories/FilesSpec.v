(** Definitions spread over several texts. *)
From Verif Require Import Base.

(** the texts one after the other, each but the last ended by a line feed *)
Fixpoint joined (files : list text) : text :=
  match files with
  | [] => []
  | [f] => f
  | f :: rest => f ++ 10%N :: joined rest
  end.
