(** What printing and parsing again is about: the tokens of a whole document, which tokens can be written as text, and the
    document that the printed text shows. *)
From Verif Require Import Base Ast Lexer LexerSpec Parser ParserSpec.

(** names are GraphQL names, integers have 32 bits, floats are written as float literals with the same value *)
Definition writable (parse_f64 : text -> option N) (print_float : N -> text) (t : token) : Prop :=
  match t with
  | TkName n | TkVar n => is_name n
  | TkInt z => fits_i32 z
  | TkFloat b => float_literal (print_float b) /\ parse_f64 (print_float b) = Some b
  | _ => True
  end.
Definition tk_document (d : document) : list token := concat (map tk_operation (doc_ops d)) ++ concat (map tk_fragment (doc_frags d)).
(** an operation in the query shorthand is shown in full *)
Definition as_printed (o : operation) : operation :=
  {| op_explicit := true; op_type := if op_explicit o then op_type o else OQuery; op_name := op_name o; op_vars := op_vars o; op_dirs := op_dirs o; op_sel := op_sel o |}.
(** the directives of a fragment definition are not shown *)
Definition fragment_as_printed (f : fragment) : fragment := {| fr_name := fr_name f; fr_cond := fr_cond f; fr_dirs := []; fr_sel := fr_sel f |}.
Definition document_as_printed (d : document) : document :=
  {| doc_ops := map as_printed (doc_ops d); doc_frags := map fragment_as_printed (doc_frags d) |}.
(** the same document, but for the query shorthand *)
Definition same_operation (a b : operation) : Prop :=
  op_type a = op_type b /\ op_name a = op_name b /\ op_vars a = op_vars b /\ op_dirs a = op_dirs b /\ op_sel a = op_sel b.
Definition same_document (a b : document) : Prop := Forall2 same_operation (doc_ops a) (doc_ops b) /\ doc_frags a = doc_frags b.
