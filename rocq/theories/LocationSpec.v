(** Where an error is: the GraphQL specification (section Errors) gives every location a line and a column, both counted from
    one, of the beginning of the syntax element. *)
From Verif Require Import Base LexerSpec.

(** A line ends with a line feed, a carriage return, or both in this order, which is one line end (GraphQL specification,
    section LineTerminator). [further]: more characters that end a line, none in the specification. *)
Definition ends_line (further : N -> bool) (c : N) : bool := N.eqb c 10 || N.eqb c 13 || further c.
(** line and column of the character number [i] of [s], if [s] begins at the given line and column *)
Fixpoint place_from (further : N -> bool) (s : text) (i line col : nat) : nat * nat :=
  match i, s with
  | S i', c :: s' =>
      if N.eqb c 13 && match s' with d :: _ => N.eqb d 10 | [] => false end then place_from further s' i' line (S col)
      else if ends_line further c then place_from further s' i' (S line) 1
      else place_from further s' i' line (S col)
  | _, _ => (line, col)
  end.
Definition place (further : N -> bool) (s : text) (i : nat) : nat * nat := place_from further s i 1 1.
Definition no_further (c : N) : bool := false.

(** the byte offset [b] is the beginning of the character number [i] of [s], or the end of [s] *)
Definition starts_char (s : text) (b i : nat) : Prop := exists before rest, s = before ++ rest /\ bytes before = b /\ length before = i.
Definition on_boundary (s : text) (b : nat) : Prop := exists i, starts_char s b i.
(** Messages with the byte range they are about; an error is reported once, where its primary message is, or else once for
    each of its other messages. *)
Definition note : Type := text * (nat * nat).
Definition reported (primary : option note) (others : list note) : list note :=
  match primary with Some a => [a] | None => others end.
(** the note [a] is on the document [s] at the given line and column *)
Definition located (further : N -> bool) (s : text) (a : note) (message : text) (line col : nat) : Prop :=
  message = fst a /\ exists i, starts_char s (fst (snd a)) i /\ place further s i = (line, col).
(** [b] begins a character of [s], or is the end of [s], which does not end with a line end *)
Definition placeable (further : N -> bool) (s : text) (b : nat) : Prop :=
  exists i, starts_char s b i /\ (i < length s \/ forall before c, s = before ++ [c] -> ends_line further c = false).
