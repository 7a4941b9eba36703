(** Error locations: bluejay-parser/src/error.rs, error/format_errors.rs, error/annotation.rs, span.rs, lexer/lex_error.rs,
    ast/parse_error.rs. [None] is a panic. *)
From Coq Require Import String.
From Verif Require Import Base Lexer.

(** span.rs:7, a range of byte offsets *)
Definition span : Type := nat * nat.
(** [Span::merge] (span.rs:20-23) *)
Definition merge (a b : span) : span := (Nat.min (fst a) (fst b), Nat.max (snd a) (snd b)).

(** the text before and after a byte offset; [None] if the offset is inside a character or after the end *)
Fixpoint split_bytes (s : text) (b : nat) : option (text * text) :=
  if Nat.eqb b 0 then Some ([], s)
  else match s with
       | [] => None
       | c :: s' => if Nat.leb (utf8_len c) b
                    then match split_bytes s' (b - utf8_len c) with Some (l, r) => Some (c :: l, r) | None => None end
                    else None
       end.
(** the indexing [s[a..b]] of a [str]: panics if the range is not one of character boundaries inside [s] *)
Definition slice (s : text) (a b : nat) : option text :=
  if Nat.leb a b then
    match split_bytes s a with
    | Some (_, r) => match split_bytes r (b - a) with Some (l, _) => Some l | None => None end
    | None => None
    end
  else None.

(** error/annotation.rs:5-8 *)
Definition annotation : Type := text * (nat * nat).
(** error.rs:15-20 *)
Record err := { er_message : text; er_primary : option annotation; er_secondary : list annotation }.
(** [GraphQLError] (error.rs:30-35) with the one [Location] (:22-27) it is built with *)
Record gerror := { ge_message : text; ge_line : nat; ge_col : nat }.

Section Converter.
  (** [slice::binary_search] on the keys: the index found, or where to insert *)
  Variable search : list nat -> nat -> nat + nat.
  (** [ariadne::Source::from] and [Source::get_offset_line]: line and column of a character, both counted from zero *)
  Variable offset_line : text -> nat -> option (nat * nat).
  Variable doc : text.

  (** [ByteIndexToCharIndex::mapping] (error/format_errors.rs:3-13): byte and character index *)
  Definition mapping : Type := list (nat * nat).
  (** [ByteIndexToCharIndex::new] (:16-21) *)
  Definition new_mapping : mapping := [(0, 0)].
  (** [Vec::insert], which panics after the end *)
  Definition insert_at {A} (i : nat) (x : A) (l : list A) : option (list A) :=
    if Nat.leb i (length l) then Some (firstn i l ++ x :: skipn i l) else None.
  (** [ByteIndexToCharIndex::convert] (:23-44) *)
  Definition to_char (m : mapping) (b : nat) : option (nat * mapping) :=
    match search (map fst m) b with
    | inl i => match nth_error m i with Some (_, c) => Some (c, m) | None => None end
    | inr 0 => None                                       (* idx - 1 *)
    | inr (S j) =>
        match nth_error m j with
        | None => None
        | Some (b0, c0) =>
            match slice doc b0 b with
            | None => None
            | Some l => let c := c0 + length l in
                        match insert_at (S j) (b, c) m with Some m' => Some (c, m') | None => None end
            end
        end
    end.
  (** [SpanToLocation::convert] (:60-66); the inner option is the one returned *)
  Definition to_location (m : mapping) (sp : nat * nat) : option (option (nat * nat) * mapping) :=
    match to_char m (fst sp) with
    | Some (c, m') => Some (match offset_line doc c with Some (l, k) => Some (l + 1, k + 1) | None => None end, m')
    | None => None
    end.
  (** one error of the result (error.rs:60-67, :71-78) *)
  Definition report (m : mapping) (a : annotation) : option (gerror * mapping) :=
    match to_location m (snd a) with
    | Some (loc, m') =>
        let '(l, c) := match loc with Some x => x | None => (0, 0) end in
        Some ({| ge_message := fst a; ge_line := l; ge_col := c |}, m')
    | None => None
    end.
  Fixpoint report_all (m : mapping) (l : list annotation) : option (list gerror * mapping) :=
    match l with
    | [] => Some ([], m)
    | a :: l' => match report m a with
                 | Some (g, m') => match report_all m' l' with Some (gs, m'') => Some (g :: gs, m'') | None => None end
                 | None => None
                 end
    end.
  (** the annotations that [into_graphql_errors] looks at (error.rs:58-82) *)
  Definition looked_at (e : err) : list annotation :=
    match er_primary e with Some a => [a] | None => er_secondary e end.
  Fixpoint errors_from (m : mapping) (es : list err) : option (list gerror) :=
    match es with
    | [] => Some []
    | e :: es' => match report_all m (looked_at e) with
                  | Some (gs, m') => match errors_from m' es' with Some r => Some (gs ++ r) | None => None end
                  | None => None
                  end
    end.
  (** [Error::into_graphql_errors] (error.rs:49-84) *)
  Definition into_graphql_errors (es : list err) : option (list gerror) := errors_from new_mapping es.
End Converter.

(** [From<(LexError, Span)> for Error] (lexer/lex_error.rs:27-66) *)
Definition string_error_annotation (e : string_error) : annotation :=
  match e with
  | InvalidUnicodeEscape a b => (tx "Invalid unicode escape sequence", (a, b))
  | InvalidCharacters a b => (tx "Invalid characters", (a, b))
  end.
Definition lex_error_error (e : lex_error) (sp : span) : err :=
  match e with
  | UnrecognizedToken => {| er_message := tx "Unrecognized token"; er_primary := Some (tx "Unable to parse", sp); er_secondary := [] |}
  | IntegerValueTooLarge =>
      {| er_message := tx "Value too large to fit in a 32-bit signed integer"; er_primary := Some (tx "Integer too large", sp); er_secondary := [] |}
  | FloatValueTooLarge =>
      {| er_message := tx "Value too large to fit in a 64-bit float"; er_primary := Some (tx "Float too large", sp); er_secondary := [] |}
  | StringValueInvalid es =>
      {| er_message := tx "String value invalid"; er_primary := Some (tx "String value invalid", sp);
         er_secondary := map string_error_annotation es |}
  | OutOfFuel => {| er_message := []; er_primary := None; er_secondary := [] |}
  end.
(** the errors of [LexerTokens] (ast/tokens.rs:30-67), as [Parse::parse] returns them (ast/parse.rs:28-41) *)
Definition lexing_errors (items : list item) : list err :=
  flat_map (fun i : item => match fst i with inl _ => [] | inr e => [lex_error_error e (snd i)] end) items.
