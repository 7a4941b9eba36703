(** Parsing pieces of executable documents by themselves: [Parse] for everything with [FromTokens]
    (bluejay-parser/src/ast/parse.rs:28-41). *)
From Coq Require Import String.
From Verif Require Import Base Ast Lexer Parser.
Local Open Scope list_scope.

(** [Arguments::from_tokens] (ast/arguments.rs:14-29) without [is_match] *)
Definition parse_arguments_piece (const : bool) (ts : list token) : presult (list argument) :=
  do (u, r) <- expect_punct POpenRound ts; many1 (parse_argument const) PCloseRound (S (length r)) r.
(** [VariableDefinitions::from_tokens] (executable/variable_definitions.rs:13-28) without [is_match] *)
Definition parse_vardefs_piece (ts : list token) : presult (list vardef) :=
  do (u, r) <- expect_punct POpenRound ts; many1 parse_vardef PCloseRound (S (length r)) r.
(** [Field::from_tokens] (executable/field.rs:20-63) without [is_match]: as [parse_selection], but a token that is no name is not expected *)
Definition parse_field_piece (ts : list token) : presult selection :=
  match ts with
  | TkName _ :: _ => parse_selection (S (length ts)) ts
  | _ => do (n, r) <- expect_name ts; POk (SField None n [] [] []) r
  end.
(** [FragmentSpread::from_tokens] (executable/fragment_spread.rs:14-28) without [is_match] *)
Definition parse_spread_piece (ts : list token) : presult selection :=
  do (u, r0) <- expect_punct PEllipse ts; do (n, r1) <- expect_name r0;
  if teqb n (tx "on") then PErr PEPanic r1
  else do (ds, r2) <- parse_directives false r1; POk (SSpread n ds) r2.
(** [InlineFragment::from_tokens] (executable/inline_fragment.rs:14-29) without [is_match] *)
Definition parse_inline_piece (ts : list token) : presult selection :=
  do (u, r0) <- expect_punct PEllipse ts;
  do (c, r1) <- (if peek_name_matches (tx "on") r0 then do (c, r1) <- parse_condition r0; POk (Some c) r1 else POk None r0);
  do (ds, r2) <- parse_directives false r1;
  do (sub, r3) <- parse_set r2;
  POk (SInline c ds sub) r3.

(** the types that can be parsed *)
Inductive kind :=
| KValue (const : bool) | KArgument (const : bool) | KArguments (const : bool) | KDirective (const : bool) | KDirectives (const : bool)
| KType | KVarDef | KVarDefs | KCondition | KField | KSpread | KInline | KSelection | KSet | KOperation | KFragment.
Definition piece (k : kind) : Type :=
  match k with
  | KValue _ => value | KArgument _ => argument | KArguments _ => list argument | KDirective _ => directive | KDirectives _ => list directive
  | KType => tref | KVarDef => vardef | KVarDefs => list vardef | KCondition => name
  | KField | KSpread | KInline | KSelection => selection | KSet => list selection | KOperation => operation | KFragment => fragment
  end.
Definition from_tokens (k : kind) : list token -> presult (piece k) :=
  match k with
  | KValue c => fun ts => parse_value c (S (length ts)) ts
  | KArgument c => parse_argument c
  | KArguments c => parse_arguments_piece c
  | KDirective c => parse_directive c
  | KDirectives c => parse_directives c
  | KType => fun ts => parse_tref (S (length ts)) ts
  | KVarDef => parse_vardef
  | KVarDefs => parse_vardefs_piece
  | KCondition => parse_condition
  | KField => parse_field_piece
  | KSpread => parse_spread_piece
  | KInline => parse_inline_piece
  | KSelection => fun ts => parse_selection (S (length ts)) ts
  | KSet => parse_set
  | KOperation => parse_operation
  | KFragment => parse_fragment
  end.

(** [LexerTokens::compute_up_to] (ast/tokens.rs:57-67): the errors the lexer has reported when [n] tokens were asked for *)
Fixpoint asked_errors (n : nat) (items : list (token + lex_error)) {struct items} : list lex_error :=
  match n, items with
  | S n', inl _ :: l => asked_errors n' l
  | S _, inr e :: l => e :: asked_errors n l
  | _, _ => []
  end.
Inductive outcome (A : Type) := Parsed (x : A) | Failed (es : list error) | Panicked.
Arguments Parsed {A}. Arguments Failed {A}. Arguments Panicked {A}.
(** [Parse::parse_from_tokens] (parse.rs:28-41), on what the lexer would yield. [from]: [from_tokens] of the type. [ahead]: how many
    tokens are asked for beyond those that are taken; a parameter, for which the theorems are stated. *)
Definition parse_with {A} (from : list token -> presult A) (ahead : presult A -> nat) (items : list (token + lex_error)) : outcome A :=
  let ts := item_tokens items in
  let res := from ts in
  let r := match res with POk _ r => r | PErr _ r => r end in
  match res with
  | PErr PEPanic _ => Panicked
  | _ =>
      match asked_errors (length ts - length r + ahead res) items with
      | [] => match res with POk x _ => Parsed x | PErr e _ => Failed [EParse e] end
      | es => Failed (map ELex es)
      end
  end.
Definition parse_piece (k : kind) : (presult (piece k) -> nat) -> list (token + lex_error) -> outcome (piece k) := parse_with (from_tokens k).
