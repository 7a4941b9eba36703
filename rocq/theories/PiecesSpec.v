(** Pieces of executable documents: how they are written. *)
From Coq Require Import String.
From Verif Require Import Base Ast Lexer Parser ParserSpec Pieces.
Local Open Scope list_scope.

Definition written (k : kind) : piece k -> list token :=
  match k with
  | KValue _ => tk_value
  | KArgument _ => tk_argument
  | KArguments _ => tk_arguments
  | KDirective _ => tk_directive
  | KDirectives _ => tk_directives
  | KType => tk_tref
  | KVarDef => tk_vardef
  | KVarDefs => tk_vardefs
  | KCondition => fun n => [TkName (tx "on"); TkName n]
  | KField | KSpread | KInline | KSelection => tk_selection
  | KSet => tk_set
  | KOperation => tk_operation
  | KFragment => tk_fragment
  end.
(** what can be written *)
Definition well (k : kind) : piece k -> Prop :=
  match k with
  | KValue c => fun v => value_ok c v = true
  | KArgument c => fun a => value_ok c (snd a) = true
  | KArguments c => fun l => l <> [] /\ arguments_ok c l = true
  | KDirective c => fun d => arguments_ok c (dir_args d) = true
  | KDirectives c => fun l => directives_ok c l = true
  | KType | KCondition => fun _ => True
  | KVarDef => fun v => vardef_ok v = true
  | KVarDefs => fun l => l <> [] /\ forallb vardef_ok l = true
  | KField => fun s => selection_ok s = true /\ exists al n args ds sub, s = SField al n args ds sub
  | KSpread => fun s => selection_ok s = true /\ exists n ds, s = SSpread n ds
  | KInline => fun s => selection_ok s = true /\ exists c ds sub, s = SInline c ds sub
  | KSelection => fun s => selection_ok s = true
  | KSet => fun l => set_ok l = true
  | KOperation => operation_ok
  | KFragment => fragment_ok
  end.
(** the tokens that may continue a piece *)
Definition continues (k : kind) : list punct :=
  match k with
  | KDirective _ => [POpenRound]
  | KDirectives _ | KSpread => [POpenRound; PAt]
  | KType => [PBang]
  | KVarDef => [PBang; PEquals; POpenRound; PAt]
  | KField | KSelection => [PColon; POpenRound; PAt; POpenBrace]
  | _ => []
  end.
Definition goes_on (k : kind) (ts : list token) : Prop := exists p r, ts = TkPunct p :: r /\ In p (continues k).
(** [pre]: what the lexer yields until it has given [n] tokens, or to its end *)
Definition first_tokens (n : nat) (items pre : list (token + lex_error)) : Prop :=
  exists post, items = pre ++ post /\
    (post = [] /\ length (item_tokens pre) < n \/ length (item_tokens pre) = n /\ (pre = [] \/ exists q t, pre = q ++ [inl t])).
