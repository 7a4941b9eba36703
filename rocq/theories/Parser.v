(** bluejay-parser: from tokens to executable documents (src/ast/*.rs, src/ast/executable/*.rs).
    Simplifications: tokens and errors carry no spans (an error carries the offending token instead); the token source is the
    list of remaining tokens (the buffer of [LexerTokens], ast/tokens.rs:30-67, makes any token visible in advance);
    [Option<Arguments>], [Option<Directives>], [Option<VariableDefinitions>], [Option<SelectionSet>] are lists, [] for None.
    Loops and recursion take fuel, whose exhaustion is the error [PEFuel]; the stack of the real parser is not modelled. *)
From Verif Require Import Base Ast Lexer.

(** ast/parse_error.rs:5-28 *)
Inductive perr :=
| PEName (t : token)                  (* ExpectedName *)
| PEIdent (t : token) (value : text)  (* ExpectedIdentifier *)
| PEOneOf (t : token) (values : list text)   (* ExpectedOneOf *)
| PEEnum (n : name)                   (* InvalidEnumValue *)
| PEToken (t : token)                 (* UnexpectedToken *)
| PEEof                               (* UnexpectedEOF *)
| PEEmpty                             (* EmptyDocument *)
| PEPanic                             (* the assertion of FragmentSpread::from_tokens fails *)
| PEFuel.
(** the result and the tokens that remain; errors consume tokens too *)
Inductive presult (A : Type) := POk (a : A) (r : list token) | PErr (e : perr) (r : list token).
Arguments POk {A}. Arguments PErr {A}.
Definition bind {A B} (x : presult A) (f : A -> list token -> presult B) : presult B :=
  match x with POk a r => f a r | PErr e r => PErr e r end.
Notation "'do' ( a , r ) <- x ; k" := (bind x (fun a r => k)) (at level 200, a name, r name, x at level 100, k at level 200).

Definition punct_eqb (a b : punct) : bool :=
  match a, b with
  | PBang, PBang | PAmpersand, PAmpersand | POpenRound, POpenRound | PCloseRound, PCloseRound | PEllipse, PEllipse
  | PColon, PColon | PEquals, PEquals | PAt, PAt | POpenSquare, POpenSquare | PCloseSquare, PCloseSquare
  | POpenBrace, POpenBrace | PCloseBrace, PCloseBrace | PPipe, PPipe => true
  | _, _ => false
  end.
(** [Display] of [PunctuatorType] (lexical_token/punctuator.rs:7-37) *)
Definition punct_display (p : punct) : text :=
  match p with
  | PBang => tx "!" | PAmpersand => tx "&" | POpenRound => tx "(" | PCloseRound => tx ")" | PEllipse => tx "..."
  | PColon => tx ":" | PEquals => tx "=" | PAt => tx "@" | POpenSquare => tx "[" | PCloseSquare => tx "]"
  | POpenBrace => tx "{" | PCloseBrace => tx "}" | PPipe => tx "|"
  end.

(** ** ast/tokens.rs *)
(** [expect_name] (:69-76) *)
Definition expect_name (ts : list token) : presult name :=
  match ts with TkName n :: r => POk n r | t :: r => PErr (PEName t) r | [] => PErr PEEof [] end.
(** [expect_variable] (:78-88) *)
Definition expect_variable (ts : list token) : presult name :=
  match ts with TkVar n :: r => POk n r | t :: r => PErr (PEIdent t (tx "$")) r | [] => PErr PEEof [] end.
(** [expect_name_value] (:90-100) *)
Definition expect_name_value (v : text) (ts : list token) : presult unit :=
  match ts with
  | t :: r => match t with TkName n => if teqb n v then POk tt r else PErr (PEIdent t v) r | _ => PErr (PEIdent t v) r end
  | [] => PErr PEEof []
  end.
(** [expect_punctuator] (:102-115) *)
Definition expect_punct (p : punct) (ts : list token) : presult unit :=
  match ts with
  | t :: r => match t with TkPunct q => if punct_eqb p q then POk tt r else PErr (PEIdent t (punct_display p)) r
                         | _ => PErr (PEIdent t (punct_display p)) r end
  | [] => PErr PEEof []
  end.
(** [unexpected_token] (:124-129) *)
Definition unexpected {A} (ts : list token) : presult A :=
  match ts with t :: r => PErr (PEToken t) r | [] => PErr PEEof [] end.
(** [next_if_punctuator] (:146-149), [next_if_name] (:169-173), [peek_punctuator_matches] (:200-203), [peek_name_matches] (:190-193) *)
Definition next_if_punct (p : punct) (ts : list token) : option (list token) :=
  match ts with TkPunct q :: r => if punct_eqb p q then Some r else None | _ => None end.
Definition next_if_name (ts : list token) : option (name * list token) :=
  match ts with TkName n :: r => Some (n, r) | _ => None end.
Definition peek_punct (p : punct) (ts : list token) : bool := match ts with TkPunct q :: _ => punct_eqb p q | _ => false end.
Definition peek_name_matches (v : text) (ts : list token) : bool := match ts with TkName n :: _ => teqb n v | _ => false end.

(** ** the loops *)
(** [loop { if close { break } push(item) }] (ast/value.rs:74-81, :91-100) *)
Fixpoint many0 {A} (item : list token -> presult A) (close : punct) (fuel : nat) (ts : list token) {struct fuel} : presult (list A) :=
  match fuel with
  | 0 => PErr PEFuel ts
  | S fuel' =>
      match next_if_punct close ts with
      | Some r => POk [] r
      | None => do (a, r) <- item ts; do (l, r') <- many0 item close fuel' r; POk (a :: l) r'
      end
  end.
(** [loop { push(item); if close { break } }] (ast/arguments.rs:19-24, executable/selection_set.rs:18-23,
    executable/variable_definitions.rs:18-23) *)
Fixpoint many1 {A} (item : list token -> presult A) (close : punct) (fuel : nat) (ts : list token) {struct fuel} : presult (list A) :=
  match fuel with
  | 0 => PErr PEFuel ts
  | S fuel' =>
      do (a, r) <- item ts;
      match next_if_punct close r with
      | Some r' => POk [a] r'
      | None => do (l, r') <- many1 item close fuel' r; POk (a :: l) r'
      end
  end.
(** [while let Some(item)] (ast/directives.rs:20-22) *)
Fixpoint many_at {A} (item : list token -> presult A) (fuel : nat) (ts : list token) {struct fuel} : presult (list A) :=
  match fuel with
  | 0 => PErr PEFuel ts
  | S fuel' => if peek_punct PAt ts then do (a, r) <- item ts; do (l, r') <- many_at item fuel' r; POk (a :: l) r' else POk [] ts
  end.

(** ** Values, arguments, directives *)
(** [Value::from_tokens] (ast/value.rs:44-112), name and colon of an object field as in :96-98 *)
Fixpoint parse_value (const : bool) (fuel : nat) (ts : list token) {struct fuel} : presult value :=
  match fuel with
  | 0 => PErr PEFuel ts
  | S fuel' =>
      match ts with
      | [] => PErr PEEof []
      | t :: r =>
          match t with
          | TkInt z => POk (VInt z) r
          | TkFloat b => POk (VFloat b) r
          | TkStr s => POk (VStr s) r
          | TkName n => POk (if teqb n (tx "true") then VBool true else if teqb n (tx "false") then VBool false
                             else if teqb n (tx "null") then VNull else VEnum n) r
          | TkVar n => if const then PErr (PEToken t) r else POk (VVar n) r
          | TkPunct POpenSquare => do (l, r') <- many0 (parse_value const fuel') PCloseSquare (S (length r)) r; POk (VList l) r'
          | TkPunct POpenBrace =>
              do (l, r') <- many0 (fun ts' => do (k, r1) <- expect_name ts'; do (u, r2) <- expect_punct PColon r1;
                                              do (v, r3) <- parse_value const fuel' r2; POk (k, v) r3)
                                  PCloseBrace (S (length r)) r;
              POk (VObj l) r'
          | TkPunct _ => PErr (PEToken t) r
          end
      end
  end.
(** [Argument::from_tokens] (ast/argument.rs:25-34) *)
Definition parse_argument (const : bool) (ts : list token) : presult argument :=
  do (k, r1) <- expect_name ts; do (u, r2) <- expect_punct PColon r1;
  do (v, r3) <- parse_value const (S (length r2)) r2; POk (k, v) r3.
(** [Arguments::from_tokens], [is_match] (ast/arguments.rs:14-35), as an option *)
Definition parse_arguments (const : bool) (ts : list token) : presult (list argument) :=
  if peek_punct POpenRound ts then
    do (u, r) <- expect_punct POpenRound ts; many1 (parse_argument const) PCloseRound (S (length r)) r
  else POk [] ts.
(** [Directive::from_tokens] (ast/directive.rs:22-39) *)
Definition parse_directive (const : bool) (ts : list token) : presult directive :=
  do (u, r1) <- expect_punct PAt ts; do (n, r2) <- expect_name r1; do (args, r3) <- parse_arguments const r2;
  POk {| dir_name := n; dir_args := args |} r3.
(** [Directives::from_tokens], [is_match] (ast/directives.rs:16-37) *)
Definition parse_directives (const : bool) (ts : list token) : presult (list directive) :=
  many_at (parse_directive const) (S (length ts)) ts.

(** ** Executable definitions *)
(** [VariableType::from_tokens] (executable/variable_type.rs:44-74) *)
Definition parse_bang (ts : list token) : bool * list token :=
  match next_if_punct PBang ts with Some r => (true, r) | None => (false, ts) end.
Fixpoint parse_tref (fuel : nat) (ts : list token) {struct fuel} : presult tref :=
  match fuel with
  | 0 => PErr PEFuel ts
  | S fuel' =>
      match next_if_punct POpenSquare ts with
      | Some r =>
          do (inner, r1) <- parse_tref fuel' r; do (u, r2) <- expect_punct PCloseSquare r1;
          let '(req, r3) := parse_bang r2 in POk (TList inner req) r3
      | None =>
          match next_if_name ts with
          | Some (n, r) => let '(req, r1) := parse_bang r in POk (TBase n req) r1
          | None => unexpected ts
          end
      end
  end.
(** [VariableDefinition::from_tokens] (executable/variable_definition.rs:15-35) *)
Definition parse_default (ts : list token) : presult (option value) :=
  match next_if_punct PEquals ts with
  | Some r => do (v, r') <- parse_value true (S (length r)) r; POk (Some v) r'
  | None => POk None ts
  end.
Definition parse_vardef (ts : list token) : presult vardef :=
  do (n, r1) <- expect_variable ts; do (u, r2) <- expect_punct PColon r1;
  do (t, r3) <- parse_tref (S (length r2)) r2;
  do (d, r4) <- parse_default r3;
  do (ds, r5) <- parse_directives true r4;
  POk {| vd_name := n; vd_type := t; vd_default := d; vd_dirs := ds |} r5.
(** [VariableDefinitions::from_tokens], [is_match] (executable/variable_definitions.rs:13-37) *)
Definition parse_vardefs (ts : list token) : presult (list vardef) :=
  if peek_punct POpenRound ts then
    do (u, r) <- expect_punct POpenRound ts; many1 parse_vardef PCloseRound (S (length r)) r
  else POk [] ts.
(** [TypeCondition::from_tokens] (executable/type_condition.rs:9-26) *)
Definition parse_condition (ts : list token) : presult name :=
  do (u, r1) <- expect_name_value (tx "on") ts; expect_name r1.
(** [SelectionSet::from_tokens] (executable/selection_set.rs:13-27) over a parser of selections *)
Definition parse_set_with (item : list token -> presult selection) (ts : list token) : presult (list selection) :=
  do (u, r) <- expect_punct POpenBrace ts; many1 item PCloseBrace (S (length r)) r.
(** [Selection::from_tokens] (executable/selection.rs:27-40) with [Field::from_tokens] (field.rs:20-63),
    [FragmentSpread::from_tokens] (fragment_spread.rs:14-39), [InlineFragment::from_tokens] (inline_fragment.rs:14-40) *)
Fixpoint parse_selection (fuel : nat) (ts : list token) {struct fuel} : presult selection :=
  match fuel with
  | 0 => PErr PEFuel ts
  | S fuel' =>
      match ts with
      | TkName _ :: rest =>
          do (p, r1) <- (if peek_punct PColon rest then
                           do (al, r1) <- expect_name ts; do (u, r2) <- expect_punct PColon r1;
                           do (n, r3) <- expect_name r2; POk (Some al, n) r3
                         else do (n, r1) <- expect_name ts; POk (None, n) r1);
          do (args, r2) <- parse_arguments false r1;
          do (ds, r3) <- parse_directives false r2;
          do (sub, r4) <- (if peek_punct POpenBrace r3 then parse_set_with (parse_selection fuel') r3 else POk [] r3);
          POk (SField (fst p) (snd p) args ds sub) r4
      | TkPunct PEllipse :: rest =>
          if (match rest with TkName n :: _ => negb (teqb n (tx "on")) | _ => false end) then
            do (n, r1) <- expect_name rest;
            if teqb n (tx "on") then PErr PEPanic r1
            else do (ds, r2) <- parse_directives false r1; POk (SSpread n ds) r2
          else
            do (c, r1) <- (if peek_name_matches (tx "on") rest then do (c, r1) <- parse_condition rest; POk (Some c) r1 else POk None rest);
            do (ds, r2) <- parse_directives false r1;
            do (sub, r3) <- parse_set_with (parse_selection fuel') r2;
            POk (SInline c ds sub) r3
      | _ => unexpected ts
      end
  end.
Definition parse_set (ts : list token) : presult (list selection) := parse_set_with (parse_selection (S (length ts))) ts.
(** [OperationType::try_from] on the variants' names (bluejay-core/src/operation_type.rs:4-13) *)
Definition optype_of (n : text) : option optype :=
  if teqb n (tx "query") then Some OQuery else if teqb n (tx "mutation") then Some OMutation
  else if teqb n (tx "subscription") then Some OSubscription else None.
Definition peek_optype (ts : list token) : bool :=
  match ts with TkName n :: _ => match optype_of n with Some _ => true | None => false end | _ => false end.
(** [OperationDefinition::from_tokens] (executable/operation_definition.rs:47-79), [OperationType::from_tokens]
    (ast/operation_type.rs:22-47) *)
Definition parse_operation (ts : list token) : presult operation :=
  if peek_optype ts then
    do (n0, r0) <- expect_name ts;
    match optype_of n0 with
    | None => PErr (PEOneOf (TkName n0) (map tx ["query"; "mutation"; "subscription"]%string)) r0
    | Some ty =>
        let '(n, r1) := match next_if_name r0 with Some (n, r1) => (Some n, r1) | None => (None, r0) end in
        do (vs, r2) <- parse_vardefs r1;
        do (ds, r3) <- parse_directives false r2;
        do (sub, r4) <- parse_set r3;
        POk {| op_explicit := true; op_type := ty; op_name := n; op_vars := vs; op_dirs := ds; op_sel := sub |} r4
    end
  else if peek_punct POpenBrace ts then
    do (sub, r) <- parse_set ts;
    POk {| op_explicit := false; op_type := OQuery; op_name := None; op_vars := []; op_dirs := []; op_sel := sub |} r
  else unexpected ts.
(** [FragmentDefinition::from_tokens] (executable/fragment_definition.rs:23-44) *)
Definition parse_fragment (ts : list token) : presult fragment :=
  do (u, r0) <- expect_name_value (tx "fragment") ts;
  do (n, r1) <- expect_name r0;
  if teqb n (tx "on") then PErr (PEToken (TkName n)) r1
  else do (c, r2) <- parse_condition r1;
       do (ds, r3) <- parse_directives false r2;
       do (sub, r4) <- parse_set r3;
       POk {| fr_name := n; fr_cond := c; fr_dirs := ds; fr_sel := sub |} r4.
(** [ExecutableDefinition] (executable/executable_definition.rs:10-28): None when nothing matches *)
Definition try_definition (ts : list token) : option (presult (operation + fragment)) :=
  if peek_optype ts || peek_punct POpenBrace ts then Some (do (o, r) <- parse_operation ts; POk (inl o) r)
  else if peek_name_matches (tx "fragment") ts then Some (do (f, r) <- parse_fragment ts; POk (inr f) r)
  else None.
(** the loop of [ExecutableDocument::parse_from_tokens] (executable/executable_document.rs:45-76) *)
Fixpoint document_loop (fuel : nat) (ts : list token) (d : document) (errs : list perr) (last_failed : bool) {struct fuel} : document * list perr :=
  match fuel with
  | 0 => (d, errs ++ [PEFuel])
  | S fuel' =>
      match try_definition ts with
      | Some (POk (inl o) r) => document_loop fuel' r {| doc_ops := doc_ops d ++ [o]; doc_frags := doc_frags d |} errs false
      | Some (POk (inr f) r) => document_loop fuel' r {| doc_ops := doc_ops d; doc_frags := doc_frags d ++ [f] |} errs false
      | Some (PErr e r) => document_loop fuel' r d (if last_failed then errs else errs ++ [e]) true
      | None =>
          match ts with
          | t :: r => document_loop fuel' r d (if last_failed then errs else errs ++ [PEToken t]) true
          | [] => (d, errs)
          end
      end
  end.
Inductive error := ELex (e : lex_error) | EParse (e : perr).
Definition item_tokens (items : list (token + lex_error)) : list token := flat_map (fun i => match i with inl t => [t] | inr _ => [] end) items.
Definition item_errors (items : list (token + lex_error)) : list lex_error := flat_map (fun i => match i with inl _ => [] | inr e => [e] end) items.
(** [ExecutableDocument::parse_from_tokens] (executable/executable_document.rs:42-96) on what the lexer yields *)
Definition parse_document (items : list (token + lex_error)) : document + list error :=
  let ts := item_tokens items in
  let '(d, errs) := document_loop (S (length ts)) ts {| doc_ops := []; doc_frags := [] |} [] false in
  let errors :=
    match item_errors items with
    | [] => match errs, doc_ops d, doc_frags d with
            | [], [], [] => [EParse PEEmpty]
            | _, _, _ => map EParse errs
            end
    | es => map ELex es
    end in
  match errors with [] => inl d | _ => inr errors end.

(** [Value::parse] (ast/parse.rs:28-41) on the tokens of a text without lexing errors: tokens after the value are not looked at *)
Definition parse_value_tokens (const : bool) (ts : list token) : presult value := parse_value const (S (length ts)) ts.
(** [ExecutableDocument::parse] (ast/parse.rs:28-41, executable/executable_document.rs:42-96) on a text *)
Definition parse_text (recover : text -> nat) (other_digit : N -> bool) (parse_f64 : text -> option N) (s : text) : document + list error :=
  parse_document (map fst (lex recover other_digit parse_f64 false s)).
