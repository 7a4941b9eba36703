(** bluejay-parser: the parser of executable documents with source positions. As [Parser.v], function by function, but tokens,
    trees and errors carry their spans, and every computation of a span is that of the code. [ParserAtProofs.v] shows that
    forgetting the spans gives the functions of [Parser.v]. *)
From Coq Require Import String.
From Verif Require Import Base Ast Lexer Parser Location.

(** lexical_token.rs: every token has a span *)
Definition ltok : Type := token * (nat * nat).
(** lexical_token/name.rs, variable.rs *)
Definition lname : Type := name * (nat * nat).

(** ast/value.rs:10-22, :118-163. Simplification: a value that is one token is the value and the token's span. *)
Inductive lvalue :=
| LVLeaf (v : value) (sp : nat * nat)
| LVList (vs : list lvalue) (sp : nat * nat)
| LVObj (es : list (lname * lvalue)) (sp : nat * nat).
(** [HasSpan for Value] (ast/value.rs:114-128) *)
Definition value_span (v : lvalue) : span := match v with LVLeaf _ sp | LVList _ sp | LVObj _ sp => sp end.
(** ast/argument.rs:5-10 *)
Record largument := { la_name : lname; la_value : lvalue; la_span : nat * nat }.
(** ast/arguments.rs:7-10 *)
Definition larguments : Type := list largument * (nat * nat).
(** ast/directive.rs:5-10 *)
Record ldirective := { ld_name : lname; ld_args : option larguments; ld_span : nat * nat }.
(** ast/directives.rs:7-11 *)
Definition ldirectives : Type := list ldirective * option (nat * nat).
(** executable/field.rs:10-18, fragment_spread.rs:6-11, inline_fragment.rs:6-12, selection_set.rs:7-11 *)
Inductive lselection :=
| LField (alias : option lname) (n : lname) (args : option larguments) (ds : option ldirectives)
         (sub : option (list lselection * (nat * nat))) (sp : nat * nat)
| LSpread (n : lname) (ds : option ldirectives) (sp : nat * nat)
| LInline (cond : option lname) (ds : option ldirectives) (sub : list lselection * (nat * nat)) (sp : nat * nat).
Definition lset : Type := list lselection * (nat * nat).
(** executable/variable_type.rs:10-21 *)
Inductive ltype := LTBase (n : lname) (req : bool) (sp : nat * nat) | LTList (inner : ltype) (req : bool) (sp : nat * nat).
(** executable/variable_definition.rs:7-13 *)
Record lvardef := { lvd_name : lname; lvd_type : ltype; lvd_default : option lvalue; lvd_dirs : option ldirectives }.
(** executable/variable_definitions.rs:7-11 *)
Definition lvardefs : Type := list lvardef * (nat * nat).
(** executable/operation_definition.rs:13-16, :89-98, :141-144; ast/operation_type.rs:5-9 *)
Inductive loperation :=
| LExplicit (ty : optype) (ty_span : nat * nat) (n : option lname) (vs : option lvardefs) (ds : option ldirectives) (sub : lset) (sp : nat * nat)
| LImplicit (sub : lset).
(** [HasSpan for OperationDefinition] (operation_definition.rs:81-87, :155-159) *)
Definition operation_span (o : loperation) : span := match o with LExplicit _ _ _ _ _ _ sp => sp | LImplicit sub => snd sub end.
(** executable/fragment_definition.rs:7-14; type_condition.rs:4-7 *)
Record lfragment := { lf_name : lname; lf_cond : lname; lf_dirs : option ldirectives; lf_set : lset; lf_span : nat * nat }.

(** ast/parse_error.rs:5-28; the span of an end of input is added by [parse_error_error] *)
Inductive lerr :=
| LEName (t : ltok) | LEIdent (t : ltok) (value : text) | LEOneOf (t : ltok) (values : list text) | LEEnum (t : lname) | LEToken (t : ltok) | LEEof | LEEmpty | LEPanic | LEFuel.
Inductive lresult (A : Type) := LOk (a : A) (r : list ltok) | LErr (e : lerr) (r : list ltok).
Arguments LOk {A}. Arguments LErr {A}.
Definition lbind {A B} (x : lresult A) (f : A -> list ltok -> lresult B) : lresult B :=
  match x with LOk a r => f a r | LErr e r => LErr e r end.
Notation "'dol' ( a , r ) <- x ; k" := (lbind x (fun a r => k)) (at level 200, a name, r name, x at level 100, k at level 200).

(** ** ast/tokens.rs *)
(** [expect_name] (:69-76) *)
Definition expect_name_at (ts : list ltok) : lresult lname :=
  match ts with (TkName n, sp) :: r => LOk (n, sp) r | t :: r => LErr (LEName t) r | [] => LErr LEEof [] end.
(** [expect_variable] (:78-88) *)
Definition expect_variable_at (ts : list ltok) : lresult lname :=
  match ts with (TkVar n, sp) :: r => LOk (n, sp) r | t :: r => LErr (LEIdent t (tx "$")) r | [] => LErr LEEof [] end.
(** [expect_name_value] (:90-100) *)
Definition expect_name_value_at (v : text) (ts : list ltok) : lresult span :=
  match ts with
  | t :: r => match fst t with TkName n => if teqb n v then LOk (snd t) r else LErr (LEIdent t v) r | _ => LErr (LEIdent t v) r end
  | [] => LErr LEEof []
  end.
(** [expect_punctuator] (:102-115) *)
Definition expect_punct_at (p : punct) (ts : list ltok) : lresult span :=
  match ts with
  | t :: r => match fst t with TkPunct q => if punct_eqb p q then LOk (snd t) r else LErr (LEIdent t (punct_display p)) r
                             | _ => LErr (LEIdent t (punct_display p)) r end
  | [] => LErr LEEof []
  end.
(** [unexpected_token] (:124-129) *)
Definition unexpected_at {A} (ts : list ltok) : lresult A :=
  match ts with t :: r => LErr (LEToken t) r | [] => LErr LEEof [] end.
(** [next_if_punctuator] (:146-149), [next_if_name] (:169-173), [peek_punctuator_matches] (:200-203), [peek_name_matches] (:190-193) *)
Definition next_if_punct_at (p : punct) (ts : list ltok) : option (span * list ltok) :=
  match ts with (TkPunct q, sp) :: r => if punct_eqb p q then Some (sp, r) else None | _ => None end.
Definition next_if_name_at (ts : list ltok) : option (lname * list ltok) :=
  match ts with (TkName n, sp) :: r => Some ((n, sp), r) | _ => None end.
Definition peek_punct_at (p : punct) (ts : list ltok) : bool := match ts with (TkPunct q, _) :: _ => punct_eqb p q | _ => false end.
Definition peek_name_matches_at (v : text) (ts : list ltok) : bool := match ts with (TkName n, _) :: _ => teqb n v | _ => false end.

(** ** the loops, which also give the span of the closing token *)
(** ast/value.rs:74-81, :91-100 *)
Fixpoint many0_at {A} (item : list ltok -> lresult A) (close : punct) (fuel : nat) (ts : list ltok) {struct fuel} : lresult (list A * span) :=
  match fuel with
  | 0 => LErr LEFuel ts
  | S fuel' =>
      match next_if_punct_at close ts with
      | Some (sp, r) => LOk ([], sp) r
      | None => dol (a, r) <- item ts; dol (l, r') <- many0_at item close fuel' r; LOk (a :: fst l, snd l) r'
      end
  end.
(** ast/arguments.rs:19-24, executable/selection_set.rs:18-23, executable/variable_definitions.rs:18-23 *)
Fixpoint many1_at {A} (item : list ltok -> lresult A) (close : punct) (fuel : nat) (ts : list ltok) {struct fuel} : lresult (list A * span) :=
  match fuel with
  | 0 => LErr LEFuel ts
  | S fuel' =>
      dol (a, r) <- item ts;
      match next_if_punct_at close r with
      | Some (sp, r') => LOk ([a], sp) r'
      | None => dol (l, r') <- many1_at item close fuel' r; LOk (a :: fst l, snd l) r'
      end
  end.
(** ast/directives.rs:20-22 *)
Fixpoint many_at_at {A} (item : list ltok -> lresult A) (fuel : nat) (ts : list ltok) {struct fuel} : lresult (list A) :=
  match fuel with
  | 0 => LErr LEFuel ts
  | S fuel' => if peek_punct_at PAt ts then dol (a, r) <- item ts; dol (l, r') <- many_at_at item fuel' r; LOk (a :: l) r' else LOk [] ts
  end.

(** ** Values, arguments, directives *)
(** [Value::from_tokens] (ast/value.rs:44-112) *)
Fixpoint parse_value_at (const : bool) (fuel : nat) (ts : list ltok) {struct fuel} : lresult lvalue :=
  match fuel with
  | 0 => LErr LEFuel ts
  | S fuel' =>
      match ts with
      | [] => LErr LEEof []
      | t :: r =>
          match fst t with
          | TkInt z => LOk (LVLeaf (VInt z) (snd t)) r
          | TkFloat b => LOk (LVLeaf (VFloat b) (snd t)) r
          | TkStr s => LOk (LVLeaf (VStr s) (snd t)) r
          | TkName n => LOk (LVLeaf (if teqb n (tx "true") then VBool true else if teqb n (tx "false") then VBool false
                                     else if teqb n (tx "null") then VNull else VEnum n) (snd t)) r
          | TkVar n => if const then LErr (LEToken t) r else LOk (LVLeaf (VVar n) (snd t)) r
          | TkPunct POpenSquare =>
              dol (l, r') <- many0_at (parse_value_at const fuel') PCloseSquare (S (length r)) r; LOk (LVList (fst l) (merge (snd t) (snd l))) r'
          | TkPunct POpenBrace =>
              dol (l, r') <- many0_at (fun ts' => dol (k, r1) <- expect_name_at ts'; dol (u, r2) <- expect_punct_at PColon r1;
                                                 dol (v, r3) <- parse_value_at const fuel' r2; LOk (k, v) r3)
                                     PCloseBrace (S (length r)) r;
              LOk (LVObj (fst l) (merge (snd t) (snd l))) r'
          | TkPunct _ => LErr (LEToken t) r
          end
      end
  end.
(** [Argument::from_tokens] (ast/argument.rs:25-34) *)
Definition parse_argument_at (const : bool) (ts : list ltok) : lresult largument :=
  dol (k, r1) <- expect_name_at ts; dol (u, r2) <- expect_punct_at PColon r1;
  dol (v, r3) <- parse_value_at const (S (length r2)) r2;
  LOk {| la_name := k; la_value := v; la_span := merge (snd k) (value_span v) |} r3.
(** [Arguments::from_tokens], [is_match] (ast/arguments.rs:14-35), as an option *)
Definition parse_arguments_at (const : bool) (ts : list ltok) : lresult (option larguments) :=
  if peek_punct_at POpenRound ts then
    dol (o, r) <- expect_punct_at POpenRound ts; dol (l, r') <- many1_at (parse_argument_at const) PCloseRound (S (length r)) r;
    LOk (Some (fst l, merge o (snd l))) r'
  else LOk None ts.
(** [Directive::from_tokens] (ast/directive.rs:22-39) *)
Definition parse_directive_at (const : bool) (ts : list ltok) : lresult ldirective :=
  dol (a, r1) <- expect_punct_at PAt ts; dol (n, r2) <- expect_name_at r1; dol (args, r3) <- parse_arguments_at const r2;
  LOk {| ld_name := n; ld_args := args;
         ld_span := match args with Some l => merge a (snd l) | None => merge a (snd n) end |} r3.
(** the span of [Directives] (ast/directives.rs:23-27) *)
Definition directives_span (l : list ldirective) : option span :=
  match l with
  | [] => None
  | [first] => Some (ld_span first)
  | first :: rest => Some (merge (ld_span first) (ld_span (last rest first)))
  end.
(** [Directives::from_tokens], [is_match] (ast/directives.rs:16-37), as an option *)
Definition parse_directives_at (const : bool) (ts : list ltok) : lresult (option ldirectives) :=
  if peek_punct_at PAt ts then
    dol (l, r) <- many_at_at (parse_directive_at const) (S (length ts)) ts; LOk (Some (l, directives_span l)) r
  else LOk None ts.

(** ** Executable definitions *)
(** [VariableType::from_tokens] (executable/variable_type.rs:44-74); the span is that of the bang, or else the given one *)
Definition parse_bang_at (ts : list ltok) : option span * list ltok :=
  match next_if_punct_at PBang ts with Some (sp, r) => (Some sp, r) | None => (None, ts) end.
Definition is_some {A} (o : option A) : bool := match o with Some _ => true | None => false end.
Fixpoint parse_type_at (fuel : nat) (ts : list ltok) {struct fuel} : lresult ltype :=
  match fuel with
  | 0 => LErr LEFuel ts
  | S fuel' =>
      match next_if_punct_at POpenSquare ts with
      | Some (o, r) =>
          dol (inner, r1) <- parse_type_at fuel' r; dol (c, r2) <- expect_punct_at PCloseSquare r1;
          let '(bang, r3) := parse_bang_at r2 in
          LOk (LTList inner (is_some bang) (merge o (match bang with Some b => b | None => c end))) r3
      | None =>
          match next_if_name_at ts with
          | Some (n, r) => let '(bang, r1) := parse_bang_at r in
                           LOk (LTBase n (is_some bang) (match bang with Some b => merge (snd n) b | None => snd n end)) r1
          | None => unexpected_at ts
          end
      end
  end.
(** [VariableDefinition::from_tokens] (executable/variable_definition.rs:15-35) *)
Definition parse_default_at (ts : list ltok) : lresult (option lvalue) :=
  match next_if_punct_at PEquals ts with
  | Some (_, r) => dol (v, r') <- parse_value_at true (S (length r)) r; LOk (Some v) r'
  | None => LOk None ts
  end.
Definition parse_vardef_at (ts : list ltok) : lresult lvardef :=
  dol (n, r1) <- expect_variable_at ts; dol (u, r2) <- expect_punct_at PColon r1;
  dol (t, r3) <- parse_type_at (S (length r2)) r2;
  dol (d, r4) <- parse_default_at r3;
  dol (ds, r5) <- parse_directives_at true r4;
  LOk {| lvd_name := n; lvd_type := t; lvd_default := d; lvd_dirs := ds |} r5.
(** [VariableDefinitions::from_tokens], [is_match] (executable/variable_definitions.rs:13-37) *)
Definition parse_vardefs_at (ts : list ltok) : lresult (option lvardefs) :=
  if peek_punct_at POpenRound ts then
    dol (o, r) <- expect_punct_at POpenRound ts; dol (l, r') <- many1_at parse_vardef_at PCloseRound (S (length r)) r;
    LOk (Some (fst l, merge o (snd l))) r'
  else LOk None ts.
(** [TypeCondition::from_tokens] (executable/type_condition.rs:9-26) *)
Definition parse_condition_at (ts : list ltok) : lresult lname :=
  dol (u, r1) <- expect_name_value_at (tx "on") ts; expect_name_at r1.
(** [SelectionSet::from_tokens] (executable/selection_set.rs:13-27) *)
Definition parse_set_with_at (item : list ltok -> lresult lselection) (ts : list ltok) : lresult lset :=
  dol (o, r) <- expect_punct_at POpenBrace ts; dol (l, r') <- many1_at item PCloseBrace (S (length r)) r;
  LOk (fst l, merge o (snd l)) r'.
(** the end of a field (executable/field.rs:36-46) *)
Definition field_end (n : lname) (args : option larguments) (ds : option ldirectives) (sub : option lset) : span :=
  match sub with
  | Some s => snd s
  | None => match (match ds with Some l => snd l | None => None end) with
            | Some sp => sp
            | None => match args with Some l => snd l | None => snd n end
            end
  end.
(** [Selection::from_tokens] (executable/selection.rs:27-40) with [Field::from_tokens] (field.rs:20-63),
    [FragmentSpread::from_tokens] (fragment_spread.rs:14-39), [InlineFragment::from_tokens] (inline_fragment.rs:14-40) *)
Fixpoint parse_selection_at (fuel : nat) (ts : list ltok) {struct fuel} : lresult lselection :=
  match fuel with
  | 0 => LErr LEFuel ts
  | S fuel' =>
      match ts with
      | (TkName _, _) :: rest =>
          dol (p, r1) <- (if peek_punct_at PColon rest then
                            dol (al, r1) <- expect_name_at ts; dol (u, r2) <- expect_punct_at PColon r1;
                            dol (n, r3) <- expect_name_at r2; LOk (Some al, n) r3
                          else dol (n, r1) <- expect_name_at ts; LOk (None, n) r1);
          dol (args, r2) <- parse_arguments_at false r1;
          dol (ds, r3) <- parse_directives_at false r2;
          dol (sub, r4) <- (if peek_punct_at POpenBrace r3 then
                              dol (s, r4) <- parse_set_with_at (parse_selection_at fuel') r3; LOk (Some s) r4
                            else LOk None r3);
          LOk (LField (fst p) (snd p) args ds sub
                 (merge (snd (match fst p with Some al => al | None => snd p end)) (field_end (snd p) args ds sub))) r4
      | (TkPunct PEllipse, e) :: rest =>
          if (match rest with (TkName n, _) :: _ => negb (teqb n (tx "on")) | _ => false end) then
            dol (n, r1) <- expect_name_at rest;
            if teqb (fst n) (tx "on") then LErr LEPanic r1
            else dol (ds, r2) <- parse_directives_at false r1; LOk (LSpread n ds (merge e (snd n))) r2
          else
            dol (c, r1) <- (if peek_name_matches_at (tx "on") rest then dol (c, r1) <- parse_condition_at rest; LOk (Some c) r1 else LOk None rest);
            dol (ds, r2) <- parse_directives_at false r1;
            dol (sub, r3) <- parse_set_with_at (parse_selection_at fuel') r2;
            LOk (LInline c ds sub (merge e (snd sub))) r3
      | _ => unexpected_at ts
      end
  end.
Definition parse_set_at (ts : list ltok) : lresult lset := parse_set_with_at (parse_selection_at (S (length ts))) ts.
Definition peek_optype_at (ts : list ltok) : bool :=
  match ts with (TkName n, _) :: _ => match optype_of n with Some _ => true | None => false end | _ => false end.
(** [OperationDefinition::from_tokens] (executable/operation_definition.rs:47-79), [OperationType::from_tokens]
    (ast/operation_type.rs:22-47) *)
Definition parse_operation_at (ts : list ltok) : lresult loperation :=
  if peek_optype_at ts then
    dol (n0, r0) <- expect_name_at ts;
    match optype_of (fst n0) with
    | None => LErr (LEOneOf (TkName (fst n0), snd n0) (map tx ["query"; "mutation"; "subscription"]%string)) r0
    | Some ty =>
        let '(n, r1) := match next_if_name_at r0 with Some (n, r1) => (Some n, r1) | None => (None, r0) end in
        dol (vs, r2) <- parse_vardefs_at r1;
        dol (ds, r3) <- parse_directives_at false r2;
        dol (sub, r4) <- parse_set_at r3;
        LOk (LExplicit ty (snd n0) n vs ds sub (merge (snd n0) (snd sub))) r4
    end
  else if peek_punct_at POpenBrace ts then
    dol (sub, r) <- parse_set_at ts; LOk (LImplicit sub) r
  else unexpected_at ts.
(** [FragmentDefinition::from_tokens] (executable/fragment_definition.rs:23-44) *)
Definition parse_fragment_at (ts : list ltok) : lresult lfragment :=
  dol (f, r0) <- expect_name_value_at (tx "fragment") ts;
  dol (n, r1) <- expect_name_at r0;
  if teqb (fst n) (tx "on") then LErr (LEToken (TkName (fst n), snd n)) r1
  else dol (c, r2) <- parse_condition_at r1;
       dol (ds, r3) <- parse_directives_at false r2;
       dol (sub, r4) <- parse_set_at r3;
       LOk {| lf_name := n; lf_cond := c; lf_dirs := ds; lf_set := sub; lf_span := merge f (snd sub) |} r4.
(** [ExecutableDefinition] (executable/executable_definition.rs:10-28): None when nothing matches *)
Definition try_definition_at (ts : list ltok) : option (lresult (loperation + lfragment)) :=
  if peek_optype_at ts || peek_punct_at POpenBrace ts then Some (dol (o, r) <- parse_operation_at ts; LOk (inl o) r)
  else if peek_name_matches_at (tx "fragment") ts then Some (dol (f, r) <- parse_fragment_at ts; LOk (inr f) r)
  else None.
(** the loop of [ExecutableDocument::parse_from_tokens] (executable/executable_document.rs:45-76). Simplification: operations
    and fragments are kept in one list, in the order of the text. *)
Fixpoint document_loop_at (fuel : nat) (ts : list ltok) (d : list (loperation + lfragment)) (errs : list lerr) (last_failed : bool) {struct fuel}
  : list (loperation + lfragment) * list lerr :=
  match fuel with
  | 0 => (d, errs ++ [LEFuel])
  | S fuel' =>
      match try_definition_at ts with
      | Some (LOk x r) => document_loop_at fuel' r (d ++ [x]) errs false
      | Some (LErr e r) => document_loop_at fuel' r d (if last_failed then errs else errs ++ [e]) true
      | None =>
          match ts with
          | t :: r => document_loop_at fuel' r d (if last_failed then errs else errs ++ [LEToken t]) true
          | [] => (d, errs)
          end
      end
  end.
Definition items_at (items : list item) : list ltok := flat_map (fun i : item => match fst i with inl t => [(t, snd i)] | inr _ => [] end) items.
(** [values.join(", ")] (parse_error.rs:43) *)
Fixpoint joined (vs : list text) : text := match vs with [] => [] | [v] => v | v :: vs' => v ++ tx ", " ++ joined vs' end.
(** [From<ParseError> for Error] (ast/parse_error.rs:30-76); [eof]: the end of the text, where the lexer is when it has no more
    tokens ([empty_span], lexer/logos_lexer.rs:187-190) *)
Definition parse_error_error (eof : nat) (e : lerr) : err :=
  let at_token m sp := {| er_message := tx "Parse error"; er_primary := Some (m, sp); er_secondary := [] |} in
  match e with
  | LEName t => at_token (tx "Expected a name") (snd t)
  | LEIdent t v => at_token (tx "Expected to find: " ++ v) (snd t)
  | LEOneOf t vs => at_token (tx "Expected one of the following: " ++ joined vs) (snd t)
  | LEEnum n => at_token (fst n ++ tx " is not an allowed enum value") (snd n)
  | LEToken t => {| er_message := tx "Unexpected token"; er_primary := Some (tx "Unexpected token", snd t); er_secondary := [] |}
  | LEEof => at_token (tx "Unexpected EOF") (eof, eof)
  | LEEmpty => {| er_message := tx "Document does not contain any definitions"; er_primary := None; er_secondary := [] |}
  | LEPanic | LEFuel => {| er_message := []; er_primary := None; er_secondary := [] |}
  end.
(** [ExecutableDocument::parse_from_tokens] (executable/executable_document.rs:42-96) on what the lexer yields *)
Definition parse_document_at (eof : nat) (items : list item) : list (loperation + lfragment) + list err :=
  let ts := items_at items in
  let '(d, errs) := document_loop_at (S (length ts)) ts [] [] false in
  let errors :=
    match lexing_errors items with
    | [] => match errs, d with [], [] => [parse_error_error eof LEEmpty] | _, _ => map (parse_error_error eof) errs end
    | es => es
    end in
  match errors with [] => inl d | _ => inr errors end.
(** [ExecutableDocument::parse] (ast/parse.rs:13-25) on a text *)
Definition parse_text_at (recover : text -> nat) (other_digit : N -> bool) (parse_f64 : text -> option N) (s : text)
  : list (loperation + lfragment) + list err :=
  parse_document_at (list_sum (map utf8_len s)) (lex recover other_digit parse_f64 false s).
