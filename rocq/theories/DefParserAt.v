(** bluejay-parser: the parser of definition documents with source positions. As [DefParser.v], function by function, but tokens,
    trees and errors carry their spans; [DefParserAtProofs.v] shows that forgetting the spans gives the functions of [DefParser.v]. *)
From Coq Require Import String.
From Verif Require Import Base Ast Lexer Parser Location DefParser ParserAt.

(** lexical_token/string_value.rs: a description with its span *)
Definition ldesc : Type := option (text * (nat * nat)).
(** input_value_definition.rs:6-13; the type is [LTBase] or [LTList] of ParserAt.v (input_type.rs:68-71) *)
Record livd := { liv_name : lname; liv_desc : ldesc; liv_type : ltype; liv_default : option lvalue; liv_dirs : option ldirectives }.
(** arguments_definition.rs:8-12, input_fields_definition.rs *)
Definition livds : Type := list livd * (nat * nat).
(** field_definition.rs:6-14 *)
Record lfdef := { lfd_name : lname; lfd_desc : ldesc; lfd_args : option livds; lfd_type : ltype; lfd_dirs : option ldirectives }.
(** enum_value_definition.rs *)
Record levd := { lev_name : lname; lev_desc : ldesc; lev_dirs : option ldirectives }.
(** type_definition.rs. Simplification: the field [__typename] that the parser puts before the fields of the text (and gives to
    every union) is not in this tree. *)
Inductive ltdef :=
| LDScalar (n : lname) (desc : ldesc) (ds : option ldirectives)
| LDObject (n : lname) (desc : ldesc) (is_ : list lname) (ds : option ldirectives) (fs : list lfdef * (nat * nat))
| LDInterface (n : lname) (desc : ldesc) (is_ : list lname) (ds : option ldirectives) (fs : list lfdef * (nat * nat))
| LDUnion (n : lname) (desc : ldesc) (ds : option ldirectives) (ms : list lname)
| LDInput (n : lname) (desc : ldesc) (ds : option ldirectives) (fs : livds)
| LDEnum (n : lname) (desc : ldesc) (ds : option ldirectives) (vs : list levd * (nat * nat)).
(** directive_definition.rs *)
Record lddef := { ldd_name : lname; ldd_desc : ldesc; ldd_args : option livds; ldd_repeatable : bool; ldd_locs : list (dloc * (nat * nat)) }.
(** explicit_schema_definition.rs:10-17, :72-76 *)
Record lesdef := { les_desc : ldesc; les_ident : nat * nat; les_dirs : option ldirectives; les_roots : list (optype * lname); les_roots_span : nat * nat }.
Inductive lsysdef := LSchemaDef (e : lesdef) | LDirectiveDef (d : lddef) | LTypeDef (t : ltdef).

(** ** ast/tokens.rs *)
Definition next_if_string_at (ts : list ltok) : ldesc * list ltok :=
  match ts with (TkStr s, sp) :: r => (Some (s, sp), r) | _ => (None, ts) end.
Definition next_if_name_matches_at (v : text) (ts : list ltok) : option (list ltok) :=
  match ts with (TkName n, _) :: r => if teqb n v then Some r else None | _ => None end.

(** ** Input values, fields, enum values *)
(** [InputType::from_tokens] (input_type.rs:98-121), [OutputType::from_tokens] (output_type.rs:109-130): the span of a list ends at
    its closing bracket, also if a bang follows *)
Fixpoint parse_dtype_at (fuel : nat) (ts : list ltok) {struct fuel} : lresult ltype :=
  match fuel with
  | 0 => LErr LEFuel ts
  | S fuel' =>
      match next_if_punct_at POpenSquare ts with
      | Some (o, r) =>
          dol (inner, r1) <- parse_dtype_at fuel' r; dol (c, r2) <- expect_punct_at PCloseSquare r1;
          let '(bang, r3) := parse_bang_at r2 in
          LOk (LTList inner (is_some bang) (merge o c)) r3
      | None =>
          match next_if_name_at ts with
          | Some (n, r) => let '(bang, r1) := parse_bang_at r in
                           LOk (LTBase n (is_some bang) (match bang with Some b => merge (snd n) b | None => snd n end)) r1
          | None => unexpected_at ts
          end
      end
  end.
(** [ConstDirectives::from_tokens] without [is_match] (input_value_definition.rs:53): always there *)
Definition all_directives_at (ts : list ltok) : lresult (option ldirectives) :=
  dol (l, r) <- many_at_at (parse_directive_at true) (S (length ts)) ts; LOk (Some (l, directives_span l)) r.
(** [InputValueDefinition::from_tokens] (input_value_definition.rs:41-62) *)
Definition parse_ivd_at (ts : list ltok) : lresult livd :=
  let '(desc, r0) := next_if_string_at ts in
  dol (n, r1) <- expect_name_at r0; dol (u, r2) <- expect_punct_at PColon r1;
  dol (t, r3) <- parse_dtype_at (S (length r2)) r2;
  dol (d, r4) <- parse_default_at r3;
  dol (ds, r5) <- all_directives_at r4;
  LOk {| liv_name := n; liv_desc := desc; liv_type := t; liv_default := d; liv_dirs := ds |} r5.
(** a list in brackets or braces, with its span: arguments_definition.rs:27-42, fields_definition.rs:27-43,
    enum_value_definitions.rs:26-43, input_fields_definition.rs:26-43 *)
Definition enclosed_at {A} (item : list ltok -> lresult A) (op close : punct) (ts : list ltok) : lresult (list A * (nat * nat)) :=
  dol (o, r) <- expect_punct_at op ts; dol (l, r') <- many1_at item close (S (length r)) r; LOk (fst l, merge o (snd l)) r'.
(** [ArgumentsDefinition::from_tokens], [is_match] (arguments_definition.rs:27-49) *)
Definition parse_ivds_args_at (ts : list ltok) : lresult (option livds) :=
  if peek_punct_at POpenRound ts then dol (l, r) <- enclosed_at parse_ivd_at POpenRound PCloseRound ts; LOk (Some l) r else LOk None ts.
(** [FieldDefinition::from_tokens] (field_definition.rs:64-82) *)
Definition parse_fdef_at (ts : list ltok) : lresult lfdef :=
  let '(desc, r0) := next_if_string_at ts in
  dol (n, r1) <- expect_name_at r0;
  dol (args, r2) <- parse_ivds_args_at r1;
  dol (u, r3) <- expect_punct_at PColon r2;
  dol (t, r4) <- parse_dtype_at (S (length r3)) r3;
  dol (ds, r5) <- parse_directives_at true r4;
  LOk {| lfd_name := n; lfd_desc := desc; lfd_args := args; lfd_type := t; lfd_dirs := ds |} r5.
Definition parse_fdefs_at : list ltok -> lresult (list lfdef * (nat * nat)) := enclosed_at parse_fdef_at POpenBrace PCloseBrace.
(** [EnumValueDefinition::from_tokens] (enum_value_definition.rs:34-51) *)
Definition parse_evd_at (ts : list ltok) : lresult levd :=
  let '(desc, r0) := next_if_string_at ts in
  dol (n, r1) <- expect_name_at r0;
  if teqb (fst n) (tx "null") || teqb (fst n) (tx "true") || teqb (fst n) (tx "false") then LErr (LEEnum n) r1
  else dol (ds, r2) <- parse_directives_at true r1; LOk {| lev_name := n; lev_desc := desc; lev_dirs := ds |} r2.
Definition parse_evds_at : list ltok -> lresult (list levd * (nat * nat)) := enclosed_at parse_evd_at POpenBrace PCloseBrace.
Definition parse_input_fields_at : list ltok -> lresult livds := enclosed_at parse_ivd_at POpenBrace PCloseBrace.

(** ** Lists with separators *)
Fixpoint many_sep_at {A} (item : list ltok -> lresult A) (sep : punct) (fuel : nat) (ts : list ltok) {struct fuel} : lresult (list A) :=
  match fuel with
  | 0 => LErr LEFuel ts
  | S fuel' =>
      match next_if_punct_at sep ts with
      | Some (_, r) => dol (a, r1) <- item r; dol (l, r2) <- many_sep_at item sep fuel' r1; LOk (a :: l) r2
      | None => LOk [] ts
      end
  end.
Definition parse_sep_list_at {A} (item : list ltok -> lresult A) (sep : punct) (ts : list ltok) : lresult (list A) :=
  let r0 := match next_if_punct_at sep ts with Some (_, r) => r | None => ts end in
  dol (a, r1) <- item r0; dol (l, r2) <- many_sep_at item sep (S (length r1)) r1; LOk (a :: l) r2.
(** [InterfaceImplementations::from_tokens], [is_match] (interface_implementations.rs:31-50) *)
Definition parse_implements_at (ts : list ltok) : lresult (list lname) :=
  if peek_name_matches_at (tx "implements") ts then
    dol (u, r) <- expect_name_value_at (tx "implements") ts; parse_sep_list_at expect_name_at PAmpersand r
  else LOk [] ts.
(** [DirectiveLocation::from_tokens] (directive_definition.rs:131-146) *)
Definition parse_location_at (ts : list ltok) : lresult (dloc * (nat * nat)) :=
  dol (n, r) <- expect_name_at ts;
  match dloc_of (fst n) with Some l => LOk (l, snd n) r | None => LErr (LEOneOf (TkName (fst n), snd n) (map dloc_text all_dlocs)) r end.

(** ** Definitions *)
(** the kinds of definitions: custom_scalar_type_definition.rs:48-62, object_type_definition.rs:136-155, interface_type_definition.rs:45-63,
    union_type_definition.rs:44-60, input_object_type_definition.rs:40-54, enum_type_definition.rs:87-103 *)
Definition parse_scalar_at (ts : list ltok) : lresult ltdef :=
  let '(desc, r0) := next_if_string_at ts in
  dol (u, r1) <- expect_name_value_at (tx "scalar") r0; dol (n, r2) <- expect_name_at r1; dol (ds, r3) <- parse_directives_at true r2;
  LOk (LDScalar n desc ds) r3.
Definition parse_object_at (ts : list ltok) : lresult ltdef :=
  let '(desc, r0) := next_if_string_at ts in
  dol (u, r1) <- expect_name_value_at (tx "type") r0; dol (n, r2) <- expect_name_at r1;
  dol (is_, r3) <- parse_implements_at r2; dol (ds, r4) <- parse_directives_at true r3; dol (fs, r5) <- parse_fdefs_at r4;
  LOk (LDObject n desc is_ ds fs) r5.
Definition parse_interface_at (ts : list ltok) : lresult ltdef :=
  let '(desc, r0) := next_if_string_at ts in
  dol (u, r1) <- expect_name_value_at (tx "interface") r0; dol (n, r2) <- expect_name_at r1;
  dol (is_, r3) <- parse_implements_at r2; dol (ds, r4) <- parse_directives_at true r3; dol (fs, r5) <- parse_fdefs_at r4;
  LOk (LDInterface n desc is_ ds fs) r5.
Definition parse_union_at (ts : list ltok) : lresult ltdef :=
  let '(desc, r0) := next_if_string_at ts in
  dol (u, r1) <- expect_name_value_at (tx "union") r0; dol (n, r2) <- expect_name_at r1; dol (ds, r3) <- parse_directives_at true r2;
  dol (u', r4) <- expect_punct_at PEquals r3; dol (ms, r5) <- parse_sep_list_at expect_name_at PPipe r4;
  LOk (LDUnion n desc ds ms) r5.
Definition parse_input_at (ts : list ltok) : lresult ltdef :=
  let '(desc, r0) := next_if_string_at ts in
  dol (u, r1) <- expect_name_value_at (tx "input") r0; dol (n, r2) <- expect_name_at r1; dol (ds, r3) <- parse_directives_at true r2;
  dol (fs, r4) <- parse_input_fields_at r3;
  LOk (LDInput n desc ds fs) r4.
Definition parse_enum_at (ts : list ltok) : lresult ltdef :=
  let '(desc, r0) := next_if_string_at ts in
  dol (u, r1) <- expect_name_value_at (tx "enum") r0; dol (n, r2) <- expect_name_at r1; dol (ds, r3) <- parse_directives_at true r2;
  dol (vs, r4) <- parse_evds_at r3;
  LOk (LDEnum n desc ds vs) r4.
(** [DirectiveDefinition::from_tokens] (directive_definition.rs:102-123), [DirectiveLocations::from_tokens] (:171-182) *)
Definition parse_ddef_at (ts : list ltok) : lresult lddef :=
  let '(desc, r0) := next_if_string_at ts in
  dol (u, r1) <- expect_name_value_at (tx "directive") r0; dol (u', r2) <- expect_punct_at PAt r1; dol (n, r3) <- expect_name_at r2;
  dol (args, r4) <- parse_ivds_args_at r3;
  let '(rep, r5) := match next_if_name_matches_at (tx "repeatable") r4 with Some r => (true, r) | None => (false, r4) end in
  dol (u'', r6) <- expect_name_value_at (tx "on") r5;
  dol (ls, r7) <- parse_sep_list_at parse_location_at PPipe r6;
  LOk {| ldd_name := n; ldd_desc := desc; ldd_args := args; ldd_repeatable := rep; ldd_locs := ls |} r7.
(** [RootOperationTypeDefinition::from_tokens] (explicit_schema_definition.rs:93-109), [ExplicitSchemaDefinition::from_tokens] (:42-70) *)
Definition parse_root_at (ts : list ltok) : lresult (optype * lname) :=
  dol (w, r1) <- expect_name_at ts;
  match optype_of (fst w) with
  | None => LErr (LEOneOf (TkName (fst w), snd w) (map tx ["query"; "mutation"; "subscription"]%string)) r1
  | Some ty => dol (u, r2) <- expect_punct_at PColon r1; dol (n, r3) <- expect_name_at r2; LOk (ty, n) r3
  end.
Definition parse_esdef_at (ts : list ltok) : lresult lesdef :=
  let '(desc, r0) := next_if_string_at ts in
  dol (i, r1) <- expect_name_value_at (tx "schema") r0; dol (ds, r2) <- parse_directives_at true r1;
  dol (l, r3) <- enclosed_at parse_root_at POpenBrace PCloseBrace r2;
  LOk {| les_desc := desc; les_ident := i; les_dirs := ds; les_roots := fst l; les_roots_span := snd l |} r3.

(** ** Documents *)
(** [next_definition_identifier] (definition_document.rs:249-252) *)
Definition next_identifier_at (ts : list ltok) : option text :=
  match ts with
  | (TkStr _, _) :: (TkName n, _) :: _ => Some n
  | (TkName n, _) :: _ => Some n
  | _ => None
  end.
Definition as_type_at (x : lresult ltdef) : lresult lsysdef := dol (t, r) <- x; LOk (LTypeDef t) r.
(** the arms of the loop (:47-124): None for the last arm *)
Definition try_sysdef_at (ts : list ltok) : option (lresult lsysdef) :=
  match next_identifier_at ts with
  | None => None
  | Some n =>
      if teqb n (tx "scalar") then Some (as_type_at (parse_scalar_at ts))
      else if teqb n (tx "type") then Some (as_type_at (parse_object_at ts))
      else if teqb n (tx "input") then Some (as_type_at (parse_input_at ts))
      else if teqb n (tx "enum") then Some (as_type_at (parse_enum_at ts))
      else if teqb n (tx "union") then Some (as_type_at (parse_union_at ts))
      else if teqb n (tx "interface") then Some (as_type_at (parse_interface_at ts))
      else if teqb n (tx "schema") then Some (dol (e, r) <- parse_esdef_at ts; LOk (LSchemaDef e) r)
      else if teqb n (tx "directive") then Some (dol (d, r) <- parse_ddef_at ts; LOk (LDirectiveDef d) r)
      else None
  end.
(** the loop (:46-126). Simplification: the definitions are kept in one list, in the order of the text. *)
Fixpoint sysdoc_loop_at (fuel : nat) (ts : list ltok) (d : list lsysdef) (errs : list lerr) (last_failed : bool) {struct fuel} : list lsysdef * list lerr :=
  match fuel with
  | 0 => (d, errs ++ [LEFuel])
  | S fuel' =>
      match try_sysdef_at ts with
      | Some (LOk x r) => sysdoc_loop_at fuel' r (d ++ [x]) errs false
      | Some (LErr e r) => sysdoc_loop_at fuel' r d (if last_failed then errs else errs ++ [e]) true
      | None =>
          match ts with
          | t :: r => sysdoc_loop_at fuel' r d (if last_failed then errs else errs ++ [LEToken t]) true
          | [] => (d, errs)
          end
      end
  end.
(** [DefinitionDocument::parse_from_tokens] (:41-144) on what the lexer yields: the definitions of the text, or the errors. The
    built-in definitions (:148-162, :131-136) are not added here. [is_empty] (:245-247): no definition of the text. *)
Definition parse_sysdoc_at (eof : nat) (items : list item) : list lsysdef + list err :=
  let ts := items_at items in
  let '(d, errs) := sysdoc_loop_at (S (length ts)) ts [] [] false in
  let errors :=
    match lexing_errors items with
    | [] => match errs with
            | [] => match d with [] => [parse_error_error eof LEEmpty] | _ => [] end
            | _ => map (parse_error_error eof) errs
            end
    | es => es
    end in
  match errors with [] => inl d | _ => inr errors end.
(** [DefinitionDocument::parse] on a text *)
Definition parse_schema_text_at (recover : text -> nat) (other_digit : N -> bool) (parse_f64 : text -> option N) (s : text) : list lsysdef + list err :=
  parse_sysdoc_at (list_sum (map utf8_len s)) (lex recover other_digit parse_f64 false s).
