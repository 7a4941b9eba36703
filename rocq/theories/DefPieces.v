(** Parsing pieces of type system documents by themselves: [Parse] (bluejay-parser/src/ast/parse.rs:28-41) for the definitions and
    their parts; [ObjectTypeDefinition::parse] and so on. *)
From Coq Require Import String.
From Verif Require Import Base Ast Lexer Parser DefParser Pieces.

(** the types with [FromTokens] in ast/definition *)
Inductive dkind := DKInputValue | DKField | DKEnumValue | DKScalar | DKObject | DKInterface | DKUnion | DKInput | DKEnum | DKDirective | DKSchema.
Definition dpiece (k : dkind) : Type :=
  match k with
  | DKInputValue => ivd | DKField => fdef | DKEnumValue => evd
  | DKScalar | DKObject | DKInterface | DKUnion | DKInput | DKEnum => tdef
  | DKDirective => ddef | DKSchema => esdef
  end.
Definition def_from_tokens (k : dkind) : list token -> presult (dpiece k) :=
  match k with
  | DKInputValue => parse_ivd | DKField => parse_fdef | DKEnumValue => parse_evd
  | DKScalar => parse_scalar | DKObject => parse_object | DKInterface => parse_interface | DKUnion => parse_union | DKInput => parse_input | DKEnum => parse_enum
  | DKDirective => parse_ddef | DKSchema => parse_esdef
  end.
Definition parse_def (k : dkind) : (presult (dpiece k) -> nat) -> list (token + lex_error) -> outcome (dpiece k) := parse_with (def_from_tokens k).

(** ** What the program parses when it makes a document *)
(** [builtin] (object_type_definition.rs:107-111, enum_type_definition.rs:73-77, field_definition.rs:21-25, directive_definition.rs:42-49):
    [parse(..).unwrap()], then the flag; None: the unwrap panics *)
Definition unwrapped {A} (x : outcome A) : option A := match x with Parsed a => Some a | _ => None end.
Definition field_builtin (f : fdef) : fdef :=
  {| fd_name := fd_name f; fd_desc := fd_desc f; fd_args := fd_args f; fd_type := fd_type f; fd_dirs := fd_dirs f; fd_builtin := true |}.
Definition directive_builtin (d : ddef) : ddef :=
  {| dd_name := dd_name d; dd_desc := dd_desc d; dd_args := dd_args d; dd_repeatable := dd_repeatable d; dd_locs := dd_locs d; dd_builtin := true |}.
Definition type_builtin (t : tdef) : tdef :=
  match t with
  | DObject o => DObject {| ob_name := ob_name o; ob_desc := ob_desc o; ob_ifaces := ob_ifaces o; ob_dirs := ob_dirs o; ob_fields := ob_fields o; ob_builtin := true |}
  | DEnum e => DEnum {| en_name := en_name e; en_desc := en_desc e; en_dirs := en_dirs e; en_values := en_values e; en_builtin := true |}
  | _ => t
  end.
