(** bluejay-printer/src/definition: schemas as text. *)
From Verif Require Import Base Ast Printer DefParser.

(** [if let Some(description) = … { BlockStringValuePrinter::new(description, indentation) }], the start of every printer *)
Definition print_description (indent : nat) (d : option text) : text := match d with Some s => print_block indent s | None => [] end.

Section Printer.
  Variable print_float : N -> text.
  Notation dirs := (print_directives print_float).

  (** [InputValueDefinitionPrinter] (input_value_definition.rs:25-53) *)
  Definition print_ivd (indent : nat) (i : ivd) : text :=
    print_description indent (iv_desc i) ++ write_indent indent ++ iv_name i ++ [58; 32]%N ++ tref_display (iv_type i) ++
    (match iv_default i with Some d => [32; 61; 32]%N ++ print_value print_float d | None => [] end) ++ dirs (iv_dirs i) ++ newline.
  (** [ArgumentsDefinitionPrinter] (arguments_definition.rs:23-50): an empty line between two definitions *)
  Definition print_args_def (indent : nat) (l : list ivd) : text :=
    match l with
    | [] => []
    | _ => [40%N] ++ newline ++ join newline (map (print_ivd (indent + indentation_size)) l) ++ write_indent indent ++ [41%N]
    end.
  (** [FieldDefinitionPrinter], [FieldsDefinitionPrinter] (field_definition.rs:23-93) *)
  Definition print_fdef (indent : nat) (f : fdef) : text :=
    print_description indent (fd_desc f) ++ write_indent indent ++ fd_name f ++ print_args_def indent (fd_args f) ++
    [58; 32]%N ++ tref_display (fd_type f) ++ dirs (fd_dirs f) ++ newline.
  Definition print_fields (indent : nat) (fs : list fdef) : text :=
    [123%N] ++ newline ++ join newline (map (print_fdef (indent + indentation_size)) (filter (fun f => negb (fd_builtin f)) fs)) ++
    write_indent indent ++ [125%N] ++ newline.
  (** the closure of [EnumTypeDefinitionPrinter] (enum_type_definition.rs:39-58) *)
  Definition print_evd (v : evd) : text :=
    print_description indentation_size (ev_desc v) ++ write_indent indentation_size ++ ev_name v ++ dirs (ev_dirs v) ++ newline.
  (** [InterfaceImplementationsPrinter] (interface_implementations.rs:13-30) *)
  Definition print_implements (l : list name) : text := match l with [] => [] | _ => tx " implements " ++ join (tx " & ") l end.

  (** the printers of type definitions: scalar_type_definition.rs:13-28, object_type_definition.rs:20-48,
      interface_type_definition.rs:20-49, union_type_definition.rs:16-44, enum_type_definition.rs:20-63,
      input_object_type_definition.rs:17-48; nothing for a built-in scalar (schema_definition.rs:103) *)
  Definition print_tdef (t : tdef) : text :=
    match t with
    | DBuiltin _ => []
    | DScalar s => print_description 0 (sc_desc s) ++ tx "scalar " ++ sc_name s ++ dirs (sc_dirs s) ++ newline
    | DObject o =>
        print_description 0 (ob_desc o) ++ tx "type " ++ ob_name o ++ print_implements (ob_ifaces o) ++ dirs (ob_dirs o) ++ [32%N] ++ print_fields 0 (ob_fields o)
    | DInterface i =>
        print_description 0 (if_desc i) ++ tx "interface " ++ if_name i ++ print_implements (if_ifaces i) ++ dirs (if_dirs i) ++ [32%N] ++ print_fields 0 (if_fields i)
    | DUnion u => print_description 0 (un_desc u) ++ tx "union " ++ un_name u ++ dirs (un_dirs u) ++ tx " = " ++ join (tx " | ") (un_members u) ++ newline
    | DEnum e =>
        print_description 0 (en_desc e) ++ tx "enum " ++ en_name e ++ dirs (en_dirs e) ++ [32; 123]%N ++ newline ++
        join newline (map print_evd (en_values e)) ++ [125%N] ++ newline
    | DInput i =>
        print_description 0 (io_desc i) ++ tx "input " ++ io_name i ++ dirs (io_dirs i) ++ [32; 123]%N ++ newline ++
        join newline (map (print_ivd indentation_size) (io_fields i)) ++ [125%N] ++ newline
    end.
  (** [DirectiveDefinitionPrinter] (directive_definition.rs:16-52) *)
  Definition print_ddef (d : ddef) : text :=
    print_description 0 (dd_desc d) ++ tx "directive @" ++ dd_name d ++ print_args_def 0 (dd_args d) ++
    (if dd_repeatable d then tx " repeatable" else []) ++ tx " on " ++ join (tx " | ") (map dloc_text (dd_locs d)) ++ newline.

  (** [SchemaDefinitionPrinter::is_implicit] (schema_definition.rs:38-54) *)
  Definition is_none {A} (o : option A) : bool := match o with None => true | Some _ => false end.
  Definition none_or (n : text) (o : option name) : bool := match o with None => true | Some m => teqb m n end.
  Definition is_implicit (s : schema) : bool :=
    is_none (s_desc s) && teqb (s_query s) (tx "Query") && none_or (tx "Mutation") (s_mutation s) &&
    none_or (tx "Subscription") (s_subscription s) && Nat.eqb (length (s_dirs s)) 0.
  (** [fmt_explicit_schema_definition] (:56-78) *)
  Definition print_root (word : text) (n : name) : text := [32; 32]%N ++ word ++ [58; 32]%N ++ n ++ newline.
  Definition print_esdef (s : schema) : text :=
    print_description 0 (s_desc s) ++ tx "schema" ++ dirs (s_dirs s) ++ [32; 123]%N ++ newline ++
    print_root (tx "query") (s_query s) ++
    (match s_mutation s with Some n => print_root (tx "mutation") n | None => [] end) ++
    (match s_subscription s with Some n => print_root (tx "subscription") n | None => [] end) ++ [125%N] ++ newline.
  (** [SchemaDefinitionPrinter] (:81-137): the definitions that are not built in, directives first, an empty line between two *)
  Definition own_ddefs (s : schema) : list ddef := filter (fun d => negb (dd_builtin d)) (s_ddefs s).
  Definition own_types (s : schema) : list tdef := filter (fun t => negb (td_builtin t)) (s_types s).
  Definition some {A} (l : list A) : bool := match l with [] => false | _ => true end.
  Definition print_schema (s : schema) : text :=
    join newline (map print_ddef (own_ddefs s)) ++
    (if some (own_ddefs s) && some (own_types s) then newline else []) ++ join newline (map print_tdef (own_types s)) ++
    (if is_implicit s then []
     else (if some (own_ddefs s) || some (own_types s) then newline else []) ++ print_esdef s).
End Printer.
