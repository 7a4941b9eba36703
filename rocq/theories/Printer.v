(** bluejay-printer: values, arguments, directives and executable documents as text. Every [Display] implementation is a
    function to text (the formatter never fails when the sink does not). *)
From Verif Require Import Base Ast Decimal10.

(** [write_indent] (lib.rs:10-12), [INDENTATION_SIZE] (lib.rs:14) *)
Definition write_indent (n : nat) : text := repeat 32%N n.
Definition indentation_size : nat := 2.
Definition newline : text := [10%N].

(** [StringValuePrinter] (string_value.rs:12-27) *)
Definition print_char (c : N) : text :=
  if N.eqb c 34 || N.eqb c 92 then [92%N; c]
  else if N.eqb c 8 then [92; 98]%N
  else if N.eqb c 12 then [92; 102]%N
  else if N.eqb c 10 then [92; 110]%N
  else if N.eqb c 13 then [92; 114]%N
  else if N.eqb c 9 then [92; 116]%N
  else [c].
Definition print_string (s : text) : text := [34%N] ++ concat (map print_char s) ++ [34%N].

(** [Display] for [i32] *)
Definition show_Z (z : Z) : text := match z with Zneg p => 45%N :: show_N (Npos p) | _ => show_N (Z.to_N z) end.

(** [ExecutableDocument] separators: [a, b, c] *)
Definition comma : text := [44; 32]%N.
Fixpoint join (sep : text) (l : list text) : text :=
  match l with [] => [] | [x] => x | x :: l' => x ++ sep ++ join sep l' end.

Section Printer.
  (** how [ValuePrinter] writes a float (value.rs:23-29); FloatPrinter.v *)
  Variable print_float : N -> text.

  (** [ValuePrinter] (value.rs:17-58) *)
  Fixpoint print_value (v : value) : text :=
    match v with
    | VVar n => 36%N :: n
    | VInt z => show_Z z
    | VFloat b => print_float b
    | VStr s => print_string s
    | VBool true => tx "true"
    | VBool false => tx "false"
    | VNull => tx "null"
    | VEnum n => n
    | VList vs => [91%N] ++ join comma (map print_value vs) ++ [93%N]
    | VObj es => [123; 32]%N ++ join comma (map (fun kv => fst kv ++ [58; 32]%N ++ print_value (snd kv)) es) ++ [32; 125]%N
    end.

  (** [ArgumentPrinter], [ArgumentsPrinter] (argument.rs:13-51) *)
  Definition print_argument (a : argument) : text := fst a ++ [58; 32]%N ++ print_value (snd a).
  Definition print_arguments (args : list argument) : text :=
    match args with [] => [] | _ => [40%N] ++ join comma (map print_argument args) ++ [41%N] end.
  (** [DirectivePrinter], [DirectivesPrinter] (directive.rs:13-39) *)
  Definition print_directive (d : directive) : text := [64%N] ++ dir_name d ++ print_arguments (dir_args d).
  Definition print_directives (ds : list directive) : text := concat (map (fun d => 32%N :: print_directive d) ds).

  (** [SelectionPrinter] (executable/selection.rs:19-43) with [FieldPrinter] (field.rs:19-42), [FragmentSpreadPrinter]
      (fragment_spread.rs:20-33), [InlineFragmentPrinter] (inline_fragment.rs:19-40), [SelectionSetPrinter]
      (selection_set.rs:19-36) *)
  Fixpoint print_selection (indent : nat) (s : selection) : text :=
    let print_set sub :=
      [123%N] ++ newline ++
      concat (map (fun x => print_selection (indent + indentation_size) x ++ newline) sub) ++
      write_indent indent ++ [125%N] in
    match s with
    | SField al n args ds sub =>
        write_indent indent ++
        (match al with Some a => a ++ [58; 32]%N | None => [] end) ++ n ++
        print_arguments args ++ print_directives ds ++
        (match sub with [] => [] | _ => [32%N] ++ print_set sub end)
    | SSpread n ds => write_indent indent ++ [46; 46; 46]%N ++ n ++ print_directives ds
    | SInline c ds sub =>
        write_indent indent ++ [46; 46; 46]%N ++
        (match c with Some t => tx " on " ++ t | None => [] end) ++ print_directives ds ++ [32%N] ++ print_set sub
    end.
  Definition print_selection_set (indent : nat) (sub : list selection) : text :=
    [123%N] ++ newline ++
    concat (map (fun x => print_selection (indent + indentation_size) x ++ newline) sub) ++
    write_indent indent ++ [125%N].

  (** [VariableDefinitionPrinter], [VariableDefinitionsPrinter] (executable/variable_definition.rs:18-71) *)
  Definition print_vardef (v : vardef) : text :=
    [36%N] ++ vd_name v ++ [58; 32]%N ++ tref_display (vd_type v) ++
    (match vd_default v with Some d => [32; 61; 32]%N ++ print_value d | None => [] end) ++ print_directives (vd_dirs v).
  Definition print_vardefs (vs : list vardef) : text :=
    match vs with [] => [] | _ => [40%N] ++ join comma (map print_vardef vs) ++ [41%N] end.
  (** [Display] of [OperationType] (bluejay-core/src/operation_type.rs:4-10, camelCase) *)
  Definition optype_text (t : optype) : text :=
    match t with OQuery => tx "query" | OMutation => tx "mutation" | OSubscription => tx "subscription" end.
  (** [OperationDefinitionPrinter] (executable/operation_definition.rs:20-46): an implicit operation has the type query and
      nothing else (bluejay-core/src/executable/operation_definition.rs:22-68) *)
  Definition print_operation (o : operation) : text :=
    optype_text (if op_explicit o then op_type o else OQuery) ++
    (if op_explicit o then
       (match op_name o with Some n => 32%N :: n | None => [] end) ++ print_vardefs (op_vars o) ++ print_directives (op_dirs o)
     else []) ++
    [32%N] ++ print_selection_set 0 (op_sel o).
  (** [FragmentDefinitionPrinter] (executable/fragment_definition.rs:17-30): the directives are not printed *)
  Definition print_fragment (f : fragment) : text :=
    tx "fragment " ++ fr_name f ++ tx " on " ++ fr_cond f ++ [32%N] ++ print_selection_set 0 (fr_sel f).
  (** [ExecutableDocumentPrinter] (executable/executable_document.rs:21-47) *)
  Definition print_document (d : document) : text :=
    join newline (map (fun o => print_operation o ++ newline) (doc_ops d)) ++
    concat (map (fun f => newline ++ print_fragment f ++ newline) (doc_frags d)).
End Printer.

(** ** Block strings (string_value.rs:29-56) *)
(** [str::replace] of three quotation marks by an escaped three, left to right *)
Fixpoint escape3 (s : text) : text :=
  match s with
  | [] => []
  | a :: s1 =>
      match s1 with
      | b :: s2 =>
          match s2 with
          | c :: s3 => if N.eqb a 34 && N.eqb b 34 && N.eqb c 34 then [92; 34; 34; 34]%N ++ escape3 s3 else a :: escape3 s1
          | [] => a :: escape3 s1
          end
      | [] => a :: escape3 s1
      end
  end.
(** [str::lines]: split at line feeds, a carriage return before the line feed belongs to the line end, no last empty line *)
Definition strip_cr (l : text) : text :=
  match rev l with c :: r => if N.eqb c 13 then rev r else l | [] => l end.
Fixpoint str_lines_from (line : text) (s : text) : list text :=
  match s with
  | [] => match line with [] => [] | _ => [line] end
  | c :: s' => if N.eqb c 10 then strip_cr line :: str_lines_from [] s' else str_lines_from (line ++ [c]) s'
  end.
Definition str_lines (s : text) : list text := str_lines_from [] s.
(** [BlockStringValuePrinter] *)
Definition print_block (indent : nat) (s : text) : text :=
  write_indent indent ++ [34; 34; 34]%N ++ newline ++
  concat (map (fun l => write_indent indent ++ l ++ newline) (str_lines (escape3 s))) ++
  write_indent indent ++ [34; 34; 34]%N ++ newline.
