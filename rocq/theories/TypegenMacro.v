(** The macro [typegen] as a whole: bluejay-typegen-macro/src/{lib,executable_definition}.rs. *)
From Verif Require Import Base Ast Doc Merging FragmentCycles Lexer Parser DefParser Resolve DefRules Validator Typegen TypegenDe TypegenInput.

(** The compile errors the macro returns. Those about a query carry the position of the query among the query modules. *)
Inductive macro_error :=
| MBorrowWithMiniserde
| MSchemaSyntax (es : list error)
| MSchemaReferences (es : list derror)
| MSchemaInvalid (es : list deferr)
| MAlias (e : alias_error)
| MQuerySyntax (i : nat) (es : list error)
| MQueryInvalid (i : nat) (es : list doc_error)
| MQueryUnsupported (i : nat) (es : list tgerr).
Inductive macro_result :=
| MItems (types : list sitem) (queries : list (list etype))
| MError (e : macro_error)
| MPanic.

Section Macro.
  (** parser and resolver: hash orders, token recovery, digits and floats, as in Parser.v and Resolve.v *)
  Variable so : list builtin.
  Variable dor : list ddef.
  Variable recover : text -> nat.
  Variable other_digit : N -> bool.
  Variable parse_f64 : text -> option N.
  (** validator, as in Validator.v; the macro uses the default for custom scalars *)
  Variable hook : name -> value -> option text.
  Variable str_enum one_of : bool.
  Variable ord : nat -> list (list fctx) -> list (list fctx).
  (** names.rs:7-9 [type_name] *)
  Variable pascal : name -> name.

  (** executable_definition.rs:40-86 [generate_executable_definition]: the types of the query at position [i]. The items built
      from them are modelled by [items] in TypegenDe.v. Simplification: the query is given by its text. *)
  Definition query_types (S : schema) (borrow : bool) (scalar_borrows : name -> option bool) (i : nat) (query : text) : list etype + option macro_error :=
    match parse_text recover other_digit parse_f64 query with
    | inr es => inr (Some (MQuerySyntax i es))
    | inl d =>
        match validate S hook str_enum one_of ord d with
        | None => inr None
        | Some (e :: es) => inr (Some (MQueryInvalid i (e :: es)))
        | Some [] =>
            let es := typegen_errors d (visit S d) in
            if existsb (fun e => match e with TPanic => true | _ => false end) es then inr None else
            match es with
            | _ :: _ => inr (Some (MQueryUnsupported i es))
            | [] => match convert S borrow scalar_borrows d with Built types => inl types | Panics _ => inr None end
            end
        end
    end.
  (** lib.rs:217-241: the items are processed in order, up to the first error *)
  Fixpoint all_queries (S : schema) (borrow : bool) (scalar_borrows : name -> option bool) (i : nat) (queries : list text) : list (list etype) + option macro_error :=
    match queries with
    | [] => inl []
    | q :: queries' =>
        match query_types S borrow scalar_borrows i q with
        | inr e => inr e
        | inl types =>
            match all_queries S borrow scalar_borrows (Datatypes.S i) queries' with
            | inr e => inr e
            | inl rest => inl (types :: rest)
            end
        end
    end.
  (** lib.rs:68-121 [generate_schema], :306-318 [typegen]. Simplifications: the schema is given by its text; of the module, only
      its type aliases and the texts of its query modules are given, and any other item (an error, lib.rs:243-289) is left out;
      so are the doc comment of the module and reading the files. *)
  Definition typegen_macro (schema_text : text) (borrow : bool) (cod : codec) (aliases : list alias) (queries : list text) : macro_result :=
    if borrow && match cod with Miniserde => true | Serde => false end then MError MBorrowWithMiniserde else
    match parse_schema_text so dor recover other_digit parse_f64 schema_text with
    | inr es => MError (MSchemaSyntax es)
    | inl dd =>
        match Resolve.resolve dd with
        | inr es => MError (MSchemaReferences es)
        | inl sc =>
            match definition_errors sc with
            | (_ :: _) as es => MError (MSchemaInvalid es)
            | [] =>
                match custom_scalars pascal sc borrow aliases with
                | inr e => MError (MAlias e)
                | inl m =>
                    match schema_items sc borrow (scalar_lookup pascal m) with
                    | Panics _ => MPanic
                    | Built its =>
                        match all_queries sc borrow (scalar_lookup pascal m) 0 queries with
                        | inl qs => MItems its qs
                        | inr (Some e) => MError e
                        | inr None => MPanic
                        end
                    end
                end
            end
        end
    end.
End Macro.
