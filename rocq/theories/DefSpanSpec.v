(** The grammar of schema documents, with positions: which tokens of a text are those of a definition whose parts carry positions. *)
From Coq Require Import String.
From Verif Require Import Base Ast Lexer Parser Location DefParser ParserAt DefParserAt ParserSpec ParserAtSpec DefParserSpec DefParserAtSpec.

(** ** Pieces of a list of tokens *)
Definition piece : Type := list ltok -> Prop.
Definition nothing : piece := fun ts => ts = [].
(** one piece after another *)
Definition followed (p q : piece) : piece := fun ts => exists a b, ts = a ++ b /\ p a /\ q b.
Infix ";;" := followed (at level 60, right associativity).
(** one token, anywhere *)
Definition one (t : token) : piece := fun ts => exists sp, ts = [(t, sp)].
Definition word (w : string) : piece := one (TkName (tx w)).
Definition mark (p : punct) : piece := one (P p).
Definition maybe (p : piece) : piece := fun ts => ts = [] \/ p ts.
(** a piece that stands at a range *)
Definition at_range (sp : span) (p : piece) : piece := fun ts => p ts /\ covers ts sp.
(** a piece for each element *)
Definition each {A} (w : A -> piece) (l : list A) : piece := fun ts => exists pieces, ts = concat pieces /\ Forall2 w l pieces.
(** elements with a separator between them, and perhaps one before them *)
Definition separated {A} (sep : punct) (w : A -> piece) (l : list A) : piece :=
  match l with
  | [] => fun _ => False
  | a :: rest => maybe (mark sep) ;; w a ;; each (fun x => mark sep ;; w x) rest
  end.
(** elements between brackets, at least one *)
Definition enclosed {A} (op cl : punct) (w : A -> piece) (l : list A * span) : piece :=
  fun ts => fst l <> [] /\ at_range (snd l) (mark op ;; each w (fst l) ;; mark cl) ts.

(** ** Names, descriptions, values, directives *)
Definition name_piece (n : lname) : piece := at_range (snd n) (one (TkName (fst n))).
Definition desc_piece (d : ldesc) : piece := match d with Some s => at_range (snd s) (one (TkStr (fst s))) | None => nothing end.
(** values and directives are as in executable documents: their parts stand at their own ranges (C63) *)
Definition value_piece (v : lvalue) : piece :=
  at_range (value_span v) (fun ts => map fst ts = tk_value (plain_value v) /\ Forall (well_placed ts) (value_nodes v)).
Definition directive_piece (d : ldirective) : piece :=
  at_range (ld_span d) (fun ts => map fst ts = tk_directive (plain_directive d) /\ Forall (well_placed ts) (directive_nodes d)).
Definition directives_piece (o : option ldirectives) : piece :=
  match o with
  | None => nothing
  | Some (l, Some sp) => at_range sp (each directive_piece l)
  | Some (l, None) => fun ts => l = [] /\ ts = []
  end.
(** ** Types: the range of a named type has the bang, that of a list has not *)
Definition bang_piece (req : bool) : piece := if req then mark PBang else nothing.
Fixpoint type_piece (t : ltype) : piece :=
  match t with
  | LTBase n req sp => at_range sp (name_piece n ;; bang_piece req)
  | LTList inner req sp => at_range sp (mark POpenSquare ;; type_piece inner ;; mark PCloseSquare) ;; bang_piece req
  end.
(** ** Input values, fields, enum values *)
Definition default_piece (d : option lvalue) : piece := match d with Some v => mark PEquals ;; value_piece v | None => nothing end.
Definition ivd_piece (i : livd) : piece :=
  desc_piece (liv_desc i) ;; name_piece (liv_name i) ;; mark PColon ;; type_piece (liv_type i) ;; default_piece (liv_default i) ;; directives_piece (liv_dirs i).
Definition args_piece (o : option livds) : piece := match o with Some l => enclosed POpenRound PCloseRound ivd_piece l | None => nothing end.
Definition fdef_piece (f : lfdef) : piece :=
  desc_piece (lfd_desc f) ;; name_piece (lfd_name f) ;; args_piece (lfd_args f) ;; mark PColon ;; type_piece (lfd_type f) ;; directives_piece (lfd_dirs f).
Definition evd_piece (e : levd) : piece := desc_piece (lev_desc e) ;; name_piece (lev_name e) ;; directives_piece (lev_dirs e).
(** ** Definitions *)
Definition implements_piece (l : list lname) : piece := match l with [] => nothing | _ => word "implements" ;; separated PAmpersand name_piece l end.
Definition tdef_piece (t : ltdef) : piece :=
  match t with
  | LDScalar n d ds => desc_piece d ;; word "scalar" ;; name_piece n ;; directives_piece ds
  | LDObject n d is_ ds fs => desc_piece d ;; word "type" ;; name_piece n ;; implements_piece is_ ;; directives_piece ds ;; enclosed POpenBrace PCloseBrace fdef_piece fs
  | LDInterface n d is_ ds fs => desc_piece d ;; word "interface" ;; name_piece n ;; implements_piece is_ ;; directives_piece ds ;; enclosed POpenBrace PCloseBrace fdef_piece fs
  | LDUnion n d ds ms => desc_piece d ;; word "union" ;; name_piece n ;; directives_piece ds ;; mark PEquals ;; separated PPipe name_piece ms
  | LDInput n d ds fs => desc_piece d ;; word "input" ;; name_piece n ;; directives_piece ds ;; enclosed POpenBrace PCloseBrace ivd_piece fs
  | LDEnum n d ds vs => desc_piece d ;; word "enum" ;; name_piece n ;; directives_piece ds ;; enclosed POpenBrace PCloseBrace evd_piece vs
  end.
Definition location_piece (l : dloc * span) : piece := at_range (snd l) (word (location_word (fst l))).
Definition ddef_piece (d : lddef) : piece :=
  desc_piece (ldd_desc d) ;; word "directive" ;; mark PAt ;; name_piece (ldd_name d) ;; args_piece (ldd_args d) ;;
  (if ldd_repeatable d then word "repeatable" else nothing) ;; word "on" ;; separated PPipe location_piece (ldd_locs d).
Definition root_piece (p : optype * lname) : piece := one (TkName (optype_word (fst p))) ;; mark PColon ;; name_piece (snd p).
Definition esdef_piece (e : lesdef) : piece :=
  desc_piece (les_desc e) ;; at_range (les_ident e) (word "schema") ;; directives_piece (les_dirs e) ;;
  enclosed POpenBrace PCloseBrace root_piece (les_roots e, les_roots_span e).
Definition sysdef_piece (x : lsysdef) : piece :=
  match x with LSchemaDef e => esdef_piece e | LDirectiveDef d => ddef_piece d | LTypeDef t => tdef_piece t end.

(** ** The parts of a document: what is written, and where the library says it is *)
Definition part : Type := list token * span.
Definition name_part (n : lname) : part := ([TkName (fst n)], snd n).
Definition node_part (n : node) : part := (node_tokens n, node_span n).
Definition desc_parts (d : ldesc) : list part := match d with Some s => [([TkStr (fst s)], snd s)] | None => [] end.
Definition value_parts (v : lvalue) : list part := map node_part (value_nodes v).
Definition directives_parts (o : option ldirectives) : list part := map node_part (directives_nodes o).
Fixpoint type_parts (t : ltype) : list part :=
  match t with
  | LTBase n req sp => [(tk_tref (TBase (fst n) req), sp); name_part n]
  | LTList inner _ sp => (tk_tref (TList (plain_type inner) false), sp) :: type_parts inner
  end.
Definition ivd_parts (i : livd) : list part :=
  desc_parts (liv_desc i) ++ name_part (liv_name i) :: type_parts (liv_type i) ++ (match liv_default i with Some v => value_parts v | None => [] end) ++ directives_parts (liv_dirs i).
Definition args_parts (o : option livds) : list part :=
  match o with Some l => (tk_args_def (map plain_ivd (fst l)), snd l) :: flat_map ivd_parts (fst l) | None => [] end.
Definition fdef_parts (f : lfdef) : list part :=
  desc_parts (lfd_desc f) ++ name_part (lfd_name f) :: args_parts (lfd_args f) ++ type_parts (lfd_type f) ++ directives_parts (lfd_dirs f).
Definition fields_parts (l : list lfdef * span) : list part := (braced tk_fdef (map plain_fdef (fst l)), snd l) :: flat_map fdef_parts (fst l).
Definition evd_parts (e : levd) : list part := desc_parts (lev_desc e) ++ name_part (lev_name e) :: directives_parts (lev_dirs e).
Definition tdef_parts (t : ltdef) : list part :=
  match t with
  | LDScalar n d ds => desc_parts d ++ name_part n :: directives_parts ds
  | LDObject n d is_ ds fs | LDInterface n d is_ ds fs => desc_parts d ++ name_part n :: map name_part is_ ++ directives_parts ds ++ fields_parts fs
  | LDUnion n d ds ms => desc_parts d ++ name_part n :: directives_parts ds ++ map name_part ms
  | LDInput n d ds fs => desc_parts d ++ name_part n :: directives_parts ds ++ (braced tk_ivd (map plain_ivd (fst fs)), snd fs) :: flat_map ivd_parts (fst fs)
  | LDEnum n d ds vs => desc_parts d ++ name_part n :: directives_parts ds ++ (braced tk_evd (map plain_evd (fst vs)), snd vs) :: flat_map evd_parts (fst vs)
  end.
Definition ddef_parts (d : lddef) : list part :=
  desc_parts (ldd_desc d) ++ name_part (ldd_name d) :: args_parts (ldd_args d) ++ map (fun l => (tk_location (fst l), snd l)) (ldd_locs d).
Definition esdef_parts (e : lesdef) : list part :=
  desc_parts (les_desc e) ++ ([TkName (tx "schema")], les_ident e) :: directives_parts (les_dirs e) ++
  (braced tk_root (map (fun p => (fst p, fst (snd p))) (les_roots e)), les_roots_span e) :: map (fun p => name_part (snd p)) (les_roots e).
Definition sysdef_parts (x : lsysdef) : list part :=
  match x with LSchemaDef e => esdef_parts e | LDirectiveDef d => ddef_parts d | LTypeDef t => tdef_parts t end.
(** the tokens of a part stand together, and its range goes from the beginning of the first to the end of the last *)
Definition part_placed (ts : list ltok) (p : part) : Prop :=
  exists before mine after, ts = before ++ mine ++ after /\ map fst mine = fst p /\ covers mine (snd p).
