(** The grammar of executable documents, as the way each tree is written in tokens. *)
From Verif Require Import Base Ast Lexer.

Definition P (p : punct) : token := TkPunct p.
Fixpoint tk_value (v : value) : list token :=
  match v with
  | VVar n => [TkVar n]
  | VInt z => [TkInt z]
  | VFloat b => [TkFloat b]
  | VStr s => [TkStr s]
  | VBool true => [TkName (tx "true")]
  | VBool false => [TkName (tx "false")]
  | VNull => [TkName (tx "null")]
  | VEnum n => [TkName n]
  | VList vs => P POpenSquare :: concat (map tk_value vs) ++ [P PCloseSquare]
  | VObj es => P POpenBrace :: concat (map (fun kv => TkName (fst kv) :: P PColon :: tk_value (snd kv)) es) ++ [P PCloseBrace]
  end.
(** an enum value is not one of three words; a constant has no variables *)
Definition reserved (n : text) : bool := teqb n (tx "true") || teqb n (tx "false") || teqb n (tx "null").
Fixpoint value_ok (const : bool) (v : value) : bool :=
  match v with
  | VVar _ => negb const
  | VEnum n => negb (reserved n)
  | VList vs => forallb (value_ok const) vs
  | VObj es => forallb (fun kv => value_ok const (snd kv)) es
  | _ => true
  end.
Definition tk_argument (a : argument) : list token := TkName (fst a) :: P PColon :: tk_value (snd a).
Definition tk_arguments (args : list argument) : list token :=
  match args with [] => [] | _ => P POpenRound :: concat (map tk_argument args) ++ [P PCloseRound] end.
Definition arguments_ok (const : bool) (args : list argument) : bool := forallb (fun a => value_ok const (snd a)) args.
Definition tk_directive (d : directive) : list token := P PAt :: TkName (dir_name d) :: tk_arguments (dir_args d).
Definition tk_directives (ds : list directive) : list token := concat (map tk_directive ds).
Definition directives_ok (const : bool) (ds : list directive) : bool := forallb (fun d => arguments_ok const (dir_args d)) ds.
Definition tk_bang (req : bool) : list token := if req then [P PBang] else [].
Fixpoint tk_tref (t : tref) : list token :=
  match t with
  | TBase n req => TkName n :: tk_bang req
  | TList inner req => P POpenSquare :: tk_tref inner ++ P PCloseSquare :: tk_bang req
  end.
Definition tk_vardef (v : vardef) : list token :=
  TkVar (vd_name v) :: P PColon :: tk_tref (vd_type v) ++
  (match vd_default v with Some d => P PEquals :: tk_value d | None => [] end) ++ tk_directives (vd_dirs v).
Definition tk_vardefs (vs : list vardef) : list token :=
  match vs with [] => [] | _ => P POpenRound :: concat (map tk_vardef vs) ++ [P PCloseRound] end.
Definition vardef_ok (v : vardef) : bool :=
  match vd_default v with Some d => value_ok true d | None => true end && directives_ok true (vd_dirs v).
Fixpoint tk_selection (s : selection) : list token :=
  match s with
  | SField al n args ds sub =>
      (match al with Some a => [TkName a; P PColon] | None => [] end) ++ TkName n :: tk_arguments args ++ tk_directives ds ++
      (match sub with [] => [] | _ => P POpenBrace :: concat (map tk_selection sub) ++ [P PCloseBrace] end)
  | SSpread n ds => P PEllipse :: TkName n :: tk_directives ds
  | SInline c ds sub =>
      P PEllipse :: (match c with Some t => [TkName (tx "on"); TkName t] | None => [] end) ++ tk_directives ds ++
      P POpenBrace :: concat (map tk_selection sub) ++ [P PCloseBrace]
  end.
Definition tk_set (sub : list selection) : list token := P POpenBrace :: concat (map tk_selection sub) ++ [P PCloseBrace].
Definition nonempty {A} (l : list A) : bool := match l with [] => false | _ => true end.
(** a fragment is not called [on]; an inline fragment has selections *)
Fixpoint selection_ok (s : selection) : bool :=
  match s with
  | SField _ _ args ds sub => arguments_ok false args && directives_ok false ds && forallb selection_ok sub
  | SSpread n ds => negb (teqb n (tx "on")) && directives_ok false ds
  | SInline _ ds sub => directives_ok false ds && nonempty sub && forallb selection_ok sub
  end.
Definition set_ok (sub : list selection) : bool := nonempty sub && forallb selection_ok sub.
Definition optype_word (t : optype) : text :=
  match t with OQuery => tx "query" | OMutation => tx "mutation" | OSubscription => tx "subscription" end.
Definition tk_operation (o : operation) : list token :=
  if op_explicit o then
    TkName (optype_word (op_type o)) :: (match op_name o with Some n => [TkName n] | None => [] end) ++
    tk_vardefs (op_vars o) ++ tk_directives (op_dirs o) ++ tk_set (op_sel o)
  else tk_set (op_sel o).
Definition operation_ok (o : operation) : Prop :=
  forallb vardef_ok (op_vars o) = true /\ directives_ok false (op_dirs o) = true /\ set_ok (op_sel o) = true /\
  (op_explicit o = false -> op_type o = OQuery /\ op_name o = None /\ op_vars o = [] /\ op_dirs o = []).
Definition tk_fragment (f : fragment) : list token :=
  TkName (tx "fragment") :: TkName (fr_name f) :: TkName (tx "on") :: TkName (fr_cond f) :: tk_directives (fr_dirs f) ++ tk_set (fr_sel f).
Definition fragment_ok (f : fragment) : Prop :=
  fr_name f <> tx "on" /\ directives_ok false (fr_dirs f) = true /\ set_ok (fr_sel f) = true.
(** a document is a sequence of definitions *)
Definition definition : Type := operation + fragment.
Definition tk_definition (d : definition) : list token := match d with inl o => tk_operation o | inr f => tk_fragment f end.
Definition definition_ok (d : definition) : Prop := match d with inl o => operation_ok o | inr f => fragment_ok f end.
Definition document_of (ds : list definition) : document :=
  {| doc_ops := flat_map (fun d => match d with inl o => [o] | inr _ => [] end) ds;
     doc_frags := flat_map (fun d => match d with inl _ => [] | inr f => [f] end) ds |}.
