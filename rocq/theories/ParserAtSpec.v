(** Located documents: the document without positions, the parts (nodes) of a document, the tokens of each part, and what it
    means that a range of the text covers exactly these tokens. *)
From Verif Require Import Base Ast Lexer Location ParserAt ParserSpec.

(** ** Without positions *)
Fixpoint plain_value (v : lvalue) : value :=
  match v with
  | LVLeaf v _ => v
  | LVList l _ => VList (map plain_value l)
  | LVObj es _ => VObj (map (fun kv => (fst (fst kv), plain_value (snd kv))) es)
  end.
Definition plain_argument (a : largument) : argument := (fst (la_name a), plain_value (la_value a)).
Definition plain_arguments (o : option larguments) : list argument := match o with Some l => map plain_argument (fst l) | None => [] end.
Definition plain_directive (d : ldirective) : directive := {| dir_name := fst (ld_name d); dir_args := plain_arguments (ld_args d) |}.
Definition plain_directives (o : option ldirectives) : list directive := match o with Some l => map plain_directive (fst l) | None => [] end.
Fixpoint plain_type (t : ltype) : tref := match t with LTBase n r _ => TBase (fst n) r | LTList i r _ => TList (plain_type i) r end.
Definition plain_vardef (v : lvardef) : vardef :=
  {| vd_name := fst (lvd_name v); vd_type := plain_type (lvd_type v); vd_default := option_map plain_value (lvd_default v);
     vd_dirs := plain_directives (lvd_dirs v) |}.
Definition plain_vardefs (o : option lvardefs) : list vardef := match o with Some l => map plain_vardef (fst l) | None => [] end.
Fixpoint plain_selection (s : lselection) : selection :=
  match s with
  | LField al n args ds sub _ =>
      SField (option_map fst al) (fst n) (plain_arguments args) (plain_directives ds)
             (match sub with Some l => map plain_selection (fst l) | None => [] end)
  | LSpread n ds _ => SSpread (fst n) (plain_directives ds)
  | LInline c ds sub _ => SInline (option_map fst c) (plain_directives ds) (map plain_selection (fst sub))
  end.
Definition plain_set (s : lset) : list selection := map plain_selection (fst s).
Definition plain_operation (o : loperation) : operation :=
  match o with
  | LExplicit ty _ n vs ds sub _ =>
      {| op_explicit := true; op_type := ty; op_name := option_map fst n; op_vars := plain_vardefs vs; op_dirs := plain_directives ds;
         op_sel := plain_set sub |}
  | LImplicit sub => {| op_explicit := false; op_type := OQuery; op_name := None; op_vars := []; op_dirs := []; op_sel := plain_set sub |}
  end.
Definition plain_fragment (f : lfragment) : fragment :=
  {| fr_name := fst (lf_name f); fr_cond := fst (lf_cond f); fr_dirs := plain_directives (lf_dirs f); fr_sel := plain_set (lf_set f) |}.
Definition plain_definition (d : loperation + lfragment) : definition :=
  match d with inl o => inl (plain_operation o) | inr f => inr (plain_fragment f) end.
Definition plain_document (d : list (loperation + lfragment)) : document := document_of (map plain_definition d).

(** ** The parts of a document *)
Inductive node :=
| NName (n : lname) | NVariable (n : lname)
| NValue (v : lvalue)
| NArgument (a : largument) | NArguments (l : larguments)
| NDirective (d : ldirective) | NDirectives (l : list ldirective) (sp : nat * nat)
| NType (t : ltype)
| NVardefs (l : lvardefs)
| NSelection (s : lselection) | NSet (s : lset)
| NOptype (t : optype) (sp : nat * nat)
| NOperation (o : loperation) | NFragment (f : lfragment).
(** the position that the library gives to each part *)
Definition node_span (n : node) : span :=
  match n with
  | NName n | NVariable n => snd n
  | NValue v => value_span v
  | NArgument a => la_span a
  | NArguments l => snd l
  | NDirective d => ld_span d
  | NDirectives _ sp => sp
  | NType (LTBase _ _ sp) | NType (LTList _ _ sp) => sp
  | NVardefs l => snd l
  | NSelection (LField _ _ _ _ _ sp) | NSelection (LSpread _ _ sp) | NSelection (LInline _ _ _ sp) => sp
  | NSet s => snd s
  | NOptype _ sp => sp
  | NOperation o => operation_span o
  | NFragment f => lf_span f
  end.
(** the tokens of each part; those of a fragment spread are the dots and the name, without its directives *)
Definition node_tokens (n : node) : list token :=
  match n with
  | NName n => [TkName (fst n)]
  | NVariable n => [TkVar (fst n)]
  | NValue v => tk_value (plain_value v)
  | NArgument a => tk_argument (plain_argument a)
  | NArguments l => tk_arguments (plain_arguments (Some l))
  | NDirective d => tk_directive (plain_directive d)
  | NDirectives l _ => tk_directives (map plain_directive l)
  | NType t => tk_tref (plain_type t)
  | NVardefs l => tk_vardefs (plain_vardefs (Some l))
  | NSelection (LSpread n _ _) => [P PEllipse; TkName (fst n)]
  | NSelection s => tk_selection (plain_selection s)
  | NSet s => tk_set (plain_set s)
  | NOptype t _ => [TkName (optype_word t)]
  | NOperation o => tk_operation (plain_operation o)
  | NFragment f => tk_fragment (plain_fragment f)
  end.
(** every part with all parts inside it, each once, the outer before the inner, from left to right *)
Fixpoint value_nodes (v : lvalue) : list node :=
  NValue v :: match v with
              | LVLeaf _ _ => []
              | LVList l _ => flat_map value_nodes l
              | LVObj es _ => flat_map (fun kv => NName (fst kv) :: value_nodes (snd kv)) es
              end.
Definition argument_nodes (a : largument) : list node := NArgument a :: NName (la_name a) :: value_nodes (la_value a).
Definition arguments_nodes (o : option larguments) : list node :=
  match o with Some l => NArguments l :: flat_map argument_nodes (fst l) | None => [] end.
Definition directive_nodes (d : ldirective) : list node := NDirective d :: NName (ld_name d) :: arguments_nodes (ld_args d).
Definition directives_nodes (o : option ldirectives) : list node :=
  match o with Some (l, sp) => (match sp with Some sp => [NDirectives l sp] | None => [] end) ++ flat_map directive_nodes l | None => [] end.
Fixpoint type_nodes (t : ltype) : list node := NType t :: match t with LTBase n _ _ => [NName n] | LTList i _ _ => type_nodes i end.
Definition vardef_nodes (v : lvardef) : list node :=
  NVariable (lvd_name v) :: type_nodes (lvd_type v) ++ (match lvd_default v with Some d => value_nodes d | None => [] end) ++ directives_nodes (lvd_dirs v).
Definition vardefs_nodes (o : option lvardefs) : list node :=
  match o with Some l => NVardefs l :: flat_map vardef_nodes (fst l) | None => [] end.
Definition name_nodes (o : option lname) : list node := match o with Some n => [NName n] | None => [] end.
Fixpoint selection_nodes (s : lselection) : list node :=
  NSelection s ::
  match s with
  | LField al n args ds sub _ =>
      name_nodes al ++ NName n :: arguments_nodes args ++ directives_nodes ds ++
      (match sub with Some l => NSet l :: flat_map selection_nodes (fst l) | None => [] end)
  | LSpread n ds _ => NName n :: directives_nodes ds
  | LInline c ds sub _ => name_nodes c ++ directives_nodes ds ++ NSet sub :: flat_map selection_nodes (fst sub)
  end.
Definition set_nodes (s : lset) : list node := NSet s :: flat_map selection_nodes (fst s).
Definition operation_nodes (o : loperation) : list node :=
  NOperation o ::
  match o with
  | LExplicit ty sp n vs ds sub _ => NOptype ty sp :: name_nodes n ++ vardefs_nodes vs ++ directives_nodes ds ++ set_nodes sub
  | LImplicit sub => set_nodes sub
  end.
Definition fragment_nodes (f : lfragment) : list node :=
  NFragment f :: NName (lf_name f) :: NName (lf_cond f) :: directives_nodes (lf_dirs f) ++ set_nodes (lf_set f).
Definition definition_nodes (d : loperation + lfragment) : list node := match d with inl o => operation_nodes o | inr f => fragment_nodes f end.
Definition document_nodes (d : list (loperation + lfragment)) : list node := flat_map definition_nodes d.

(** ** Positions *)
(** the range from the beginning of the first to the end of the last of some tokens *)
Definition covers (ts : list ltok) (sp : span) : Prop :=
  exists first last before after, ts = first :: after /\ ts = before ++ [last] /\ sp = (fst (snd first), snd (snd last)).
(** the position of a part is the range of its own tokens, which stand together in the text *)
Definition well_placed (ts : list ltok) (n : node) : Prop :=
  exists before mine after, ts = before ++ mine ++ after /\ map fst mine = node_tokens n /\ covers mine (node_span n).
(** the kinds of parts *)
Definition kind_of (n : node) : nat :=
  match n with
  | NName _ => 0 | NVariable _ => 1 | NValue _ => 2 | NArgument _ => 3 | NArguments _ => 4 | NDirective _ => 5 | NDirectives _ _ => 6
  | NType _ => 7 | NVardefs _ => 8 | NSelection _ => 9 | NSet _ => 10 | NOptype _ _ => 11 | NOperation _ => 12 | NFragment _ => 13
  end.
Definition node_start (n : node) : nat := fst (node_span n).
(** where the parts of a kind begin, in their order *)
Definition starts (k : nat) (ns : list node) : list nat := map node_start (filter (fun n => Nat.eqb (kind_of n) k) ns).
