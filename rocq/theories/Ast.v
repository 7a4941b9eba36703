(** The data that the bluejay crates exchange: values, type references, schema definitions,
    executable documents. Source positions (spans) are not part of these trees. *)
From Verif Require Import Base.

(** bluejay-core/src/value.rs:73-83 [ValueReference] (and bluejay-parser/src/ast/value.rs [Value]).
    Simplification: a float is its 64 bit pattern; object keys keep duplicates and order. *)
Inductive value : Type :=
| VVar (n : name)
| VInt (z : Z)
| VFloat (bits : N)
| VStr (s : text)
| VBool (b : bool)
| VNull
| VEnum (n : name)
| VList (vs : list value)
| VObj (es : list (name * value)).

Section ValueInd.
  Variable P : value -> Prop.
  Hypothesis HVar : forall n, P (VVar n).
  Hypothesis HInt : forall z, P (VInt z).
  Hypothesis HFloat : forall b, P (VFloat b).
  Hypothesis HStr : forall s, P (VStr s).
  Hypothesis HBool : forall b, P (VBool b).
  Hypothesis HNull : P VNull.
  Hypothesis HEnum : forall n, P (VEnum n).
  Hypothesis HList : forall vs, Forall P vs -> P (VList vs).
  Hypothesis HObj : forall es, Forall (fun kv => P (snd kv)) es -> P (VObj es).
  Fixpoint value_ind' (v : value) : P v :=
    match v with
    | VVar n => HVar n
    | VInt z => HInt z
    | VFloat b => HFloat b
    | VStr s => HStr s
    | VBool b => HBool b
    | VNull => HNull
    | VEnum n => HEnum n
    | VList vs =>
        HList vs ((fix go (l : list value) : Forall P l :=
                     match l with
                     | [] => Forall_nil _
                     | x :: l' => Forall_cons x (value_ind' x) (go l')
                     end) vs)
    | VObj es =>
        HObj es ((fix go (l : list (name * value)) : Forall (fun kv => P (snd kv)) l :=
                    match l with
                    | [] => Forall_nil _
                    | kv :: l' => Forall_cons kv (value_ind' (snd kv)) (go l')
                    end) es)
    end.
End ValueInd.

(** [f64] equality on bit patterns (IEEE 754 binary64): NaN differs from everything, the two zeros are equal. *)
Definition f64_is_nan (b : N) : bool :=
  N.eqb (N.land (N.shiftr b 52) 2047) 2047 && negb (N.eqb (N.land b 4503599627370495) 0).
Definition f64_eqb (a b : N) : bool :=
  negb (f64_is_nan a) && negb (f64_is_nan b) &&
  (N.eqb a b || (N.eqb (N.land a 9223372036854775807) 0 && N.eqb (N.land b 9223372036854775807) 0)).

(** bluejay-core/src/argument.rs:4-9 [Argument]; bluejay-core/src/directive.rs:3-8 [Directive]. *)
Definition argument := (name * value)%type.
Record directive := { dir_name : name; dir_args : list argument }.

(** bluejay-core/src/definition/input_type.rs:98-101, output_type.rs:89-92 (shallow references),
    bluejay-core/src/executable/variable_type.rs: one shape for all three: a base name or a list, and "required" (!). *)
Inductive tref : Type :=
| TBase (n : name) (req : bool)
| TList (inner : tref) (req : bool).
Definition tref_required (t : tref) : bool := match t with TBase _ r => r | TList _ r => r end.
Fixpoint tref_base (t : tref) : name := match t with TBase n _ => n | TList i _ => tref_base i end.
(** [unwrap_nullable] (input_type.rs:87-93) *)
Definition tref_nullable (t : tref) : tref :=
  match t with TBase n _ => TBase n false | TList i _ => TList i false end.
Fixpoint tref_eqb (a b : tref) : bool :=
  match a, b with
  | TBase n r, TBase m s => teqb n m && Bool.eqb r s
  | TList x r, TList y s => tref_eqb x y && Bool.eqb r s
  | _, _ => false
  end.
Lemma tref_eqb_eq a b : tref_eqb a b = true <-> a = b.
Proof.
  revert b; induction a as [n r|i IH r]; destruct b as [m s|j s]; cbn; try (split; congruence).
  - rewrite andb_true_iff, teqb_eq, eqb_true_iff. split; [intros [-> ->]|intros [= -> ->]]; auto.
  - rewrite andb_true_iff, IH, eqb_true_iff. split; [intros [-> ->]|intros [= -> ->]]; auto.
Qed.
(** [display_name] (input_type.rs:113-128, output_type.rs:127-143): [T], [T!], [[T]] ... *)
Fixpoint tref_display (t : tref) : text :=
  match t with
  | TBase n r => n ++ (if r then [33%N] else [])
  | TList i r => [91%N] ++ tref_display i ++ [93%N] ++ (if r then [33%N] else [])
  end.

(** bluejay-core/src/builtin_scalar_definition.rs:15-21 *)
Inductive builtin := BInt | BFloat | BString | BBoolean | BID.
Definition builtin_name (b : builtin) : name :=
  match b with
  | BInt => tx "Int" | BFloat => tx "Float" | BString => tx "String" | BBoolean => tx "Boolean" | BID => tx "ID"
  end.

(** bluejay-core/src/definition/input_value_definition.rs:4-15 *)
Record ivd := { iv_name : name; iv_desc : option text; iv_type : tref;
                iv_default : option value; iv_dirs : list directive }.
(** [InputValueDefinition::is_required] (:12-14) *)
Definition iv_required (i : ivd) : bool :=
  match iv_default i with None => tref_required (iv_type i) | Some _ => false end.

(** bluejay-core/src/definition/field_definition.rs *)
Record fdef := { fd_name : name; fd_desc : option text; fd_args : list ivd; fd_type : tref;
                 fd_dirs : list directive; fd_builtin : bool }.
(** bluejay-core/src/definition/enum_value_definition.rs *)
Record evd := { ev_name : name; ev_desc : option text; ev_dirs : list directive }.

(** bluejay-core/src/definition/type_definition.rs:10-18 [TypeDefinitionReference] and the traits it refers to. *)
Record scalar_def := { sc_name : name; sc_desc : option text; sc_dirs : list directive }.
Record object_def := { ob_name : name; ob_desc : option text; ob_ifaces : list name;
                       ob_dirs : list directive; ob_fields : list fdef; ob_builtin : bool }.
Record iface_def := { if_name : name; if_desc : option text; if_ifaces : list name;
                      if_dirs : list directive; if_fields : list fdef }.
Record union_def := { un_name : name; un_desc : option text; un_dirs : list directive;
                      un_members : list name; un_fields : list fdef }.
Record enum_def := { en_name : name; en_desc : option text; en_dirs : list directive;
                     en_values : list evd; en_builtin : bool }.
Record input_def := { io_name : name; io_desc : option text; io_dirs : list directive; io_fields : list ivd }.
Inductive tdef : Type :=
| DBuiltin (b : builtin)
| DScalar (d : scalar_def)
| DObject (d : object_def)
| DInput (d : input_def)
| DEnum (d : enum_def)
| DUnion (d : union_def)
| DInterface (d : iface_def).
(** [TypeDefinitionReference::name] (:96-106) *)
Definition td_name (t : tdef) : name :=
  match t with
  | DBuiltin b => builtin_name b | DScalar d => sc_name d | DObject d => ob_name d | DInput d => io_name d
  | DEnum d => en_name d | DUnion d => un_name d | DInterface d => if_name d
  end.
(** [TypeDefinitionReference::description] (:108-118) *)
Definition td_desc (t : tdef) : option text :=
  match t with
  | DBuiltin _ => None | DScalar d => sc_desc d | DObject d => ob_desc d | DInput d => io_desc d
  | DEnum d => en_desc d | DUnion d => un_desc d | DInterface d => if_desc d
  end.
(** [TypeDefinitionReference::is_composite] (:143-145) *)
Definition td_composite (t : tdef) : bool :=
  match t with DObject _ | DUnion _ | DInterface _ => true | _ => false end.
(** [TypeDefinitionReference::is_abstract] (:147-149) *)
Definition td_abstract (t : tdef) : bool :=
  match t with DUnion _ | DInterface _ => true | _ => false end.
(** [TryFrom<TypeDefinitionReference> for BaseInputTypeReference] / [BaseOutputTypeReference]:
    the kinds allowed as input and as output types. *)
Definition td_is_input (t : tdef) : bool :=
  match t with DBuiltin _ | DScalar _ | DEnum _ | DInput _ => true | _ => false end.
Definition td_is_output (t : tdef) : bool := match t with DInput _ => false | _ => true end.
(** [fields_definition] of a composite type *)
Definition td_fields (t : tdef) : list fdef :=
  match t with DObject d => ob_fields d | DInterface d => if_fields d | DUnion d => un_fields d | _ => [] end.

(** bluejay-core/src/definition/directive_definition.rs [DirectiveLocation] *)
Inductive dloc :=
| LQuery | LMutation | LSubscription | LField | LFragmentDefinition | LFragmentSpread | LInlineFragment | LVariableDefinition
| LSchema | LScalar | LObject | LFieldDefinition | LArgumentDefinition | LInterface | LUnion | LEnum | LEnumValue
| LInputObject | LInputFieldDefinition.
Definition dloc_dec (a b : dloc) : {a = b} + {a <> b}.
Proof. decide equality. Defined.
Definition dloc_eqb (a b : dloc) : bool := if dloc_dec a b then true else false.
Lemma dloc_eqb_eq a b : dloc_eqb a b = true <-> a = b.
Proof. unfold dloc_eqb. destruct (dloc_dec a b); split; congruence. Qed.
Definition dloc_executable (l : dloc) : bool :=
  match l with
  | LQuery | LMutation | LSubscription | LField | LFragmentDefinition | LFragmentSpread | LInlineFragment | LVariableDefinition => true
  | _ => false
  end.
Record ddef := { dd_name : name; dd_desc : option text; dd_args : list ivd; dd_repeatable : bool;
                 dd_locs : list dloc; dd_builtin : bool }.

(** bluejay-core/src/definition/schema_definition.rs:10-119. The lists are what [type_definitions()] and
    [directive_definitions()] iterate; root types are given by name. *)
Record schema := { s_desc : option text; s_types : list tdef; s_ddefs : list ddef;
                   s_query : name; s_mutation : option name; s_subscription : option name;
                   s_dirs : list directive }.
(** [get_type_definition]: bluejay-parser/src/ast/definition/schema_definition.rs (a [BTreeMap] lookup by name). *)
Definition get_type (s : schema) (n : name) : option tdef := find (fun t => teqb (td_name t) n) (s_types s).
Definition get_ddef (s : schema) (n : name) : option ddef := find (fun d => teqb (dd_name d) n) (s_ddefs s).
(** bluejay-core/src/definition/fields_definition.rs:11-13, input_fields_definition.rs [get]: first with the name *)
Definition get_field (fs : list fdef) (n : name) : option fdef := find (fun f => teqb (fd_name f) n) fs.
Definition get_ivd (fs : list ivd) (n : name) : option ivd := find (fun f => teqb (iv_name f) n) fs.

Lemma get_type_Some s n t : get_type s n = Some t -> In t (s_types s) /\ td_name t = n.
Proof. unfold get_type. intros H. apply find_some in H as [H1 H2]. apply teqb_eq in H2. auto. Qed.
Lemma get_field_Some fs n f : get_field fs n = Some f -> In f fs /\ fd_name f = n.
Proof. unfold get_field. intros H. apply find_some in H as [H1 H2]. apply teqb_eq in H2. auto. Qed.
Lemma get_ivd_Some fs n f : get_ivd fs n = Some f -> In f fs /\ iv_name f = n.
Proof. unfold get_ivd. intros H. apply find_some in H as [H1 H2]. apply teqb_eq in H2. auto. Qed.
Lemma get_ivd_None fs n : get_ivd fs n = None <-> forall f, In f fs -> iv_name f <> n.
Proof.
  unfold get_ivd. split.
  - intros H f Hf E. eapply find_none in H; eauto. cbn in H. apply teqb_neq in H. auto.
  - intros H. destruct (find (fun f => teqb (iv_name f) n) fs) as [f|] eqn:E; auto.
    apply find_some in E as [E1 E2]. apply teqb_eq in E2. exfalso. eapply H; eauto.
Qed.
Lemma get_field_None fs n : get_field fs n = None <-> forall f, In f fs -> fd_name f <> n.
Proof.
  unfold get_field. split.
  - intros H f Hf E. eapply find_none in H; eauto. cbn in H. apply teqb_neq in H. auto.
  - intros H. destruct (find (fun f => teqb (fd_name f) n) fs) as [f|] eqn:E; auto.
    apply find_some in E as [E1 E2]. apply teqb_eq in E2. exfalso. eapply H; eauto.
Qed.
Lemma get_type_None s n : get_type s n = None <-> forall t, In t (s_types s) -> td_name t <> n.
Proof.
  unfold get_type. split.
  - intros H f Hf E. eapply find_none in H; eauto. cbn in H. apply teqb_neq in H. auto.
  - intros H. destruct (find (fun t => teqb (td_name t) n) (s_types s)) as [f|] eqn:E; auto.
    apply find_some in E as [E1 E2]. apply teqb_eq in E2. exfalso. eapply H; eauto.
Qed.

(** bluejay-core/src/executable/*.rs and bluejay-parser/src/ast/executable/*.rs.
    An absent selection set / argument list / directive list is []. *)
Inductive selection : Type :=
| SField (alias : option name) (fname : name) (args : list argument) (dirs : list directive) (sub : list selection)
| SSpread (target : name) (dirs : list directive)
| SInline (cond : option name) (dirs : list directive) (sub : list selection).

Section SelInd.
  Variable P : selection -> Prop.
  Hypothesis HF : forall al n args ds sub, Forall P sub -> P (SField al n args ds sub).
  Hypothesis HS : forall n ds, P (SSpread n ds).
  Hypothesis HI : forall c ds sub, Forall P sub -> P (SInline c ds sub).
  Fixpoint selection_ind' (s : selection) : P s :=
    let go := fix go (l : list selection) : Forall P l :=
                match l with
                | [] => Forall_nil _
                | x :: l' => Forall_cons x (selection_ind' x) (go l')
                end in
    match s with
    | SField al n args ds sub => HF al n args ds sub (go sub)
    | SSpread n ds => HS n ds
    | SInline c ds sub => HI c ds sub (go sub)
    end.
End SelInd.

(** [Field::response_name] (bluejay-core/src/executable/field.rs:15-17) *)
Definition response_name (alias : option name) (n : name) : name := match alias with Some a => a | None => n end.

Inductive optype := OQuery | OMutation | OSubscription.
Definition optype_eqb (a b : optype) : bool :=
  match a, b with OQuery, OQuery | OMutation, OMutation | OSubscription, OSubscription => true | _, _ => false end.
(** bluejay-core/src/executable/variable_definition.rs *)
Record vardef := { vd_name : name; vd_type : tref; vd_default : option value; vd_dirs : list directive }.
Definition vd_required (v : vardef) : bool :=
  match vd_default v with None => tref_required (vd_type v) | Some _ => false end.
(** bluejay-core/src/executable/operation_definition.rs: an implicit operation ([{ ... }]) is a query without
    name, variables and directives ([op_explicit = false]). *)
Record operation := { op_explicit : bool; op_type : optype; op_name : option name;
                      op_vars : list vardef; op_dirs : list directive; op_sel : list selection }.
(** bluejay-core/src/executable/fragment_definition.rs *)
Record fragment := { fr_name : name; fr_cond : name; fr_dirs : list directive; fr_sel : list selection }.
(** bluejay-core/src/executable/executable_document.rs: operations and fragments, each in document order *)
Record document := { doc_ops : list operation; doc_frags : list fragment }.
