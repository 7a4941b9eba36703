(** C61: texts on which the macro answers with types, with errors, and with a panic. *)
From Verif Require Import Base Ast Examples Graph Doc DocSpec DocRules FragmentCycles Merging MergingSpec MergingProps MergingComplete MergingCheck MergingCases Lexer LexerSpec Parser ParserProps DefParser DefParserProps
  Resolve ResolveProps DefRules Validator ValiditySpec ValidatorProofs EndToEndProofs ValidatorProps ValidatorCases Typegen TypegenSpec TypegenDe TypegenProps TypegenCodeProps TypegenCases
  TypegenInput TypegenInputSpec TypegenInputProps TypegenInputCases Json TypegenResponseProps TypegenMacro TypegenMacroProps.
Local Open Scope string_scope.
Local Open Scope list_scope.

(** names are already in the case of Rust's *)
Definition expand (schema_text : string) (borrow : bool) (cod : codec) (aliases : list alias) (queries : list string) : macro_result :=
  typegen_macro all_builtins all_builtin_directives (fun _ => 1) (fun _ => false) no_floats any_value false true in_order same
    (tx schema_text) borrow cod aliases (map tx queries).
Definition shop_text : string :=
  "scalar Date enum Role { ADMIN GUEST } input Filter { since: Date role: Role! not: Filter }
   interface Node { id: ID! } type User implements Node { id: ID! name: String born: Date role: Role! } type Post implements Node { id: ID! author: User! }
   union Found = User | Post type Query { find(f: Filter, n: Int = 3): [Found!] me: User }".
Definition date_alias : alias := {| ta_name := tx "Date"; ta_types := false; ta_consts := false; ta_lifetimes := 1 |}.
Definition shop_query : string := "query Q($f: Filter) { find(f: $f) { __typename ... on User { id born } ... on Post { author { ...U } } } me { ...U } } fragment U on User { id name }".
Definition shop_query2 : string := "query R { me { role } }".
Definition shop_out : macro_result := Eval vm_compute in expand shop_text true Serde [date_alias] [shop_query; shop_query2].
Example ex_macro_types : expand shop_text true Serde [date_alias] [shop_query; shop_query2] = shop_out /\
  match shop_out with MItems types qs => length types = 4 /\ map (@length _) qs = [2; 1] /\ map (map borrows) qs = [[true; true]; [false]] | _ => False end.
Proof. split; vm_compute; auto. Qed.
(** each kind of error *)
Definition kind (r : macro_result) : nat :=
  match r with
  | MItems _ _ => 0 | MPanic => 1 | MError MBorrowWithMiniserde => 2 | MError (MSchemaSyntax _) => 3 | MError (MSchemaReferences _) => 4 | MError (MSchemaInvalid _) => 5
  | MError (MAlias _) => 6 | MError (MQuerySyntax i _) => 10 + i | MError (MQueryInvalid i _) => 20 + i | MError (MQueryUnsupported i _) => 30 + i
  end.
Example ex_macro_errors :
  kind (expand shop_text true Miniserde [date_alias] []) = 2 /\
  kind (expand "type Query {" false Serde [] []) = 3 /\
  kind (expand "type Query { a: Nope }" false Serde [] []) = 4 /\
  kind (expand "type Query { a(i: I): Int } input I { i: I! }" false Serde [] []) = 5 /\
  kind (expand shop_text true Serde [] []) = 6 /\
  kind (expand shop_text true Serde [date_alias] [shop_query; "{"; shop_query2]) = 11 /\
  kind (expand shop_text true Serde [date_alias] [shop_query; shop_query2; "{ nope }"; "{"]) = 22 /\
  kind (expand shop_text true Serde [date_alias] ["{ find { ... on User { id } } }"]) = 30.
Proof. vm_compute. repeat split. Qed.
(** The hypotheses of the theorems hold of these texts. *)
Definition shop : schema := Eval vm_compute in schema_in shop_text.
Definition shop_doc : document := Eval vm_compute in document_in shop_query.
Definition shop_doc2 : document := Eval vm_compute in document_in shop_query2.
Lemma shop_read : read_schema_with all_builtins all_builtin_directives (fun _ => 1) (fun _ => false) no_floats (tx shop_text) = inl (inl shop).
Proof. apply (read_schema_in shop_text). vm_compute. reflexivity. Qed.
Lemma shop_parsed : read (tx shop_query) = inl shop_doc /\ read (tx shop_query2) = inl shop_doc2.
Proof. split; [apply (read_document_in shop_query)|apply (read_document_in shop_query2)]; vm_compute; reflexivity. Qed.
Example ex_macro_no_panic : forall ord pascal, some_order ord ->
  typegen_macro all_builtins all_builtin_directives (fun _ => 1) (fun _ => false) no_floats any_value false true ord pascal
    (tx shop_text) true Serde [date_alias] (map tx [shop_query; shop_query2]) <> MPanic.
Proof.
  intros ord pascal Ho. apply macro_never_panics_partial; auto. intros S q d HS Hq HD. rewrite shop_read in HS. injection HS as <-.
  destruct shop_parsed as [P1 P2]. destruct Hq as [<-|[<-|[]]].
  - rewrite P1 in HD. injection HD as <-. apply no_spread_ok. vm_compute. reflexivity.
  - rewrite P2 in HD. injection HD as <-. apply no_spread_ok. vm_compute. reflexivity.
Qed.
Lemma Forall2_nth_here {A B} (R : A -> B -> Prop) x y l l' : Forall2 R (x :: l) (y :: l') -> R x y.
Proof. inversion 1; auto. Qed.
Lemma Forall2_tail {A B} (R : A -> B -> Prop) x y l l' : Forall2 R (x :: l) (y :: l') -> Forall2 R l l'.
Proof. inversion 1; auto. Qed.
Example ex_macro_compiles : match shop_out with MItems _ [a; b] => compiles same same Serde a /\ compiles same same Serde b | _ => False end.
Proof.
  destruct ex_macro_types as [E _]. unfold expand in E. destruct shop_parsed as [P1 P2].
  assert (K : forall types a b, shop_out = MItems types [a; b] -> compiles same same Serde a /\ compiles same same Serde b).
  { intros types a b Eo. rewrite Eo in E. apply (macro_output_compiles_partial _ _ _ _ _ _ _ _ _ _ same) in E as (_ & S & HS & F). rewrite shop_read in HS. injection HS as <-.
    pose proof (Forall2_nth_here _ _ _ _ _ F) as (d & D & H1). pose proof (Forall2_tail _ _ _ _ _ F) as F'. pose proof (Forall2_nth_here _ _ _ _ _ F') as (d2 & D2 & H2).
    rewrite P1 in D. injection D as <-. rewrite P2 in D2. injection D2 as <-. split.
    - apply H1; [apply names_ok; vm_compute; reflexivity| |intros _; apply no_typename_ok; vm_compute; reflexivity|discriminate].
      intros f n ds [<-|[]]; discriminate.
    - apply H2; [apply names_ok; vm_compute; reflexivity|intros f n ds []|intros _; apply no_typename_ok; vm_compute; reflexivity|discriminate]. }
  exact (K _ _ _ eq_refl).
Qed.
(** The macro panics on a valid query that its own rules accept. *)
Theorem macro_panics_refuted : exists schema_text query_text,
  accepted_always schema_text query_text /\ valid_text schema_text query_text /\ expand schema_text false Serde [] [query_text] = MPanic.
Proof.
  pose (st := "type User { id: ID! } union Found = User type Query { find: Found }"). pose (qt := "{ find { __typename ... on User { ...U } } } fragment U on User { id }").
  exists st, qt. assert (A : accepted_always st qt) by (apply always_accepted; vm_compute; reflexivity).
  split; [exact A|]. split; [|vm_compute; reflexivity]. destruct A as (A1 & A2 & A3). unfold valid_text.
  apply (accepted_texts_valid_partial _ _ _ _ _ _ _ _ _ _ _ _ (read_schema_in _ A1) (read_document_in _ A2) no_floats_numbers any_value false true in_order in_order_ok).
  - intros o sels s Ho E. vm_compute in Ho. destruct Ho as [<-|[]]. discriminate E.
  - apply spreads_simple_agree, spread_ok_simple. vm_compute. reflexivity.
  - apply typename_ok_plain. vm_compute. reflexivity.
  - apply lists_plain_document. vm_compute. reflexivity.
  - apply (A3 in_order in_order_ok).
Qed.
Print Assumptions ex_macro_no_panic.
Print Assumptions ex_macro_compiles.
Print Assumptions macro_panics_refuted.
