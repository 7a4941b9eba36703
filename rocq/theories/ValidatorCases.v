(** C59, C60: texts that meet the hypotheses of ValidatorProps.v, and texts on which the verdict is not GraphQL validity. *)
From Verif Require Import Base Ast Examples CoercionTypes CoercionSpec Graph Maps Doc DocSpec DocProofs DocRules DocRulesSpec DocRulesProofs DocTypingProofs DocRulesProps
  DocVariables DocVariablesSpec DocVariablesProofs DocVariablesProps FragmentsSpec FragmentCycles CyclesProps ValueEqSpec Merging MergingSpec MergingProps MergingComplete MergingCheck MergingCases
  Lexer LexerSpec Parser ParserProps DefParser DefParserProps Resolve ResolveProps Validator ValiditySpec ValidatorProofs EndToEndProofs ValidatorProps TypegenSpec TypegenInputCases.
Local Open Scope string_scope.
Local Open Scope list_scope.

Definition document_in (s : string) : document := match read (tx s) with inl d => d | inr _ => {| doc_ops := []; doc_frags := [] |} end.
Definition parses (s : string) : bool := match read (tx s) with inl _ => true | inr _ => false end.
Definition any_value : name -> value -> option text := fun _ _ => None.
(** the verdict on a query text under a schema text, with hash maps visited in the order [ord] *)
Definition verdict (ord : nat -> list (list fctx) -> list (list fctx)) (schema_text query_text : string) : option (list doc_error) :=
  validate (schema_in schema_text) any_value false true ord (document_in query_text).

Lemma read_schema_in s : read_ok s = true -> read_schema_with all_builtins all_builtin_directives (fun _ => 1) (fun _ => false) no_floats (tx s) = inl (inl (schema_in s)).
Proof. unfold read_ok, schema_in, run. destruct (read_schema_with _ _ _ _ _ _) as [[x|]|]; try discriminate; auto. Qed.
Lemma read_document_in s : parses s = true -> read (tx s) = inl (document_in s).
Proof. unfold parses, document_in. destruct (read (tx s)); try discriminate; auto. Qed.
Lemma no_floats_numbers : reads_numbers no_floats.
Proof. intros l b E. discriminate E. Qed.

(** no variable is written in the value *)
Fixpoint constant (v : value) : bool :=
  match v with
  | VVar _ => false
  | VList vs => (fix go (l : list value) := match l with [] => true | e :: l' => constant e && go l' end) vs
  | VObj es => (fix go (l : list (name * value)) := match l with [] => true | e :: l' => constant (snd e) && go l' end) es
  | _ => true
  end.
Lemma constant_ok x v : constant v = true -> ~ var_in x v.
Proof.
  intros H K. revert H. induction K as [|vs v Hi K IH|es k v Hi K IH]; intros H; [discriminate H| |]; apply IH; clear K IH; cbn in H.
  - induction vs as [|e vs IHe]; [destruct Hi|]. apply andb_prop in H as [H1 H2]. destruct Hi as [->|Hi]; auto.
  - induction es as [|e es IHe]; [destruct Hi|]. apply andb_prop in H as [H1 H2]. destruct Hi as [->|Hi]; auto.
Qed.
(** and not in an object in a list *)
Fixpoint lists_plain (v : value) : bool :=
  match v with
  | VList vs => (fix go (l : list value) := match l with [] => true | e :: l' => lists_plain e && match e with VObj _ => constant e | _ => true end && go l' end) vs
  | VObj es => (fix go (l : list (name * value)) := match l with [] => true | e :: l' => lists_plain (snd e) && go l' end) es
  | _ => true
  end.
Lemma lists_plain_ok x v : lists_plain v = true -> ~ in_object_in_list x v.
Proof.
  intros H K. revert H. induction K as [vs es Hi Hv|vs v Hi K IH|es k v Hi K IH]; intros H; cbn in H.
  - induction vs as [|e vs IHe]; [destruct Hi|]. apply andb_prop in H as [H1 H2]. destruct Hi as [->|Hi]; auto.
    apply andb_prop in H1 as [_ H1]. eapply constant_ok; eauto.
  - apply IH. clear K IH. induction vs as [|e vs IHe]; [destruct Hi|]. apply andb_prop in H as [H1 H2]. destruct Hi as [->|Hi]; auto. apply andb_prop in H1 as [H1 _]; auto.
  - apply IH. clear K IH. induction es as [|e es IHe]; [destruct Hi|]. apply andb_prop in H as [H1 H2]. destruct Hi as [->|Hi]; auto.
Qed.
Lemma lists_plain_document S d :
  forallb (fun e => match e with EVarArg _ a _ => lists_plain (snd a) | _ => true end) (visit S d) = true -> listed_usages_allowed S d.
Proof.
  intros H j o r a i v t df _ _ _ K L _. exfalso. revert L. apply visit_EVarArg in K. rewrite forallb_forall in H. specialize (H _ K). cbn in H. apply lists_plain_ok; auto.
Qed.

(** * Texts that meet all the hypotheses *)
Definition pets_text : string :=
  "interface Node { id: ID! } interface Pet { id: ID! name: String } enum Kind { DOG CAT }
   type Dog implements Node & Pet { id: ID! name: String barks: Boolean! } type Cat implements Pet { id: ID! name: String lives: Int }
   input PetFilter { name: String kinds: [Kind!] not: PetFilter }
   type Query { node(id: ID!): Node pets(first: Int = 10, where: PetFilter): [Pet!]! } type Subscription { petAdded(kind: Kind!): Pet petRemoved: Pet }".
Definition pets_query : string :=
  "query Q($n: Int, $name: String, $k: Kind!, $withId: Boolean! = true) {
     pets(first: $n, where: {name: $name, kinds: [DOG, $k], not: {kinds: []}}) { ...P ... on Dog { b: barks name } __typename }
   }
   subscription S($k: Kind!, $withId: Boolean!) { petAdded(kind: $k) { ...P } }
   fragment P on Pet { id @include(if: $withId) name }".
Definition pets : schema := Eval vm_compute in schema_in pets_text.
Definition pets_doc : document := Eval vm_compute in document_in pets_query.
Lemma pets_eq : schema_in pets_text = pets. Proof. vm_compute. reflexivity. Qed.
Lemma pets_doc_eq : document_in pets_query = pets_doc. Proof. vm_compute. reflexivity. Qed.
Lemma pets_read : read_schema_with all_builtins all_builtin_directives (fun _ => 1) (fun _ => false) no_floats (tx pets_text) = inl (inl pets).
Proof. rewrite <- pets_eq. apply read_schema_in. vm_compute. reflexivity. Qed.
Lemma pets_parsed : read (tx pets_query) = inl pets_doc.
Proof. rewrite <- pets_doc_eq. apply read_document_in. vm_compute. reflexivity. Qed.
Lemma pets_simple : spreads_simple pets pets_doc.
Proof. apply spread_ok_simple. vm_compute. reflexivity. Qed.
Lemma pets_subscriptions : nested_roots_single pets_doc.
Proof.
  intros o sels s Ho E Hc Hs. left. cbn [doc_ops pets_doc] in Ho. destruct Ho as [<-|[<-|[]]]; [discriminate E|].
  destruct Hc as [K|c ds sels K|n ds f K _]; [cbn in Hs; injection Hs as <-; repeat eexists|discriminate K|discriminate K].
Qed.
Lemma pets_several : several_roots_differ pets_doc.
Proof.
  intros o sels Ho E Hc Hs. cbn [doc_ops pets_doc] in Ho. destruct Ho as [<-|[<-|[]]]; [discriminate E|].
  destruct Hc as [K|c ds sels K|n ds f K _]; [cbn in Hs; lia|discriminate K|discriminate K].
Qed.
Example ex_pets_accepted : forall ord, some_order ord -> validate pets any_value false true ord pets_doc = Some [].
Proof.
  intros ord Ho. apply (verdict_deterministic_partial _ _ _ _ _ _ _ _ _ _ _ _ pets_read pets_parsed no_floats_numbers pets_simple any_value false true in_order ord in_order_ok Ho).
  vm_compute. reflexivity.
Qed.
Example ex_pets_valid : valid_document pets (fun n x => any_value n x = None) false true pets_doc.
Proof.
  refine (accepted_texts_valid_partial _ _ _ _ _ _ _ _ _ _ _ _ pets_read pets_parsed no_floats_numbers any_value false true in_order in_order_ok
    pets_subscriptions (spreads_simple_agree _ _ pets_simple) _ _ (ex_pets_accepted in_order in_order_ok)).
  - apply typename_ok_plain. vm_compute. reflexivity.
  - apply lists_plain_document. vm_compute. reflexivity.
Qed.
(** rejected texts, and by which rules *)
Example ex_pets_rejected :
  verdict in_order pets_text "{ pets { name name: id } }" <> Some [] /\
  verdict in_order pets_text "query ($x: Int) { pets { name } }" <> Some [] /\
  verdict in_order pets_text "subscription { petAdded(kind: DOG) { id } petRemoved { id } }" <> Some [] /\
  verdict in_order pets_text "{ pets(where: {kinds: 1}) { id } }" <> Some [] /\
  verdict in_order pets_text "{ pets { id } }" = Some [].
Proof. repeat split; vm_compute; try reflexivity; intros E; discriminate E. Qed.

(** * Texts on which the verdict is wrong *)
Definition accepted_always (schema_text query_text : string) : Prop :=
  read_ok schema_text = true /\ parses query_text = true /\ forall ord, some_order ord -> verdict ord schema_text query_text = Some [].
Definition valid_text (schema_text query_text : string) : Prop :=
  valid_document (schema_in schema_text) (fun n x => any_value n x = None) false true (document_in query_text).
Lemma always_accepted schema_text query_text :
  read_ok schema_text = true -> parses query_text = true ->
  forallb (fun e => forallb (spread_ok (schema_in schema_text) (document_in query_text) (snd e)) (snd (fst e))) (document_sets (schema_in schema_text) (document_in query_text)) = true ->
  verdict in_order schema_text query_text = Some [] -> accepted_always schema_text query_text.
Proof.
  intros H1 H2 H3 H4. split; [exact H1|]. split; [exact H2|]. intros ord Ho. unfold verdict.
  refine (proj1 (verdict_deterministic_partial _ _ _ _ _ _ _ _ _ _ _ _ (read_schema_in _ H1) (read_document_in _ H2) no_floats_numbers (spread_ok_simple _ _ H3) any_value false true in_order ord in_order_ok Ho) _).
  exact H4.
Qed.

(** a subscription with two root fields, in a fragment in a fragment *)
Theorem accepts_two_root_fields_refuted : exists schema_text query_text,
  accepted_always schema_text query_text /\ ~ valid_text schema_text query_text.
Proof.
  exists "type Query { a: Int } type Subscription { a: Int b: Int }", "subscription { ... { ... { a b } } }". split.
  - apply always_accepted; vm_compute; reflexivity.
  - intros V. pose proof (vd_single_root _ _ _ _ _ V) as K. clear V. vm_compute in K.
    destruct (K _ (or_introl eq_refl) eq_refl) as [x H].
    assert (A : tx "a" = x). { apply H. eapply rr_inline; [left; reflexivity|]. eapply rr_inline; [left; reflexivity|]. apply (rr_field _ _ None (tx "a") [] [] []). left. reflexivity. }
    assert (B : tx "b" = x). { apply H. eapply rr_inline; [left; reflexivity|]. eapply rr_inline; [left; reflexivity|]. apply (rr_field _ _ None (tx "b") [] [] []). right. left. reflexivity. }
    rewrite <- A in B. discriminate B.
Qed.

(** a nullable variable where a non-null value is required, in an object in a list *)
Definition hole_text : string := "type Query { f(l: [I!]): Int } input I { a: Int! }".
Definition hole_query : string := "query ($x: Int) { f(l: [{a: $x}]) }".
Definition hole : schema := Eval vm_compute in schema_in hole_text.
Definition hole_doc : document := Eval vm_compute in document_in hole_query.
Theorem accepts_null_for_non_null_refuted : exists schema_text query_text,
  accepted_always schema_text query_text /\ ~ valid_text schema_text query_text.
Proof.
  exists hole_text, hole_query. split; [apply always_accepted; vm_compute; reflexivity|].
  intros V. assert (V' : valid_document hole (fun n x => any_value n x = None) false true hole_doc) by exact V. clear V.
  pose proof (vd_variable_usages _ _ _ _ _ V' 0 _ (ROp 0) {| vd_name := tx "x"; vd_type := ty "Int"; vd_default := None; vd_dirs := [] |} (ty_req "Int") None eq_refl (star_refl _ _) (or_introl eq_refl)) as K.
  destruct K as [H|(_ & [(v & H & _)|(v & H & _)] & _)]; [|inversion H as [? ? ? H'|]; discriminate (H' eq_refl)|discriminate H|discriminate H].
  exists (tx "l", VList [VObj [(tx "a", VVar (tx "x"))]]), (mk_iv "l" (TList (ty_req "I") false) None). split.
  - apply visit_EVarArg. vm_compute. auto 20.
  - cbn [snd iv_type iv_default mk_iv]. eapply loc_item; [left; reflexivity|]. eapply loc_field; [vm_compute; reflexivity|left; reflexivity|vm_compute; reflexivity|]. constructor.
Qed.

(** two different fields under one name; the verdict depends on the order in which a hash map is visited *)
Definition order_text : string :=
  "interface I { x: X1 } type N1 implements PN { id: Int u: Int w: Int } type Obj1 implements P & I { x: X1 y: Int } type Obj2 implements I { x: X1 }
   interface P { x: PX y: Int } interface PN { id: Int } interface PX { x1: PN } type Query { p: P q: Obj1 } type X1 implements PX { x1: N1 }".
Definition order_query : string :=
  "{ p { ...F } p { y } q { ...F } q { y } } fragment F on Obj1 { x { x1 { b: u b: w } } ... on I { ... on Obj2 { x { x1 { id } } } } }".
Definition order_schema : schema := Eval vm_compute in schema_in order_text.
Definition order_doc : document := Eval vm_compute in document_in order_query.
Definition type_of (S : schema) (n : string) : tdef := match get_type S (tx n) with Some t => t | None => DBuiltin BInt end.
Theorem verdict_depends_on_order_refuted : exists schema_text query_text ord ord',
  read_ok schema_text = true /\ parses query_text = true /\ some_order ord /\ some_order ord' /\
  verdict ord schema_text query_text = Some [] /\ verdict ord' schema_text query_text <> Some [] /\ ~ valid_text schema_text query_text.
Proof.
  exists order_text, order_query, in_order, reversed.
  split; [vm_compute; reflexivity|]. split; [vm_compute; reflexivity|]. split; [exact in_order_ok|]. split; [exact reversed_ok|].
  split; [vm_compute; reflexivity|]. split; [vm_compute; intros E; discriminate E|].
  intros V. assert (V' : valid_document order_schema (fun n x => any_value n x = None) false true order_doc) by exact V. clear V.
  pose (leaf := fun n => {| sf_alias := Some (tx "b"); sf_name := tx n; sf_args := []; sf_sub := []; sf_def := mk_fd n [] (ty "Int"); sf_parent := type_of order_schema "N1" |}).
  destruct (vd_merge _ _ _ _ _ V' (RFrag 0) (type_of order_schema "N1") [al "b" "u" [] []; al "b" "w" [] []]) with (x := leaf "u") (y := leaf "w") as [_ K].
  - eexists _, _. split; [eapply (top_frag _ _ 0); [reflexivity|vm_compute; reflexivity]|].
    eapply within_field; [left; reflexivity|discriminate|vm_compute; reflexivity|vm_compute; reflexivity|].
    eapply within_field; [left; reflexivity|discriminate|vm_compute; reflexivity|vm_compute; reflexivity|]. constructor.
  - eapply col_field; [left; reflexivity|vm_compute; reflexivity].
  - eapply col_field; [right; left; reflexivity|vm_compute; reflexivity].
  - reflexivity.
  - apply K. apply fc_name; [|discriminate]. left. reflexivity.
Qed.

(** Valid texts that are rejected, with any order: everything but the rule named is silent. *)
Lemma valid_but S d subs merge :
  resolved S -> well_parsed d ->
  silent S any_value false true in_order d subs merge ->
  (if subs then nested_roots_single d else forall o, In o (doc_ops d) -> op_type o = OSubscription -> one_root d o) ->
  (if merge then plain_numbers d /\ fields_agree S d /\ typename_plain S d else document_can_merge S d can_meet) ->
  listed_usages_allowed S d -> valid_document S (fun n x => any_value n x = None) false true d.
Proof.
  intros [R1 R2 _ _] W Q Hs Hm Hl. apply (silent_valid S any_value false true in_order d R1 R2) with (subs := subs) (merge := merge); auto using in_order_ok.
  intros o Hin E. apply (wp_implicit d W o Hin E).
Qed.
Definition rejected_always (schema_text query_text : string) : Prop :=
  read_ok schema_text = true /\ parses query_text = true /\
  forall ord, some_order ord -> exists e es, verdict ord schema_text query_text = Some (e :: es).
Lemma verdict_cases ord schema_text query_text : read_ok schema_text = true -> some_order ord ->
  verdict ord schema_text query_text = Some [] \/ exists e es, verdict ord schema_text query_text = Some (e :: es).
Proof.
  intros H Ho. unfold verdict. pose proof (read_schema_resolved _ _ _ _ _ _ _ (read_schema_in _ H)) as [R1 _ _ _].
  destruct (validate_total _ any_value false true ord (document_in query_text) R1 Ho) as [[|e es] E]; rewrite E; eauto.
Qed.

(** a subscription with its one root field written twice *)
Definition twice_text : string := "type Query { a: Int } type Subscription { a: Int }".
Definition twice_query : string := "subscription { a a }".
Definition twice : schema := Eval vm_compute in schema_in twice_text.
Definition twice_doc : document := Eval vm_compute in document_in twice_query.
Theorem rejects_one_root_field_refuted : exists schema_text query_text,
  rejected_always schema_text query_text /\ valid_text schema_text query_text.
Proof.
  exists twice_text, twice_query. split.
  - split; [vm_compute; reflexivity|]. split; [vm_compute; reflexivity|]. intros ord Ho.
    destruct (verdict_cases ord twice_text twice_query ltac:(vm_compute; reflexivity) Ho) as [H|H]; auto. exfalso.
    apply validate_silent in H as (_ & H). pose proof (si_subscriptions _ _ _ _ _ _ _ _ H eq_refl) as K. vm_compute in K. discriminate K.
  - assert (HS : read_schema_with all_builtins all_builtin_directives (fun _ => 1) (fun _ => false) no_floats (tx twice_text) = inl (inl twice)) by (apply (read_schema_in twice_text); vm_compute; reflexivity).
    assert (HD : read (tx twice_query) = inl twice_doc) by (apply (read_document_in twice_query); vm_compute; reflexivity).
    change (valid_document twice (fun n x => any_value n x = None) false true twice_doc).
    apply (valid_but twice twice_doc false true).
    + eapply read_schema_resolved; eauto.
    + eapply parsed_document; eauto.
    + constructor; try (intros E; discriminate E); try intros _; vm_compute; reflexivity.
    + intros o [<-|[]] _. exists (tx "a"). intros y. split.
      * inversion 1 as [? a0 n args ds sub K|? c ds sub ? K|? n ds f ? K]; subst; destruct K as [K|[K|[]]]; try discriminate K; injection K as <- <- _ _ _; reflexivity.
      * intros ->. apply (rr_field _ _ None (tx "a") [] [] []). left; reflexivity.
    + split; [eapply parsed_numbers; eauto using no_floats_numbers|]. split; [apply spreads_simple_agree, spread_ok_simple|apply typename_ok_plain]; vm_compute; reflexivity.
    + apply lists_plain_document. vm_compute. reflexivity.
Qed.

(** a fragment on an object whose field has a narrower type than the interface it is spread on *)
Definition narrow_text : string := "type Obj1 implements P { x: Int! } interface P { x: Int } type Query { p: P }".
Definition narrow_query : string := "{ p { ...F } } fragment F on Obj1 { x ... on Obj1 { x } }".
Definition narrow : schema := Eval vm_compute in schema_in narrow_text.
Definition narrow_doc : document := Eval vm_compute in document_in narrow_query.
Theorem rejects_narrower_fragment_refuted : exists schema_text query_text ord,
  read_ok schema_text = true /\ parses query_text = true /\ some_order ord /\
  verdict ord schema_text query_text <> Some [] /\ valid_text schema_text query_text.
Proof.
  exists narrow_text, narrow_query, in_order. split; [vm_compute; reflexivity|]. split; [vm_compute; reflexivity|]. split; [exact in_order_ok|].
  split; [vm_compute; intros E; discriminate E|].
  assert (HS : read_schema_with all_builtins all_builtin_directives (fun _ => 1) (fun _ => false) no_floats (tx narrow_text) = inl (inl narrow)) by (apply (read_schema_in narrow_text); vm_compute; reflexivity).
  assert (HD : read (tx narrow_query) = inl narrow_doc) by (apply (read_document_in narrow_query); vm_compute; reflexivity).
  change (valid_document narrow (fun n x => any_value n x = None) false true narrow_doc).
  apply (valid_but narrow narrow_doc true false).
  - eapply read_schema_resolved; eauto.
  - eapply parsed_document; eauto.
  - constructor; try (intros E; discriminate E); try intros _; vm_compute; reflexivity.
  - intros o sels s [<-|[]] E. discriminate E.
  - apply (mergeable_ok _ _ true 10). vm_compute. reflexivity.
  - apply lists_plain_document. vm_compute. reflexivity.
Qed.

(** a fragment that is spread on another type and has an inline fragment, and a variable in an object in a list *)
Definition listed_text : string :=
  "interface Pet { id: ID! name: String } type Dog implements Pet { id: ID! name: String } input Filter { name: String }
   type Query { pets(any: [Filter!]): [Pet!]! }".
Definition listed_query : string := "query ($n: String) { pets(any: [{name: $n}]) { ...D } } fragment D on Dog { name ... on Pet { id name } }".
Definition listed : schema := Eval vm_compute in schema_in listed_text.
Definition listed_doc : document := Eval vm_compute in document_in listed_query.
Example ex_listed_valid : ~ spreads_simple listed listed_doc /\ valid_document listed (fun n x => any_value n x = None) false true listed_doc.
Proof.
  split.
  - intros H. assert (K : exists r t, In (ESpread r (tx "D") [] t) (visit listed listed_doc) /\ td_name t = tx "Pet").
    { do 2 eexists. split; [vm_compute; repeat (first [left; reflexivity|right])|reflexivity]. }
    destruct K as (r & t & K & En). apply visit_ESpread in K.
    assert (D : exists f t1, defines listed_doc (tx "D") f /\ get_type listed (fr_cond f) = Some t1 /\ td_name t1 = tx "Dog" /\ exists c ds sub, In (SInline c ds sub) (fr_sel f)).
    { do 2 eexists. split; [exists [], []; split; [reflexivity|split; [reflexivity|intros []]]|]. split; [vm_compute; reflexivity|]. split; [reflexivity|]. do 3 eexists. cbn. auto. }
    destruct D as (f & t1 & D1 & D2 & D3 & (c & ds & sub & D4)). destruct (H r t _ _ f t1 K D1 D2) as [->|(_ & E & _)]; [rewrite D3 in En; vm_compute in En; discriminate En|].
    destruct (E _ D4) as (? & ? & ? & ? & ? & E'). discriminate E'.
  - assert (HS : read_schema_with all_builtins all_builtin_directives (fun _ => 1) (fun _ => false) no_floats (tx listed_text) = inl (inl listed)) by (apply (read_schema_in listed_text); vm_compute; reflexivity).
    assert (HD : read (tx listed_query) = inl listed_doc) by (apply (read_document_in listed_query); vm_compute; reflexivity).
    refine (accepted_texts_valid_partial _ _ _ _ _ _ _ _ _ _ _ _ HS HD no_floats_numbers any_value false true in_order in_order_ok _ _ _ _ _).
    + intros o sels s [<-|[]] E. discriminate E.
    + apply agree_ok_agree. vm_compute. reflexivity.
    + apply typename_ok_plain. vm_compute. reflexivity.
    + intros i o r a iv v t df Ho _ Hv Ha _ Hl. apply visit_EVarArg in Ha.
      vm_compute in Ha. repeat destruct Ha as [Ha|Ha]; try discriminate Ha; try contradiction Ha. injection Ha as <- <- <-. cbn [snd iv_type iv_default] in Hl.
      inversion Hl as [|? ? ? ? y ? ? ? Hy Hl'|]; subst. destruct Hy as [<-|[]]. inversion Hl' as [| |? ? ? ? k y f ? ? ? Hg Hy Hf Hl'']; subst. vm_compute in Hg. injection Hg as <-.
      destruct Hy as [Hy|[]]. injection Hy as <- <-. vm_compute in Hf. injection Hf as <-. inversion Hl''; subst.
      destruct i as [|[|i]]; try discriminate Ho. injection Ho as <-. destruct Hv as [<-|[]]. left. apply compat_base. intros E. discriminate E.
    + vm_compute. reflexivity.
Qed.

Print Assumptions ex_pets_accepted.
Print Assumptions ex_pets_valid.
Print Assumptions accepts_two_root_fields_refuted.
Print Assumptions accepts_null_for_non_null_refuted.
Print Assumptions verdict_depends_on_order_refuted.
Print Assumptions rejects_one_root_field_refuted.
Print Assumptions rejects_narrower_fragment_refuted.

(** A subscription with its one root field in nested fragments meets the conditions, too. *)
Definition nested_query : string := "subscription { ...F } fragment F on Subscription { ... { r: petRemoved { id } } }".
Definition nested_doc : document := Eval vm_compute in document_in nested_query.
Lemma nested_parsed : read (tx nested_query) = inl nested_doc.
Proof. change nested_doc with (document_in nested_query). apply read_document_in. vm_compute. reflexivity. Qed.
Lemma nested_single : nested_roots_single nested_doc.
Proof.
  intros o sels s Ho E Hc Hs. right. cbn [doc_ops nested_doc] in Ho. destruct Ho as [<-|[]]. exists (tx "r"). intros y. split.
  - intros H. inversion H as [? al n args ds sub K|? c ds sub ? K|? n ds f ? K D R]; subst; destruct K as [K|[]]; try discriminate K. injection K as <- <-.
    destruct D as (b & a & Ed & En & _). destruct b as [|g b]; [|destruct b; discriminate Ed]. injection Ed as <- <-.
    inversion R as [? al n' args ds' sub K|? c ds' sub ? K R'|? n' ds' f' ? K]; subst; destruct K as [K|[]]; try discriminate K. injection K as <- <- <-.
    inversion R' as [? al n' args ds' sub' K|? c ds' sub' ? K|? n' ds' f' ? K]; subst; destruct K as [K|[]]; try discriminate K. injection K as <- <- _ _ _. reflexivity.
  - intros ->. eapply rr_spread; [left; reflexivity|exists [], []; repeat split; intros []|]. eapply rr_inline; [left; reflexivity|]. apply (rr_field _ _ (Some (tx "r")) (tx "petRemoved") [] [] [SField None (tx "id") [] [] []]). left. reflexivity.
Qed.
Example ex_nested_valid : valid_document pets (fun n x => any_value n x = None) false true nested_doc.
Proof.
  refine (accepted_texts_valid_partial _ _ _ _ _ _ _ _ _ _ _ _ pets_read nested_parsed no_floats_numbers any_value false true in_order in_order_ok nested_single _ _ _ _).
  - apply spreads_simple_agree, spread_ok_simple. vm_compute. reflexivity.
  - apply typename_ok_plain. vm_compute. reflexivity.
  - apply lists_plain_document. vm_compute. reflexivity.
  - vm_compute. reflexivity.
Qed.
Print Assumptions ex_listed_valid.
