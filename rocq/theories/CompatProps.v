(** C65: if comparing two schemas finds nothing that breaks clients, the documents that are valid for the old one are valid for the new one. *)
From Coq Require Import String.
From Verif Require Import Base Ast CoercionTypes CoercionSpec Graph Maps Doc DocSpec DocRules DocRulesSpec DocVariablesSpec ValueEqSpec Merging MergingSpec MergingProps MergingComplete MergingCheck MergingCases
  Lexer LexerSpec Parser ParserProps DefParser DefParserProps Resolve ResolveProps Validator ValiditySpec ValidatorProofs EndToEndProofs ValidatorProps ValidatorCases TypegenInputCases
  Compare CompareSpec CompareProofs CompareProps CompatSpec CompatProofs.
Local Open Scope string_scope.
Local Open Scope list_scope.

(** A schema that keeps all that documents can refer to, as they refer to it, keeps the documents valid: the meaning of [keeps]. *)
Theorem c65_keeps : forall old new, keeps True old new -> names_once new -> forall accepts str_enum one_of d,
  valid_document old accepts str_enum one_of d -> valid_document new accepts str_enum one_of d.
Proof. intros old new K U accepts se oo d V. eapply valid_kept; eauto. Qed.

(** If no reported change is breaking or takes a default value away, and no field's type changes, then valid documents stay valid:
    except for the differences that the comparison does not see ([nothing_unseen]). *)
Theorem c65_still_valid_partial : forall old new, floats old -> floats new -> names_once new -> nothing_unseen old new -> same_union_fields old new ->
  (forall c, In c (compare old new) -> breaking c = false /\ ~ loses_default c) ->
  (forall n f g, ~ In (FieldTypeChanged n f g) (compare old new)) ->
  forall accepts str_enum one_of d, valid_document old accepts str_enum one_of d -> valid_document new accepts str_enum one_of d.
Proof. intros old new Fo Fn U NU UF Sf Ty accepts se oo d V. eapply c65_keeps; eauto. eapply safe_keeps; eauto. Qed.
(** If field types change, safely, the document stays valid provided that its fields can still be merged. *)
Theorem c65_types_change_partial : forall old new, floats old -> floats new -> names_once new -> nothing_unseen old new -> same_union_fields old new ->
  (forall c, In c (compare old new) -> breaking c = false /\ ~ loses_default c) ->
  forall accepts str_enum one_of d, document_can_merge new d can_meet ->
  valid_document old accepts str_enum one_of d -> valid_document new accepts str_enum one_of d.
Proof. intros old new Fo Fn U NU UF Sf accepts se oo d M V. eapply (valid_kept False); eauto. eapply safe_keeps; eauto. Qed.

(** The same for texts and the verdicts of the validator: a query text accepted for the old schema text is accepted for the new
    one. The conditions on the document are those of C60, under which the verdict is GraphQL validity. *)
Theorem c65_texts_partial : forall so dor recover other_digit parse_f64 recover' other_digit' parse_f64' old_text new_text query_text old new d,
  read_schema_with so dor recover other_digit parse_f64 old_text = inl (inl old) ->
  read_schema_with so dor recover other_digit parse_f64 new_text = inl (inl new) ->
  parse_text recover' other_digit' parse_f64' query_text = inl d -> reads_numbers parse_f64' ->
  floats old -> floats new -> names_once new -> nothing_unseen old new ->
  (forall c, In c (compare old new) -> breaking c = false /\ ~ loses_default c) ->
  (forall n f g, ~ In (FieldTypeChanged n f g) (compare old new)) ->
  nested_roots_single d -> several_roots_differ d -> fields_agree old d -> spreads_simple new d -> typename_plain old d -> listed_usages_allowed old d ->
  forall hook str_enum one_of ord ord', some_order ord -> some_order ord' ->
  validate old hook str_enum one_of ord d = Some [] -> validate new hook str_enum one_of ord' d = Some [].
Proof.
  intros so dor rc od pf rc' od' pf' ot nt qt old new d HO HN HQ HP Fo Fn U NU Sf Ty S1 S1' S2 S3 S4 S5 hook se oo ord ord' Ho Ho' V.
  eapply valid_texts_accepted_partial; eauto. apply (c65_still_valid_partial old new Fo Fn U NU (read_same_union_fields _ _ _ _ _ _ _ _ _ _ _ _ HO HN) Sf Ty). exact (accepted_texts_valid_partial _ _ _ _ _ _ _ _ _ _ _ _ HO HQ HP hook se oo ord Ho S1 S2 S4 S5 V).
Qed.

(** * A case *)
Definition root_kept_b (a b : option name) : bool := match a with None => true | Some n => match b with Some m => teqb n m | None => false end end.
Definition one_of_b (d : input_def) : bool := existsb (fun x => teqb (dir_name x) (tx "oneOf")) (io_dirs d).
Definition all_pairs {A} (p : A -> A -> bool) (l l' : list A) : bool := forallb (fun x => forallb (p x) l') l.
Lemma all_pairs_ok {A} (p : A -> A -> bool) l l' x y : all_pairs p l l' = true -> In x l -> In y l' -> p x y = true.
Proof. unfold all_pairs. intros H Hx Hy. rewrite forallb_forall in H. specialize (H x Hx). rewrite forallb_forall in H. auto. Qed.
Definition seen_all (old new : schema) : bool :=
  teqb (s_query new) (s_query old) && root_kept_b (s_mutation old) (s_mutation new) && root_kept_b (s_subscription old) (s_subscription new) &&
  all_pairs (fun d e => negb (teqb (dd_name d) (dd_name e)) ||
      (implb (dd_repeatable d) (dd_repeatable e) &&
       match dd_args d with [] => forallb (fun a => negb (iv_required a)) (dd_args e) | _ => match dd_args e with [] => false | _ => true end end)) (s_ddefs old) (s_ddefs new) &&
  all_pairs (fun t u => match t, u with DInput a, DInput b => negb (teqb (io_name a) (io_name b)) || implb (one_of_b b) (one_of_b a) | _, _ => true end) (s_types old) (s_types new).
Lemma one_of_b_iff d : one_of_b d = true <-> has_one_of d.
Proof. unfold one_of_b, has_one_of. rewrite existsb_exists. split; intros (x & H & E); exists x; split; auto; now apply teqb_eq. Qed.
Lemma seen_all_ok old new : seen_all old new = true -> nothing_unseen old new.
Proof.
  unfold seen_all. rewrite !andb_true_iff. intros ((((Q & M) & S) & D) & I).
  assert (X : forall a b, root_kept_b a b = true -> forall n, a = Some n -> b = Some n).
  { intros a b H n ->. cbn in H. destruct b; [|discriminate]. apply teqb_eq in H. congruence. }
  assert (Y : forall d e, common_ddef old new d e -> implb (dd_repeatable d) (dd_repeatable e) = true /\
    match dd_args d with [] => forallb (fun a => negb (iv_required a)) (dd_args e) | _ => match dd_args e with [] => false | _ => true end end = true).
  { intros d e (Hd & He & E). pose proof (all_pairs_ok _ _ _ d e D Hd He) as P. cbn beta in P. rewrite E, teqb_refl in P. cbn [negb orb] in P. now apply andb_true_iff in P. }
  split; auto.
  - split; [now apply teqb_eq|apply X; auto|apply X; auto].
  - intros d e C H. apply Y in C as (C & _). rewrite H in C. now destruct (dd_repeatable e).
  - intros d e a C E Ha. apply Y in C as (_ & C). rewrite E, forallb_forall in C. apply C in Ha. now destruct (iv_required a).
  - intros d e C E. apply Y in C as (_ & C). rewrite E in C. destruct (dd_args d); [reflexivity|discriminate].
  - intros a b (Ha & Hb & E) O. pose proof (all_pairs_ok _ _ _ _ _ I Ha Hb) as P. cbn in E. cbn beta iota in P. rewrite E, teqb_refl in P. cbn [negb orb] in P.
    apply one_of_b_iff in O. rewrite O in P. cbn in P. now apply one_of_b_iff.
Qed.
Definition loses_b (c : change) : bool :=
  let w (a b : ivd) := match iv_default a with None => false | Some v => match iv_default b with None => true | Some VNull => match v with VNull => false | _ => true end | Some _ => false end end in
  match c with
  | FieldArgumentDefaultValueChanged _ _ a b => w a b
  | InputFieldDefaultValueChanged _ a b => w a b
  | DirectiveDefinitionArgumentDefaultValueChanged _ a b => w a b
  | _ => false
  end.
Lemma loses_b_ok c : loses_b c = false -> ~ loses_default c.
Proof.
  assert (X : forall a b, match iv_default a with None => false | Some v => match iv_default b with None => true | Some VNull => match v with VNull => false | _ => true end | Some _ => false end end = false -> ~ without_default a b).
  { intros a b H [(N & E)|((v & E & N) & NN)].
    - rewrite E in H. destruct (iv_default a); [discriminate|congruence].
    - rewrite E in H. destruct (iv_default b) as [w|] eqn:Eb; [|discriminate]. apply NN. exists w. split; [reflexivity|]. intros ->. destruct v; try discriminate. congruence. }
  destruct c; cbn [loses_b loses_default]; auto; apply X.
Qed.
Definition safe_b (l : list change) : bool := forallb (fun c => negb (breaking c) && negb (loses_b c)) l.
Lemma safe_b_ok l : safe_b l = true -> forall c, In c l -> breaking c = false /\ ~ loses_default c.
Proof.
  unfold safe_b. intros H c Hc. rewrite forallb_forall in H. specialize (H c Hc). apply andb_true_iff in H as (H1 & H2).
  apply negb_true_iff in H1, H2. split; [exact H1|]. now apply loses_b_ok.
Qed.

(** The schema of ValidatorCases.v with an interface, a field, an argument, enum values, an input field and a type more, and with
    an argument that no longer has to be given. *)
Definition more_pets_text : string :=
  "interface Node { id: ID! } interface Pet { id: ID! name(length: Int = 20): String } enum Kind { DOG CAT BIRD }
   type Dog implements Node & Pet { id: ID! name(length: Int = 20): String barks: Boolean! age: Int } type Cat implements Pet & Node { id: ID! name(length: Int = 20): String lives: Int }
   input PetFilter { name: String kinds: [Kind] not: PetFilter age: Int! = 1 } type Bird { wings: Int } union Animal = Dog | Cat | Bird
   type Query { node(id: ID): Node pets(first: Int = 5, where: PetFilter, after: ID): [Pet!]! animals: [Animal!] }
   type Subscription { petAdded(kind: Kind): Pet petRemoved: Pet }
   directive @cached on FIELD".
Definition more_pets : schema := Eval vm_compute in schema_in more_pets_text.
Lemma more_pets_eq : schema_in more_pets_text = more_pets. Proof. vm_compute. reflexivity. Qed.
Example c65_case : names_once more_pets /\ floats pets /\ floats more_pets /\ nothing_unseen pets more_pets /\
  (forall c, In c (compare pets more_pets) -> breaking c = false /\ ~ loses_default c) /\
  (forall n f g, ~ In (FieldTypeChanged n f g) (compare pets more_pets)) /\
  summary_of (compare pets more_pets) <> [] /\ valid_document pets (fun n x => any_value n x = None) false true pets_doc /\
  forall ord, some_order ord -> validate more_pets any_value false true ord pets_doc = Some [].
Proof.
  assert (C : checked pets = true) by (vm_compute; reflexivity). assert (D : checked more_pets = true) by (vm_compute; reflexivity).
  apply checked_ok in C as (U & F & _). apply checked_ok in D as (U' & F' & _).
  assert (NU : nothing_unseen pets more_pets).
  { apply seen_all_ok. vm_compute. reflexivity. }
  assert (SF : forall c, In c (compare pets more_pets) -> breaking c = false /\ ~ loses_default c) by (apply safe_b_ok; vm_compute; reflexivity).
  assert (TY : forall n f g, ~ In (FieldTypeChanged n f g) (compare pets more_pets)).
  { intros n f g I. assert (G : existsb (fun c => match c with FieldTypeChanged _ _ _ => true | _ => false end) (compare pets more_pets) = false) by (vm_compute; reflexivity).
    apply not_true_iff_false in G. apply G. apply existsb_exists. eexists. split; [exact I|reflexivity]. }
  repeat (split; [solve [auto using ex_pets_valid | vm_compute; discriminate]|]). intros ord Ho.
  assert (R : read_schema_with all_builtins all_builtin_directives (fun _ => 1) (fun _ => false) no_floats (tx more_pets_text) = inl (inl more_pets)).
  { rewrite <- more_pets_eq. apply read_schema_in. vm_compute. reflexivity. }
  apply (c65_texts_partial _ _ _ _ _ _ _ _ _ _ _ _ _ _ pets_read R pets_parsed no_floats_numbers F F' U' NU SF TY pets_subscriptions pets_several (spreads_simple_agree _ _ pets_simple)) with (ord := in_order); auto using in_order_ok, (ex_pets_accepted in_order in_order_ok).
  - apply spread_ok_simple. vm_compute. reflexivity.
  - apply typename_ok_plain. vm_compute. reflexivity.
  - apply lists_plain_document. vm_compute. reflexivity.
Qed.

(** * Differences that break documents without being reported, or without being called breaking *)
(** the query is valid for the old schema, and accepted; it is not valid for the new schema, and rejected *)
Definition breaks (old new query : string) : Prop :=
  read_ok old = true /\ read_ok new = true /\ parses query = true /\
  names_once (schema_in old) /\ floats (schema_in old) /\ names_once (schema_in new) /\ floats (schema_in new) /\
  valid_text old query /\ accepted_always old query /\ ~ valid_text new query /\ rejected_always new query.
Definition spreads_b (S : schema) (d : document) : bool := forallb (fun e => forallb (spread_ok S d (snd e)) (snd (fst e))) (document_sets S d).
Lemma breaks_of old new query :
  read_ok old && read_ok new && parses query && checked (schema_in old) && checked (schema_in new) = true ->
  spreads_b (schema_in old) (document_in query) && spreads_b (schema_in new) (document_in query) = true ->
  forallb (fun o => match op_type o with OSubscription => false | _ => true end) (doc_ops (document_in query)) = true ->
  typename_plain (schema_in old) (document_in query) -> listed_usages_allowed (schema_in old) (document_in query) ->
  verdict in_order old query = Some [] -> verdict in_order new query <> Some [] -> breaks old new query.
Proof.
  rewrite !andb_true_iff. intros ((((R & R') & P) & C) & C') (S & S') NS T L V V'. apply checked_ok in C as (U & F & _). apply checked_ok in C' as (U' & F' & _).
  assert (A : accepted_always old query) by (now apply always_accepted).
  assert (SS : nested_roots_single (document_in query)).
  { intros o sels s Ho E. rewrite forallb_forall in NS. specialize (NS o Ho). rewrite E in NS. discriminate. }
  assert (SS' : several_roots_differ (document_in query)).
  { intros o sels Ho E. rewrite forallb_forall in NS. specialize (NS o Ho). rewrite E in NS. discriminate. }
  assert (RJ : forall ord, some_order ord -> verdict ord new query <> Some []).
  { intros ord Ho H. apply V'. unfold verdict in *.
    refine (proj1 (verdict_deterministic_partial _ _ _ _ _ _ _ _ _ _ _ _ (read_schema_in _ R') (read_document_in _ P) no_floats_numbers (spread_ok_simple _ _ S') any_value false true ord in_order Ho in_order_ok) H). }
  repeat (split; [assumption|]). split; [|split; [exact A|split]].
  - refine (accepted_texts_valid_partial _ _ _ _ _ _ _ _ _ _ _ _ (read_schema_in _ R) (read_document_in _ P) no_floats_numbers any_value false true in_order in_order_ok
      SS (spreads_simple_agree _ _ (spread_ok_simple _ _ S)) T L V).
  - intros W. apply V'. refine (valid_texts_accepted_partial _ _ _ _ _ _ _ _ _ _ _ _ (read_schema_in _ R') (read_document_in _ P) no_floats_numbers any_value false true in_order in_order_ok
      SS' (spread_ok_simple _ _ S') W).
  - split; [exact R'|]. split; [exact P|]. intros ord Ho. destruct (verdict_cases ord new query R' Ho) as [H|H]; [|exact H]. exfalso. eapply RJ; eauto.
Qed.
Ltac breaks := apply breaks_of; [vm_compute; reflexivity..|apply typename_ok_plain; vm_compute; reflexivity|apply lists_plain_document; vm_compute; reflexivity|vm_compute; reflexivity|vm_compute; discriminate].

(** not reported at all: an operation type is gone, a directive is no longer repeatable, the first argument of a directive is
    required, all the arguments of a directive are gone *)
Theorem c65_unreported_refuted : forall p, In p
  [("schema { query: A mutation: B } type A { x: Int } type B { y: Int }", "schema { query: A } type A { x: Int } type B { y: Int }", "mutation { y }");
   ("directive @d repeatable on FIELD type Query { x: Int }", "directive @d on FIELD type Query { x: Int }", "{ x @d @d }");
   ("directive @d on FIELD type Query { x: Int }", "directive @d(a: Int!) on FIELD type Query { x: Int }", "{ x @d }");
   ("directive @d(a: Int) on FIELD type Query { x: Int }", "directive @d on FIELD type Query { x: Int }", "{ x @d(a: 1) }")] ->
  breaks (fst (fst p)) (snd (fst p)) (snd p) /\ compare (schema_in (fst (fst p))) (schema_in (snd (fst p))) = [].
Proof. intros p [<-|[<-|[<-|[<-|[]]]]]; cbn [fst snd]; (split; [breaks|vm_compute; reflexivity]). Qed.
(** called safe: a field's type becomes non-null, but it is merged with one whose type is not; oneOf is put on an input type *)
Theorem c65_called_safe_refuted : forall p, In p
  [("type A { x: Int } type B { x: Int } union U = A | B type Query { u: U }", "type A { x: Int! } type B { x: Int } union U = A | B type Query { u: U }",
    "{ u { ... on A { x } ... on B { x } } }");
   ("input I { a: Int b: Int } type Query { f(i: I): Int }", "input I @oneOf { a: Int b: Int } type Query { f(i: I): Int }", "{ f(i: {a: 1, b: 2}) }")] ->
  breaks (fst (fst p)) (snd (fst p)) (snd p) /\
  let l := compare (schema_in (fst (fst p))) (schema_in (snd (fst p))) in l <> [] /\ forall c, In c l -> non_breaking c = true.
Proof.
  intros p [<-|[<-|[]]]; cbn [fst snd]; (split; [breaks|]); (split; [vm_compute; discriminate|]); apply forallb_forall; vm_compute; reflexivity.
Qed.
(** called dangerous only: a default value is taken away, so that the argument has to be given; it is null, so that it no longer
    makes up for a nullable variable *)
Theorem c65_called_dangerous_refuted : forall p, In p
  [("type Query { x(a: Int! = 1): Int }", "type Query { x(a: Int!): Int }", "{ x }");
   ("input I { a: Int! = 1 } type Query { f(i: I): Int }", "input I { a: Int! } type Query { f(i: I): Int }", "{ f(i: {}) }");
   ("type Query { x(a: Int! = 1): Int }", "type Query { x(a: Int! = null): Int }", "query ($v: Int) { x(a: $v) }")] ->
  breaks (fst (fst p)) (snd (fst p)) (snd p) /\
  let l := compare (schema_in (fst (fst p))) (schema_in (snd (fst p))) in l <> [] /\ forall c, In c l -> dangerous c = true.
Proof.
  intros p [<-|[<-|[<-|[]]]]; cbn [fst snd]; (split; [breaks|]); (split; [vm_compute; discriminate|]); apply forallb_forall; vm_compute; reflexivity.
Qed.

Print Assumptions c65_keeps. Print Assumptions c65_still_valid_partial. Print Assumptions c65_types_change_partial. Print Assumptions c65_texts_partial.
Print Assumptions c65_case. Print Assumptions c65_unreported_refuted. Print Assumptions c65_called_safe_refuted. Print Assumptions c65_called_dangerous_refuted.
