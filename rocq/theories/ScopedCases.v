(** Cases for C76: a schema of which parts are hidden, and documents. *)
From Coq Require Import String.
From Verif Require Import Base Ast CoercionTypes CoercionSpec Graph Maps DefParser Resolve ResolveSpec ResolveProps Doc DocSpec DocRulesSpec DocVariablesSpec OperationSpec ValueEqSpec
  MergingSpec MergingProps MergingComplete MergingCheck MergingCases ValiditySpec ValidatorProofs EndToEndProofs TypegenSpec TypegenInputCases ValidatorCases CompareSpec CompareProps CompatSpec CompatProofs CompatProps
  Visibility VisibilitySpec VisibilityProofs VisibilityProps ScopedSpec ScopedProofs ScopedDocProofs ScopedProps.
From Verif Require Validator.
Local Open Scope string_scope.
Local Open Scope list_scope.

Definition shop_text : string :=
  "type Query { user(id: ID!, trace: String): User secret: Secret search(filter: Filter, kind: Kind): [Found!]! }
   type User { id: ID! name(length: Int = 20): String password: String boss: User }
   type Secret { x: Int } union Found = User | Secret
   enum Kind { OPEN SHUT INTERNAL } input Filter { name: String kinds: [Kind!] internal: String not: Filter }
   type Mutation { drop: Boolean }
   directive @cached(ttl: Int, shard: Int) on FIELD directive @debug on FIELD".
Definition shop : schema := Eval vm_compute in schema_in shop_text.
Lemma shop_eq : schema_in shop_text = shop. Proof. vm_compute. reflexivity. Qed.
(** what is hidden: types and members, as in VisibilityProps.v; arguments of fields and of directives *)
Definition covering (ts : list string) (ms args : list (string * string)) (s : schema) : warden :=
  let w := hiding ts ms s in
  {| w_type := w_type w; w_field := w_field w;
     w_input := fun p i => match p with PArgument _ f => negb (hidden args f (iv_name i)) | PDirectiveArgument d => negb (hidden args d (iv_name i)) | _ => w_input w p i end;
     w_value := w_value w; w_member := w_member w; w_implements := w_implements w; w_ddef := w_ddef w;
     w_default := w_default w; w_arguments := w_arguments w; w_candidates := w_candidates w; w_equal := w_equal w |}.
Definition public (s : schema) : warden :=
  covering ["Secret"; "Mutation"] [("User", "password"); ("Kind", "INTERNAL"); ("Filter", "internal"); ("@", "debug")] [("user", "trace"); ("cached", "shard")] s.

(** * The hypotheses can be checked *)
Definition optional_b (S : schema) (W : warden) (p : place) (l : list ivd) : bool :=
  forallb (fun i => negb (iv_required i) || (w_input W p i && match visible_ref S W (iv_type i) with Some _ => true | None => false end)) l.
Definition hidden_b (S : schema) (W : warden) : bool :=
  forallb (fun t => forallb (fun f => optional_b S W (PArgument (td_name t) (fd_name f)) (fd_args f)) (td_fields t) &&
    match t with
    | DInput d => optional_b S W (PInputField (io_name d)) (io_fields d) && implb (one_of_b d) match visible_ddef S W (tx "oneOf") with Some _ => true | None => false end
    | _ => true
    end) (s_types S) &&
  forallb (fun d => optional_b S W (PDirectiveArgument (dd_name d)) (dd_args d)) (s_ddefs S).
Lemma optional_ok S W p l i : optional_b S W p l = true -> In i l -> (forall x, In x (visible_inputs S W p l) -> fst x <> i) -> iv_required i = false.
Proof.
  unfold optional_b. rewrite forallb_forall. intros H Hi N. specialize (H i Hi). destruct (iv_required i); [|reflexivity]. cbn in H. apply andb_true_iff in H as (H1 & H2).
  destruct (visible_ref S W (iv_type i)) as [y|] eqn:E; [|discriminate]. exfalso. apply (N (i, y)); [|reflexivity]. apply visible_inputs_In. auto.
Qed.
Lemma hidden_ok S W : proper S W -> (forall p i, w_default W p i = iv_default i) -> hidden_b S W = true -> hidden_optional S W.
Proof.
  intros P D H. unfold hidden_b in H. apply andb_true_iff in H as (H1 & H2). rewrite forallb_forall in H1, H2. split.
  - intros p l i A Hi N. eapply optional_ok; [|exact Hi|exact N]. destruct A as [t f x (d & Vt & I & E)|t d Vt|n d Vd].
    + apply visible_type_Some in Vt as (Hd & <- & _); auto. apply H1 in Hd. apply andb_true_iff in Hd as (Hd & _). rewrite forallb_forall in Hd. apply visible_fields_In in I as (I & _).
      rewrite <- E. now apply Hd.
    + apply visible_type_Some in Vt as (Hd & Et & _); auto. cbn in Et. subst t. apply H1 in Hd. apply andb_true_iff in Hd as (_ & Hd). now apply andb_true_iff in Hd as (Hd & _).
    + apply visible_ddef_Some in Vd as (Hd & <- & _); auto.
  - intros p i. now rewrite D.
  - intros p i. now rewrite D.
  - intros t d x Vt Hx E. apply visible_type_Some in Vt as (Hd & _ & _); auto. apply H1 in Hd. apply andb_true_iff in Hd as (_ & Hd). apply andb_true_iff in Hd as (_ & Hd).
    assert (O : one_of_b d = true) by (apply one_of_b_iff; exists x; auto). rewrite O in Hd. intros E'. rewrite E' in Hd. discriminate.
Qed.
Lemma once_at S W : proper S W -> names_once S -> (forall u, In (DUnion u) (s_types S) -> un_fields u = [typename_field]) -> forall p l, inputs_at S W p l -> NoDup (map iv_name l).
Proof.
  intros P N U p l A. destruct A as [t f x (d & Vt & I & E)|t d Vt|n d Vd].
  - apply visible_type_Some in Vt as (Hd & _ & _); auto. apply visible_fields_In in I as (I & _).
    destruct d as [b|d|d|d|d|d|d]; cbn in I; try destruct I; try (eapply (once_inputs _ N), ii_field; eauto; now constructor).
    + rewrite (U _ Hd) in I. destruct I as [<-|[]]. constructor.
  - apply visible_type_Some in Vt as (Hd & _ & _); auto. apply (once_inputs _ N). now constructor.
  - apply visible_ddef_Some in Vd as (Hd & _ & _); auto. apply (once_inputs _ N). now constructor.
Qed.
Lemma covering_finds ts ms args : finds (covering ts ms args).
Proof. intros s. split; intros; [apply (null_candidates s) | apply (null_equal s)]. Qed.
Lemma read_unions_plain s : read_ok s = true -> forall u, In (DUnion u) (s_types (schema_in s)) -> un_fields u = [typename_field].
Proof. intros H u Hu. eapply read_unions; [apply read_schema_in; exact H|exact Hu]. Qed.
Lemma covering_case s ts ms args : read_ok s && checked (schema_in s) && fields_once (schema_in s) = true -> let S := schema_in s in let W := covering ts ms args S in
  proper S W /\ names_once S /\ (forall p l, inputs_at S W p l -> NoDup (map iv_name l)) /\ (forall u, In (DUnion u) (s_types S) -> un_fields u = [typename_field]) /\ resolved S.
Proof.
  intros R. apply andb_true_iff in R as (R & F). apply andb_true_iff in R as (R & C). intros S W. apply checked_ok in C as (N & _). pose proof (read_unions_plain s R) as U. fold S in U, N.
  assert (P : proper S W) by (eapply text_proper; [apply read_schema_in; exact R|exact F|apply covering_finds..]).
  split; [exact P|split; [exact N|split; [now apply once_at|split; [exact U|]]]]. eapply read_schema_resolved. apply read_schema_in. exact R.
Qed.

(** * The shop and its public part *)
Definition scope : schema := Eval vm_compute in scoped shop (public shop).
Lemma scope_eq : scoped shop (public shop) = scope. Proof. vm_compute. reflexivity. Qed.
Definition accepted_for (s : schema) (q : string) : bool :=
  parses q && match Validator.validate s any_value false true in_order (document_in q) with Some [] => true | _ => false end.
Lemma shop_case : proper shop (public shop) /\ names_once shop /\ (forall p l, inputs_at shop (public shop) p l -> NoDup (map iv_name l)) /\
  (forall u, In (DUnion u) (s_types shop) -> un_fields u = [typename_field]) /\ resolved shop.
Proof. rewrite <- shop_eq. apply covering_case. vm_compute. reflexivity. Qed.
Lemma shop_query : visible_object shop (public shop) (s_query shop) <> None.
Proof. vm_compute. discriminate. Qed.
Lemma shop_optional : hidden_optional shop (public shop).
Proof. apply hidden_ok; [apply shop_case|reflexivity|vm_compute; reflexivity]. Qed.

Definition client : string :=
  "query ($id: ID!, $kind: Kind = OPEN) { user(id: $id) { ...u boss @cached(ttl: 10) { id } } search(filter: { kinds: [SHUT, $kind], not: { name: ""x"" } }) { __typename ... on User { name(length: 5) } } } fragment u on User { id name }".
Definition client_doc : document := Eval vm_compute in document_in client.
Lemma client_eq : document_in client = client_doc. Proof. vm_compute. reflexivity. Qed.
(** the client's query is accepted for both schemas: it uses only what is shown *)
Example client_case : accepted_for scope client = true /\ accepted_for shop client = true /\ uses_shown shop (public shop) false client_doc.
Proof.
  split; [vm_compute; reflexivity|split; [vm_compute; reflexivity|]]. destruct shop_case as (P & N & O & U & R).
  apply (c76_nothing_hidden shop (public shop) P shop_query O any_value false true in_order).
  - intros o [<-|[]] _. reflexivity.
  - rewrite scope_eq. vm_compute. reflexivity.
Qed.
(** queries that are accepted for the shop and use one thing that is hidden: each is rejected for the scoped schema *)
Definition prying : list string :=
  ["{ secret { x } }"; "{ user(id: 1) { password } }"; "{ user(id: 1, trace: ""t"") { id } }"; "{ search(kind: INTERNAL) { __typename } }";
   "{ search(filter: { internal: ""x"" }) { __typename } }"; "{ search { ... on Secret { x } } }"; "mutation { drop }"; "{ user(id: 1) { id @debug } }"; "{ user(id: 1) { id @cached(shard: 1) } }";
   "query ($k: Kind = INTERNAL) { search(kind: $k) { __typename } }"; "{ search { __typename ...f } } fragment f on Secret { x }"].
Example prying_cases : map (accepted_for shop) prying = repeat true 11 /\ map (accepted_for scope) prying = repeat false 11.
Proof. split; vm_compute; reflexivity. Qed.
(** the hypotheses of the last theorem hold of it *)
Example client_behind : hidden_optional shop (public shop) /\ plain_numbers client_doc /\
  (forall o, In o (doc_ops client_doc) -> op_explicit o = false -> op_type o = Ast.OQuery /\ op_name o = None) /\
  nested_roots_single client_doc /\ several_roots_differ client_doc /\ fields_agree scope client_doc /\ spreads_simple shop client_doc /\
  typename_plain scope client_doc /\ listed_usages_allowed scope client_doc /\
  (forall ord, some_order ord -> Validator.validate shop any_value false true ord client_doc = Some []).
Proof.
  destruct shop_case as (P & N & O & U & R).
  assert (A : plain_numbers client_doc).
  { eapply parsed_numbers; [exact no_floats_numbers|rewrite <- client_eq; apply read_document_in; vm_compute; reflexivity]. }
  assert (B : forall o, In o (doc_ops client_doc) -> op_explicit o = false -> op_type o = Ast.OQuery /\ op_name o = None) by (intros o [<-|[]]; vm_compute; discriminate).
  assert (C : nested_roots_single client_doc) by (intros o sels s [<-|[]] E; vm_compute in E; discriminate).
  assert (D : several_roots_differ client_doc) by (intros o sels [<-|[]] E; vm_compute in E; discriminate).
  assert (E : spreads_simple scope client_doc) by (apply spread_ok_simple; vm_compute; reflexivity).
  assert (E' : spreads_simple shop client_doc) by (apply spread_ok_simple; vm_compute; reflexivity).
  apply spreads_simple_agree in E.
  assert (F : typename_plain scope client_doc) by (apply typename_ok_plain; vm_compute; reflexivity).
  assert (G : listed_usages_allowed scope client_doc) by (apply lists_plain_document; vm_compute; reflexivity).
  repeat (split; [first [assumption|apply shop_optional]|]). intros ord Ho.
  apply (c76_accepted_behind_partial shop (public shop) P shop_query N U shop_optional R client_doc A B C D) with (ord := in_order); try (rewrite scope_eq); auto.
  vm_compute. reflexivity.
Qed.

(** Something that has to be given can be hidden: then documents are accepted for the scoped schema that are not valid behind it. *)
Definition till_text : string := "type Query { pay(amount: Int!, till: ID!): Int }".
Definition till : schema := Eval vm_compute in schema_in till_text.
Lemma till_eq : schema_in till_text = till. Proof. vm_compute. reflexivity. Qed.
Definition counter : warden := covering [] [] [("pay", "till")] till.
Definition paying : document := Eval vm_compute in document_in "{ pay(amount: 5) }".
Lemma paying_eq : document_in "{ pay(amount: 5) }" = paying. Proof. vm_compute. reflexivity. Qed.
Theorem c76_required_hidden_refuted :
  proper till counter /\ accepted_for till "{ pay(amount: 5, till: 1) }" = true /\
  accepted_for (scoped till counter) "{ pay(amount: 5) }" = true /\ valid_document (scoped till counter) (fun n x => any_value n x = None) false true paying /\
  accepted_for till "{ pay(amount: 5) }" = false /\ ~ valid_document till (fun n x => any_value n x = None) false true paying.
Proof.
  assert (H : proper till counter /\ names_once till /\ (forall p l, inputs_at till counter p l -> NoDup (map iv_name l)) /\
    (forall u, In (DUnion u) (s_types till) -> un_fields u = [typename_field]) /\ resolved till).
  { unfold counter. rewrite <- till_eq. apply covering_case. vm_compute. reflexivity. }
  destruct H as (P & N & O & U & R).
  assert (Q : visible_object till counter (s_query till) <> None) by (vm_compute; discriminate).
  assert (A : plain_numbers paying).
  { eapply parsed_numbers; [exact no_floats_numbers|rewrite <- paying_eq; apply read_document_in; vm_compute; reflexivity]. }
  assert (B : forall o, In o (doc_ops paying) -> op_explicit o = false -> op_type o = Ast.OQuery /\ op_name o = None) by (intros o [<-|[]]; vm_compute; auto).
  assert (C : nested_roots_single paying) by (intros o sels s [<-|[]] E; vm_compute in E; discriminate).
  assert (D : several_roots_differ paying) by (intros o sels [<-|[]] E; vm_compute in E; discriminate).
  assert (E : spreads_simple (scoped till counter) paying) by (apply spread_ok_simple; vm_compute; reflexivity).
  assert (E' : spreads_simple till paying) by (apply spread_ok_simple; vm_compute; reflexivity).
  apply spreads_simple_agree in E.
  assert (F : typename_plain (scoped till counter) paying) by (apply typename_ok_plain; vm_compute; reflexivity).
  assert (G : listed_usages_allowed (scoped till counter) paying) by (apply lists_plain_document; vm_compute; reflexivity).
  split; [exact P|split; [vm_compute; reflexivity|split; [vm_compute; reflexivity|split; [|split; [vm_compute; reflexivity|]]]]].
  - destruct (scoped_resolved till counter P Q) as [Wf Rt _ _].
    assert (V : Validator.validate (scoped till counter) any_value false true in_order paying = Some []) by (vm_compute; reflexivity).
    apply validate_silent in V as (_ & V). apply (silent_valid (scoped till counter) any_value false true in_order paying Wf Rt B) with (subs := true) (merge := true); auto.
    apply in_order_ok.
  - intros V. destruct R as [Wf Rt _ _]. assert (K : Validator.validate till any_value false true in_order paying = Some []).
    { apply validate_silent. split; [now apply no_panic|]. eapply valid_silent; eauto. apply in_order_ok. }
    vm_compute in K. discriminate.
Qed.
Print Assumptions c76_required_hidden_refuted.

(** Lookups through the layer, with the answers that the scoped schema gives. *)
Definition asked : list op :=
  [OType (tx "Kind"); OValues (tx "Kind"); OType (tx "Secret"); OFields (tx "Query"); OArguments (tx "Query") (tx "user"); OType (tx "Found"); OMembers (tx "Found");
   OType (tx "Filter"); OInputFields (tx "Filter"); OMutation; ODirectiveDef (tx "debug"); ODirectiveDef (tx "cached"); ODirectiveArguments (tx "cached"); OType (tx "User"); OFields (tx "User");
   OField (tx "User") (tx "name"); OArguments (tx "User") (tx "name"); ODefault (PArgument (tx "User") (tx "name")) 0].
Example asked_case : seen shop_text public (fun s w r c => proper s w /\ history s w r c /\
  map answer_names (fst (asks s w r asked c)) = map (map tx)
    [["Kind"]; ["OPEN"; "SHUT"]; []; ["__typename"; "user"; "search"; "__schema"; "__type"]; ["id"]; ["Found"]; ["User"]; ["Filter"]; ["name"; "kinds"; "not"]; []; []; ["cached"]; ["ttl"];
     ["User"]; ["__typename"; "id"; "name"; "boss"]; ["name"]; ["length"]; []]).
Proof.
  look (fun s w r c => map answer_names (fst (asks s w r asked c))) (covering_finds ["Secret"; "Mutation"] [("User", "password"); ("Kind", "INTERNAL"); ("Filter", "internal"); ("@", "debug")] [("user", "trace"); ("cached", "shard")]).
  intros s r c P H E. split; [now apply P|split; [exact H|]]. rewrite E. vm_compute. reflexivity.
Qed.
