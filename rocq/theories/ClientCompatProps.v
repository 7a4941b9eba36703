(** C67: if comparing two schemas finds no breaking change, clients that were generated for the old schema read what a server of the
    new one sends. *)
From Coq Require Import String.
From Verif Require Import Base Ast Examples Maps Graph Doc DocSpec DocRules DocRulesSpec FragmentsSpec DocVariablesSpec MergingSpec MergingProps MergingCheck MergingCases
  Lexer LexerSpec Parser ParserProps DefParser DefParserProps Resolve ResolveProps DefRules Validator ValiditySpec ValidatorProofs EndToEndProofs ValidatorProps ValidatorCases
  Typegen TypegenSpec TypegenDe TypegenProofs TypegenProps TypegenCodeProps TypegenCases TypegenInput TypegenInputSpec TypegenInputProps TypegenInputCases
  Json TypegenResponses TypegenResponseProps TypegenMacro TypegenMacroProps TypegenMacroCases
  Compare CompareSpec CompareProofs CompareProps CompatSpec CompatProofs CompatProps ResponsesKept ResponseCompatProps ClientCompat.
Local Open Scope string_scope.
Local Open Scope list_scope.

(** * Clients and servers *)
(** If no reported change is breaking, the new schema serves the clients of the old one ([serves]), provided that the root types are
    the same and interfaces implement the interfaces that they did, neither of which the comparison looks at. *)
Theorem c67_serves_partial : forall old new, floats old -> floats new -> names_once new -> resolved old -> same_roots old new -> keeps_interfaces old new ->
  (forall c, In c (compare old new) -> breaking c = false) -> serves old new.
Proof. intros. now apply found_serves. Qed.
(** The types that the macro generates from the old schema and a query read what a server of the new schema sends. They show all of
    it, except that enum values that the old schema did not have are read as Other. *)
Theorem c67_clients_partial : forall so dor recover other_digit parse_f64 hook str_enum one_of ord pascal snake scalar_de (scalar_out : name -> json -> Prop) vals
    old_text new_text borrow cod aliases query_text types query_types old new,
  typegen_macro so dor recover other_digit parse_f64 hook str_enum one_of ord pascal old_text borrow cod aliases [query_text] = MItems types [query_types] ->
  read_schema_with so dor recover other_digit parse_f64 old_text = inl (inl old) ->
  read_schema_with so dor recover other_digit parse_f64 new_text = inl (inl new) ->
  (forall n j, scalar_out n j -> scalar_de n j = true) ->
  floats old -> floats new -> names_once new -> wf_types old -> wf_types new -> same_roots old new -> keeps_interfaces old new ->
  (forall c, In c (compare old new) -> breaking c = false) ->
  exists d, parse_text recover other_digit parse_f64 query_text = inl d /\
    (compiles pascal snake cod query_types ->
     (forall a b, In a (item_names d) -> In b (item_names d) -> pascal a = pascal b -> a = b) ->
     nothing_skipped old d vals -> union_spreads_cover_at new old d -> (cod = Miniserde -> no_typename_in_variants old d) ->
     forall i o j, nth_error (doc_ops d) i = Some o -> operation_response new d vals scalar_out o j ->
     exists e v, nth_error query_types i = Some e /\ de cod old scalar_de pascal (items query_types) j (WBase e) = Some v /\ shows_but (new_value old new) v j).
Proof.
  intros so dor rc od pf hook se oo ord pascal snake sde sout vals ot nt borrow cod aliases qt its ts old new H HO HN Hsc Fo Fn U WO WN Rs Ki Sf.
  apply macro_items in H as (S & m & HS & _ & _ & _ & HQ & _). rewrite HO in HS. injection HS as <-.
  apply all_queries_ok in HQ. inversion HQ as [|? ? ? ? (k & Q) _]; subst. apply query_types_ok in Q as (d & D & V & VD & C).
  exists d. split; [exact D|]. intros CM Hp Hn Hu Ht i o j Hi R.
  eapply served_responses_deserialize_partial; eauto using read_schema_resolved, parsed_document.
  apply c67_serves_partial; eauto using read_schema_resolved.
Qed.
(** If no added enum value is reported either, everything is shown. *)
Theorem c67_clients_all_partial : forall so dor recover other_digit parse_f64 hook str_enum one_of ord pascal snake scalar_de (scalar_out : name -> json -> Prop) vals
    old_text new_text borrow cod aliases query_text types query_types old new,
  typegen_macro so dor recover other_digit parse_f64 hook str_enum one_of ord pascal old_text borrow cod aliases [query_text] = MItems types [query_types] ->
  read_schema_with so dor recover other_digit parse_f64 old_text = inl (inl old) ->
  read_schema_with so dor recover other_digit parse_f64 new_text = inl (inl new) ->
  (forall n j, scalar_out n j -> scalar_de n j = true) ->
  floats old -> floats new -> names_once new -> wf_types old -> wf_types new -> same_roots old new -> keeps_interfaces old new ->
  (forall c, In c (compare old new) -> breaking c = false) -> (forall e v, ~ In (EnumValueAdded e v) (compare old new)) ->
  exists d, parse_text recover other_digit parse_f64 query_text = inl d /\
    (compiles pascal snake cod query_types ->
     (forall a b, In a (item_names d) -> In b (item_names d) -> pascal a = pascal b -> a = b) ->
     nothing_skipped old d vals -> union_spreads_cover_at new old d -> (cod = Miniserde -> no_typename_in_variants old d) ->
     forall i o j, nth_error (doc_ops d) i = Some o -> operation_response new d vals scalar_out o j ->
     exists e v, nth_error query_types i = Some e /\ de cod old scalar_de pascal (items query_types) j (WBase e) = Some v /\ shows v j).
Proof.
  intros so dor rc od pf hook se oo ord pascal snake sde sout vals ot nt borrow cod aliases qt its ts old new H HO HN Hsc Fo Fn U WO WN Rs Ki Sf Ne.
  destruct (c67_clients_partial _ _ _ _ _ _ _ _ _ pascal snake _ sout vals _ _ _ _ _ _ _ _ _ _ H HO HN Hsc Fo Fn U WO WN Rs Ki Sf) as (d & D & K).
  exists d. split; [exact D|]. intros CM Hp Hn Hu Ht i o j Hi R. destruct (K CM Hp Hn Hu Ht i o j Hi R) as (e & v & E & E' & Sh).
  exists e, v. split; [exact E|split; [exact E'|]]. eapply shows_all; [|exact Sh].
  intros s Hs. apply new_value_reported in Hs as (x & w & I & _); auto. exact (Ne x w I).
Qed.

(** * A case *)
Definition client_text : string :=
  "enum Role { ADMIN GUEST } interface Node { id: ID! } type User implements Node { id: ID! role: Role } type Post implements Node { id: ID! author: User }
   union Found = User | Post type Query { find: [Found!] node: Node }".
Definition server_text : string :=
  "enum Role { ADMIN GUEST OWNER } interface Node { id: ID! at: Int } type User implements Node { id: ID! at: Int role: Role! } type Post implements Node { id: ID! at: Int author: User }
   type Page implements Node { id: ID! at: Int text: String } union Found = User | Post | Page type Query { find(n: Int): [Found!]! node: Node }".
Definition client_query : string := "query Q { find { __typename ... on User { role } } node { ...N } } fragment N on Node { id }".
Definition client : schema := Eval vm_compute in schema_in client_text.
Definition server : schema := Eval vm_compute in schema_in server_text.
Definition client_doc : document := Eval vm_compute in document_in client_query.
Lemma client_read : read_schema_with all_builtins all_builtin_directives (fun _ => 1) (fun _ => false) no_floats (tx client_text) = inl (inl client).
Proof. apply (read_schema_in client_text). vm_compute. reflexivity. Qed.
Lemma server_read : read_schema_with all_builtins all_builtin_directives (fun _ => 1) (fun _ => false) no_floats (tx server_text) = inl (inl server).
Proof. apply (read_schema_in server_text). vm_compute. reflexivity. Qed.
Lemma client_parsed : read (tx client_query) = inl client_doc.
Proof. apply (read_document_in client_query). vm_compute. reflexivity. Qed.
Definition client_out (cod : codec) : macro_result := expand client_text false cod [] [client_query].
Definition client_types : list etype := Eval vm_compute in match client_out Serde with MItems _ (ts :: _) => ts | _ => [] end.
Definition keeps_interfaces_b (old new : schema) : bool :=
  forallb (fun t => match t with DInterface a => forallb (fun u => match u with DInterface b => negb (teqb (if_name a) (if_name b)) ||
    forallb (fun n => tmem n (if_ifaces b)) (if_ifaces a) | _ => true end) (s_types new) | _ => true end) (s_types old).
Lemma keeps_interfaces_ok old new : keeps_interfaces_b old new = true -> keeps_interfaces old new.
Proof.
  unfold keeps_interfaces_b. intros H a b Ha Hb E n Hn. rewrite forallb_forall in H. specialize (H _ Ha). cbn beta iota in H.
  rewrite forallb_forall in H. specialize (H _ Hb). cbn beta iota in H. rewrite E, teqb_refl in H. cbn [negb orb] in H. rewrite forallb_forall in H.
  apply tmem_In. auto.
Qed.
Lemma none_breaking l : forallb (fun c => negb (breaking c)) l = true -> forall c, In c l -> breaking c = false.
Proof. intros H c Hc. rewrite forallb_forall in H. apply negb_true_iff. auto. Qed.
Lemma no_union_spreads_at B S d : forallb (fun ev => match ev with ESelSet sels t => chk_cover t sels | _ => true end) (visit S d) = true ->
  union_spreads_cover_at B S d.
Proof.
  intros H r u n ds f (sels & Hset & Hin). pose proof (all_sets S d chk_cover H r _ _ Hset) as Hc. cbn in Hc.
  rewrite forallb_forall in Hc. specialize (Hc _ Hin). discriminate.
Qed.
Example c67_case_hypotheses : floats client /\ floats server /\ names_once server /\ wf_types client /\ wf_types server /\ same_roots client server /\ keeps_interfaces client server /\
  (forall c, In c (compare client server) -> breaking c = false) /\ union_spreads_cover_at server client client_doc /\
  (length (filter dangerous (compare client server)), length (compare client server)) = (2, 9).
Proof.
  assert (C : checked client = true) by (vm_compute; reflexivity). assert (D : checked server = true) by (vm_compute; reflexivity).
  apply checked_ok in C as (U & F & _). apply checked_ok in D as (U' & F' & _).
  repeat (split; [first [assumption|apply wf_types_ok; vm_compute; reflexivity|apply roots_ok; vm_compute; reflexivity|apply keeps_interfaces_ok; vm_compute; reflexivity
    |apply none_breaking; vm_compute; reflexivity|apply no_union_spreads_at; vm_compute; reflexivity]|]). vm_compute. reflexivity.
Qed.
(** {"find": [{"__typename": "User", "role": "OWNER"}, {"__typename": "Page"}, {"__typename": "User", "role": "ADMIN"}], "node": {"id": "7"}}:
    the value OWNER and the type Page are new, and the node is a Page *)
Definition server_response : json :=
  JObj [(tx "find", JList [JObj [(tx "__typename", JStr (tx "User")); (tx "role", JStr (tx "OWNER"))]; JObj [(tx "__typename", JStr (tx "Page"))];
                           JObj [(tx "__typename", JStr (tx "User")); (tx "role", JStr (tx "ADMIN"))]]); (tx "node", JObj [(tx "id", JStr (tx "7"))])].
Definition client_op : operation := hd (op_query None [] []) (doc_ops client_doc).
Lemma re_enum_named S d vals so n r x s sels : get_type S n = Some (DEnum x) -> In s (map ev_name (en_values x)) -> response S d vals so (TBase n r) sels (JStr s).
Proof. intros G I. apply in_map_iff in I as (e & <- & I). eapply re_enum; eauto. Qed.
Ltac iface_object S n := match goal with |- possible _ (DInterface ?i) _ => let x := eval vm_compute in (get_type S n) in match x with Some (DObject ?o) =>
  refine (poss_interface S i o _ _); [apply (proj1 (get_type_Some S n (DObject o) eq_refl))|cbn; tauto] end end.
Ltac the_field := match goal with |- field_response _ _ _ _ ?o (under ?k ?ns) ?j =>
    let u := eval vm_compute in (under k ns) in change (under k ns) with u;
    first [ refine (fr_typename _ _ _ _ o _ _ _); reflexivity | eapply fr_field; [discriminate|vm_compute; reflexivity|cbn [flat_map nd_sub app fd_type]] ] end.
Lemma applies_iface S rt n i : get_type S n = Some (DInterface i) ->
  (match get_type S rt with Some (DObject o) => tmem n (ob_ifaces o) && teqb (ob_name o) rt | _ => false end) = true -> applies S rt n.
Proof.
  intros G H. exists (DInterface i). split; [exact G|]. destruct (get_type S rt) as [[| |o| | | |]|] eqn:E; try discriminate. apply andb_true_iff in H as (H & K).
  apply teqb_eq in K. subst rt. apply get_type_Some in E as (E & _). constructor; [exact E|]. apply get_type_Some in G as (_ & <-). cbn. now apply tmem_In.
Qed.
Example c67_case_response : operation_response server client_doc no_vals any_scalar client_op server_response.
Proof.
  unfold server_response. eexists. split; [vm_compute; reflexivity|].
  eapply re_object; [vm_compute; reflexivity|exact (poss_object _ _)|vm_compute; reflexivity|collect|vm_compute; reflexivity|].
  intros k j Hin. destruct Hin as [[= <- <-]|[[= <- <-]|[]]].
  - the_field. apply re_list. intros j [<-|[<-|[<-|[]]]].
    + eapply (re_object _ _ _ _ _ _ _ _ (tx "User")); [vm_compute; reflexivity|eapply poss_union; cbn; tauto|vm_compute; reflexivity|collect|vm_compute; reflexivity|].
      intros k j [[= <- <-]|[[= <- <-]|[]]]; the_field. eapply re_enum_named; [vm_compute; reflexivity|cbn; tauto].
    + eapply (re_object _ _ _ _ _ _ _ _ (tx "Page")); [vm_compute; reflexivity|eapply poss_union; cbn; tauto|vm_compute; reflexivity|collect|vm_compute; reflexivity|].
      intros k j [[= <- <-]|[]]; the_field.
    + eapply (re_object _ _ _ _ _ _ _ _ (tx "User")); [vm_compute; reflexivity|eapply poss_union; cbn; tauto|vm_compute; reflexivity|collect|vm_compute; reflexivity|].
      intros k j [[= <- <-]|[[= <- <-]|[]]]; the_field. eapply re_enum_named; [vm_compute; reflexivity|cbn; tauto].
  - the_field. eapply (re_object _ _ _ _ _ _ _ _ (tx "Page")); [vm_compute; reflexivity|iface_object server (tx "Page")|vm_compute; reflexivity|
      eapply co_spread; [reflexivity|eexists [], _; split; [reflexivity|split; [reflexivity|cbn; tauto]]|eapply applies_iface; vm_compute; reflexivity|collect|collect]
      |vm_compute; reflexivity|].
    intros k j [[= <- <-]|[]]; the_field. resp.
Qed.
Lemma client_compiles : compiles same same Serde client_types /\ compiles same same Miniserde client_types.
Proof.
  assert (K : forall cod its, client_out cod = MItems its [client_types] -> compiles same same cod client_types).
  { intros cod its E. unfold client_out, expand in E. apply (macro_output_compiles_partial _ _ _ _ _ _ _ _ _ _ same) in E as (_ & S & HS & F). rewrite client_read in HS. injection HS as <-.
    pose proof (Forall2_nth_here _ _ _ _ _ F) as (d & D & H1). rewrite client_parsed in D. injection D as <-.
    apply H1; [apply names_ok; vm_compute; reflexivity| |intros _; apply no_typename_ok; vm_compute; reflexivity|intros _; apply names_mini_ok; vm_compute; reflexivity].
    intros f n ds [<-|[]]; discriminate. }
  split; (eapply K; vm_compute; reflexivity).
Qed.
(** The response is read: the new value as Other, and the object of the new type as Other too. *)
Example c67_case : forall cod, exists e v, nth_error client_types 0 = Some e /\
  de cod client all_read same (items client_types) server_response (WBase e) = Some v /\ shows_but (new_value client server) v server_response.
Proof.
  intros cod. destruct c67_case_hypotheses as (Fo & Fn & U & WO & WN & Rs & Ki & Sf & Hu & _).
  assert (E : exists its, client_out cod = MItems its [client_types]) by (destruct cod; eexists; vm_compute; reflexivity).
  destruct E as (its & E). unfold client_out, expand in E.
  pose proof (c67_clients_partial _ _ _ _ _ _ _ _ _ same same all_read any_scalar no_vals _ _ _ _ _ _ _ _ _ _ E client_read server_read
    (fun _ _ _ => eq_refl) Fo Fn U WO WN Rs Ki Sf) as (d & D & H). rewrite client_parsed in D. injection D as <-.
  refine (H _ (fun _ _ _ _ E => E) _ Hu _ 0 client_op server_response eq_refl c67_case_response); clear.
  - destruct cod; apply client_compiles.
  - apply nothing_skipped_ok. vm_compute. reflexivity.
  - intros _. apply no_typename_ok. vm_compute. reflexivity.
Qed.
Example c67_case_value : forall cod e, nth_error client_types 0 = Some e ->
  de cod client all_read same (items client_types) server_response (WBase e) =
    Some (RStruct [(tx "find", RSome (RVec [RVariant (tx "User") [(tx "role", RSome REnumOther)]; ROther; RVariant (tx "User") [(tx "role", RSome (REnumValue (tx "ADMIN")))]]));
                   (tx "node", RSome (RStruct [(tx "id", RStr (tx "7"))]))]).
Proof. intros [] e E; vm_compute in E; injection E as <-; vm_compute; reflexivity. Qed.

(** * Where clients fail *)
(** [client_fails old_text new_text query_text]: the macro generates types that compile from the old schema and the query, and there is
    a response of the server of the new schema, for which the query is valid too, that the types do not read. *)
Definition client_fails (old_text new_text query_text : string) : Prop :=
  forall cod, exists its types, expand old_text false cod [] [query_text] = MItems its [types] /\ compiles same same cod types /\
    accepted_always new_text query_text /\
    exists o e j, nth_error (doc_ops (document_in query_text)) 0 = Some o /\ nth_error types 0 = Some e /\
      operation_response (schema_in new_text) (document_in query_text) no_vals any_scalar o j /\
      de cod (schema_in old_text) all_read same (items types) j (WBase e) = None.
Definition well_formed_pair (old new : schema) : Prop := floats old /\ floats new /\ names_once new /\ wf_types old /\ wf_types new /\ same_roots old new.
Lemma well_formed_pair_ok old new : checked old && checked new && wf_types_b old && wf_types_b new && roots_b old new = true -> well_formed_pair old new.
Proof.
  rewrite !andb_true_iff. intros ((((C & D) & W) & W') & R). apply checked_ok in C as (_ & F & _), D as (U & F' & _).
  repeat (split; [first [assumption|now apply wf_types_ok]|]). now apply roots_ok.
Qed.
Lemma expand_compiles cod old_text query_text its types :
  expand old_text false cod [] [query_text] = MItems its [types] -> read_ok old_text = true -> parses query_text = true ->
  names_fit (schema_in old_text) (document_in query_text) same same -> no_renamed_fragments (document_in query_text) ->
  no_typename_in_variants (schema_in old_text) (document_in query_text) -> names_fit_miniserde (schema_in old_text) (document_in query_text) same same ->
  compiles same same cod types.
Proof.
  intros E R P N F T M. unfold expand in E. apply (macro_output_compiles_partial _ _ _ _ _ _ _ _ _ _ same) in E as (_ & S & HS & G).
  rewrite (read_schema_in old_text R) in HS. injection HS as <-. pose proof (Forall2_nth_here _ _ _ _ _ G) as (d & D & H1).
  pose proof (read_document_in query_text P) as Q. rewrite Q in D. injection D as <-. apply H1; auto.
Qed.

Ltac fails_case := match goal with |- client_fails ?ot ?nt ?qt =>
  intros cod; let x := eval vm_compute in (expand ot false Serde [] [qt]) in match x with MItems ?its [?ts] =>
    exists its, ts; assert (E : expand ot false cod [] [qt] = MItems its [ts]) by (destruct cod; vm_compute; reflexivity); split; [exact E|];
    split; [apply (expand_compiles cod ot qt its ts E); clear; [vm_compute; reflexivity|vm_compute; reflexivity|apply names_ok; vm_compute; reflexivity
             |intros f n ds H; vm_compute in H; destruct H as [<-|[]]; discriminate|apply no_typename_ok; vm_compute; reflexivity|apply names_mini_ok; vm_compute; reflexivity]|];
    clear E; split; [apply always_accepted; vm_compute; reflexivity|]
  end end.
(** A new member of a union is dangerous, not breaking. A query that has nothing but a fragment of an interface there gets an object
    without fields for it, which is not read. *)
Theorem c67_union_member_refuted : exists old_text new_text query_text,
  well_formed_pair (schema_in old_text) (schema_in new_text) /\ keeps_interfaces (schema_in old_text) (schema_in new_text) /\
  union_spreads_cover (schema_in old_text) (document_in query_text) /\
  (forall c, In c (compare (schema_in old_text) (schema_in new_text)) -> breaking c = false) /\ client_fails old_text new_text query_text.
Proof.
  pose (ot := "interface Node { id: ID! } type User implements Node { id: ID! } type Post implements Node { id: ID! } union Found = User | Post type Query { find: Found }").
  pose (nt := "interface Node { id: ID! } type User implements Node { id: ID! } type Post implements Node { id: ID! } type Page { text: String } union Found = User | Post | Page type Query { find: Found }").
  pose (qt := "query Q { find { ...N } } fragment N on Node { id }").
  exists ot, nt, qt. split; [apply well_formed_pair_ok; vm_compute; reflexivity|]. split; [apply keeps_interfaces_ok; vm_compute; reflexivity|]. split; [|split].
  - intros r u n ds f (sels & Hset & _) Hd m Hm. apply (set_at_In _ (fun _ => None)) in Hset.
    destruct Hd as (l1 & l2 & E & _). 
    assert (X : In f (doc_frags (document_in qt))) by (rewrite E; apply in_elt). vm_compute in X. destruct X as [<-|[]].
    assert (Y : In (DUnion u) (filter is_union (s_types (schema_in ot)))) by (apply filter_In; auto). vm_compute in Y. destruct Y as [[= <-]|[]].
    destruct Hm as [<-|[<-|[]]]; (eapply applies_iface; vm_compute; reflexivity).
  - apply none_breaking. vm_compute. reflexivity.
  - unfold ot, nt, qt. fails_case. set (sn := schema_in _). set (so := schema_in _). set (d := document_in _). vm_compute in sn, so, d.
    eexists _, _, (JObj [(tx "find", JObj [])]). split; [reflexivity|]. split; [reflexivity|]. split; [|destruct cod; vm_compute; reflexivity].
    eexists. split; [vm_compute; reflexivity|].
    eapply re_object; [vm_compute; reflexivity|exact (poss_object _ _)|vm_compute; reflexivity|collect|vm_compute; reflexivity|].
    intros k j [[= <- <-]|[]]; the_field.
    eapply (re_object _ _ _ _ _ _ _ _ (tx "Page")); [vm_compute; reflexivity|eapply poss_union; cbn; tauto|vm_compute; reflexivity|
      eapply co_spread_not; [reflexivity|eexists [], _; split; [reflexivity|split; [reflexivity|cbn; tauto]]| |collect]|vm_compute; reflexivity|intros ? ? []].
    intros (t & Ht & P). vm_compute in Ht. injection Ht as <-. inversion P as [|i o Ho Hi E|]; subst.
    assert (X : existsb (fun t => match t with DObject o => teqb (ob_name o) (tx "Page") && tmem (tx "Node") (ob_ifaces o) | _ => false end) (s_types sn) = true).
    { apply existsb_exists. exists (DObject o). split; [exact Ho|]. apply andb_true_iff. split; [now apply teqb_eq|now apply tmem_In]. }
    vm_compute in X. discriminate X.
Qed.
(** An interface that no longer implements an interface is not reported at all. All reported changes are safe, and the client of a
    query that has nothing but a fragment of that interface does not read an object of a new type. *)
Theorem c67_interface_refuted : exists old_text new_text query_text,
  well_formed_pair (schema_in old_text) (schema_in new_text) /\
  (forall c, In c (compare (schema_in old_text) (schema_in new_text)) -> non_breaking c = true) /\ client_fails old_text new_text query_text.
Proof.
  pose (ot := "interface Node { id: ID! } interface Page implements Node { id: ID! } type Post implements Node & Page { id: ID! } type Query { page: Page }").
  pose (nt := "interface Node { id: ID! } interface Page { id: ID! } type Post implements Node & Page { id: ID! } type Menu implements Page { id: ID! } type Query { page: Page }").
  pose (qt := "query Q { page { ...N } } fragment N on Node { id }").
  exists ot, nt, qt. split; [apply well_formed_pair_ok; vm_compute; reflexivity|]. split; [apply safe_all; vm_compute; reflexivity|].
  unfold ot, nt, qt. fails_case. set (sn := schema_in _). set (so := schema_in _). set (d := document_in _). vm_compute in sn, so, d.
  eexists _, _, (JObj [(tx "page", JObj [])]). split; [reflexivity|]. split; [reflexivity|]. split; [|destruct cod; vm_compute; reflexivity].
  eexists. split; [vm_compute; reflexivity|].
  eapply re_object; [vm_compute; reflexivity|exact (poss_object _ _)|vm_compute; reflexivity|collect|vm_compute; reflexivity|].
  intros k j [[= <- <-]|[]]; the_field.
  eapply (re_object _ _ _ _ _ _ _ _ (tx "Menu")); [vm_compute; reflexivity|iface_object sn (tx "Menu")|vm_compute; reflexivity|
    eapply co_spread_not; [reflexivity|eexists [], _; split; [reflexivity|split; [reflexivity|cbn; tauto]]| |collect]|vm_compute; reflexivity|intros ? ? []].
  intros (t & Ht & P). vm_compute in Ht. injection Ht as <-. inversion P as [|i o Ho Hi E|]; subst.
  assert (X : existsb (fun t => match t with DObject o => teqb (ob_name o) (tx "Menu") && tmem (tx "Node") (ob_ifaces o) | _ => false end) (s_types sn) = true).
  { apply existsb_exists. exists (DObject o). split; [exact Ho|]. apply andb_true_iff. split; [now apply teqb_eq|now apply tmem_In]. }
  vm_compute in X. discriminate X.
Qed.
Print Assumptions c67_serves_partial.
Print Assumptions c67_clients_partial.
Print Assumptions c67_clients_all_partial.
Print Assumptions c67_case.
Print Assumptions c67_case_value.
Print Assumptions c67_union_member_refuted.
Print Assumptions c67_interface_refuted.
