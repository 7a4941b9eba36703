(** C66: if comparing two schemas finds only safe changes, what a server of the new schema sends is what a server of the old one may
    send, and clients that were generated for the old schema read it. *)
From Coq Require Import String.
From Verif Require Import Base Ast Examples Maps Graph Doc DocSpec DocRules DocRulesSpec FragmentsSpec DocVariablesSpec MergingSpec MergingProps MergingComplete MergingCheck MergingCases
  Lexer LexerSpec Parser ParserProps DefParser DefParserProps Resolve ResolveProps DefRules Validator ValiditySpec ValidatorProofs EndToEndProofs ValidatorProps ValidatorCases
  Typegen TypegenSpec TypegenDe TypegenProps TypegenCodeProps TypegenCases TypegenInput TypegenInputSpec TypegenInputProps TypegenInputCases
  Json TypegenResponseProps TypegenMacro TypegenMacroProps TypegenMacroCases
  Compare CompareSpec CompareProofs CompareProps CompatSpec CompatProofs CompatProps ResponsesKept.
Local Open Scope string_scope.
Local Open Scope list_scope.

(** * Responses *)
(** A schema with the same results, and possibly more types, fields and arguments, gives the responses of the old schema to the old
    documents: the meaning of [same_results]. *)
Theorem c66_same_results : forall old new, same_results old new -> resolved old -> wf_types old -> names_once new ->
  forall d, document_ok old d -> document_can_merge old d can_meet ->
  forall vals scalar_out o j, In o (doc_ops d) -> operation_response new d vals scalar_out o j -> operation_response old d vals scalar_out o j.
Proof.
  intros old new SR RO WT U d OK CM vals so o j Ho R. eapply operation_response_back; eauto using once_types.
  intros x Hx. apply (once_fields _ U). econstructor; eauto.
Qed.
(** If all reported changes are safe, the responses of the new schema to a valid document are responses of the old one: provided
    that the root types are the same, which the comparison does not look at, and that no new object type implements an old
    interface, which it reports as the safe addition of a type. *)
Theorem c66_responses_partial : forall old new, floats old -> floats new -> names_once new -> resolved old -> wf_types old ->
  same_roots old new -> no_new_implementors old new ->
  (forall c, In c (compare old new) -> non_breaking c = true) ->
  forall accepts str_enum one_of d, valid_document old accepts str_enum one_of d ->
  forall vals scalar_out o j, In o (doc_ops d) -> operation_response new d vals scalar_out o j -> operation_response old d vals scalar_out o j.
Proof.
  intros old new Fo Fn U RO WT Rs Ni Sf accepts se oo d V vals so o j Ho R.
  eapply c66_same_results; eauto using safe_same_results, vd_selections, vd_merge.
Qed.
(** The same for texts and the verdict of the validator. *)
Theorem c66_texts_partial : forall so dor recover other_digit parse_f64 recover' other_digit' parse_f64' old_text new_text query_text old new d,
  read_schema_with so dor recover other_digit parse_f64 old_text = inl (inl old) ->
  read_schema_with so dor recover other_digit parse_f64 new_text = inl (inl new) ->
  parse_text recover' other_digit' parse_f64' query_text = inl d -> reads_numbers parse_f64' ->
  floats old -> floats new -> names_once new -> wf_types old -> same_roots old new -> no_new_implementors old new ->
  (forall c, In c (compare old new) -> non_breaking c = true) ->
  nested_roots_single d -> fields_agree old d -> typename_plain old d -> listed_usages_allowed old d ->
  forall hook str_enum one_of ord, some_order ord -> validate old hook str_enum one_of ord d = Some [] ->
  forall vals scalar_out o j, In o (doc_ops d) -> operation_response new d vals scalar_out o j -> operation_response old d vals scalar_out o j.
Proof.
  intros so dor rc od pf rc' od' pf' ot nt qt old new d HO HN HQ HP Fo Fn U WT Rs Ni Sf S1 S2 S3 S4 hook se oo ord Ho V vals sout o j Hin R.
  eapply c66_responses_partial; eauto using read_schema_resolved. exact (accepted_texts_valid_partial _ _ _ _ _ _ _ _ _ _ _ _ HO HQ HP hook se oo ord Ho S1 S2 S3 S4 V).
Qed.

(** * Clients *)
(** The types that the macro generates from the old schema and a query read what a server of the new schema sends, and show it. The
    conditions on the query are those of C55, C60 and C61. *)
Theorem c66_clients_partial : forall so dor recover other_digit parse_f64 hook str_enum one_of ord pascal snake scalar_de (scalar_out : name -> json -> Prop) vals
    old_text new_text borrow cod aliases query_text types query_types old new,
  typegen_macro so dor recover other_digit parse_f64 hook str_enum one_of ord pascal old_text borrow cod aliases [query_text] = MItems types [query_types] ->
  read_schema_with so dor recover other_digit parse_f64 old_text = inl (inl old) ->
  read_schema_with so dor recover other_digit parse_f64 new_text = inl (inl new) ->
  some_order ord -> reads_numbers parse_f64 -> (forall n j, scalar_out n j -> scalar_de n j = true) ->
  floats old -> floats new -> names_once new -> wf_types old -> same_roots old new -> no_new_implementors old new ->
  (forall c, In c (compare old new) -> non_breaking c = true) ->
  exists d, parse_text recover other_digit parse_f64 query_text = inl d /\
    (nested_roots_single d -> fields_agree old d -> typename_plain old d -> listed_usages_allowed old d ->
     compiles pascal snake cod query_types ->
     (forall a b, In a (item_names d) -> In b (item_names d) -> pascal a = pascal b -> a = b) ->
     nothing_skipped old d vals -> union_spreads_cover old d -> (cod = Miniserde -> no_typename_in_variants old d) ->
     forall i o j, nth_error (doc_ops d) i = Some o -> operation_response new d vals scalar_out o j ->
     exists e v, nth_error query_types i = Some e /\ de cod old scalar_de pascal (items query_types) j (WBase e) = Some v /\ shows v j).
Proof.
  intros so dor rc od pf hook se oo ord pascal snake sde sout vals ot nt borrow cod aliases qt its ts old new H HO HN Hord HP Hsc Fo Fn U WT Rs Ni Sf.
  apply macro_items in H as (S & m & HS & _ & _ & _ & HQ & _). rewrite HO in HS. injection HS as <-.
  apply all_queries_ok in HQ. inversion HQ as [|? ? ? ? (k & Q) _]; subst. apply query_types_ok in Q as (d & D & V & VD & C).
  exists d. split; [exact D|]. intros S1 S2 S3 S4 CM Hp Hn Hu Ht i o j Hi R.
  eapply responses_deserialize_partial; eauto using read_schema_resolved, parsed_document.
  eapply c66_texts_partial with (hook := hook); eauto using nth_error_In.
Qed.

(** * A case *)
(** a check of [wf_types], for schemas in which objects refine the fields of their interfaces by non-null types only *)
Fixpoint refines_b (a b : tref) : bool :=
  match a, b with
  | TBase n r, TBase m q => teqb n m && implb q r
  | TList x r, TList y q => refines_b x y && implb q r
  | _, _ => false
  end.
Lemma refines_b_ok S a : forall b, refines_b a b = true -> refines S a b.
Proof.
  induction a as [n r|x IH r]; intros [m q|y q] H; cbn in H; try discriminate; apply andb_true_iff in H as (H & H').
  - apply teqb_eq in H as ->. now constructor.
  - constructor; auto.
Qed.
Definition string_nn : tref := TBase (tx "String") true.
Definition tref_b (a b : tref) : bool := refines_b a b && refines_b b a.
Lemma tref_b_ok a : forall b, tref_b a b = true -> a = b.
Proof.
  unfold tref_b. induction a as [n r|x IH r]; intros [m q|y q] H; cbn in H; try discriminate; rewrite !andb_true_iff in H; destruct H as ((H1 & H2) & H3 & H4).
  - apply teqb_eq in H1 as ->. f_equal. destruct r, q; try reflexivity; discriminate.
  - f_equal; [apply IH; now rewrite H1, H3|]. destruct r, q; try reflexivity; discriminate.
Qed.
Definition wf_types_b (S : schema) : bool :=
  forallb (fun t => match t with DInterface i => forallb (fun u => match u with DObject o => negb (tmem (if_name i) (ob_ifaces o)) ||
      (forallb (fun fd => teqb (fd_name fd) (tx "__typename") || match get_field (ob_fields o) (fd_name fd) with Some fd' => refines_b (fd_type fd') (fd_type fd) | None => false end) (if_fields i) &&
       forallb (fun n => tmem n (ob_ifaces o) && match get_type S n with Some (DInterface _) => true | _ => false end) (if_ifaces i)) | _ => true end) (s_types S) | _ => true end) (s_types S) &&
  forallb (fun t => forallb (fun fd => negb (teqb (fd_name fd) (tx "__typename")) || tref_b (fd_type fd) string_nn) (td_fields t)) (s_types S) &&
  match get_type S (tx "String") with Some (DBuiltin BString) => true | _ => false end &&
  forallb (fun t => match t with DUnion u => forallb (fun fd => teqb (fd_name fd) (tx "__typename")) (un_fields u) | _ => true end) (s_types S).
Lemma wf_types_ok S : wf_types_b S = true -> wf_types S.
Proof.
  unfold wf_types_b. rewrite !andb_true_iff. intros (((A & B) & C) & D). rewrite forallb_forall in A, B, D.
  assert (X : forall i o, In (DInterface i) (s_types S) -> In (DObject o) (s_types S) -> In (if_name i) (ob_ifaces o) ->
    (forall fd, In fd (if_fields i) -> teqb (fd_name fd) (tx "__typename") || match get_field (ob_fields o) (fd_name fd) with Some fd' => refines_b (fd_type fd') (fd_type fd) | None => false end = true) /\
    (forall n, In n (if_ifaces i) -> tmem n (ob_ifaces o) && match get_type S n with Some (DInterface _) => true | _ => false end = true)).
  { intros i o Hi Ho Hn. specialize (A _ Hi). cbn beta iota in A. rewrite forallb_forall in A. specialize (A _ Ho). cbn beta iota in A.
    apply tmem_In in Hn. rewrite Hn in A. cbn [negb orb] in A. apply andb_true_iff in A as (A1 & A2). rewrite forallb_forall in A1, A2. auto. }
  split.
  - intros i o fd Hi Ho Hn Hf Hne. apply (X i o Hi Ho) in Hn as (Hn & _). specialize (Hn fd Hf). apply orb_true_iff in Hn as [E|E]; [apply teqb_eq in E; contradiction|].
    destruct (get_field _ _) as [fd'|]; [|discriminate]. exists fd'. split; [reflexivity|]. now apply refines_b_ok.
  - intros i o n Hi Ho Hn Hf. apply (X i o Hi Ho) in Hn as (_ & Hn). specialize (Hn n Hf). apply andb_true_iff in Hn as (E & E'). split; [now apply tmem_In|].
    destruct (get_type S n) as [[]|]; try discriminate. eauto.
  - intros t fd Ht Hf E. specialize (B t Ht). rewrite forallb_forall in B. specialize (B fd Hf). cbn beta in B. apply orb_true_iff in B as [B|B].
    + rewrite E, teqb_refl in B. discriminate.
    + now apply tref_b_ok.
  - destruct (get_type S (tx "String")) as [[[]| | | | | |]|]; try discriminate. reflexivity.
  - intros u fd Hu Hf. specialize (D _ Hu). cbn beta iota in D. rewrite forallb_forall in D. apply teqb_eq. auto.
Qed.
Definition no_new_b (old new : schema) : bool :=
  forallb (fun t => match t with
    | DObject o => tmem (ob_name o) (map td_name (filter (fun u => match u with DObject _ => true | _ => false end) (s_types old))) ||
                   negb (existsb (fun u => match u with DInterface i => tmem (if_name i) (ob_ifaces o) | _ => false end) (s_types old))
    | _ => true end) (s_types new).
Lemma no_new_ok old new : no_new_b old new = true -> no_new_implementors old new.
Proof.
  unfold no_new_b. intros H o i Ho Hi Hn. rewrite forallb_forall in H. specialize (H _ Ho). cbn beta iota in H. apply orb_true_iff in H as [H|H].
  - apply tmem_In, in_map_iff in H as (t & E & H). apply filter_In in H as (H & K). destruct t; try discriminate. eauto.
  - exfalso. apply negb_true_iff, not_true_iff_false in H. apply H. apply existsb_exists. exists (DInterface i). split; [exact Hi|]. now apply tmem_In.
Qed.
Definition roots_b (old new : schema) : bool :=
  teqb (s_query new) (s_query old) && root_kept_b (s_mutation old) (s_mutation new) && root_kept_b (s_subscription old) (s_subscription new).
Lemma roots_ok old new : roots_b old new = true -> same_roots old new.
Proof.
  unfold roots_b. rewrite !andb_true_iff. intros ((Q & M) & S).
  assert (X : forall a b, root_kept_b a b = true -> forall n, a = Some n -> b = Some n).
  { intros a b H n ->. cbn in H. destruct b; [|discriminate]. apply teqb_eq in H. congruence. }
  split; [now apply teqb_eq|apply X; auto|apply X; auto].
Qed.
(** The schema of TypegenMacroCases.v with types, fields and an argument more, and with fields that are no longer null. *)
Definition more_shop_text : string :=
  "scalar Date enum Role { ADMIN GUEST } input Filter { since: Date role: Role! not: Filter } enum Sort { UP DOWN }
   interface Node { id: ID! } interface Timed { at: Date } type User implements Node { id: ID! name: String! born: Date role: Role! posts: [Post] }
   type Post implements Node { id: ID! author: User! title: String } type Comment implements Timed { at: Date text: String }
   union Found = Post | User type Query { comments: [Comment] find(n: Int = 3, f: Filter): [Found!]! me: User! }".
Definition more_shop : schema := Eval vm_compute in schema_in more_shop_text.
Lemma more_shop_read : read_schema_with all_builtins all_builtin_directives (fun _ => 1) (fun _ => false) no_floats (tx more_shop_text) = inl (inl more_shop).
Proof. apply (read_schema_in more_shop_text). vm_compute. reflexivity. Qed.
Definition shop_types : list etype := Eval vm_compute in match shop_out with MItems _ (ts :: _) => ts | _ => [] end.
(** {"find": [{"__typename": "Post", "author": {"id": "1", "name": "a"}}, {"__typename": "User", "id": "1", "born": 5}], "me": {"id": "1", "name": "a"}} *)
Definition shop_author : json := JObj [(tx "id", JStr (tx "1")); (tx "name", JStr (tx "a"))].
Definition shop_response : json :=
  JObj [(tx "find", JList [JObj [(tx "__typename", JStr (tx "Post")); (tx "author", shop_author)]; JObj [(tx "__typename", JStr (tx "User")); (tx "id", JStr (tx "1")); (tx "born", JInt 5)]]);
        (tx "me", shop_author)].
Definition shop_op : operation := hd (op_query None [] []) (doc_ops shop_doc).
Example c66_case_response : operation_response more_shop shop_doc no_vals any_scalar shop_op shop_response.
Proof. unfold shop_response, shop_author. eexists. split; [vm_compute; reflexivity|]. obj. Qed.
Lemma safe_all l : forallb non_breaking l = true -> forall c, In c l -> non_breaking c = true.
Proof. intros H. now apply forallb_forall. Qed.
Example c66_case_hypotheses : floats shop /\ floats more_shop /\ names_once more_shop /\ wf_types shop /\ same_roots shop more_shop /\ no_new_implementors shop more_shop /\
  (forall c, In c (compare shop more_shop) -> non_breaking c = true) /\ length (compare shop more_shop) = 9.
Proof.
  assert (C : checked shop = true) by (vm_compute; reflexivity). assert (D : checked more_shop = true) by (vm_compute; reflexivity).
  apply checked_ok in C as (U & F & _). apply checked_ok in D as (U' & F' & _).
  repeat (split; [first [assumption|apply wf_types_ok; vm_compute; reflexivity|apply roots_ok; vm_compute; reflexivity|apply no_new_ok; vm_compute; reflexivity
    |apply safe_all; vm_compute; reflexivity]|]). vm_compute. reflexivity.
Qed.
Example c66_case : exists e v, nth_error shop_types 0 = Some e /\
  de Serde shop all_read same (items shop_types) shop_response (WBase e) = Some v /\ shows v shop_response.
Proof.
  destruct c66_case_hypotheses as (Fo & Fn & U & WT & Rs & Ni & Sf & _). destruct shop_parsed as (P1 & _).
  assert (E : exists its, expand shop_text true Serde [date_alias] [shop_query] = MItems its [shop_types]) by (eexists; vm_compute; reflexivity).
  destruct E as (its & E). unfold expand in E.
  pose proof (c66_clients_partial _ _ _ _ _ _ _ _ _ same same all_read any_scalar no_vals _ _ _ _ _ _ _ _ _ _ E shop_read more_shop_read in_order_ok no_floats_numbers
    (fun _ _ _ => eq_refl) Fo Fn U WT Rs Ni Sf) as (d & D & H). rewrite P1 in D. injection D as <-.
  refine (H _ _ _ _ _ (fun _ _ _ _ E => E) _ _ _ 0 shop_op shop_response eq_refl c66_case_response); clear.
  - intros o sels s Ho T. vm_compute in Ho. destruct Ho as [<-|[]]. discriminate T.
  - apply spreads_simple_agree, spread_ok_simple. vm_compute. reflexivity.
  - apply typename_ok_plain. vm_compute. reflexivity.
  - apply lists_plain_document. vm_compute. reflexivity.
  - exact (proj1 ex_macro_compiles).
  - apply nothing_skipped_ok. vm_compute. reflexivity.
  - apply no_union_spreads. vm_compute. reflexivity.
  - discriminate.
Qed.

(** * A new implementation of an old interface *)
(** All reported changes are safe, and the server of the new schema sends what the old one never does: the new type implements the
    interface. (To make an existing type implement the interface is reported as dangerous.) *)
Theorem c66_new_implementor_refuted : exists old_text new_text query_text j,
  read_ok old_text = true /\ read_ok new_text = true /\ accepted_always old_text query_text /\ accepted_always new_text query_text /\
  names_once (schema_in new_text) /\ wf_types (schema_in old_text) /\ same_roots (schema_in old_text) (schema_in new_text) /\
  compare (schema_in old_text) (schema_in new_text) <> [] /\ (forall c, In c (compare (schema_in old_text) (schema_in new_text)) -> non_breaking c = true) /\
  exists o, In o (doc_ops (document_in query_text)) /\
    operation_response (schema_in new_text) (document_in query_text) no_vals any_scalar o j /\
    ~ operation_response (schema_in old_text) (document_in query_text) no_vals any_scalar o j.
Proof.
  pose (ot := "interface Node { id: ID! } type User implements Node { id: ID! } type Query { node: Node }").
  pose (nt := "interface Node { id: ID! } type User implements Node { id: ID! } type Post implements Node { id: ID! } type Query { node: Node }").
  pose (qt := "{ node { __typename } }").
  exists ot, nt, qt, (JObj [(tx "node", JObj [(tx "__typename", JStr (tx "Post"))])]).
  split; [vm_compute; reflexivity|]. split; [vm_compute; reflexivity|]. split; [apply always_accepted; vm_compute; reflexivity|]. split; [apply always_accepted; vm_compute; reflexivity|].
  split; [assert (D : checked (schema_in nt) = true) by (vm_compute; reflexivity); now apply checked_ok in D as (D & _)|].
  split; [apply wf_types_ok; vm_compute; reflexivity|]. split; [apply roots_ok; vm_compute; reflexivity|]. split; [vm_compute; discriminate|]. split; [apply safe_all; vm_compute; reflexivity|].
  set (so := schema_in ot). set (sn := schema_in nt). set (d := document_in qt). vm_compute in so, sn, d.
  exists (hd (op_query None [] []) (doc_ops d)). split; [left; reflexivity|]. split.
  - eexists. split; [vm_compute; reflexivity|].
    eapply re_object; [vm_compute; reflexivity|exact (poss_object _ _)|vm_compute; reflexivity|collect|vm_compute; reflexivity|].
    intros k j Hin. destruct Hin as [[= <- <-]|[]].
    match goal with |- field_response _ _ _ _ _ (under ?k ?ns) _ => let u := eval vm_compute in (under k ns) in change (under k ns) with u end.
    eapply fr_field; [discriminate|vm_compute; reflexivity|].
    eapply (re_object _ _ _ _ _ _ _ _ (tx "Post")); [vm_compute; reflexivity| |vm_compute; reflexivity|cbn; collect|vm_compute; reflexivity|fields].
    match goal with |- possible _ (DInterface ?i) _ => let x := eval vm_compute in (get_type sn (tx "Post")) in match x with Some (DObject ?o) =>
      refine (poss_interface sn i o _ _); [apply (proj1 (get_type_Some sn (tx "Post") (DObject o) eq_refl))|left; reflexivity] end end.
  - intros (t & Ht & R). vm_compute in Ht. injection Ht as <-.
    inversion R as [| |? ? ? ? ? G|? ? ? ? ? G|? ? ? ? ? G|? ? t' ? rt o ns kvs Hg Hp Ho Co Hk Hf]; subst; try (vm_compute in G; discriminate).
    vm_compute in Hg. injection Hg as <-. inversion Hp; subst. clear Hp. vm_compute in Ho. injection Ho as <-.
    inversion Co as [|? ? ? ? ? ? ns' _ Co'| | | | |? ? ? Sk]; subst; try discriminate Sk. inversion Co'; subst.
    specialize (Hf _ _ (or_introl eq_refl)). vm_compute in Hf. inversion Hf as [? ? ? E|? ? ? fd ? _ Ef Hr]; subst; try discriminate E.
    vm_compute in Ef. injection Ef as <-. vm_compute in Hr. inversion Hr as [| |? ? ? ? ? G|? ? ? ? ? G|? ? ? ? ? G|? ? t' ? rt o ns kvs Hg Hp Ho Co1 Hk1 Hf1]; subst; try (vm_compute in G; discriminate).
    inversion Co1 as [|? ? ? ? ? ? ns' _ Co2| | | | |? ? ? Sk]; subst; try discriminate Sk. inversion Co2; subst.
    specialize (Hf1 _ _ (or_introl eq_refl)). assert (Eo : ob_name o = tx "Post").
    { match type of Hf1 with field_response _ _ _ _ _ ?u _ => let u' := eval vm_compute in u in change u with u' in Hf1 end.
      inversion Hf1 as [? ? ? E EO EJ|? ? ? ? ? N]; [match goal with X : ob_name o = _ |- _ => exact X end|now destruct N]. }
    apply get_type_Some in Ho as (Ho & _). assert (X : existsb (fun t => teqb (td_name t) (tx "Post")) (s_types so) = true) by (apply existsb_exists; exists (DObject o); split; [exact Ho|cbn [td_name]; now apply teqb_eq]).
    vm_compute in X. discriminate X.
Qed.
Print Assumptions c66_same_results.
Print Assumptions c66_responses_partial.
Print Assumptions c66_texts_partial.
Print Assumptions c66_clients_partial.
Print Assumptions c66_case.
Print Assumptions c66_new_implementor_refuted.
