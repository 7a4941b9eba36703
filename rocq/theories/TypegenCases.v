(** Cases which meet the hypotheses of the theorems about type generation, and cases which show where the results stop. *)
From Verif Require Import Base Ast Maps Graph Doc DocSpec DocRulesSpec FragmentsSpec DocProofs DocRules
                          FragmentCycles FragmentCyclesProofs Merging Json Typegen TypegenDe TypegenSpec TypegenProofs TypegenBorrow
                          TypegenShapes TypegenProps TypegenCompiles TypegenCodeProps Examples.
Local Open Scope string_scope.
Local Open Scope list_scope.

(** * A schema *)
Definition tn := mk_fd "__typename" [] (ty_req "String").
Definition on c sub := SInline (Some (tx c)) [] sub.
Definition al a n sub := SField (Some (tx a)) (tx n) [] [] sub.
Definition mk_union n ms := DUnion {| un_name := tx n; un_desc := None; un_dirs := []; un_members := map tx ms; un_fields := [tn] |}.
(** interface Node { id: ID! }  type User implements Node { id: ID! name: String role: Role born: Date posts: [Post!] }
    type Post implements Node { id: ID! title: String! author: User! }  type Other { x: Int }
    union Found = User | Post  union Odd = User | Other  scalar Date  enum Role { ADMIN }
    type Query { me: User node: Node find: [Found!]! odd: Odd } *)
Definition tg_schema : schema :=
  {| s_desc := None; s_ddefs := ex_ddefs; s_query := tx "Query"; s_mutation := None; s_subscription := None; s_dirs := [];
     s_types := [ DBuiltin BBoolean; DBuiltin BFloat; DBuiltin BID; DBuiltin BInt; DBuiltin BString;
       DScalar {| sc_name := tx "Date"; sc_desc := None; sc_dirs := [] |};
       DEnum {| en_name := tx "Role"; en_desc := None; en_dirs := [];
                en_values := [{| ev_name := tx "ADMIN"; ev_desc := None; ev_dirs := [] |}]; en_builtin := false |};
       DInterface {| if_name := tx "Node"; if_desc := None; if_ifaces := []; if_dirs := []; if_fields := [mk_fd "id" [] (ty_req "ID"); tn] |};
       mk_obj "User" ["Node"] [mk_fd "id" [] (ty_req "ID"); mk_fd "name" [] (ty "String"); mk_fd "role" [] (ty "Role");
                               mk_fd "born" [] (ty "Date"); mk_fd "posts" [] (TList (ty_req "Post") false); tn];
       mk_obj "Post" ["Node"] [mk_fd "id" [] (ty_req "ID"); mk_fd "title" [] (ty_req "String"); mk_fd "author" [] (ty_req "User"); tn];
       mk_obj "Other" [] [mk_fd "x" [] (ty "Int"); tn];
       mk_union "Found" ["User"; "Post"]; mk_union "Odd" ["User"; "Other"];
       mk_obj "Query" [] [mk_fd "me" [] (ty "User"); mk_fd "node" [] (ty "Node");
                          mk_fd "find" [] (TList (ty_req "Found") true); mk_fd "odd" [] (ty "Odd"); tn] ] |}.
Ltac each H := repeat (destruct H as [<-|H]; [|]); [..|destruct H].
Lemma tg_resolved : resolved tg_schema.
Proof.
  constructor.
  - constructor.
    + eexists. vm_compute. reflexivity.
    + discriminate.
    + discriminate.
    + intros t fd Ht Hf. unfold output_resolves. cbn in Ht.
      repeat (destruct Ht as [<-|Ht]; [cbn in Hf; repeat (destruct Hf as [<-|Hf]; [eexists; split; vm_compute; reflexivity|]); destruct Hf|]). destruct Ht.
  - intros [] t; cbn; [intros [= <-]; reflexivity|intros (n & [=] & _)|intros (n & [=] & _)].
  - apply duplicates_nil. vm_compute. reflexivity.
  - intros u n Hu Hn. cbn in Hu.
    repeat (destruct Hu as [E|Hu]; [try discriminate E; injection E as <-; cbn in Hn;
      repeat (destruct Hn as [<-|Hn]; [eexists; vm_compute; reflexivity|]); destruct Hn|]). destruct Hu.
Qed.
Definition tg_scalars : name -> option bool := fun n => if teqb n (tx "Date") then Some false else None.
Lemma tg_scalars_ok x : In (DScalar x) (s_types tg_schema) -> tg_scalars (sc_name x) <> None.
Proof. cbn. intros H. repeat (destruct H as [E|H]; [try discriminate E; injection E as <-; vm_compute; discriminate|]). destruct H. Qed.

(** * Checking conditions on all selection sets *)
Lemma all_sets S d (chk : tdef -> list selection -> bool) :
  forallb (fun ev => match ev with ESelSet sels t => chk t sels | _ => true end) (visit S d) = true ->
  forall r t sels, set_at S d r t sels -> chk t sels = true.
Proof.
  intros H r t sels Hs. rewrite forallb_forall in H. apply (H (ESelSet sels t)). apply visit_ESelSet. eauto.
Qed.
Definition is_union (t : tdef) : bool := match t with DUnion _ => true | _ => false end.
Definition chk_no_spread (t : tdef) (sels : list selection) : bool :=
  negb (is_union t) || forallb (fun s => match s with SInline _ _ sub => forallb (fun s' => match s' with SSpread _ _ => false | _ => true end) sub | _ => true end) sels.
Lemma no_spread_ok S d : forallb (fun ev => match ev with ESelSet sels t => chk_no_spread t sels | _ => true end) (visit S d) = true ->
  no_spread_in_variants S d.
Proof.
  intros H r u c ds sub n ds' (sels & Hset & Hin) Hs. pose proof (all_sets S d chk_no_spread H r _ _ Hset) as Hc. cbn in Hc.
  rewrite forallb_forall in Hc. specialize (Hc _ Hin). cbn in Hc. rewrite forallb_forall in Hc. specialize (Hc _ Hs). discriminate.
Qed.
Definition chk_no_typename (t : tdef) (sels : list selection) : bool :=
  negb (is_union t) || forallb (fun s => match s with SInline _ _ sub => negb (tmem (tx "__typename") (field_names sub)) | _ => true end) sels.
Lemma no_typename_ok S d : forallb (fun ev => match ev with ESelSet sels t => chk_no_typename t sels | _ => true end) (visit S d) = true ->
  no_typename_in_variants S d.
Proof.
  intros H r u c ds sub al n args ds' sub' (sels & Hset & Hin) Hs E. pose proof (all_sets S d chk_no_typename H r _ _ Hset) as Hc. cbn in Hc.
  rewrite forallb_forall in Hc. specialize (Hc _ Hin). cbn in Hc. apply negb_true_iff in Hc. apply tmem_false in Hc. apply Hc.
  apply filter_map_In. eexists. split; [exact Hs|]. cbn. f_equal. exact E.
Qed.
Definition chk_fields (t : tdef) (sels : list selection) : bool :=
  match duplicates (fun n : name => n) (field_names sels) with [] => true | _ => false end &&
  (negb (is_union t) || forallb (fun s => match s with SInline (Some c) _ _ => negb (teqb c (tx "Other")) | _ => true end) sels).
Definition chk_items (d : document) : bool := match duplicates (fun n : name => n) (item_names d) with [] => true | _ => false end.
(** names that are not changed by the conversions *)
Definition same : name -> name := fun n => n.
Lemma names_ok S d : forallb (fun ev => match ev with ESelSet sels t => chk_fields t sels | _ => true end) (visit S d) = true -> names_fit S d same same.
Proof.
  intros H. constructor; try (intros; assumption).
  - intros r t sels Hset. pose proof (all_sets S d chk_fields H r _ _ Hset) as Hc. apply andb_true_iff in Hc as [Hc _].
    change same with (fun n : name => n). apply duplicates_nil. destruct (duplicates _ _); [reflexivity|discriminate].
  - intros r u c ds sub (sels & Hset & Hin) E. pose proof (all_sets S d chk_fields H r _ _ Hset) as Hc. apply andb_true_iff in Hc as [_ Hc]. cbn in Hc.
    rewrite forallb_forall in Hc. specialize (Hc _ Hin). cbn in Hc. unfold same in E. rewrite E, teqb_refl in Hc. discriminate.
Qed.
Definition chk_mini (t : tdef) (sels : list selection) : bool :=
  negb (tmem (tx "out") (field_names sels)) && negb (tmem (tx "k") (field_names sels)).
Definition chk_builders (d : document) : bool :=
  forallb (fun a => forallb (fun b => negb (teqb b (a ++ tx "Builder")) && negb (teqb b (a ++ tx "BuilderState"))) (item_names d)) (item_names d).
Lemma names_mini_ok S d : forallb (fun ev => match ev with ESelSet sels t => chk_mini t sels | _ => true end) (visit S d) = true ->
  chk_builders d = true -> names_fit_miniserde S d same same.
Proof.
  intros H HB. constructor.
  - intros r t sels Hset. pose proof (all_sets S d chk_mini H r _ _ Hset) as Hc. apply andb_true_iff in Hc as [H1 H2].
    apply negb_true_iff in H1, H2. rewrite tmem_false in H1, H2. change same with (fun n : name => n). rewrite map_id. auto.
  - intros a b Ha Hb. unfold chk_builders in HB. rewrite forallb_forall in HB. specialize (HB a Ha). rewrite forallb_forall in HB. specialize (HB b Hb).
    apply andb_true_iff in HB as [H1 H2]. apply negb_true_iff in H1, H2. unfold same. split; intros ->; rewrite teqb_refl in *; discriminate.
Qed.
Ltac parsed := constructor; cbn; intros ? H; repeat (destruct H as [<-|H]; [cbn; try discriminate; auto|]); destruct H.
Ltac valid := constructor; vm_compute; reflexivity.

(** * A document that meets the hypotheses *)
(** query Q { me { ...U } node { id } find { __typename ... on User { id name } ... on Post { title author { ...U } } } }
    fragment U on User { id name role born posts { title } } *)
Definition tg_doc : document :=
  {| doc_ops := [op_query (Some (tx "Q")) [] [fld "me" [] [spr "U"]; fld "node" [] [fld "id" [] []];
       fld "find" [] [fld "__typename" [] []; on "User" [fld "id" [] []; fld "name" [] []];
                      on "Post" [fld "title" [] []; fld "author" [] [spr "U"]]]]];
     doc_frags := [mk_frag "U" "User" [fld "id" [] []; fld "name" [] []; fld "role" [] []; fld "born" [] []; fld "posts" [] [fld "title" [] []]]] |}.
Lemma tg_parsed : well_parsed tg_doc. Proof. parsed. Qed.
Lemma tg_validated : validated tg_schema tg_doc. Proof. valid. Qed.
Definition tg_types : list etype := match convert tg_schema true tg_scalars tg_doc with Built l => l | Panics _ => [] end.
Lemma tg_converts : convert tg_schema true tg_scalars tg_doc = Built tg_types. Proof. vm_compute. reflexivity. Qed.
Lemma tg_no_spread : no_spread_in_variants tg_schema tg_doc. Proof. apply no_spread_ok. vm_compute. reflexivity. Qed.
Lemma tg_no_typename : no_typename_in_variants tg_schema tg_doc. Proof. apply no_typename_ok. vm_compute. reflexivity. Qed.
Lemma tg_names : names_fit tg_schema tg_doc same same. Proof. apply names_ok. vm_compute. reflexivity. Qed.
Lemma tg_names_mini : names_fit_miniserde tg_schema tg_doc same same. Proof. apply names_mini_ok; vm_compute; reflexivity. Qed.
Lemma tg_not_renamed : no_renamed_fragments tg_doc. Proof. intros f n ds [<-|[]]. discriminate. Qed.
Example ex_tg_generates : exists types, convert tg_schema true tg_scalars tg_doc = Built types.
Proof. apply generation_never_panics_partial; [apply tg_resolved|apply tg_parsed|apply tg_validated|apply tg_scalars_ok|apply tg_no_spread]. Qed.
Example ex_tg_compiles cod : compiles same same cod tg_types.
Proof.
  eapply generated_code_compiles_partial;
    [apply tg_resolved|apply tg_parsed|apply tg_validated|apply tg_converts|apply tg_names|apply tg_not_renamed|intros _; apply tg_no_typename|intros _; apply tg_names_mini].
Qed.
(** Both types borrow, and so do the references; without the option none do. *)
Example ex_tg_borrows : map borrows tg_types = [true; true] /\
  option_map (map borrows) (match convert tg_schema false tg_scalars tg_doc with Built l => Some l | Panics _ => None end) = Some [false; false].
Proof. vm_compute. auto. Qed.
(** Whether a rule passes matters: a spread beside a field, a union without __typename, a fragment and an operation of one name *)
Example ex_tg_rejected :
  typegen_errors {| doc_ops := [op_query None [] [fld "me" [] [spr "U"; fld "id" [] []]; fld "find" [] [on "User" [fld "id" [] []]]]]; doc_frags := [mk_frag "Root" "User" [fld "id" [] []]] |}
    (visit tg_schema {| doc_ops := [op_query None [] [fld "me" [] [spr "U"; fld "id" [] []]; fld "find" [] [on "User" [fld "id" [] []]]]]; doc_frags := [mk_frag "Root" "User" [fld "id" [] []]] |})
  = [TSpreadNotIsolated (tx "U"); TNoTypename; TNameClash (tx "Root")].
Proof. vm_compute. reflexivity. Qed.

(** Rules that the theorems do not need, which the documents below pass too. (They have no variables and no directives.) *)
Definition passes_others (S : schema) (d : document) : Prop :=
  unused_fragment_errors d (visit S d) = [] /\ merging_errors S d (fun _ l => l) = Some [] /\
  argument_name_errors S (visit S d) = [] /\ required_argument_errors S (visit S d) = [] /\ subscription_errors d (visit S d) = [].
Definition accepted (S : schema) (d : document) : Prop := resolved S /\ well_parsed d /\ validated S d /\ passes_others S d.
Ltac others := repeat split; vm_compute; reflexivity.
Ltac acc := split; [apply tg_resolved|split; [parsed|split; [valid|others]]].

(** * C53 does not hold in full *)
(** { find { __typename ... on User { ...U } } }: the rule does not look for spreads inside the inline fragments of a union *)
Definition tg_panic_doc : document :=
  {| doc_ops := [op_query None [] [fld "find" [] [fld "__typename" [] []; on "User" [spr "U"]]]]; doc_frags := [mk_frag "U" "User" [fld "id" [] []]] |}.
Theorem generation_never_panics_refuted : exists S d borrow scalar_borrows,
  accepted S d /\ (forall x, In (DScalar x) (s_types S) -> scalar_borrows (sc_name x) <> None) /\
  convert S borrow scalar_borrows d = Panics PNotOnlyFields.
Proof.
  exists tg_schema, tg_panic_doc, false, tg_scalars. split; [acc|]. split; [apply tg_scalars_ok|].
  vm_compute. reflexivity.
Qed.
Print Assumptions generation_never_panics_refuted.

(** * C54 does not hold in full *)
Definition tg_gen (d : document) : list etype := match convert tg_schema false tg_scalars d with Built l => l | Panics _ => [] end.

(** { me { ...A } } fragment A on User { ...U } fragment U on User { id }: nothing is generated for A *)
Theorem generated_references_refuted : exists S d borrow scalar_borrows types,
  accepted S d /\ convert S borrow scalar_borrows d = Built types /\
  (exists pascal snake, names_fit S d pascal snake) /\
  forall pascal snake cod, names_fit S d pascal snake -> ~ compiles pascal snake cod types.
Proof.
  pose (d := {| doc_ops := [op_query None [] [fld "me" [] [spr "A"]]]; doc_frags := [mk_frag "A" "User" [spr "U"]; mk_frag "U" "User" [fld "id" [] []]] |}).
  exists tg_schema, d, false, tg_scalars, (tg_gen d).
  split; [acc|]. split; [vm_compute; reflexivity|]. split; [exists same, same; apply names_ok; vm_compute; reflexivity|].
  intros pascal snake cod HN HC.
  destruct (cc_refs _ _ _ _ HC (EStruct (tx "Root") [(tx "me", WOpt (WBase (ERef (tx "A") false)))]) (tx "A") false) as ([p e] & Hi & E).
  - left. reflexivity.
  - eapply in_struct; [left; reflexivity|]. repeat constructor.
  - cbn in E. assert (Hp : p = tx "Root" \/ p = tx "U").
    { vm_compute in Hi. destruct Hi as [[= <- _]|[[= <- _]|[]]]; auto. }
    apply (nf_items _ _ _ _ HN) in E; [|destruct Hp as [->| ->]; cbn; auto|cbn; auto]. destruct Hp as [->| ->]; discriminate.
Qed.
Print Assumptions generated_references_refuted.
(** query Q { ...R } fragment R on Query { me { id } }: no type is generated for the operation *)
Theorem operation_type_generated_refuted : exists S d borrow scalar_borrows types o,
  accepted S d /\ convert S borrow scalar_borrows d = Built types /\ In o (doc_ops d) /\
  ~ In (operation_item_name o) (map fst (items types)).
Proof.
  pose (o := op_query (Some (tx "Q")) [] [spr "R"]).
  pose (d := {| doc_ops := [o]; doc_frags := [mk_frag "R" "Query" [fld "me" [] [fld "id" [] []]]] |}).
  exists tg_schema, d, false, tg_scalars, (tg_gen d), o.
  split; [acc|]. split; [vm_compute; reflexivity|]. split; [left; reflexivity|].
  vm_compute. intros [[=]|[]].
Qed.
Print Assumptions operation_type_generated_refuted.
(** query user { me { id } } query User { me { id } }: names that differ only in case *)
Theorem generated_names_refuted : exists S d borrow scalar_borrows types,
  accepted S d /\ convert S borrow scalar_borrows d = Built types /\ no_renamed_fragments d /\
  forall pascal snake cod, pascal (tx "user") = pascal (tx "User") -> ~ compiles pascal snake cod types.
Proof.
  pose (d := {| doc_ops := [op_query (Some (tx "user")) [] [fld "me" [] [fld "id" [] []]]; op_query (Some (tx "User")) [] [fld "me" [] [fld "id" [] []]]]; doc_frags := [] |}).
  exists tg_schema, d, false, tg_scalars, (tg_gen d).
  split; [acc|]. split; [vm_compute; reflexivity|]. split; [intros f n ds []|].
  intros pascal snake cod E HC. pose proof (cc_items _ _ _ _ HC) as H.
  change (NoDup [pascal (tx "user"); pascal (tx "User")]) in H. rewrite E in H. inversion H; subst. cbn in *. tauto.
Qed.
Print Assumptions generated_names_refuted.
(** { odd { __typename ... on Other { x } } }: a member called Other *)
Theorem generated_variants_refuted : exists S d borrow scalar_borrows types,
  accepted S d /\ convert S borrow scalar_borrows d = Built types /\ no_renamed_fragments d /\
  forall pascal snake cod, pascal (tx "Other") = tx "Other" -> ~ compiles pascal snake cod types.
Proof.
  pose (d := {| doc_ops := [op_query None [] [fld "odd" [] [fld "__typename" [] []; on "Other" [fld "x" [] []]]]]; doc_frags := [] |}).
  exists tg_schema, d, false, tg_scalars, (tg_gen d).
  split; [acc|]. split; [vm_compute; reflexivity|]. split; [intros f n ds []|].
  intros pascal snake cod E HC.
  destruct (cc_enum _ _ _ _ HC (hd (EBuiltin BInt false) (tg_gen d)) (tx "odd") [(tx "Other", [(tx "x", WOpt (WBase (EBuiltin BInt false)))])]) as [H _].
  - left. reflexivity.
  - eapply in_struct; [left; reflexivity|]. repeat constructor.
  - change (NoDup [pascal (tx "Other"); tx "Other"]) in H. rewrite E in H. inversion H; subst. cbn in *. tauto.
Qed.
Print Assumptions generated_variants_refuted.
(** { me { id id } }: valid GraphQL, a field twice *)
Theorem generated_fields_refuted : exists S d borrow scalar_borrows types,
  accepted S d /\ convert S borrow scalar_borrows d = Built types /\ no_renamed_fragments d /\
  forall pascal snake cod, ~ compiles pascal snake cod types.
Proof.
  pose (d := {| doc_ops := [op_query None [] [fld "me" [] [fld "id" [] []; fld "id" [] []]]]; doc_frags := [] |}).
  exists tg_schema, d, false, tg_scalars, (tg_gen d).
  split; [acc|]. split; [vm_compute; reflexivity|]. split; [intros f n ds []|].
  intros pascal snake cod HC.
  destruct (cc_struct _ _ _ _ HC (hd (EBuiltin BInt false) (tg_gen d)) (tx "me") [(tx "id", WBase (EBuiltin BID false)); (tx "id", WBase (EBuiltin BID false))]) as [H _].
  - left. reflexivity.
  - eapply in_struct; [left; reflexivity|]. repeat constructor.
  - cbn in H. inversion H; subst. cbn in *. tauto.
Qed.
Print Assumptions generated_fields_refuted.
(** { find { __typename ... on User { __typename id } } }, with serde *)
Theorem generated_tags_refuted : exists S d borrow scalar_borrows types pascal snake,
  accepted S d /\ convert S borrow scalar_borrows d = Built types /\ no_renamed_fragments d /\ names_fit S d pascal snake /\
  ~ compiles pascal snake Serde types /\ compiles pascal snake Miniserde types.
Proof.
  pose (d := {| doc_ops := [op_query None [] [fld "find" [] [fld "__typename" [] []; on "User" [fld "__typename" [] []; fld "id" [] []]]]]; doc_frags := [] |}).
  exists tg_schema, d, false, tg_scalars, (tg_gen d), same, same.
  assert (HA : accepted tg_schema d) by acc. pose proof HA as (HA1 & HA2 & HA3 & _).
  assert (HC : convert tg_schema false tg_scalars d = Built (tg_gen d)) by (vm_compute; reflexivity).
  assert (HN : names_fit tg_schema d same same) by (apply names_ok; vm_compute; reflexivity).
  split; [assumption|]. split; [assumption|]. split; [intros f n ds []|]. split; [assumption|]. split.
  - intros H. destruct (cc_enum _ _ _ _ H (hd (EBuiltin BInt false) (tg_gen d)) (tx "find")
      [(tx "User", [(tx "__typename", WBase (EBuiltin BString false)); (tx "id", WBase (EBuiltin BID false))])]) as [_ H1].
    + left. reflexivity.
    + eapply in_struct; [left; reflexivity|]. repeat constructor.
    + destruct (H1 _ _ (or_introl eq_refl)) as (_ & H2 & _). apply (H2 eq_refl). left. reflexivity.
  - eapply generated_code_compiles_partial; eauto; [intros f n ds []|discriminate|]. intros _. apply names_mini_ok; vm_compute; reflexivity.
Qed.
Print Assumptions generated_tags_refuted.
(** { me { out: id } }, { find { __typename ... on User { k: id } } } and
    { find { ...P } } fragment P on Post { author { ...PBuilder } } fragment PBuilder on User { id }, with miniserde *)
Theorem generated_builders_refuted :
  (exists S d types, accepted S d /\ convert S false tg_scalars d = Built types /\ no_renamed_fragments d /\ names_fit S d same same /\
     forall pascal snake, snake (tx "out") = tx "out" -> ~ compiles pascal snake Miniserde types) /\
  (exists S d types, accepted S d /\ convert S false tg_scalars d = Built types /\ no_renamed_fragments d /\ names_fit S d same same /\
     forall pascal snake, snake (tx "k") = tx "k" -> ~ compiles pascal snake Miniserde types) /\
  (exists S d types, accepted S d /\ convert S false tg_scalars d = Built types /\ no_renamed_fragments d /\ names_fit S d same same /\
     forall pascal snake, pascal (tx "PBuilder") = pascal (tx "P") ++ tx "Builder" -> ~ compiles pascal snake Miniserde types).
Proof.
  split; [|split].
  - pose (d := {| doc_ops := [op_query None [] [fld "me" [] [al "out" "id" []]]]; doc_frags := [] |}).
    exists tg_schema, d, (tg_gen d). split; [acc|]. split; [vm_compute; reflexivity|]. split; [intros f n ds []|]. split; [apply names_ok; vm_compute; reflexivity|].
    intros pascal snake E H. destruct (cc_struct _ _ _ _ H (hd (EBuiltin BInt false) (tg_gen d)) (tx "me") [(tx "out", WBase (EBuiltin BID false))]) as [_ H1].
    + left. reflexivity.
    + eapply in_struct; [left; reflexivity|]. repeat constructor.
    + apply (H1 eq_refl). left. exact E.
  - pose (d := {| doc_ops := [op_query None [] [fld "find" [] [fld "__typename" [] []; on "User" [al "k" "id" []]]]]; doc_frags := [] |}).
    exists tg_schema, d, (tg_gen d). split; [acc|]. split; [vm_compute; reflexivity|]. split; [intros f n ds []|]. split; [apply names_ok; vm_compute; reflexivity|].
    intros pascal snake E H. destruct (cc_enum _ _ _ _ H (hd (EBuiltin BInt false) (tg_gen d)) (tx "find") [(tx "User", [(tx "k", WBase (EBuiltin BID false))])]) as [_ H1].
    + left. reflexivity.
    + eapply in_struct; [left; reflexivity|]. repeat constructor.
    + destruct (H1 _ _ (or_introl eq_refl)) as (_ & _ & H2). apply (H2 eq_refl). left. exact E.
  - pose (d := {| doc_ops := [op_query None [] [fld "find" [] [spr "P"]]];
                  doc_frags := [mk_frag "P" "Post" [fld "author" [] [spr "PBuilder"]]; mk_frag "PBuilder" "User" [fld "id" [] []]] |}).
    exists tg_schema, d, (tg_gen d). split; [acc|]. split; [vm_compute; reflexivity|].
    split; [intros f n ds [<-|[<-|[]]]; discriminate|]. split; [apply names_ok; vm_compute; reflexivity|].
    intros pascal snake E H. destruct (cc_hidden _ _ _ _ H eq_refl (tx "P") (EStruct (tx "P") [(tx "author", WBase (ERef (tx "PBuilder") false))]) (tx "PBuilder")) as [H1 _].
    + vm_compute. auto.
    + left. reflexivity.
    + apply H1. exact E.
Qed.
Print Assumptions generated_builders_refuted.
