(** C79: which type system documents are accepted, and which rules of the GraphQL specification are not checked. *)
From Coq Require Import String Sorted Permutation.
From Verif Require Import Base Ast Maps Graph Lexer Parser ParserProps DefParser Resolve ResolveSpec ResolveProofs ResolveProps InputCyclesSpec DefRules DefRulesProps Coercion CoercionSpec CoercionProps SchemaValiditySpec.
From Coq Require Import Lia.
Local Open Scope string_scope.
Local Open Scope list_scope.

(** the document gives a schema ([SchemaDefinition::try_from]), and the rules for definitions find nothing wrong with it *)
Definition accepts (d : defdoc) : Prop := exists s, resolve d = inl s /\ definition_errors s = [].

Lemma filter_length_NoDup {A} (key : A -> name) (l : list A) n : NoDup (map key l) -> length (filter (fun x => teqb (key x) n) l) <= 1.
Proof.
  induction l as [|x l IH]; cbn [map filter]; intros H; [cbn; lia|]. inversion_clear H. destruct (teqb_spec (key x) n) as [<-|_]; [|auto].
  assert (E : filter (fun y => teqb (key y) (key x)) l = []); [|rewrite E; cbn; lia].
  destruct (filter _ l) as [|y l'] eqn:E; [reflexivity|]. exfalso. assert (Hy : In y (y :: l')) by now left. rewrite <- E in Hy. apply filter_In in Hy as (Hy & Ey). apply teqb_eq in Ey.
  apply H0. rewrite <- Ey. now apply in_map.
Qed.
Lemma same_name d (t u : tdef) : obeys d UniqueTypeNames -> In t (df_types d) -> In u (df_types d) -> td_name t = td_name u -> t = u.
Proof. cbn [obeys]. intros ND Ht Hu E. now apply (NoDup_key_inj td_name (df_types d)). Qed.

Lemma needs_requires d s : obeys d UniqueTypeNames -> Permutation (df_types d) (s_types s) -> forall a b, needs d a b <-> requires s a b.
Proof.
  cbn [obeys]. intros ND P a b. assert (ND' : NoDup (map td_name (s_types s))) by (eapply Permutation_NoDup; [|exact ND]; now apply Permutation_map).
  assert (G : forall t, In t (df_types d) <-> get_type s (td_name t) = Some t).
  { intros t. split.
    - intros H. apply (Permutation_in _ P) in H. destruct (get_type s (td_name t)) as [u|] eqn:E.
      + apply get_type_Some in E as (J & E). f_equal. now apply (NoDup_key_inj td_name (s_types s)).
      + rewrite get_type_None in E. now apply E in H.
    - intros H. apply get_type_Some in H as (H & _). now apply (Permutation_in _ (Permutation_sym P)). }
  split.
  - intros (i & f & j & Hi & <- & Hf & Et & Hj & Ej). exists i, f, j. apply G in Hi, Hj. cbn [td_name] in Hi, Hj. rewrite Ej in Hj. auto.
  - intros (i & f & j & Hi & Hf & Et & Hj). exists i, f, j. pose proof (get_type_Some _ _ _ Hi) as (_ & Ei). pose proof (get_type_Some _ _ _ Hj) as (_ & Ej). cbn [td_name] in Ei, Ej.
    repeat split; auto; apply G; cbn [td_name]; congruence.
Qed.
Lemma plus_iff {A} (R R' : A -> A -> Prop) : (forall a b, R a b <-> R' a b) -> forall a b, plus R a b <-> plus R' a b.
Proof. intros H a b. split; induction 1; [apply plus_one|eapply plus_step|apply plus_one|eapply plus_step]; try apply H; eauto. Qed.
Lemma declares_root e ty r : declares e ty r -> forall n, In (ty, n) (es_roots e) <-> r = Some n.
Proof.
  unfold declares, declarations. intros H n. assert (K : In (ty, n) (es_roots e) <-> In (ty, n) (filter (fun p => optype_eqb (fst p) ty) (es_roots e))).
  { rewrite filter_In. split; [|tauto]. intros Hn. split; [exact Hn|]. cbn. destruct ty; reflexivity. }
  rewrite K, H. destruct r as [m|]; cbn; split; [intros [E|[]]; congruence|intros [= ->]; auto|tauto|discriminate].
Qed.
Lemma declares_length e ty r : declares e ty r -> length (declarations ty e) <= 1.
Proof. unfold declares. intros ->. destruct r; cbn; lia. Qed.

(** Exactly the documents that obey the checked rules are accepted. *)
Theorem c79_accepted_iff : forall d, accepts d <-> forall r, checked r = true -> obeys d r.
Proof.
  intros d. split.
  - intros (s & R & DE). apply c14_schemas in R. destruct R as [HT HTs HD HDs HR HRo HO].
    assert (ND : obeys d UniqueTypeNames). { cbn [obeys]. eapply Permutation_NoDup; [apply Permutation_map, Permutation_sym, HT|]. now apply Maps.sorted_NoDup. }
    assert (NDD : obeys d UniqueDirectiveNames). { cbn [obeys]. eapply Permutation_NoDup; [apply Permutation_map, Permutation_sym, HD|]. now apply Maps.sorted_NoDup. }
    apply definition_rules_exact in DE; [|now apply Maps.sorted_NoDup]. destruct DE as (DE1 & DE2 & DE3). destruct HO as (O1 & O2 & O3).
    intros r. destruct r; intros C; try discriminate C; try assumption; cbn [obeys].
    + destruct HRo as [(e & -> & _)|(-> & _)]; cbn; lia.
    + intros e ty He. destruct HRo as [(e' & E & _ & _ & Q & M & U)|(E & _)]; rewrite E in He; [|destruct He]. destruct He as [<-|[]].
      destruct ty; eapply declares_length; eassumption.
    + exists (s_query s). destruct HRo as [(e & E & _ & _ & Q & _)|(E & _ & _ & Q & _)].
      * left. exists e. rewrite E. split; [now left|]. now apply (declares_root _ _ _ Q).
      * right. destruct O1 as (o & Ho & Eo). split; [exact E|]. split; [exact Q|]. exists (DObject o). auto.
    + intros ty n [(e & He & Hn)|(E & -> & t & Ht & Et)].
      * destruct HRo as [(e' & E & _ & _ & Q & M & U)|(E & _)]; rewrite E in He; [|destruct He]. destruct He as [<-|[]].
        destruct ty; [apply (declares_root _ _ _ Q) in Hn|apply (declares_root _ _ _ M) in Hn|apply (declares_root _ _ _ U) in Hn]; [injection Hn as <-; exact O1|auto|auto].
      * destruct HRo as [(e' & E' & _)|(_ & _ & _ & Q & M & U)]; [rewrite E in E'; discriminate|]. destruct ty; cbn [conventional_name] in *.
        -- rewrite <- Q. exact O1.
        -- apply O2. unfold conventional in M. destruct (s_mutation s) as [m|]; [now rewrite M|]. now apply M in Ht.
        -- apply O3. unfold conventional in U. destruct (s_subscription s) as [m|]; [now rewrite U|]. now apply U in Ht.
    + apply (ro_fields _ _ HR).
    + apply (ro_values _ _ HR).
    + apply (ro_interfaces _ _ HR).
    + apply (ro_members _ _ HR).
    + apply (ro_directives _ _ HR).
    + intros e He. apply DE1. now apply (Permutation_in _ HT).
    + intros i Hi. apply DE2. now apply (Permutation_in _ HT).
    + intros n H. apply (DE3 n). unfold requires_itself. eapply plus_iff; [|exact H]. intros a b. symmetry. now apply needs_requires.
  - intros O. pose proof (O UniqueTypeNames eq_refl) as ND. pose proof (O UniqueDirectiveNames eq_refl) as NDD.
    destruct (resolve d) as [s|es] eqn:R.
    + exists s. split; [exact R|]. apply c14_schemas in R. destruct R as [HT HTs HD HDs HR HRo HO]. apply definition_rules_exact; [now apply Maps.sorted_NoDup|].
      split; [|split].
      * intros x Hx. apply (O UniqueEnumValues eq_refl). now apply (Permutation_in _ (Permutation_sym HT)).
      * intros x Hx. apply (O UniqueInputFields eq_refl). now apply (Permutation_in _ (Permutation_sym HT)).
      * intros n H. apply (O InputsNotCircular eq_refl n). unfold requires_itself in H. eapply plus_iff; [|exact H]. intros a b. now apply needs_requires.
    + exfalso. apply c14_errors in R as (NE & F). destruct es as [|e es]; [congruence|]. inversion_clear F. clear NE H0 es. rename H into E.
      assert (same : forall t u, In t (df_types d) -> In u (df_types d) -> td_name t = td_name u -> t = u) by (intros; now apply (same_name d)).
      assert (roots : forall e0, df_schemas d = [e0] -> forall p, In p (es_roots e0) -> object_named (df_types d) (snd p)).
      { intros e0 E0 [ty n] Hp. apply (O RootsAreObjects eq_refl ty n). left. exists e0. rewrite E0. split; [now left|exact Hp]. }
      assert (imp : df_schemas d = [] -> forall t ty, In t (df_types d) -> td_name t = conventional_name ty -> object_named (df_types d) (conventional_name ty)).
      { intros E0 t ty Ht Et. apply (O RootsAreObjects eq_refl ty). right. eauto. }
      assert (qry : df_schemas d = [] -> ~ unnamed (df_types d) (tx "Query")).
      { intros E0 U. destruct (O HasQueryRoot eq_refl) as (n & [(e0 & He0 & _)|(_ & -> & t & Ht & Et)]); [rewrite E0 in He0; destruct He0|]. now apply U in Ht. }
      destruct e; cbn [derror_true] in E.
      * destruct E as (-> & L). pose proof (filter_length_NoDup dd_name (df_ddefs d) n NDD). exact (PeanoNat.Nat.nle_succ_diag_l _ (PeanoNat.Nat.le_trans _ _ _ L H)).
      * destruct E as (-> & L). pose proof (filter_length_NoDup td_name (df_types d) n ND). exact (PeanoNat.Nat.nle_succ_diag_l _ (PeanoNat.Nat.le_trans _ _ _ L H)).
      * destruct E as (E0 & Ht & Et & Bad). assert (K : exists ty, td_name t = conventional_name ty) by (destruct Et as [E|[E|E]]; [exists OQuery|exists OMutation|exists OSubscription]; exact E).
        destruct K as (ty & K). destruct (imp E0 t ty Ht K) as (o & Ho & Eo). apply (Bad o). apply same; auto. cbn [td_name]. congruence.
      * destruct E as (e0 & ty & t & E0 & Hn & Ht & Et & Bad). destruct (roots _ E0 _ Hn) as (o & Ho & Eo). apply (Bad o). apply same; auto. cbn [td_name snd] in *. congruence.
      * destruct E as (E0 & U & _). now apply qry.
      * destruct E as (E0 & Dq). destruct (O HasQueryRoot eq_refl) as (n & [(e0 & He0 & Hn)|(E1 & _)]); [|congruence]. rewrite E0 in He0. destruct He0 as [<-|[]].
        apply (declares_root _ _ _ Dq) in Hn. discriminate.
      * destruct E as (-> & L). pose proof (O OneSchemaDefinition eq_refl). cbn [obeys] in *. lia.
      * destruct E as (e0 & E0 & -> & L). pose proof (O OneRootPerOperation eq_refl e0 ty). rewrite E0 in H. specialize (H (or_introl eq_refl)). lia.
      * destruct E as (e0 & E0 & Hp & U). destruct (roots _ E0 _ Hp) as (o & Ho & Eo). now apply U in Ho.
      * destruct E as (E0 & U & _). now apply qry.
      * destruct E as (Rf & U). destruct Rf as [t f Ht Hf|v Hv|t n Ht Hn|u n Hu Hn].
        -- destruct (O FieldsHaveOutputTypes eq_refl _ _ Ht Hf) as (u & Hu & Eu & _). now apply U in Hu.
        -- destruct (O InputsHaveInputTypes eq_refl _ Hv) as (u & Hu & Eu & _). now apply U in Hu.
        -- destruct (O ImplementsInterfaces eq_refl _ _ Ht Hn) as (u & Hu' & Eu). now apply U in Hu'.
        -- destruct (O MembersAreObjects eq_refl _ _ Hu Hn) as (o & Ho & Eo). now apply U in Ho.
      * destruct E as (t & f & u & Ht & Hf & <- & Hu & Eu & Bad). destruct (O FieldsHaveOutputTypes eq_refl _ _ Ht Hf) as (u' & Hu' & Eu' & Good). rewrite (same u u') in Bad; congruence.
      * destruct E as (v & u & Hv & <- & Hu & Eu & Bad). destruct (O InputsHaveInputTypes eq_refl _ Hv) as (u' & Hu' & Eu' & Good). rewrite (same u u') in Bad; congruence.
      * destruct E as (u & t & Hu & Hn & Ht & Et & Bad). destruct (O MembersAreObjects eq_refl _ _ Hu Hn) as (o & Ho & Eo). apply (Bad o). apply same; auto. cbn [td_name]. congruence.
      * destruct E as (u & t & Hu & Hn & Ht & Et & Bad). destruct (O ImplementsInterfaces eq_refl _ _ Hu Hn) as (o & Ho & Eo). apply (Bad o). apply same; auto. cbn [td_name]. congruence.
      * destruct E as (Hx & Bad). destruct (O DirectivesDefined eq_refl _ Hx) as (y & Hy & Ey). now apply Bad in Hy.
Qed.
(** In particular, valid documents are accepted. *)
Theorem c79_valid_accepted : forall d, valid_document d -> accepts d.
Proof. intros d V. apply c79_accepted_iff. intros r _. apply V. Qed.

(** ** From the text *)
(** the text is read and gives a schema in which no rule for definitions finds anything wrong *)
Definition accepts_text recover other_digit parse_f64 (s : text) : Prop :=
  exists S, read_schema_with all_builtins all_builtin_directives recover other_digit parse_f64 s = inl (inl S) /\ definition_errors S = [].
Theorem c79_texts : forall recover other_digit parse_f64 s,
  accepts_text recover other_digit parse_f64 s <->
  exists d, parse_schema_text all_builtins all_builtin_directives recover other_digit parse_f64 s = inl d /\ forall r, checked r = true -> obeys d r.
Proof.
  intros. unfold accepts_text, read_schema_with. split.
  - intros (S & R & E). destruct (parse_schema_text _ _ _ _ _ _) as [d|] eqn:P; [|discriminate]. exists d. split; [reflexivity|].
    apply c79_accepted_iff. destruct (resolve d) as [s'|] eqn:R'; [|discriminate]. injection R as ->. now exists S.
  - intros (d & P & O). apply c79_accepted_iff in O as (S & R & E). exists S. rewrite P, R. auto.
Qed.

(** ** Rules that are not checked: for each a text that is accepted and breaks it *)
Definition breaking (r : rule) : string :=
  match r with
  | RootsDiffer => "schema { query: Q mutation: Q } type Q { a: Int }"
  | SchemaDirectivesDefined => "schema @nope { query: Q } type Q { a: Int }"
  | UniqueFields => "type Query { a: Int a: String }"
  | UniqueArguments => "type Query { a(x: Int x: String): Int }"
  | UniqueMembers => "type Query { u: U } union U = Query | Query"
  | UniqueInterfaces => "type Query implements N & N { a: Int } interface N { a: Int }"
  | InterfacesClosed => "type Query implements M { a: Int } interface M implements N { a: Int } interface N { a: Int }"
  | InterfaceFields => "type Query implements N { a: Int } interface N { b(x: Int): Int }"
  | NamesNotReserved => "type Query { __a: Int }"
  | DirectivesNotCircular => "directive @d(x: Int @e) on ARGUMENT_DEFINITION directive @e(y: Int @d) on ARGUMENT_DEFINITION type Query { a: Int }"
  | DirectivesInPlace => "directive @d on ENUM type Query @d { a: Int }"
  | DirectivesNotRepeated => "directive @d on OBJECT type Query @d @d { a: Int }"
  | DirectiveArgumentsKnown => "directive @d on OBJECT type Query @d(x: 1) { a: Int }"
  | DirectiveArgumentsGiven => "directive @d(x: Int!) on OBJECT type Query @d { a: Int }"
  | DirectiveArgumentsConform => "directive @d(x: Int!) on OBJECT type Query @d(x: true) { a: Int }"
  | DefaultsConform => "type Query { a(x: Int! = true): Int }"
  | OneOfFieldsOptional => "type Query { a(x: I): Int } input I @oneOf { f: Int! }"
  | _ => ""
  end.
Definition read_document (s : string) : defdoc :=
  match parse_schema_text all_builtins all_builtin_directives (fun _ => 1) (fun _ => false) no_floats (tx s) with
  | inl d => d
  | inr _ => {| df_schemas := []; df_types := []; df_ddefs := [] |}
  end.
Definition accepted_b (s : string) : bool :=
  match run s with inl (inl x) => match definition_errors x with [] => true | _ => false end | _ => false end.
Lemma accepted_b_text s : accepted_b s = true -> accepts_text (fun _ => 1) (fun _ => false) no_floats (tx s).
Proof.
  unfold accepted_b, accepts_text, run. destruct (read_schema_with _ _ _ _ _ _) as [[x|]|]; try discriminate. destruct (definition_errors x) eqn:E; [|discriminate]. eauto.
Qed.
Lemma read_document_parses s : accepted_b s = true ->
  parse_schema_text all_builtins all_builtin_directives (fun _ => 1) (fun _ => false) no_floats (tx s) = inl (read_document s) /\ accepts (read_document s).
Proof.
  intros H. apply accepted_b_text, c79_texts in H as (d & P & O). unfold read_document. rewrite P. split; [reflexivity|]. now apply c79_accepted_iff.
Qed.
Ltac breaks := let H := fresh in intros H; vm_compute in H; discriminate H.
Lemma type_in s n t : find (fun u => teqb (td_name u) n) (df_types (read_document s)) = Some t -> In t (df_types (read_document s)).
Proof. intros H. now apply find_some in H. Qed.
Lemma ddef_in s n t : find (fun u => teqb (dd_name u) n) (df_ddefs (read_document s)) = Some t -> In t (df_ddefs (read_document s)).
Proof. intros H. now apply find_some in H. Qed.
Ltac in_now := vm_compute; repeat (first [left; reflexivity|right]).

Lemma not_an_int s : get_type (as_schema (read_document s)) (tx "Int") = Some (DBuiltin BInt) ->
  ~ conforms any_scalar false true (as_schema (read_document s)) (TBase (tx "Int") true) (VBool true).
Proof. generalize (tx "Int") as n0. intros n0 E H. inversion H as [| |n r b v G B| | | | |]; subst; try congruence. assert (b = BInt) by congruence. subst. destruct B as (z & B); discriminate. Qed.
Theorem c79_unchecked_refuted : forall r, checked r = false ->
  exists s d, accepts_text (fun _ => 1) (fun _ => false) no_floats s /\
    parse_schema_text all_builtins all_builtin_directives (fun _ => 1) (fun _ => false) no_floats s = inl d /\ ~ obeys d r.
Proof.
  intros r C. exists (tx (breaking r)), (read_document (breaking r)).
  assert (A : accepted_b (breaking r) = true) by (destruct r; try discriminate C; vm_compute; reflexivity).
  split; [now apply accepted_b_text|]. split; [now apply read_document_parses|]. clear A.
  destruct r; try discriminate C; clear C; cbn [obeys breaking]; try breaks.
  - intros H. enough (E : OQuery = OMutation) by discriminate E. apply (H _ _ (tx "Q")); left; eexists; (split; [in_now|in_now]).
  - intros H. edestruct (H) as (y & Hy & Ey); [in_now|in_now|]. vm_compute in Hy, Ey. repeat (destruct Hy as [<-|Hy]; [discriminate Ey|]). destruct Hy.
  - intros H. apply (H (tx "d")). eapply plus_step; [|apply plus_one].
    + instantiate (1 := tx "e"). do 3 eexists. split; [eapply (ddef_in _ (tx "d")); vm_compute; reflexivity|]. split; [reflexivity|]. split; [in_now|]. split; [in_now|reflexivity].
    + do 3 eexists. split; [eapply (ddef_in _ (tx "e")); vm_compute; reflexivity|]. split; [reflexivity|]. split; [in_now|]. split; [in_now|reflexivity].
  - intros H. eassert (K : conforms any_scalar false true (as_schema (read_document (breaking DirectiveArgumentsConform))) (iv_type _) _).
    { eapply (H LObject [{| dir_name := tx "d"; dir_args := [(tx "x", VBool true)] |}]) with (a := tx "x"); [in_now|now left|eapply (ddef_in _ (tx "d")); vm_compute; reflexivity|reflexivity|now left|reflexivity|now left]. }
    now apply not_an_int in K.
  - intros H. eassert (K : conforms any_scalar false true (as_schema (read_document (breaking DefaultsConform))) (iv_type _) _).
    { eapply H; [eapply vd_argument; [eapply (type_in _ (tx "Query")); vm_compute; reflexivity|right; now left|now left]|reflexivity]. }
    now apply not_an_int in K.
Qed.
Print Assumptions c79_accepted_iff. Print Assumptions c79_valid_accepted. Print Assumptions c79_texts. Print Assumptions c79_unchecked_refuted.

(** ** A valid document with definitions of every kind: every rule can be obeyed *)
Definition valid_text : string :=
  "schema @d(a: [1, null]) { query: Q mutation: M }
   type Q implements N & P { id: ID! a(x: I = {f: 2}, e: E = B): [U!]! @deprecated n: Q }
   type M { b(y: One, c: [Int] = 3): Q }
   interface N implements P { id: ID n: N } interface P { id: ID }
   input I { f: Int! g: [I!] = [] @deprecated(reason: ""old"") } input One @oneOf { s: String t: I }
   enum E { A B @deprecated } union U @d @d = Q | M scalar S @specifiedBy(url: ""u"")
   directive @d(a: [Int] = [1] @e) repeatable on SCHEMA | UNION directive @e on ARGUMENT_DEFINITION".
Definition values_of (d : defdoc) : list ivd :=
  flat_map (fun t => match t with DInput i => io_fields i | _ => [] end ++ flat_map fd_args (td_fields t)) (df_types d) ++ flat_map dd_args (df_ddefs d).
Lemma values_of_all d v : value_defined (df_types d) (df_ddefs d) v -> In v (values_of d).
Proof.
  unfold values_of. rewrite in_app_iff, !in_flat_map. intros [i w Hi Hw|t f w Ht Hf Hw|x w Hx Hw]; [left; exists (DInput i)|left; exists t|right; exists x]; rewrite ?in_app_iff; auto.
  split; [exact Ht|]. right. apply in_flat_map. eauto.
Qed.
Lemma conforms_weaken (P Q : name -> value -> Prop) str_enum one_of S : (forall n v, P n v -> Q n v) ->
  forall t v, conforms P str_enum one_of S t v -> conforms Q str_enum one_of S t v.
Proof.
  intros PQ. fix IH 3. intros t v H. destruct H.
  - now apply c_null.
  - apply c_var.
  - eapply c_builtin; eassumption.
  - eapply c_scalar; eauto.
  - eapply c_enum; eassumption.
  - eapply c_object; eauto.
  - apply c_list. intros x Hx. destruct (H x Hx) as (K & N). split; [apply IH; exact K|exact N].
  - apply c_promote; auto.
Qed.
Lemma conforms_by_coercion d t v : coerce_value no_hook false true (as_schema d) t v [] = [] -> conforms any_scalar false true (as_schema d) t v.
Proof. intros H. apply coerce_accepts_exactly_conforming in H. revert H. apply conforms_weaken. easy. Qed.
Definition document := read_document valid_text.
Definition default_ok (v : ivd) : bool :=
  match iv_default v with None => true | Some x => match coerce_value no_hook false true (as_schema document) (iv_type v) x [] with [] => true | _ => false end end.
Definition arguments_ok (u : dloc * list directive) : bool :=
  forallb (fun x => forallb (fun y => negb (teqb (dd_name y) (dir_name x)) || forallb (fun v => forallb (fun a => negb (teqb (fst a) (iv_name v)) ||
    match coerce_value no_hook false true (as_schema document) (iv_type v) (snd a) [] with [] => true | _ => false end) (dir_args x)) (dd_args y)) (df_ddefs document)) (snd u).
Definition schema_directives_ok : bool :=
  forallb (fun e => forallb (fun x => existsb (fun y => teqb (dd_name y) (dir_name x)) (df_ddefs document)) (es_dirs e)) (df_schemas document).
(** only @d uses a directive on its argument, and that is not @d *)
Definition directive_uses_ok : bool :=
  forallb (fun x => forallb (fun v => forallb (fun y => teqb (dd_name x) (tx "d") && negb (teqb (dir_name y) (tx "d"))) (iv_dirs v)) (dd_args x)) (df_ddefs document).
Example c79_valid_case : valid_document document.
Proof.
  assert (A : accepted_b valid_text = true) by (vm_compute; reflexivity).
  apply read_document_parses in A as (_ & A). rewrite c79_accepted_iff in A.
  intros r. destruct (checked r) eqn:C; [now apply A|]. destruct r; try discriminate C; cbn [obeys]; try (vm_compute; reflexivity).
  - let x := eval vm_compute in (df_schemas document) in assert (E : df_schemas document = x) by (vm_compute; reflexivity).
    intros ty ty' n [(e & He & Hn)|(Z & _)] [(e' & He' & Hn')|(Z' & _)]; try (rewrite E in Z; discriminate Z); try (rewrite E in Z'; discriminate Z').
    rewrite E in He, He'. clear E. destruct He as [<-|[]], He' as [<-|[]]. cbn in Hn, Hn'. intuition congruence.
  - assert (K : schema_directives_ok = true) by (vm_compute; reflexivity). intros e x He Hx. unfold schema_directives_ok in K. rewrite forallb_forall in K. specialize (K e He).
    rewrite forallb_forall in K. specialize (K x Hx). apply existsb_exists in K as (y & Hy & K). apply teqb_eq in K. exists y. split; [exact Hy|exact K].
  - assert (K : directive_uses_ok = true) by (vm_compute; reflexivity).
    assert (U : forall a b, uses_directive document a b -> a = tx "d" /\ b <> tx "d").
    { intros a b (x & v & y & Hx & <- & Hv & Hy & <-). unfold directive_uses_ok in K. rewrite forallb_forall in K. specialize (K x Hx).
      rewrite forallb_forall in K. specialize (K v Hv). rewrite forallb_forall in K. specialize (K y Hy). apply andb_prop in K as (K & K'). apply teqb_eq in K.
      split; [exact K|]. destruct (teqb_spec (dir_name y) (tx "d")); [discriminate K'|assumption]. }
    intros n H. assert (G : forall a b, plus (uses_directive document) a b -> a = tx "d" /\ b <> tx "d").
    { induction 1 as [a b H1|a b c H1 H2 IH]; [exact (U _ _ H1)|]. exact (conj (proj1 (U _ _ H1)) (proj2 IH)). }
    apply G in H as (-> & H). exact (H eq_refl).
  - assert (K : forallb arguments_ok (all_uses document) = true) by (vm_compute; reflexivity). rewrite forallb_forall in K.
    intros l xs x y a v w Hu Hx Hy Ey Hv <- Hw. specialize (K _ Hu). unfold arguments_ok in K. cbn [snd] in K. rewrite forallb_forall in K. specialize (K x Hx).
    rewrite forallb_forall in K. specialize (K y Hy). rewrite Ey, teqb_refl in K. cbn [negb orb] in K. rewrite forallb_forall in K. specialize (K v Hv).
    rewrite forallb_forall in K. specialize (K _ Hw). cbn [fst snd] in K. rewrite teqb_refl in K. cbn [negb orb] in K. apply conforms_by_coercion.
    destruct (coerce_value _ _ _ _ _ _ _); [reflexivity|discriminate K].
  - assert (K : forallb default_ok (values_of document) = true) by (vm_compute; reflexivity). rewrite forallb_forall in K.
    intros v x Hv Hx. apply values_of_all in Hv. specialize (K v Hv). unfold default_ok in K. rewrite Hx in K. apply conforms_by_coercion. destruct (coerce_value _ _ _ _ _ _ _); [reflexivity|discriminate K].
Qed.
