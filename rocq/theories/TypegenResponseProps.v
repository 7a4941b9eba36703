(** C55. *)
From Verif Require Import Base Ast Maps Graph Doc DocSpec DocRulesSpec FragmentsSpec DocProofs DocRules
                          FragmentCycles FragmentCyclesProofs Json Typegen TypegenDe TypegenSpec TypegenProofs TypegenBorrow
                          TypegenShapes TypegenProps TypegenCompiles TypegenCodeProps TypegenResponses TypegenCases Examples.
Local Open Scope string_scope.
Local Open Scope list_scope.

(** C55. Every response to an operation of an accepted document is read, with either codec, and shows the data. Missing
    from the full claim: operations whose selections are skipped or included by directives, spreads on a union of
    a fragment that does not apply to all members, and (miniserde) __typename inside a variant; see the refutations below.
    The code has to compile, and custom scalars have to accept what servers send. *)
(** First for a server whose schema [B] is a later version of the schema [A] from which the types are generated (C67). *)
Theorem served_responses_deserialize_partial : forall A B d borrow scalar_borrows cod scalar_de (scalar_out : name -> json -> Prop) pascal snake vals types,
  resolved A -> resolved B -> wf_types A -> wf_types B -> serves A B -> well_parsed d -> validated A d ->
  convert A borrow scalar_borrows d = Built types -> compiles pascal snake cod types ->
  (forall a b, In a (item_names d) -> In b (item_names d) -> pascal a = pascal b -> a = b) ->
  (forall n j, scalar_out n j -> scalar_de n j = true) ->
  nothing_skipped A d vals -> union_spreads_cover_at B A d -> (cod = Miniserde -> no_typename_in_variants A d) ->
  forall i o j, nth_error (doc_ops d) i = Some o -> operation_response B d vals scalar_out o j ->
  exists e v, nth_error types i = Some e /\ de cod A scalar_de pascal (items types) j (WBase e) = Some v /\ shows_but (new_value A B) v j.
Proof.
  intros S B d borrow sb cod sde sout pascal snake vals types HR HRB HT HTB SV HW HV HC HCo Hpas Hsc Hskip Hcov Hty i o j Ho (u & Hr & Hresp).
  destruct (convert_parts S borrow sb d types HC) as (frags & flags & ops & HP).
  pose proof (validated_ok S d HR HW HV) as Hok.
  assert (He : exists e, nth_error ops i = Some e /\ build_operation S borrow sb o = Built e).
  { pose proof (pt_ops _ _ _ _ _ _ _ _ HP) as HF. revert i Ho. clear HP. induction HF as [|x y l l' H HF IH]; intros i Ho; [destruct i; discriminate|].
    destruct i; cbn in *; [injection Ho as ->; eauto|eauto]. }
  destruct He as (e & He & HB).
  assert (Hn : nth_error types i = Some (update flags e)).
  { rewrite (pt_types _ _ _ _ _ _ _ _ HP), nth_error_map, nth_error_app1, He; auto. apply nth_error_Some. congruence. }
  destruct (operation_set S borrow sb d HR Hok i o e Ho HB) as (t & Hr' & Hset & Hc & Hs & HB').
  rewrite (sv_roots _ _ SV _ _ _ Hr' Hr) in Hresp.
  edestruct (all_shown S B d borrow sb HR HRB HW HV HT HTB SV types frags flags ops HP vals sout cod sde pascal snake HCo Hpas Hsc Hskip Hcov Hty j
               (TBase (td_name t) true) t (op_sel o)) as (v & Hd & Hsh); eauto.
  - cbn. eapply type_self; eauto. eapply set_at_In; eauto.
  - exists (update flags e). split; [eapply nth_error_In; eauto|constructor].
Qed.
Theorem responses_deserialize_partial : forall S d borrow scalar_borrows cod scalar_de (scalar_out : name -> json -> Prop) pascal snake vals types,
  resolved S -> wf_types S -> well_parsed d -> validated S d ->
  convert S borrow scalar_borrows d = Built types -> compiles pascal snake cod types ->
  (forall a b, In a (item_names d) -> In b (item_names d) -> pascal a = pascal b -> a = b) ->
  (forall n j, scalar_out n j -> scalar_de n j = true) ->
  nothing_skipped S d vals -> union_spreads_cover S d -> (cod = Miniserde -> no_typename_in_variants S d) ->
  forall i o j, nth_error (doc_ops d) i = Some o -> operation_response S d vals scalar_out o j ->
  exists e v, nth_error types i = Some e /\ de cod S scalar_de pascal (items types) j (WBase e) = Some v /\ shows v j.
Proof.
  intros S d borrow sb cod sde sout pascal snake vals types HR HT HW HV HC HCo Hpas Hsc Hskip Hcov Hty i o j Ho Hr.
  destruct (served_responses_deserialize_partial S S d borrow sb cod sde sout pascal snake vals types HR HR HT HT (serves_same S HR) HW HV HC HCo Hpas Hsc Hskip
    (cover_same S HR d Hcov) Hty i o j Ho Hr) as (e & v & He & Hd & Hs).
  exists e, v. split; [exact He|split; [exact Hd|]]. eapply shows_all; [|exact Hs]. apply no_new_value.
Qed.
Print Assumptions responses_deserialize_partial.

(** * A case that meets the hypotheses *)
Lemma tg_wf_types : wf_types tg_schema.
Proof.
  constructor.
  - intros i o fd Hi Ho Hn Hf Hne. cbn in Hi. repeat (destruct Hi as [E|Hi]; [try discriminate E; injection E as <-|]); [|destruct Hi].
    cbn in Hf. destruct Hf as [<-|[<-|[]]]; [|exfalso; apply Hne; reflexivity].
    cbn in Ho. repeat (destruct Ho as [E|Ho]; [try discriminate E; injection E as <-|]); [..|destruct Ho]; cbn in Hn; try contradiction; destruct Hn as [E|[]]; try discriminate E;
      (eexists; split; [vm_compute; reflexivity|apply rf_nonnull; reflexivity]).
  - intros i o n Hi Ho Hn Hf. cbn in Hi. repeat (destruct Hi as [E|Hi]; [try discriminate E; injection E as <-|]); [|destruct Hi]. destruct Hf.
  - intros t fd Ht Hf E. cbn in Ht.
    repeat (destruct Ht as [<-|Ht]; [cbn in Hf; repeat (destruct Hf as [<-|Hf]; [first [reflexivity|discriminate E]|]); destruct Hf|]). destruct Ht.
  - vm_compute. reflexivity.
  - intros u fd Hu Hf. cbn in Hu. repeat (destruct Hu as [E|Hu]; [try discriminate E; injection E as <-|]); [..|destruct Hu]; destruct Hf as [<-|[]]; reflexivity.
Qed.
Definition chk_skip (vals : name -> option bool) (t : tdef) (sels : list selection) : bool :=
  forallb (fun s => match s with SField _ _ _ ds _ | SSpread _ ds | SInline _ ds _ => negb (skipped vals ds) end) sels.
Lemma nothing_skipped_ok S d vals : forallb (fun ev => match ev with ESelSet sels t => chk_skip vals t sels | _ => true end) (visit S d) = true ->
  nothing_skipped S d vals.
Proof.
  intros H r t s (sels & Hset & Hin). pose proof (all_sets S d (chk_skip vals) H r _ _ Hset) as Hc. unfold chk_skip in Hc.
  rewrite forallb_forall in Hc. specialize (Hc s Hin). destruct s; apply negb_true_iff in Hc; exact Hc.
Qed.
Definition chk_cover (t : tdef) (sels : list selection) : bool :=
  negb (is_union t) || forallb (fun s => match s with SSpread _ _ => false | _ => true end) sels.
Lemma no_union_spreads S d : forallb (fun ev => match ev with ESelSet sels t => chk_cover t sels | _ => true end) (visit S d) = true ->
  union_spreads_cover S d.
Proof.
  intros H r u n ds f (sels & Hset & Hin). pose proof (all_sets S d chk_cover H r _ _ Hset) as Hc. cbn in Hc.
  rewrite forallb_forall in Hc. specialize (Hc _ Hin). discriminate.
Qed.
Definition any_scalar : name -> json -> Prop := fun _ _ => True.
Definition all_read : name -> json -> bool := fun _ _ => true.
Definition no_vals : name -> option bool := fun _ => None.
Lemma tg_reads cod i o j : nth_error (doc_ops tg_doc) i = Some o -> operation_response tg_schema tg_doc no_vals any_scalar o j ->
  exists e v, nth_error tg_types i = Some e /\ de cod tg_schema all_read same (items tg_types) j (WBase e) = Some v /\ shows v j.
Proof.
  apply (responses_deserialize_partial tg_schema tg_doc true tg_scalars cod all_read any_scalar same same no_vals tg_types);
    [apply tg_resolved|apply tg_wf_types|apply tg_parsed|apply tg_validated|apply tg_converts|apply ex_tg_compiles|auto|auto| | |intros _; apply tg_no_typename].
  - apply nothing_skipped_ok. vm_compute. reflexivity.
  - apply no_union_spreads. vm_compute. reflexivity.
Qed.
(** {"me": null, "node": {"id": "1"}, "find": [{"__typename": "User", "id": "1", "name": null},
     {"__typename": "Post", "title": "a", "author": {"id": "1", "name": "b", "role": "ADMIN", "born": 5, "posts": []}}]} *)
Definition tg_author : json :=
  JObj [(tx "id", JStr (tx "1")); (tx "name", JStr (tx "b")); (tx "role", JStr (tx "ADMIN")); (tx "born", JInt 5); (tx "posts", JList [])].
Definition tg_user : json := JObj [(tx "__typename", JStr (tx "User")); (tx "id", JStr (tx "1")); (tx "name", JNull)].
Definition tg_post : json := JObj [(tx "__typename", JStr (tx "Post")); (tx "title", JStr (tx "a")); (tx "author", tg_author)].
Definition tg_response : json :=
  JObj [(tx "me", JNull); (tx "node", JObj [(tx "id", JStr (tx "1"))]); (tx "find", JList [tg_user; tg_post])].
(** tactics for showing that something is a response *)
Ltac not_applies := let t := fresh in let H := fresh in let P := fresh in
  intros (t & H & P); vm_compute in H; injection H as <-; inversion P; discriminate.
Ltac does_apply := eexists; split; [vm_compute; reflexivity|
  first [exact (poss_object _ _)|eapply poss_union; cbn; tauto]].
Ltac collect := repeat first
  [ apply co_nil | eapply co_field; [reflexivity|]
  | eapply co_spread; [reflexivity|eexists [], _; split; [reflexivity|split; [reflexivity|cbn; tauto]]|does_apply| |]
  | eapply co_inline; [reflexivity|intros ? [= <-]; does_apply| |]
  | eapply co_inline_not; [reflexivity|not_applies|] ].
Ltac of_builtin := first [eexists; split; [reflexivity|lia]|eexists; reflexivity|left; eexists; reflexivity|right; eexists; reflexivity].
Ltac resp := match goal with
  | |- response _ _ _ _ _ _ JNull => apply re_null; reflexivity
  | |- response _ _ _ _ (TList _ _) _ (JList _) => apply re_list; let j := fresh in let H := fresh in intros j H; each_elem H
  | |- response _ _ _ _ _ _ (JObj _) => obj
  | |- response _ _ _ _ _ _ _ => first
      [ eapply re_builtin; [vm_compute; reflexivity|of_builtin]
      | eapply re_scalar; [vm_compute; reflexivity|discriminate|exact I]
      | match goal with |- response _ _ _ _ (TBase ?n ?r) ?sels _ => refine (re_enum _ _ _ _ n r _ {| ev_name := _; ev_desc := None; ev_dirs := [] |} sels _ _); [vm_compute; reflexivity|left; reflexivity] end ]
  end
with each_elem H := first [destruct H as [<-|H]; [resp|each_elem H]|contradiction]
with obj := first
  [ eapply re_object; [vm_compute; reflexivity|exact (poss_object _ _)|vm_compute; reflexivity|collect|vm_compute; reflexivity|fields]
  | match goal with |- response _ _ _ _ _ _ (JObj ((_, JStr ?t) :: _)) =>
      eapply (re_object _ _ _ _ _ _ _ _ t); [vm_compute; reflexivity|eapply poss_union; cbn; tauto|vm_compute; reflexivity|collect|vm_compute; reflexivity|fields] end ]
with fields := let k := fresh "k" in let j := fresh "j" in let H := fresh "H" in intros k j H; each_field H
with each_field H := first [destruct H as [[= <- <-]|H]; [one_field|each_field H]|contradiction]
with one_field := match goal with |- field_response _ _ _ _ ?o (under ?k ?ns) ?j =>
    let u := eval vm_compute in (under k ns) in change (under k ns) with u;
    first [ refine (fr_typename _ _ _ _ o _ _ _); reflexivity | eapply fr_field; [discriminate|vm_compute; reflexivity|cbn [flat_map nd_sub app fd_type]; resp] ] end.
Example ex_tg_response : operation_response tg_schema tg_doc no_vals any_scalar (hd (op_query None [] []) (doc_ops tg_doc)) tg_response.
Proof.
  unfold tg_response, tg_user, tg_post, tg_author. eexists. split; [vm_compute; reflexivity|].
  eapply re_object; [vm_compute; reflexivity|exact (poss_object _ _)|vm_compute; reflexivity|collect|vm_compute; reflexivity|].
  intros k j Hin. 
  destruct Hin as [[= <- <-]|[[= <- <-]|[[= <- <-]|[]]]].
  - one_field.
  - match goal with |- field_response _ _ _ _ _ (under ?k ?ns) _ => let u := eval vm_compute in (under k ns) in change (under k ns) with u end.
    eapply fr_field; [discriminate|vm_compute; reflexivity|].
    refine (re_object _ _ _ _ _ _ _ _ (tx "Post") _ _ _ _ _ _ _ _ _); [vm_compute; reflexivity| |vm_compute; reflexivity|cbn; collect|vm_compute; reflexivity|fields].
    match goal with |- possible _ _ _ => idtac end.
    refine (poss_interface tg_schema _ {| ob_name := tx "Post"; ob_desc := _; ob_ifaces := [tx "Node"]; ob_dirs := _; ob_fields := _ |} _ _); [do 9 right; left; reflexivity|left; reflexivity].
  - one_field.
Qed.
(** The theorem says that this is read; and so it is. *)
Example ex_tg_read : forall cod,
  match nth_error tg_types 0 with
  | Some e => de cod tg_schema all_read same (items tg_types) tg_response (WBase e)
  | None => None
  end =
  Some (RStruct [(tx "me", RNone); (tx "node", RSome (RStruct [(tx "id", RStr (tx "1"))]));
    (tx "find", RVec [RVariant (tx "User") [(tx "id", RStr (tx "1")); (tx "name", RNone)];
       RVariant (tx "Post") [(tx "title", RStr (tx "a"));
         (tx "author", RStruct [(tx "id", RStr (tx "1")); (tx "name", RSome (RStr (tx "b"))); (tx "role", RSome (REnumValue (tx "ADMIN")));
                                (tx "born", RSome (RCustom (tx "Date") (JInt 5))); (tx "posts", RSome (RVec []))])]])]).
Proof. intros []; vm_compute; reflexivity. Qed.
(** A wrong value is not read: a missing or a null id. *)
Example ex_tg_not_read : forall cod e, nth_error tg_types 0 = Some e ->
  de cod tg_schema all_read same (items tg_types) (JObj [(tx "me", JNull); (tx "node", JObj [(tx "id", JNull)]); (tx "find", JList [])]) (WBase e) = None /\
  de cod tg_schema all_read same (items tg_types) (JObj [(tx "me", JNull); (tx "node", JObj []); (tx "find", JList [])]) (WBase e) = None.
Proof. intros [] e He; vm_compute in He; injection He as <-; vm_compute; auto. Qed.

(** * C55 does not hold in full *)
Definition responses_read (S : schema) (d : document) (cod : codec) (vals : name -> option bool) (types : list etype) : Prop :=
  forall i o j, nth_error (doc_ops d) i = Some o -> operation_response S d vals any_scalar o j ->
  exists e v, nth_error types i = Some e /\ de cod S all_read same (items types) j (WBase e) = Some v.
(** { find { ...U } } fragment U on User { id }: an object of another type has no fields at all, but the type of the field
    find is that of the fragment *)
Definition tg_cover_doc : document :=
  {| doc_ops := [op_query (Some (tx "Q")) [] [fld "find" [] [spr "U"]]]; doc_frags := [mk_frag "U" "User" [fld "id" [] []]] |}.
Theorem responses_union_refuted : exists S d types,
  accepted S d /\ wf_types S /\ convert S false tg_scalars d = Built types /\ (forall cod, compiles same same cod types) /\
  forall cod, ~ responses_read S d cod no_vals types.
Proof.
  exists tg_schema, tg_cover_doc, (tg_gen tg_cover_doc).
  assert (HA : accepted tg_schema tg_cover_doc) by acc. pose proof HA as (HA1 & HA2 & HA3 & _).
  assert (HC : convert tg_schema false tg_scalars tg_cover_doc = Built (tg_gen tg_cover_doc)) by (vm_compute; reflexivity).
  split; [assumption|]. split; [apply tg_wf_types|]. split; [assumption|]. split.
  - intros cod. eapply generated_code_compiles_partial; eauto.
    + apply names_ok; vm_compute; reflexivity.
    + intros f n ds [<-|[]]; discriminate.
    + intros _. apply no_typename_ok. vm_compute. reflexivity.
    + intros _. apply names_mini_ok; vm_compute; reflexivity.
  - intros cod H. destruct (H 0%nat (op_query (Some (tx "Q")) [] [fld "find" [] [spr "U"]]) (JObj [(tx "find", JList [JObj []])])) as (e & v & He & Hd).
    + reflexivity.
    + eexists. split; [vm_compute; reflexivity|].
      eapply re_object; [vm_compute; reflexivity|exact (poss_object _ _)|vm_compute; reflexivity|collect|vm_compute; reflexivity|].
      intros k j Hin. destruct Hin as [[= <- <-]|[]].
      match goal with |- field_response _ _ _ _ _ (under ?k ?ns) _ => let u := eval vm_compute in (under k ns) in change (under k ns) with u end.
      eapply fr_field; [discriminate|vm_compute; reflexivity|]. apply re_list. intros j [<-|[]].
      refine (re_object _ _ _ _ _ _ _ _ (tx "Post") _ [] [] _ _ _ _ _ _);
        [vm_compute; reflexivity|eapply poss_union; cbn; tauto|vm_compute; reflexivity| |vm_compute; reflexivity|intros ? ? []].
      eapply (co_spread_not _ _ _ _ _ _ (mk_frag "U" "User" [fld "id" [] []])); [reflexivity| |not_applies|apply co_nil].
      exists [], []. cbn. auto.
    + vm_compute in He. injection He as <-. destruct cod; vm_compute in Hd; discriminate.
Qed.
Print Assumptions responses_union_refuted.
(** { me { id @skip(if: true) } }: the field is not in the response, but it is in the type *)
Definition tg_skip_doc : document :=
  {| doc_ops := [op_query (Some (tx "Q")) [] [fld "me" [] [SField None (tx "id") [] [{| dir_name := tx "skip"; dir_args := [(tx "if", VBool true)] |}] []; fld "name" [] []]]];
     doc_frags := [] |}.
Theorem responses_skipped_refuted : exists S d types,
  accepted S d /\ directive_defined_errors S (visit S d) = [] /\ directive_location_errors S (visit S d) = [] /\
  directive_uniqueness_errors S (visit S d) = [] /\
  wf_types S /\ convert S false tg_scalars d = Built types /\ (forall cod, compiles same same cod types) /\
  forall cod, ~ responses_read S d cod no_vals types.
Proof.
  exists tg_schema, tg_skip_doc, (tg_gen tg_skip_doc).
  assert (HA : accepted tg_schema tg_skip_doc) by acc. pose proof HA as (HA1 & HA2 & HA3 & _).
  assert (HC : convert tg_schema false tg_scalars tg_skip_doc = Built (tg_gen tg_skip_doc)) by (vm_compute; reflexivity).
  split; [assumption|]. do 3 (split; [vm_compute; reflexivity|]). split; [apply tg_wf_types|]. split; [assumption|]. split.
  - intros cod. eapply generated_code_compiles_partial; eauto.
    + apply names_ok; vm_compute; reflexivity.
    + intros f n ds [].
    + intros _. apply no_typename_ok. vm_compute. reflexivity.
    + intros _. apply names_mini_ok; vm_compute; reflexivity.
  - intros cod H. destruct (H 0%nat (hd (op_query None [] []) (doc_ops tg_skip_doc)) (JObj [(tx "me", JObj [(tx "name", JNull)])])) as (e & v & He & Hd).
    + reflexivity.
    + eexists. split; [vm_compute; reflexivity|].
      eapply re_object; [vm_compute; reflexivity|exact (poss_object _ _)|vm_compute; reflexivity|collect|vm_compute; reflexivity|].
      intros k j Hin. destruct Hin as [[= <- <-]|[]].
      match goal with |- field_response _ _ _ _ _ (under ?k ?ns) _ => let u := eval vm_compute in (under k ns) in change (under k ns) with u end.
      eapply fr_field; [discriminate|vm_compute; reflexivity|].
      eapply re_object; [vm_compute; reflexivity|exact (poss_object _ _)|vm_compute; reflexivity|
        cbn; eapply co_skipped; [vm_compute; reflexivity|]; collect|vm_compute; reflexivity|fields].
    + vm_compute in He. injection He as <-. destruct cod; vm_compute in Hd; discriminate.
Qed.
Print Assumptions responses_skipped_refuted.
(** { find { __typename ... on User { __typename id } } }, with miniserde (serde does not compile): the first __typename
    is not handed to the variant *)
Definition tg_twice_doc : document :=
  {| doc_ops := [op_query (Some (tx "Q")) [] [fld "find" [] [fld "__typename" [] []; on "User" [fld "__typename" [] []; fld "id" [] []]]]]; doc_frags := [] |}.
Theorem responses_typename_refuted : exists S d types,
  accepted S d /\ wf_types S /\ convert S false tg_scalars d = Built types /\ compiles same same Miniserde types /\
  ~ responses_read S d Miniserde no_vals types.
Proof.
  exists tg_schema, tg_twice_doc, (tg_gen tg_twice_doc).
  assert (HA : accepted tg_schema tg_twice_doc) by acc. pose proof HA as (HA1 & HA2 & HA3 & _).
  assert (HC : convert tg_schema false tg_scalars tg_twice_doc = Built (tg_gen tg_twice_doc)) by (vm_compute; reflexivity).
  split; [assumption|]. split; [apply tg_wf_types|]. split; [assumption|]. split.
  - eapply generated_code_compiles_partial; eauto; [|intros f n ds []|discriminate|intros _; apply names_mini_ok; vm_compute; reflexivity].
    apply names_ok; vm_compute; reflexivity.
  - intros H. destruct (H 0%nat (hd (op_query None [] []) (doc_ops tg_twice_doc)) (JObj [(tx "find", JList [JObj [(tx "__typename", JStr (tx "User")); (tx "id", JStr (tx "1"))]])])) as (e & v & He & Hd).
    + reflexivity.
    + eexists. split; [vm_compute; reflexivity|].
      eapply re_object; [vm_compute; reflexivity|exact (poss_object _ _)|vm_compute; reflexivity|collect|vm_compute; reflexivity|]. fields.
    + vm_compute in He. injection He as <-. vm_compute in Hd; discriminate.
Qed.
Print Assumptions responses_typename_refuted.
