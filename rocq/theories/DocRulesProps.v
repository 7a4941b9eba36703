(** Property theorems on the validation rules that look at one place at a time
    (C22, C27, C28, C29, C30, C31, C32, C33, C50, C51). [visit S d] is the run of the validator over the document;
    each [..._errors] is what the rule reports. *)
From Verif Require Import Base Ast Graph Doc DocSpec CoercionTypes Coercion CoercionSpec DocRules FragmentsSpec DocRulesSpec
  DocProofs FragmentCyclesProofs DocRulesProofs DocTypingProofs Examples.
Local Open Scope string_scope.
Local Open Scope list_scope.

(** * C22 *)
(** A spread is reported exactly when it stands on a type that shares no object type with the fragment's type. *)
Theorem impossible_spreads_reported_exactly : forall (S : schema) (d : document) (n : name) (t : tdef),
  In (SpreadImpossible n t) (spread_possible_errors S d (visit S d)) <->
  exists r ds f ft, sel_at S d r t (SSpread n ds) /\ defines d n f /\ get_type S (fr_cond f) = Some ft /\
    td_composite t = true /\ td_composite ft = true /\ ~ overlap S t ft.
Proof.
  intros S d n t. rewrite spread_possible_iff. split.
  - intros (r & t' & ft & H1 & H2 & H3 & [(n' & ds & f & [= <- <-] & H4 & H5 & H6)|(c & ds & sub & E & _)]); [|discriminate].
    exists r, ds, f, ft. auto 10.
  - intros (r & ds & f & ft & H1 & H2 & H3 & H4 & H5 & H6). exists r, t, ft. repeat (split; auto). left. eauto 10.
Qed.
Print Assumptions impossible_spreads_reported_exactly.
Theorem impossible_inline_fragments_reported_exactly : forall (S : schema) (d : document) (c : name) (t : tdef),
  In (InlineImpossible c t) (spread_possible_errors S d (visit S d)) <->
  exists r ds sub ft, sel_at S d r t (SInline (Some c) ds sub) /\ get_type S c = Some ft /\
    td_composite t = true /\ td_composite ft = true /\ ~ overlap S t ft.
Proof.
  intros S d c t. rewrite spread_possible_iff. split.
  - intros (r & t' & ft & H1 & H2 & H3 & [(n' & ds & f & E & _)|(c' & ds & sub & [= <- <-] & H4 & H5)]); [discriminate|].
    exists r, ds, sub, ft. auto 10.
  - intros (r & ds & sub & ft & H1 & H2 & H3 & H4 & H5). exists r, t, ft. repeat (split; auto). right. eauto 10.
Qed.
Print Assumptions impossible_inline_fragments_reported_exactly.
(** { fish { ...F } dog { ... on Cat { meows } ... on Pet { name } } } fragment F on CatOrDog { __typename } *)
Definition ex_doc_spreads : document :=
  {| doc_ops := [op_query None [] [fld "fish" [] [spr "F"];
                                   fld "dog" [] [SInline (Some (tx "Cat")) [] [fld "meows" [] []]; SInline (Some (tx "Pet")) [] [fld "name" [] []]]]];
     doc_frags := [mk_frag "F" "CatOrDog" [fld "__typename" [] []]] |}.
Example impossible_spreads_ex :
  map (fun e => match e with SpreadImpossible n t => (n, td_name t) | InlineImpossible n t => (n, td_name t) end)
      (spread_possible_errors ex_schema ex_doc_spreads (visit ex_schema ex_doc_spreads))
  = [(tx "F", tx "Fish"); (tx "Cat", tx "Dog")].
Proof. vm_compute. reflexivity. Qed.

(** * C27 *)
(** Every report names exactly the missing required arguments of one field or directive. *)
Theorem required_arguments_reported_soundly : forall (S : schema) (d : document) (o : owner) (missing : list ivd),
  In (o, missing) (required_argument_errors S (visit S d)) ->
  missing <> [] /\
  exists args defs, args_at S d o args defs /\
    forall i, In i missing <->
      In i defs /\ tref_required (iv_type i) = true /\ iv_default i = None /\ ~ In (iv_name i) (map fst args).
Proof. intros S d o ms H. apply required_iff in H. exact H. Qed.
Print Assumptions required_arguments_reported_soundly.
(** If the rules report nothing, every required argument of every field and directive is given, and given once, with a
    value of its type other than null. *)
Theorem required_arguments_are_given :
  forall (S : schema) (d : document) (hook : name -> value -> option text) (str_enum one_of : bool),
  required_argument_errors S (visit S d) = [] ->
  argument_uniqueness_errors (visit S d) = [] ->
  value_errors S hook str_enum one_of (visit S d) = [] ->
  forall o args defs i, args_at S d o args defs -> In i defs -> get_ivd defs (iv_name i) = Some i ->
    tref_required (iv_type i) = true -> iv_default i = None ->
    exists v, filter (fun a => teqb (fst a) (iv_name i)) args = [(iv_name i, v)] /\ v <> VNull /\
              conforms (fun n x => hook n x = None) str_enum one_of S (iv_type i) v.
Proof.
  intros S d hook se oo E1 E2 E3 o args defs i Ha Hi Hg Hr Hdf.
  assert (Hin : In (iv_name i) (map fst args)).
  { destruct (tmem (iv_name i) (map fst args)) eqn:E; [apply tmem_In; auto|]. exfalso.
    assert (Hn : ~ In (iv_name i) (map fst args)) by (intros H; apply tmem_In in H; congruence).
    destruct (required_complete S d o args defs i Ha Hi (conj Hr (conj Hdf Hn))) as (ms & Hm & _). rewrite E1 in Hm. destruct Hm. }
  assert (Hlen : length (with_key fst (iv_name i) args) < 2).
  { destruct (le_lt_dec 2 (length (with_key fst (iv_name i) args))) as [H|H]; auto. exfalso.
    assert (Hx : In (iv_name i, with_key fst (iv_name i) args) (argument_uniqueness_errors (visit S d))).
    { apply repeated_arguments_iff. exists args. split; auto. inversion Ha; subst.
      - left. do 7 eexists. eauto.
      - right. eexists x, loc. split; auto. econstructor; eauto.
      - right. eexists x, LVariableDefinition. split; auto. econstructor 2; eauto. }
    rewrite E2 in Hx. destruct Hx. }
  assert (Hne : with_key fst (iv_name i) args <> []).
  { intros E. apply in_map_iff in Hin as (a & Hn & Hin). assert (Hx : In a (with_key fst (iv_name i) args)).
    { apply filter_In. split; auto. apply teqb_eq; auto. } rewrite E in Hx. destruct Hx. }
  unfold with_key in *. destruct (filter (fun a => teqb (fst a) (iv_name i)) args) as [|[k v] [|? ?]] eqn:E; [contradiction| |cbn in Hlen; lia].
  assert (Hx : In (k, v) args /\ teqb k (iv_name i) = true) by (apply (filter_In (fun a => teqb (fst a) (iv_name i))); rewrite E; left; auto).
  destruct Hx as [Hk Ek]. apply teqb_eq in Ek. subst k. exists v.
  assert (Hc : conforms (fun n x => hook n x = None) se oo S (iv_type i) v).
  { apply values_iff in E3 as (V1 & V2 & _). inversion Ha; subst.
    - apply (V1 r (iv_name i, v) i). eapply arg_field; eauto.
    - apply (V1 r (iv_name i, v) i). eapply arg_directive; eauto.
    - apply (V2 (iv_name i, v) i). do 3 eexists. eauto 8. }
  split; auto. split; auto. intros ->. inversion Hc; subst; try congruence;
    repeat match goal with K : builtin_accepts ?b VNull |- _ => destruct b; cbn in K; decompose [or ex] K; discriminate
                | K : enum_accepts _ _ VNull |- _ => destruct K as (? & _ & [K|[_ K]]); discriminate end.
Qed.
Print Assumptions required_arguments_are_given.
Example required_ex_ok :
  required_argument_errors ex_schema (visit ex_schema ex_doc) = [] /\
  argument_uniqueness_errors (visit ex_schema ex_doc) = [] /\
  value_errors ex_schema (fun _ _ => None) false false (visit ex_schema ex_doc) = [].
Proof. vm_compute. auto. Qed.
(** { dog(opts: {a: 1}) { name } name @skip } *)
Definition ex_doc_missing : document :=
  {| doc_ops := [op_query None [] [fld "dog" [(tx "opts", VObj [(tx "a", VInt 1)])] [fld "name" [] []];
                                   SField None (tx "name") [] [{| dir_name := tx "skip"; dir_args := [] |}] []]];
     doc_frags := [] |}.
Example required_ex_bad :
  map (fun e => map iv_name (snd e)) (required_argument_errors ex_schema (visit ex_schema ex_doc_missing)) = [[tx "id"]; [tx "if"]].
Proof. vm_compute. reflexivity. Qed.

(** * C28 *)
Theorem unknown_arguments_reported_exactly : forall (S : schema) (d : document) (o : owner) (a : argument),
  In (o, a) (argument_name_errors S (visit S d)) <->
  exists args defs, args_at S d o args defs /\ In a args /\ forall i, In i defs -> iv_name i <> fst a.
Proof. apply unknown_arguments_iff. Qed.
Print Assumptions unknown_arguments_reported_exactly.
Theorem repeated_arguments_reported_exactly : forall (S : schema) (d : document) (n : name) (xs : list argument),
  In (n, xs) (argument_uniqueness_errors (visit S d)) <->
  exists args, ((exists r t al f ds sub fd, sel_at S d r t (SField al f args ds sub) /\ has_field t f fd) \/
                (exists x loc, directive_at S d x loc /\ args = dir_args x)) /\
               xs = filter (fun a => teqb (fst a) n) args /\ 2 <= length xs.
Proof. apply repeated_arguments_iff. Qed.
Print Assumptions repeated_arguments_reported_exactly.
(** { pets(last: 1, first: 2, first: 3) { name } } *)
Definition ex_doc_args : document :=
  {| doc_ops := [op_query None [] [fld "pets" [(tx "last", VInt 1); (tx "first", VInt 2); (tx "first", VInt 3)] [fld "name" [] []]]];
     doc_frags := [] |}.
Example arguments_ex :
  map snd (argument_name_errors ex_schema (visit ex_schema ex_doc_args)) = [(tx "last", VInt 1)] /\
  argument_uniqueness_errors (visit ex_schema ex_doc_args) = [(tx "first", [(tx "first", VInt 2); (tx "first", VInt 3)])].
Proof. vm_compute. auto. Qed.

(** * C29 *)
(** The five rules on selections together accept exactly the documents in which every selection makes sense on its type. *)
Theorem selections_match_schema : forall (S : schema) (d : document),
  wf_schema S ->
  (forall ty t, root_type S ty t -> td_composite t = true) ->
  (forall o, In o (doc_ops d) -> op_explicit o = false -> op_type o = OQuery) ->
  (field_selection_errors (visit S d) = [] /\ leaf_selection_errors S (visit S d) = [] /\
   fragment_type_errors S (visit S d) = [] /\ fragment_composite_errors S (visit S d) = [] /\
   operation_type_errors S (visit S d) = []
   <-> document_ok S d).
Proof. intros S d H1 H2 H3. exact (no_selection_errors_iff S d H1 H2 H3). Qed.
Print Assumptions selections_match_schema.
(** ... and each reports exactly the offending places. *)
Theorem unknown_fields_reported_exactly : forall (S : schema) (d : document) (n : name) (t : tdef),
  In (n, t) (field_selection_errors (visit S d)) <->
  td_composite t = true /\ (exists r al args ds sub, sel_at S d r t (SField al n args ds sub)) /\
  forall fd, In fd (td_fields t) -> fd_name fd <> n.
Proof. apply field_selection_iff. Qed.
Print Assumptions unknown_fields_reported_exactly.
Theorem leaf_selections_reported_exactly : forall (S : schema) (d : document) (e : leaf_error),
  In e (leaf_selection_errors S (visit S d)) <->
  exists r t al n args ds sub fd, sel_at S d r t (SField al n args ds sub) /\ has_field t n fd /\
    ((e = LeafNotEmpty n fd /\ sub <> [] /\ exists td, get_type S (tref_base (fd_type fd)) = Some td /\ is_leaf td) \/
     (e = NonLeafEmpty n fd /\ sub = [] /\ ~ exists td, get_type S (tref_base (fd_type fd)) = Some td /\ is_leaf td)).
Proof.
  intros. rewrite leaf_selection_iff. unfold leaf_tref.
  split; intros (r & t & al & n & args & ds & sub & fd & H1 & H2 & H3); exists r, t, al, n, args, ds, sub, fd; intuition.
Qed.
Print Assumptions leaf_selections_reported_exactly.
Theorem unknown_fragment_types_reported_exactly : forall (S : schema) (d : document) (c : name),
  In c (fragment_type_errors S (visit S d)) <->
  ((exists f, In f (doc_frags d) /\ fr_cond f = c) \/ (exists r t ds sub, sel_at S d r t (SInline (Some c) ds sub))) /\
  get_type S c = None.
Proof. apply fragment_type_iff. Qed.
Print Assumptions unknown_fragment_types_reported_exactly.
Theorem fragments_on_non_composite_types_reported_exactly : forall (S : schema) (d : document) (c : name),
  In c (fragment_composite_errors S (visit S d)) <->
  ((exists f, In f (doc_frags d) /\ fr_cond f = c) \/ (exists r t ds sub, sel_at S d r t (SInline (Some c) ds sub))) /\
  exists t, get_type S c = Some t /\ td_composite t = false.
Proof. apply fragment_composite_iff. Qed.
Print Assumptions fragments_on_non_composite_types_reported_exactly.
(** In an accepted document the places that the rules look at are all the places there are. *)
Theorem accepted_document_fully_visited : forall (S : schema) (d : document),
  document_ok S d -> forall r s, occurs_in d s r <-> exists t, sel_at S d r t s.
Proof. apply occurs_sel_at. Qed.
Print Assumptions accepted_document_fully_visited.
Lemma ex_schema_wf : wf_schema ex_schema.
Proof.
  constructor.
  - eexists. vm_compute. reflexivity.
  - cbn. discriminate.
  - cbn. intros n [= <-]. eexists. vm_compute. reflexivity.
  - intros t fd Ht Hf. unfold output_resolves. cbn in Ht.
    repeat (destruct Ht as [<-|Ht]; [cbn in Hf; repeat (destruct Hf as [<-|Hf]; [eexists; split; vm_compute; reflexivity|]); destruct Hf|]). destruct Ht.
Qed.
Lemma ex_roots : forall ty t, root_type ex_schema ty t -> td_composite t = true.
Proof. intros [] t; cbn; [intros [= <-]; reflexivity|intros (n & [=] & _)|intros (n & [= <-] & H); injection H as <-; reflexivity]. Qed.
Example selections_ex_ok : document_ok ex_schema ex_doc.
Proof.
  apply selections_match_schema.
  - apply ex_schema_wf.
  - apply ex_roots.
  - cbn. intros o [<-|[]]; discriminate.
  - vm_compute. auto 10.
Qed.
Print Assumptions selections_ex_ok.
(** { nope name { x } pet } *)
Example selections_ex_bad :
  let d := {| doc_ops := [op_query None [] [fld "nope" [] []; fld "name" [] [fld "x" [] []]; fld "pet" [] []]]; doc_frags := [] |} in
  map fst (field_selection_errors (visit ex_schema d)) = [tx "nope"] /\ length (leaf_selection_errors ex_schema (visit ex_schema d)) = 2.
Proof. vm_compute. auto. Qed.

(** * C30 *)
Theorem anonymous_operation_reported_exactly : forall (S : schema) (d : document) (ops : list operation),
  lone_anonymous_errors d (visit S d) = Some ops <->
  ops = filter (fun o => match op_name o with None => true | Some _ => false end) (doc_ops d) /\ ops <> [] /\ length (doc_ops d) <> 1.
Proof. apply lone_anonymous_iff. Qed.
Print Assumptions anonymous_operation_reported_exactly.
Theorem repeated_operation_names_reported_exactly : forall (S : schema) (d : document) (n : name) (xs : list (name * operation)),
  (forall o, In o (doc_ops d) -> op_explicit o = false -> op_name o = None) ->
  (In (n, xs) (operation_name_errors (visit S d)) <->
   xs = map (fun o => (n, o)) (filter (fun o => match op_name o with Some m => teqb m n | None => false end) (doc_ops d)) /\
   2 <= length xs).
Proof.
  intros S d n xs H. rewrite operation_names_iff. apply and_iff_compat_r.
  match goal with |- xs = map _ ?a <-> xs = map _ ?b => replace a with b; [tauto|] end.
  apply filter_ext_in. intros o Ho. unfold explicit_named. destruct (op_explicit o) eqn:E; auto. rewrite H; auto.
Qed.
Print Assumptions repeated_operation_names_reported_exactly.
(** The operations of an accepted document can be told apart by name. *)
Theorem accepted_operations_distinct : forall (S : schema) (d : document),
  (forall o, In o (doc_ops d) -> op_explicit o = false -> op_name o = None) ->
  lone_anonymous_errors d (visit S d) = None -> operation_name_errors (visit S d) = [] ->
  NoDup (map op_name (doc_ops d)) /\ (1 < length (doc_ops d) -> forall o, In o (doc_ops d) -> op_name o <> None).
Proof.
  intros S d H H1 H2.
  assert (Hn : 1 < length (doc_ops d) -> forall o, In o (doc_ops d) -> op_name o <> None).
  { intros Hl o Ho E. destruct (filter (fun o => match op_name o with None => true | Some _ => false end) (doc_ops d)) as [|x l] eqn:F.
    - assert (Hx : In o []) by (rewrite <- F; apply filter_In; rewrite E; auto). destruct Hx.
    - assert (Hx : lone_anonymous_errors d (visit S d) = Some (x :: l)); [|congruence].
      apply lone_anonymous_iff. split; auto. split; [discriminate|lia]. }
  split; auto. destruct (le_lt_dec (length (doc_ops d)) 1) as [Hl|Hl].
  { destruct (doc_ops d) as [|o [|? ?]]; cbn in *; [constructor|repeat constructor; auto|lia]. }
  specialize (Hn Hl).
  assert (Hx : forall n, length (filter (fun o => match op_name o with Some m => teqb m n | None => false end) (doc_ops d)) < 2).
  { intros n. destruct (le_lt_dec 2 (length (filter (fun o => match op_name o with Some m => teqb m n | None => false end) (doc_ops d)))) as [Hx|Hx]; auto.
    exfalso. rewrite <- (map_length (fun o => (n, o))) in Hx.
    assert (Hy := proj2 (repeated_operation_names_reported_exactly S d n _ H) (conj eq_refl Hx)). rewrite H2 in Hy. destruct Hy. }
  clear -Hn Hx. induction (doc_ops d) as [|o l IH]; cbn; [constructor|]. constructor.
  - intros Hin. destruct (op_name o) as [n|] eqn:E; [|eapply Hn; [left; eauto|auto]].
    apply in_map_iff in Hin as (o' & E' & Hin). specialize (Hx n). cbn in Hx. rewrite E, teqb_refl in Hx. cbn in Hx.
    destruct (filter (fun o => match op_name o with Some m => teqb m n | None => false end) l) as [|y ys] eqn:F.
    + assert (Hy : In o' []) by (rewrite <- F; apply filter_In; rewrite E', teqb_refl; auto). destruct Hy.
    + cbn in Hx. lia.
  - apply IH; [intros; apply Hn; right; auto|]. intros n. specialize (Hx n). cbn in Hx.
    destruct (match op_name o with Some m => teqb m n | None => false end); cbn in Hx; lia.
Qed.
Print Assumptions accepted_operations_distinct.
Example operations_ex :
  let d := {| doc_ops := [op_query None [] [fld "name" [] []]; op_query (Some (tx "A")) [] [fld "name" [] []];
                          op_query (Some (tx "A")) [] [fld "pet" [] [fld "name" [] []]]]; doc_frags := [] |} in
  option_map (@length operation) (lone_anonymous_errors d (visit ex_schema d)) = Some 1 /\
  map (fun g => (fst g, length (snd g))) (operation_name_errors (visit ex_schema d)) = [(tx "A", 2)] /\
  lone_anonymous_errors ex_doc (visit ex_schema ex_doc) = None /\ operation_name_errors (visit ex_schema ex_doc) = [].
Proof. vm_compute. auto. Qed.

(** * C31 *)
Theorem repeated_fragment_names_reported_exactly : forall (S : schema) (d : document) (n : name) (fs : list fragment),
  In (n, fs) (fragment_name_errors (visit S d)) <->
  fs = filter (fun f => teqb (fr_name f) n) (doc_frags d) /\ 2 <= length fs.
Proof. apply fragment_names_iff. Qed.
Print Assumptions repeated_fragment_names_reported_exactly.
Theorem undefined_spreads_reported_exactly : forall (S : schema) (d : document) (n : name),
  In n (spread_target_errors d (visit S d)) <->
  (exists r t ds, sel_at S d r t (SSpread n ds)) /\ forall f, In f (doc_frags d) -> fr_name f <> n.
Proof. apply spread_target_iff. Qed.
Print Assumptions undefined_spreads_reported_exactly.
Theorem unused_fragments_reported_exactly : forall (S : schema) (d : document) (f : fragment),
  In f (unused_fragment_errors d (visit S d)) <->
  defines d (fr_name f) f /\ forall r t ds, ~ sel_at S d r t (SSpread (fr_name f) ds).
Proof. apply unused_fragment_iff. Qed.
Print Assumptions unused_fragments_reported_exactly.
(** Purely in terms of the text, for documents whose selections make sense. *)
Theorem fragment_rules_on_text : forall (S : schema) (d : document),
  document_ok S d ->
  (fragment_name_errors (visit S d) = [] /\ spread_target_errors d (visit S d) = [] /\ unused_fragment_errors d (visit S d) = []
   <->
   NoDup (map fr_name (doc_frags d)) /\
   (forall n ds r, occurs_in d (SSpread n ds) r -> In n (map fr_name (doc_frags d))) /\
   (forall f, In f (doc_frags d) -> exists ds r, occurs_in d (SSpread (fr_name f) ds) r)).
Proof.
  intros S d Hok. assert (Hocc := occurs_sel_at S d Hok). split.
  - intros (E1 & E2 & E3).
    assert (Hnd : NoDup (map fr_name (doc_frags d))).
    { apply duplicates_nil. unfold fragment_name_errors in E1. rewrite visit_proj_frags in E1. exact E1. }
    split; auto. split.
    + intros n ds r Ho. apply Hocc in Ho as (t & Hs).
      destruct (tmem n (map fr_name (doc_frags d))) eqn:E; [apply tmem_In; auto|]. exfalso.
      assert (Hx : In n (spread_target_errors d (visit S d))); [|rewrite E2 in Hx; destruct Hx].
      apply spread_target_iff. split; eauto. intros f Hf <-. assert (tmem (fr_name f) (map fr_name (doc_frags d)) = true); [|congruence].
      apply tmem_In. apply in_map; auto.
    + intros f Hf. assert (Hdf : defines d (fr_name f) f).
      { apply in_split in Hf as (b & a & E). exists b, a. split; auto. split; auto. rewrite E, map_app in Hnd. cbn in Hnd.
        apply NoDup_remove_2 in Hnd. rewrite in_app_iff in Hnd. auto. }
      destruct (existsb (fun ev => match ev with ESpread _ n _ _ => teqb n (fr_name f) | _ => false end) (visit S d)) eqn:E.
      * apply existsb_exists in E as (ev & Hev & E). destruct ev; try discriminate. apply teqb_eq in E. subst n.
        apply visit_ESpread in Hev. exists ds, r. apply Hocc. eauto.
      * exfalso. assert (Hx : In f (unused_fragment_errors d (visit S d))); [|rewrite E3 in Hx; destruct Hx].
        apply unused_fragment_iff. split; auto. intros r t ds Hs. apply visit_ESpread in Hs. rewrite existsb_false in E.
        specialize (E _ Hs). cbn in E. rewrite teqb_refl in E. discriminate.
  - intros (Hnd & H1 & H2). split; [|split].
    + unfold fragment_name_errors. rewrite visit_proj_frags. apply duplicates_nil. exact Hnd.
    + apply no_nil. intros n H. apply spread_target_iff in H as ((r & t & ds & Hs) & H).
      assert (Hin : In n (map fr_name (doc_frags d))) by (eapply H1, Hocc; eauto).
      apply in_map_iff in Hin as (f & E & Hf). eapply H; eauto.
    + apply no_nil. intros f H. apply unused_fragment_iff in H as ((b & a & E & _ & _) & H).
      destruct (H2 f) as (ds & r & Ho); [rewrite E, in_app_iff; right; left; auto|]. apply Hocc in Ho as (t & Hs). eapply H; eauto.
Qed.
Print Assumptions fragment_rules_on_text.
Example fragments_ex :
  let d := {| doc_ops := [op_query None [] [spr "G"]]; doc_frags := [mk_frag "F" "Query" [fld "name" [] []]; mk_frag "F" "Query" []] |} in
  map fst (fragment_name_errors (visit ex_schema d)) = [tx "F"] /\ spread_target_errors d (visit ex_schema d) = [tx "G"] /\
  length (unused_fragment_errors d (visit ex_schema d)) = 1 /\
  fragment_name_errors (visit ex_schema ex_doc) = [] /\ spread_target_errors ex_doc (visit ex_schema ex_doc) = [] /\
  unused_fragment_errors ex_doc (visit ex_schema ex_doc) = [].
Proof. vm_compute. auto 10. Qed.

(** * C32 *)
Lemma find_defines d n f : NoDup (map fr_name (doc_frags d)) -> defines d n f -> find (fun f => teqb (fr_name f) n) (doc_frags d) = Some f.
Proof.
  intros Hnd Hf. destruct (find (fun f => teqb (fr_name f) n) (doc_frags d)) as [g|] eqn:E.
  - f_equal. apply find_some in E as [E1 E2]. apply teqb_eq in E2. destruct Hf as (b & a & E3 & E4 & _). rewrite E3 in E1, Hnd.
    rewrite map_app in Hnd. cbn in Hnd. apply NoDup_remove_2 in Hnd. rewrite in_app_iff in Hnd.
    apply in_app_iff in E1 as [E1|[E1|E1]]; auto; exfalso; apply Hnd; rewrite E4, <- E2; [left|right]; apply in_map; auto.
  - exfalso. destruct Hf as (b & a & E3 & E4 & _). eapply find_none in E; [|rewrite E3, in_app_iff; right; left; reflexivity].
    cbn in E. rewrite E4, teqb_refl in E. discriminate.
Qed.
Lemma counted_invalid d o sels : op_type o = OSubscription -> NoDup (map fr_name (doc_frags d)) -> counted d o sels -> (subscription_root_invalid d o = true <-> length sels <> 1).
Proof.
  intros Ht Hnd H. unfold subscription_root_invalid. rewrite Ht. destruct H as [K|c ds sels ->|n ds f -> Hf].
  - destruct (op_sel o) as [|s [|s2 l]]; [split; [intros _; cbn; lia|auto]| |split; [intros _; cbn; lia|auto]].
    destruct (K s eq_refl) as (al & n & args & ds & sub & ->). cbn. split; [discriminate|lia].
  - rewrite negb_true_iff, Nat.eqb_neq. tauto.
  - rewrite (find_defines d n f Hnd Hf), negb_true_iff, Nat.eqb_neq. tauto.
Qed.
Lemma fragment_defined d n : In n (map fr_name (doc_frags d)) -> exists f, defines d n f.
Proof.
  unfold defines. induction (doc_frags d) as [|g l IH]; intros H; [destruct H|]. destruct (in_dec text_dec n (map fr_name l)) as [I|I].
  - destruct (IH I) as (f & b & a & -> & E & N). exists f, (g :: b), a. auto.
  - destruct H as [<-|H]; [|contradiction]. exists g, [], l. auto.
Qed.
Lemma counted_in d o : In o (doc_ops d) -> (forall n ds r, occurs_in d (SSpread n ds) r -> In n (map fr_name (doc_frags d))) -> forall n ds, op_sel o = [SSpread n ds] -> exists f, defines d n f.
Proof.
  intros Ho H n ds E. apply fragment_defined. apply In_nth_error in Ho as (i & Hi). apply (H n ds (ROp i)). eapply occ_op; [exact Hi|]. rewrite E. apply occ_here. left. reflexivity.
Qed.
Lemma counted_there d o : (forall n ds, op_sel o = [SSpread n ds] -> exists f, defines d n f) -> exists sels, counted d o sels.
Proof.
  intros H. destruct (op_sel o) as [|[al n args ds sub|n ds|c ds sub] [|s2 l]] eqn:E.
  2: { exists (op_sel o). apply cn_root. rewrite E. intros s K. injection K as <-. eauto 10. }
  3: { destruct (H n ds eq_refl) as (f & Hf). exists (fr_sel f). eapply cn_spread; eauto. }
  4: { exists sub. eapply cn_inline; eauto. }
  all: exists (op_sel o); apply cn_root; rewrite E; intros s K; discriminate K.
Qed.
Lemma counted_response d o sels y : counted d o sels -> (root_response d (op_sel o) y <-> root_response d sels y).
Proof.
  intros H. destruct H as [K|c ds sels E|n ds f E Hf]; [reflexivity| |]; rewrite E; split.
  - inversion 1; subst; match goal with K : In _ [_] |- _ => destruct K as [K|[]]; try discriminate K end. injection H0 as -> -> ->. auto.
  - intros H. eapply rr_inline; eauto. left; auto.
  - inversion 1; subst; match goal with K : In _ [_] |- _ => destruct K as [K|[]]; try discriminate K end. injection H0 as -> ->.
    match goal with K : defines d ?x ?g |- _ => rewrite (defines_fun _ _ _ _ Hf K) end. auto.
  - intros H. eapply rr_spread; eauto. left; auto.
Qed.
(** The verdict on a subscription is right if and only if: what is counted has one response name if it is one selection, and not
    one if it is several. *)
Theorem subscription_right_iff_partial : forall (S : schema) (d : document) (o : operation) (sels : list selection),
  In o (doc_ops d) -> op_type o = OSubscription -> NoDup (map fr_name (doc_frags d)) -> counted d o sels ->
  ((one_root d o <-> ~ In o (subscription_errors d (visit S d))) <-> (length sels = 1 -> one_root d o) /\ (2 <= length sels -> ~ one_root d o)).
Proof.
  intros S d o sels Ho Ht Hnd Hc. rewrite subscription_iff. pose proof (counted_invalid d o sels Ht Hnd Hc) as Hi.
  assert (Hz : length sels = 0 -> ~ one_root d o).
  { intros L (x & Hx). destruct sels; [|discriminate]. assert (K : root_response d (op_sel o) x) by now apply Hx. apply (counted_response d o [] x Hc) in K. inversion K; subst; contradiction. }
  destruct (Nat.eq_dec (length sels) 1) as [E|E].
  - assert (N : ~ (In o (doc_ops d) /\ subscription_root_invalid d o = true)) by (intros (_ & K); apply Hi in K; contradiction). split; [intros K; split; [intros _; now apply K|lia]|intros (K & _); split; auto].
  - assert (N : In o (doc_ops d) /\ subscription_root_invalid d o = true) by (split; [exact Ho|now apply Hi]). split.
    + intros K. split; [contradiction|]. intros _ C. apply K in C. contradiction.
    + intros (_ & K). split; [|contradiction]. intros C. exfalso. destruct (le_lt_dec 2 (length sels)) as [L|L]; [exact (K L C)|]. apply Hz; [lia|exact C].
Qed.
Print Assumptions subscription_right_iff_partial.
(** So it is right if only fields with pairwise different response names are at the root, or in the one fragment at the root. *)
Definition only_fields (sels : list selection) : Prop :=
  forall s, In s sels -> exists al n args ds sub, s = SField al n args ds sub.
Definition response_names (sels : list selection) : list name :=
  flat_map (fun s => match s with SField al n _ _ _ => [response_name al n] | _ => [] end) sels.
Lemma fields_response d sels y : only_fields sels -> (root_response d sels y <-> In y (response_names sels)).
Proof.
  intros Honly. unfold response_names. rewrite in_flat_map. split.
  - inversion 1; subst; try (exists (SField al n args ds sub); split; [auto|left; auto]);
      match goal with K : In _ sels |- _ => destruct (Honly _ K) as (? & ? & ? & ? & ? & E); discriminate E end.
  - intros (s & Hs & Hy). destruct (Honly _ Hs) as (al & n & args & ds & sub & ->). destruct Hy as [<-|[]]. econstructor; eauto.
Qed.
Theorem subscription_single_root_partial : forall (S : schema) (d : document) (o : operation) (sels : list selection),
  In o (doc_ops d) -> op_type o = OSubscription -> NoDup (map fr_name (doc_frags d)) ->
  counted d o sels -> only_fields sels -> NoDup (response_names sels) ->
  (one_root d o <-> ~ In o (subscription_errors d (visit S d))).
Proof.
  intros S d o sels Ho Ht Hnd Hc Honly Hresp. apply (subscription_right_iff_partial S d o sels Ho Ht Hnd Hc).
  assert (R : forall y, root_response d (op_sel o) y <-> In y (response_names sels)) by (intros y; rewrite (counted_response d o sels y Hc); apply fields_response, Honly). split.
  - intros L. destruct sels as [|s [|s2 l]]; try discriminate L. destruct (Honly s) as (al & n & args & ds & sub & ->); [left; reflexivity|]. exists (response_name al n). intros y. rewrite R. cbn. intuition.
  - intros L (x & Hx). destruct sels as [|s [|s2 l]]; cbn in L; try lia. destruct (Honly s) as (al & n & args & ds & sub & ->); [left; reflexivity|].
    destruct (Honly s2) as (al2 & n2 & args2 & ds2 & sub2 & ->); [right; left; reflexivity|]. cbn in Hresp, R.
    assert (A : response_name al n = x) by (apply Hx, R; left; reflexivity). assert (B : response_name al2 n2 = x) by (apply Hx, R; right; left; reflexivity).
    inversion Hresp as [|? ? Hni _]; subst. apply Hni. left. congruence.
Qed.
(** a case: two different fields in a fragment *)
Example subscription_counted : exists d o sels, In o (doc_ops d) /\ op_type o = OSubscription /\ NoDup (map fr_name (doc_frags d)) /\ counted d o sels /\ only_fields sels /\ NoDup (response_names sels) /\ length sels = 2.
Proof.
  set (o := {| op_explicit := true; op_type := OSubscription; op_name := None; op_vars := []; op_dirs := []; op_sel := [spr "F"] |}).
  set (f := mk_frag "F" "Query" [fld "a" [] []; fld "b" [] []]).
  exists {| doc_ops := [o]; doc_frags := [f] |}, o, (fr_sel f). split; [left; reflexivity|]. split; [reflexivity|]. split; [cbn; repeat constructor; intros []|]. split.
  - eapply cn_spread; [reflexivity|]. exists [], []. split; [reflexivity|]. split; [reflexivity|]. intros [].
  - split; [intros s [<-|[<-|[]]]; unfold fld; eauto 10|]. split; [|reflexivity]. cbn. repeat constructor; cbn; intuition discriminate.
Qed.
Print Assumptions subscription_single_root_partial.
Definition op_subscription sel :=
  {| op_explicit := true; op_type := OSubscription; op_name := None; op_vars := []; op_dirs := []; op_sel := sel |}.
(** The full property is false of the code: a nested fragment with two root fields is accepted ... *)
Theorem subscription_single_root_accepts_two_fields_refuted :
  exists (S : schema) (d : document) (o : operation),
    document_ok S d /\ In o (doc_ops d) /\ op_type o = OSubscription /\
    (exists x y, x <> y /\ root_response d (op_sel o) x /\ root_response d (op_sel o) y) /\
    subscription_errors d (visit S d) = [].
Proof.
  (* subscription { ... { ... { a b } } } *)
  set (sel := [SInline None [] [SInline None [] [fld "a" [] []; fld "b" [] []]]]).
  exists ex_schema, {| doc_ops := [op_subscription sel]; doc_frags := [] |}, (op_subscription sel).
  split; [|split; [left; auto|split; [auto|split]]].
  - apply selections_match_schema; [apply ex_schema_wf|apply ex_roots|cbn; intros o [<-|[]]; discriminate|vm_compute; auto 10].
  - exists (tx "a"), (tx "b"). split; [discriminate|]. split.
    + eapply rr_inline; [left; reflexivity|]. eapply rr_inline; [left; reflexivity|].
      apply (rr_field _ _ None (tx "a") [] [] []). left; reflexivity.
    + eapply rr_inline; [left; reflexivity|]. eapply rr_inline; [left; reflexivity|].
      apply (rr_field _ _ None (tx "b") [] [] []). right; left; reflexivity.
  - vm_compute. reflexivity.
Qed.
Print Assumptions subscription_single_root_accepts_two_fields_refuted.
(** ... and one root field written twice is rejected. *)
Theorem subscription_single_root_rejects_one_field_refuted :
  exists (S : schema) (d : document) (o : operation),
    document_ok S d /\ In o (doc_ops d) /\ op_type o = OSubscription /\
    one_root d o /\
    In o (subscription_errors d (visit S d)).
Proof.
  (* subscription { a a } *)
  set (sel := [fld "a" [] []; fld "a" [] []]).
  exists ex_schema, {| doc_ops := [op_subscription sel]; doc_frags := [] |}, (op_subscription sel).
  split; [|split; [left; auto|split; [auto|split]]].
  - apply selections_match_schema; [apply ex_schema_wf|apply ex_roots|cbn; intros o [<-|[]]; discriminate|vm_compute; auto 10].
  - exists (tx "a"). intros y. split.
    + inversion 1 as [? al n args ds sub K|? c ds sub ? K|? n ds f ? K]; subst; destruct K as [K|[K|[]]]; try discriminate K;
        injection K as <- <- _ _ _; reflexivity.
    + intros ->. apply (rr_field _ _ None (tx "a") [] [] []). left; reflexivity.
  - vm_compute. auto.
Qed.
Print Assumptions subscription_single_root_rejects_one_field_refuted.

(** * C33 *)
Theorem undefined_directives_reported_exactly : forall (S : schema) (d : document) (x : directive),
  In x (directive_defined_errors S (visit S d)) <->
  (exists loc, directive_at S d x loc) /\ forall dd, In dd (s_ddefs S) -> dd_name dd <> dir_name x.
Proof. apply undefined_directives_iff. Qed.
Print Assumptions undefined_directives_reported_exactly.
Theorem misplaced_directives_reported_exactly : forall (S : schema) (d : document) (x : directive) (loc : dloc),
  In (x, loc) (directive_location_errors S (visit S d)) <->
  directive_at S d x loc /\ exists dd, get_ddef S (dir_name x) = Some dd /\ ~ In loc (dd_locs dd).
Proof. apply misplaced_directives_iff. Qed.
Print Assumptions misplaced_directives_reported_exactly.
Theorem repeated_directives_reported_exactly : forall (S : schema) (d : document) (xs : list directive),
  In xs (directive_uniqueness_errors S (visit S d)) <->
  exists ds n dd, ((exists r loc, directives_at S d r ds loc) \/ const_directives_at d ds) /\
    get_ddef S n = Some dd /\ dd_repeatable dd = false /\
    xs = filter (fun x => teqb (dir_name x) n) ds /\ 2 <= length xs.
Proof. apply repeated_directives_iff. Qed.
Print Assumptions repeated_directives_reported_exactly.
Example directives_ex :
  let dir n := {| dir_name := tx n; dir_args := [(tx "if", VBool true)] |} in
  let d := {| doc_ops := [{| op_explicit := true; op_type := OQuery; op_name := None; op_vars := [];
                             op_dirs := [dir "skip"; dir "tag"; dir "tag"];
                             op_sel := [SField None (tx "name") [] [dir "nope"; dir "include"; dir "include"] []] |}]; doc_frags := [] |} in
  map dir_name (directive_defined_errors ex_schema (visit ex_schema d)) = [tx "nope"] /\
  map (fun e => (dir_name (fst e), snd e)) (directive_location_errors ex_schema (visit ex_schema d)) = [(tx "skip", LQuery)] /\
  map (map dir_name) (directive_uniqueness_errors ex_schema (visit ex_schema d)) = [[tx "include"; tx "include"]].
Proof. vm_compute. auto. Qed.

(** * C50 *)
(** The value rule is silent exactly when every argument value and every variable default has the type it should have. *)
Theorem values_accepted_exactly :
  forall (S : schema) (d : document) (hook : name -> value -> option text) (str_enum one_of : bool),
  value_errors S hook str_enum one_of (visit S d) = [] <->
  let conf := conforms (fun n x => hook n x = None) str_enum one_of S in
  (forall r a i, argument_at S d r a i -> conf (iv_type i) (snd a)) /\
  (forall a i, const_argument_at S d a i -> conf (iv_type i) (snd a)) /\
  (forall o v x td, In o (doc_ops d) -> In v (op_vars o) -> vd_default v = Some x ->
     get_type S (tref_base (vd_type v)) = Some td -> td_is_input td = true -> conf (vd_type v) x).
Proof. intros. apply values_iff. Qed.
Print Assumptions values_accepted_exactly.
Example values_ex :
  let d := {| doc_ops := [op_query None [mk_var "v" (ty "Int") (Some (VStr (tx "x")))] [fld "dog" [(tx "id", VNull); (tx "opts", VObj [])] [fld "name" [] []]]]; doc_frags := [] |} in
  length (value_errors ex_schema (fun _ _ => None) false false (visit ex_schema d)) = 3.
Proof. vm_compute. reflexivity. Qed.

(** * C51 *)
Theorem repeated_variables_reported_exactly : forall (S : schema) (d : document) (n : name) (vs : list vardef),
  In (n, vs) (variable_uniqueness_errors (visit S d)) <->
  exists o, In o (doc_ops d) /\ vs = filter (fun v => teqb (vd_name v) n) (op_vars o) /\ 2 <= length vs.
Proof. apply variable_uniqueness_iff. Qed.
Print Assumptions repeated_variables_reported_exactly.
Theorem non_input_variables_reported_exactly : forall (S : schema) (d : document) (v : vardef),
  In v (variable_input_errors S (visit S d)) <->
  (exists o, In o (doc_ops d) /\ In v (op_vars o)) /\
  ~ exists td, get_type S (tref_base (vd_type v)) = Some td /\ td_is_input td = true.
Proof. apply variable_input_iff. Qed.
Print Assumptions non_input_variables_reported_exactly.
Example variables_ex :
  let d := {| doc_ops := [op_query None [mk_var "v" (ty "Int") None; mk_var "v" (ty "Dog") None; mk_var "w" (TList (ty "Nope") true) None] [fld "name" [] []]]; doc_frags := [] |} in
  map fst (variable_uniqueness_errors (visit ex_schema d)) = [tx "v"] /\
  map vd_name (variable_input_errors ex_schema (visit ex_schema d)) = [tx "v"; tx "w"].
Proof. vm_compute. auto. Qed.

(** * The orchestrator never panics when the root types exist. *)
Theorem document_visit_never_panics : forall (S : schema) (d : document), wf_schema S -> ~ In EPanic (visit S d).
Proof.
  intros S d [H1 H2 H3 _]. apply visit_no_panic. intros ty n Hn. destruct ty; cbn in Hn.
  - injection Hn as <-. destruct H1 as (t & ->). discriminate.
  - destruct (H2 _ Hn) as (t & ->). discriminate.
  - destruct (H3 _ Hn) as (t & ->). discriminate.
Qed.
Print Assumptions document_visit_never_panics.
