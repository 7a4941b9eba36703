(** Property C83: formatting (parsing and printing) an executable document. *)
From Coq Require Import String.
From Verif Require Import Base Ast Graph Maps Doc DocSpec DocProofs DocRules DocTypingProofs DocVariables FragmentCycles Merging CoercionTypes
  Lexer LexerSpec LexerProps Parser ParserSpec ParserProps Printer RoundTripSpec RoundTripProofs TokenValueProofs DefParser Resolve ResolveProps DefParserProps Validator Operation
  MergingCases EndToEndProofs ValidatorProps ValidatorCases TypegenInputCases.
Local Open Scope string_scope.
Local Open Scope list_scope.

(** An error, told about the printed document: operations are written in full. *)
Definition told_in_full (e : doc_error) : doc_error :=
  match e with
  | NonUniqueOperationNames n ops => NonUniqueOperationNames n (map as_printed ops)
  | NotLoneAnonymousOperation ops => NotLoneAnonymousOperation (map as_printed ops)
  | SubscriptionRootNotSingleField o => SubscriptionRootNotSingleField (as_printed o)
  | OperationTypeNotDefined o => OperationTypeNotDefined (as_printed o)
  | e => e
  end.

(** ** What the printed document is *)
Definition shorthand_plain (o : operation) : Prop :=
  op_explicit o = false -> op_type o = OQuery /\ op_name o = None /\ op_vars o = [] /\ op_dirs o = [].
Lemma as_printed_type o : shorthand_plain o -> op_type (as_printed o) = op_type o.
Proof. intros H. cbn. destruct (op_explicit o) eqn:E; [reflexivity|]. symmetry. now apply H. Qed.
Lemma print_as_printed pf o : shorthand_plain o -> print_operation pf (as_printed o) = print_operation pf o.
Proof.
  intros H. unfold print_operation. cbn [as_printed op_explicit op_type op_name op_vars op_dirs op_sel]. destruct (op_explicit o) eqn:E; [reflexivity|].
  destruct (H E) as (_ & -> & -> & ->). reflexivity.
Qed.
Lemma print_printed pf d : Forall shorthand_plain (doc_ops d) -> print_document pf (document_as_printed d) = print_document pf d.
Proof.
  intros H. unfold print_document, document_as_printed. cbn [doc_ops doc_frags]. rewrite !map_map. f_equal. f_equal. apply map_ext_in. intros o I. f_equal.
  apply print_as_printed. rewrite Forall_forall in H. auto.
Qed.
Lemma parsed_shorthand recover other_digit parse_f64 s d : parse_text recover other_digit parse_f64 s = inl d -> Forall shorthand_plain (doc_ops d).
Proof.
  intros H. apply c10_whole_documents in H as (ds & _ & F & _ & ->). destruct (definition_ok_ops _ F) as (O & _). eapply Forall_impl; [|exact O]. intros o (_ & _ & _ & K). exact K.
Qed.
Lemma formatted recover other_digit parse_f64 print_float s d :
  (forall l b, parse_f64 l = Some b -> Forall (fun c => c < 128)%N l) ->
  parse_text recover other_digit parse_f64 s = inl d ->
  (forall b, In (TkFloat b) (tk_document d) -> float_literal (print_float b) /\ parse_f64 (print_float b) = Some b) ->
  parse_text recover other_digit parse_f64 (print_document print_float d) = inl (document_as_printed d).
Proof.
  intros HA H HF. apply c10_whole_documents in H. destruct H as (ds & NE & F & Hi & ->).
  apply (c05_layout_only recover other_digit) in Hi; [|exact HA].
  destruct (definition_ok_ops _ F) as (O1 & O2). apply c03_print_parse; auto.
  - destruct ds as [|[o|f] ds]; [congruence | |]; cbn; [congruence|]. unfold definitions_of. cbn. destruct (map inl _); cbn; congruence.
  - apply Forall_forall. intros t I. eapply source_writable_at; [exact Hi|now apply tk_document_in|]. intros b ->. now apply HF.
Qed.

(** ** What the rules see *)
Definition shown (ev : event) : event := match ev with EOp o => EOp (as_printed o) | _ => ev end.
Lemma shown_id l : (forall o, ~ In (EOp o) l) -> map shown l = l.
Proof.
  intros H. rewrite <- (map_id l) at 2. apply map_ext_in. intros ev I. destruct ev; try reflexivity. destruct (H _ I).
Qed.
Lemma flat_shown {B} (f : event -> list B) : (forall ev, f (shown ev) = f ev) -> forall evs, flat_map f (map shown evs) = flat_map f evs.
Proof. intros H. induction evs as [|e evs IH]; cbn; [reflexivity|]. now rewrite H, IH. Qed.
Lemma flat_shown_op {B C} (h : B -> C) (f : event -> list B) (g : event -> list C) evs : (forall ev, In ev evs -> g (shown ev) = map h (f ev)) ->
  flat_map g (map shown evs) = map h (flat_map f evs).
Proof. intros H. induction evs as [|e evs IH]; cbn; [reflexivity|]. rewrite map_app, H, IH; auto using in_eq. intros ev I. apply H. now right. Qed.
Lemma fold_shown {A} (f : A -> event -> A) : (forall a ev, f a (shown ev) = f a ev) -> forall evs a, fold_left f (map shown evs) a = fold_left f evs a.
Proof. intros H. induction evs as [|e evs IH]; cbn; [reflexivity|]. intros a. now rewrite H, IH. Qed.

Section Shown.
  Variable S : schema.
  Lemma no_op_directives r ds loc o : ~ In (EOp o) (var_directives S r ds loc).
  Proof. intros I. apply var_directives_In in I. decompose [or ex and] I; discriminate. Qed.
  Lemma no_op_set r t sels o : ~ In (EOp o) (visit_selection_set S r t sels).
  Proof.
    intros Hin. apply visit_selection_set_In in Hin as (t' & s' & _ & [E|(s & _ & E)]); [discriminate|].
    apply own_In in E. decompose [or ex and] E; try discriminate;
      match goal with K : In _ (var_directives _ _ _ _) |- _ => apply var_directives_In in K; decompose [or ex and] K; discriminate end.
  Qed.
  Lemma no_op_vars vs o : ~ In (EOp o) (visit_variable_definitions S vs).
  Proof.
    unfold visit_variable_definitions. destruct vs as [|v vs]; [intros []|]. intros [E|I]; [discriminate E|]. apply in_flat_map in I as (x & _ & I).
    apply in_app_iff in I as [I|[E|[]]]; [|discriminate E]. unfold const_directives in I. destruct (vd_dirs x) as [|y l]; [destruct I|]. destruct I as [E|I]; [discriminate E|].
    apply in_flat_map in I as (z & _ & I). unfold const_directive in I. destruct I as [E|I]; [discriminate E|]. destruct (get_ddef S (dir_name z)); [|destruct I].
    unfold const_args in I. apply in_flat_map in I as (a & _ & I). destruct (get_ivd _ _); [destruct I as [E|[]]; discriminate E|destruct I].
  Qed.
  Lemma visit_operation_shown i o : shorthand_plain o -> visit_operation S i (as_printed o) = map shown (visit_operation S i o).
  Proof.
    intros H. unfold visit_operation. rewrite (as_printed_type o H). cbn [as_printed op_vars op_dirs op_sel map shown]. f_equal. rewrite !map_app.
    rewrite (shown_id (var_directives _ _ _ _)) by (intros x; apply no_op_directives). rewrite (shown_id (visit_variable_definitions _ _)) by (intros x; apply no_op_vars).
    f_equal. f_equal. destruct (op_root_name S (op_type o)) as [n|]; [|reflexivity]. destruct (get_type S n); [|reflexivity]. symmetry. apply shown_id. intros x. apply no_op_set.
  Qed.
  Lemma visit_fragment_shown i f : map shown (visit_fragment S i f) = visit_fragment S i f.
  Proof.
    apply shown_id. intros o I. unfold visit_fragment in I. rewrite !in_app_iff in I. destruct I as [I|[I|[E|[]]]]; [| |discriminate E].
    - destruct (get_type S (fr_cond f)); [|destruct I]. now apply no_op_set in I.
    - now apply no_op_directives in I.
  Qed.

  Variable hook : name -> value -> option text.
  Variable str_enum one_of : bool.
  Variable ord : nat -> list (list fctx) -> list (list fctx).
  Variable d : document.
  Hypothesis plain : Forall shorthand_plain (doc_ops d).
  Hypothesis undirected : Forall (fun f => fr_dirs f = []) (doc_frags d).
  Notation d' := (document_as_printed d).

  Lemma frags_printed : doc_frags d' = doc_frags d.
  Proof.
    assert (K : forall l, Forall (fun f => fr_dirs f = []) l -> map fragment_as_printed l = l).
    { induction 1 as [|f l H _ IH]; [reflexivity|]. cbn [map]. rewrite IH. f_equal. destruct f. cbn in H. subst. reflexivity. }
    exact (K _ undirected).
  Qed.
  Lemma mapi_from_shown l : Forall shorthand_plain l -> forall i, concat (mapi_from (visit_operation S) i (map as_printed l)) = map shown (concat (mapi_from (visit_operation S) i l)).
  Proof. induction 1 as [|o l H _ IH]; intros i; cbn [map mapi_from concat]; [reflexivity|]. now rewrite map_app, IH, visit_operation_shown. Qed.
  Lemma visit_shown : visit S d' = map shown (visit S d).
  Proof.
    unfold visit. rewrite frags_printed, map_app. f_equal.
    - apply mapi_from_shown, plain.
    - unfold mapi. generalize 0. generalize (doc_frags d) as l0; induction l0 as [|f l IH]; intros i; cbn [mapi_from concat map]; [reflexivity|]. rewrite map_app, visit_fragment_shown. f_equal. apply IH.
  Qed.
  Lemma op_event_plain ev o : In ev (visit S d) -> ev = EOp o -> shorthand_plain o.
  Proof.
    intros I ->. assert (K : In o (flat_map (fun ev => match ev with EOp o => [o] | _ => [] end) (visit S d))) by (apply in_flat_map; exists (EOp o); cbn; auto).
    rewrite (visit_proj_ops S d (fun o => [o])) in K; [|reflexivity|intros [] H; try reflexivity; exfalso; eapply H; reflexivity].
    apply in_flat_map in K as (o' & I' & [->|[]]). rewrite Forall_forall in plain. auto.
  Qed.

  Lemma printed_shape : exists ops, doc_ops d' = ops /\ d' = {| doc_ops := ops; doc_frags := doc_frags d |}.
  Proof. exists (doc_ops d'). split; [reflexivity|]. rewrite <- frags_printed. destruct d. reflexivity. Qed.
  Lemma all_roots_printed : all_roots d' = all_roots d.
  Proof.
    unfold all_roots. rewrite frags_printed. f_equal. unfold mapi. cbn [document_as_printed doc_ops]. generalize 0.
    generalize (doc_ops d) as l0; induction l0 as [|o l IH]; intros i; cbn; [reflexivity|]. now rewrite IH.
  Qed.
  Lemma references_printed evs : fragment_references d' (map shown evs) = fragment_references d evs.
  Proof. unfold fragment_references, cached_index. rewrite frags_printed. apply flat_shown. intros []; reflexivity. Qed.
  Lemma used_names_shown evs r : used_names (map shown evs) r = used_names evs r.
  Proof. apply flat_shown. intros []; reflexivity. Qed.
  Lemma usages_shown evs r : usages_of S (map shown evs) r = usages_of S evs r.
  Proof. apply flat_shown. intros []; reflexivity. Qed.
  Lemma using_printed evs r : operations_using d' (map shown evs) r = operations_using d evs r.
  Proof. unfold operations_using. rewrite references_printed. unfold roots_fuel. rewrite all_roots_printed. reflexivity. Qed.
  Lemma nth_printed i : nth_error (doc_ops d') i = option_map as_printed (nth_error (doc_ops d) i).
  Proof. cbn. apply nth_error_map. Qed.
  Lemma unused_printed evs : unused_variable_errors d' (map shown evs) = unused_variable_errors d evs.
  Proof.
    unfold unused_variable_errors. f_equal. unfold mapi. cbn [document_as_printed doc_ops]. generalize 0.
    assert (K : forall i o, unused_in_operation d' (map shown evs) i (as_printed o) = unused_in_operation d evs i o).
    { intros i o. unfold unused_in_operation. cbn [as_printed op_vars]. destruct (op_vars o) as [|v vs]; [reflexivity|].
      rewrite references_printed. unfold roots_fuel. rewrite all_roots_printed. destruct (dfs _ _ _ _ _) as [l|]; [|reflexivity]. f_equal.
      assert (E : flat_map (used_names (map shown evs)) (l ++ [ROp i]) = flat_map (used_names evs) (l ++ [ROp i])) by (apply flat_map_ext; intros; apply used_names_shown).
      now rewrite E. }
    generalize (doc_ops d) as l0; induction l0 as [|o l IH]; intros i; [reflexivity|]. cbn [map mapi_from]. now rewrite K, IH.
  Qed.
  Lemma undefined_printed evs : undefined_variable_errors d' (map shown evs) = undefined_variable_errors d evs.
  Proof.
    unfold undefined_variable_errors. f_equal. rewrite all_roots_printed. apply map_ext. intros r. unfold undefined_in_root. rewrite used_names_shown.
    destruct (used_names evs r) as [|x l]; [reflexivity|]. rewrite using_printed. destruct (operations_using d evs r); [|reflexivity]. f_equal.
    apply flat_map_ext. intros i. rewrite nth_printed. destruct (nth_error (doc_ops d) i); reflexivity.
  Qed.
  Lemma disallowed_printed evs : disallowed_usage_errors S d' (map shown evs) = disallowed_usage_errors S d evs.
  Proof.
    unfold disallowed_usage_errors. f_equal. rewrite all_roots_printed. apply map_ext. intros r. unfold disallowed_in_root. rewrite usages_shown.
    destruct (usages_of S evs r) as [|x l]; [reflexivity|]. rewrite using_printed. destruct (operations_using d evs r); [|reflexivity]. f_equal.
    apply flat_map_ext. intros i. rewrite nth_printed. destruct (nth_error (doc_ops d) i); reflexivity.
  Qed.
  Lemma merging_printed : merging_errors S d' ord = merging_errors S d ord.
  Proof.
    assert (E1 : document_sets S d' = document_sets S d).
    { unfold document_sets. rewrite frags_printed. f_equal. f_equal. unfold mapi. cbn [document_as_printed doc_ops]. generalize 0.
      pose proof plain as U. revert U. generalize (doc_ops d) as l0. clear. intros l0 U. induction U as [|o l H _ IH]; intros i; [reflexivity|]. cbn [map mapi_from]. rewrite IH. f_equal. rewrite (as_printed_type o H). reflexivity. }
    assert (E2 : merging_fuel d' = merging_fuel d).
    { unfold merging_fuel, document_size. rewrite frags_printed. cbn [document_as_printed doc_ops]. rewrite map_length, map_map. reflexivity. }
    unfold merging_errors, merging_run. rewrite E1, E2. destruct printed_shape as (ops & _ & ->). clear. destruct d as [ops0 frags0]. reflexivity.
  Qed.
  Lemma cycles_printed : fragment_cycle_errors d' = fragment_cycle_errors d.
  Proof. unfold fragment_cycle_errors, spreads_by_fragment. now rewrite frags_printed. Qed.

  Lemma ginsert_map {A B} (key : A -> text) (key' : B -> text) (h : A -> B) : (forall x, key' (h x) = key x) -> forall x m,
    ginsert key' (h x) (map (fun g => (fst g, map h (snd g))) m) = map (fun g => (fst g, map h (snd g))) (ginsert key x m).
  Proof.
    intros K x m. induction m as [|[k xs] m IH]; cbn; [now rewrite K|]. rewrite K. destruct (tcmp (key x) k); cbn; rewrite ?K, ?map_app; try reflexivity. now rewrite IH.
  Qed.
  Lemma duplicates_map {A B} (key : A -> text) (key' : B -> text) (h : A -> B) : (forall x, key' (h x) = key x) -> forall l,
    duplicates key' (map h l) = map (fun g => (fst g, map h (snd g))) (duplicates key l).
  Proof.
    intros K l. unfold duplicates, group.
    assert (E : forall m, fold_left (fun m x => ginsert key' x m) (map h l) (map (fun g => (fst g, map h (snd g))) m) =
                          map (fun g => (fst g, map h (snd g))) (fold_left (fun m x => ginsert key x m) l m)).
    { induction l as [|x l IH]; intros m; cbn; [reflexivity|]. now rewrite (ginsert_map key key' h K), IH. }
    specialize (E []). cbn [map] in E. rewrite E. generalize (fold_left (fun m x => ginsert key x m) l []) as m. clear. intros m.
    induction m as [|[k xs] m IH]; [reflexivity|]. cbn [map filter fst snd]. rewrite map_length. destruct (Nat.ltb 1 (List.length xs)); cbn [map fst snd]; now rewrite IH.
  Qed.

  Lemma validate_printed : validate S hook str_enum one_of ord d' = option_map (map told_in_full) (validate S hook str_enum one_of ord d).
  Proof.
    assert (P : existsb (fun e => match e with EPanic => true | _ => false end) (map shown (visit S d)) = existsb (fun e => match e with EPanic => true | _ => false end) (visit S d)).
    { generalize (visit S d) as l0; induction l0 as [|e l IH]; [reflexivity|]. cbn. rewrite IH. now destruct e. }
    assert (R1 : operation_name_errors (map shown (visit S d)) = map (fun g => (fst g, map (fun x => (fst x, as_printed (snd x))) (snd g))) (operation_name_errors (visit S d))).
    { unfold operation_name_errors. rewrite <- (duplicates_map fst fst (fun x => (fst x, as_printed (snd x)))) by reflexivity. f_equal. apply flat_shown_op.
      intros ev I. destruct ev; try reflexivity. pose proof (op_event_plain _ _ I eq_refl) as Q. cbn. destruct (op_explicit o) eqn:E; [destruct (op_name o); reflexivity|].
      destruct (Q E) as (_ & -> & _). reflexivity. }
    assert (R2 : lone_anonymous_errors d' (map shown (visit S d)) = option_map (map as_printed) (lone_anonymous_errors d (visit S d))).
    { unfold lone_anonymous_errors. cbn [document_as_printed doc_ops]. rewrite map_length.
      rewrite (flat_shown_op as_printed (fun ev => match ev with EOp o => match op_name o with None => [o] | Some _ => [] end | _ => [] end)) by (intros [] _; try reflexivity; cbn; destruct (op_name o); reflexivity).
      destruct (flat_map _ (visit S d)); destruct (negb _); reflexivity. }
    assert (R3 : subscription_errors d' (map shown (visit S d)) = map as_printed (subscription_errors d (visit S d))).
    { apply flat_shown_op. intros ev I. destruct ev; try reflexivity. pose proof (op_event_plain _ _ I eq_refl) as Q. cbn [shown].
      assert (E : subscription_root_invalid d' (as_printed o) = subscription_root_invalid d o).
      { unfold subscription_root_invalid. rewrite (as_printed_type o Q), frags_printed. reflexivity. }
      rewrite E. destruct (subscription_root_invalid d o); reflexivity. }
    assert (R4 : operation_type_errors S (map shown (visit S d)) = map as_printed (operation_type_errors S (visit S d))).
    { apply flat_shown_op. intros ev I. destruct ev; try reflexivity. pose proof (op_event_plain _ _ I eq_refl) as Q. cbn. destruct (op_explicit o); [|reflexivity].
      destruct (op_type o); [reflexivity|destruct (s_mutation S)|destruct (s_subscription S)]; reflexivity. }
    unfold validate. rewrite visit_shown, P. destruct (existsb _ (visit S d)); [reflexivity|].
    rewrite merging_printed, cycles_printed, undefined_printed, unused_printed, disallowed_printed.
    destruct (merging_errors S d ord) as [e1|]; [|reflexivity]. destruct (fragment_cycle_errors d) as [e2|]; [|reflexivity].
    destruct (undefined_variable_errors d (visit S d)) as [e3|]; [|reflexivity]. destruct (unused_variable_errors d (visit S d)) as [e4|]; [|reflexivity].
    destruct (disallowed_usage_errors S d (visit S d)) as [e5|]; [|reflexivity]. cbn [option_map]. f_equal. rewrite !map_app.
    rewrite R1, R2, R3, R4. rewrite !map_map.
    assert (Q2 : (match option_map (map as_printed) (lone_anonymous_errors d (visit S d)) with Some ops => [NotLoneAnonymousOperation ops] | None => [] end) =
                 map told_in_full (match lone_anonymous_errors d (visit S d) with Some ops => [NotLoneAnonymousOperation ops] | None => [] end)) by (destruct (lone_anonymous_errors d (visit S d)); reflexivity).
    rewrite Q2.
    assert (F : forall {B} (rule : list event -> list B), (forall evs, rule (map shown evs) = rule evs) -> forall (h : B -> doc_error), (forall x, told_in_full (h x) = h x) ->
              map h (rule (map shown (visit S d))) = map (fun x => told_in_full (h x)) (rule (visit S d))).
    { intros B rule H h Hh. rewrite H. apply map_ext. intros x. now rewrite Hh. }
    assert (G : forall {B} (l : list B) (h : B -> doc_error), (forall x, told_in_full (h x) = h x) -> map h l = map (fun x => told_in_full (h x)) l).
    { intros B l h Hh. apply map_ext. intros x. now rewrite Hh. }
    apply f_equal2. { apply map_ext. intros [n xs]. cbn. now rewrite !map_map. }
    apply f_equal2; [reflexivity|].
    apply f_equal2; [reflexivity|].
    apply f_equal2. { apply (F _ field_selection_errors); [apply flat_shown; intros []; reflexivity|reflexivity]. }
    apply f_equal2. { now apply G. }
    apply f_equal2; [reflexivity|].
    apply f_equal2. { apply (F _ (leaf_selection_errors S)); [apply flat_shown; intros []; reflexivity|reflexivity]. }
    apply f_equal2. { apply (F _ (argument_name_errors S)); [apply flat_shown; intros []; reflexivity|reflexivity]. }
    apply f_equal2. { apply (F _ argument_uniqueness_errors); [apply flat_shown; intros []; reflexivity|reflexivity]. }
    apply f_equal2. { apply (F _ (required_argument_errors S)); [apply flat_shown; intros []; reflexivity|reflexivity]. }
    apply f_equal2. { apply (F _ fragment_name_errors); [|reflexivity]. intros evs. unfold fragment_name_errors. f_equal. apply flat_shown; intros []; reflexivity. }
    apply f_equal2. { apply (F _ (fragment_type_errors S)); [apply flat_shown; intros []; reflexivity|reflexivity]. }
    apply f_equal2. { apply (F _ (fragment_composite_errors S)); [apply flat_shown; intros []; reflexivity|reflexivity]. }
    apply f_equal2. { assert (E : unused_fragment_errors d' (map shown (visit S d)) = unused_fragment_errors d (visit S d)).
               { unfold unused_fragment_errors. rewrite frags_printed, fold_shown; [reflexivity|]. intros a []; reflexivity. }
               rewrite E. now apply G. }
    apply f_equal2. { assert (E : spread_target_errors d' (map shown (visit S d)) = spread_target_errors d (visit S d)).
               { unfold spread_target_errors. rewrite frags_printed. apply flat_shown. intros []; reflexivity. }
               rewrite E. now apply G. }
    apply f_equal2. { now apply G. }
    apply f_equal2. { assert (E : spread_possible_errors S d' (map shown (visit S d)) = spread_possible_errors S d (visit S d)).
               { unfold spread_possible_errors, cached_fragment. rewrite frags_printed. apply flat_shown. intros []; reflexivity. }
               rewrite E. now apply G. }
    apply f_equal2. { apply (F _ (value_errors S hook str_enum one_of)); [apply flat_shown; intros []; reflexivity|reflexivity]. }
    apply f_equal2. { apply (F _ (directive_defined_errors S)); [apply flat_shown; intros []; reflexivity|reflexivity]. }
    apply f_equal2. { apply (F _ (directive_location_errors S)); [apply flat_shown; intros []; reflexivity|reflexivity]. }
    apply f_equal2. { apply (F _ (directive_uniqueness_errors S)); [apply flat_shown; intros []; reflexivity|reflexivity]. }
    apply f_equal2. { apply (F _ variable_uniqueness_errors); [apply flat_shown; intros []; reflexivity|reflexivity]. }
    apply f_equal2. { apply (F _ (variable_input_errors S)); [apply flat_shown; intros []; reflexivity|reflexivity]. }
    apply f_equal2; [now apply G|]. apply f_equal2; now apply G.
  Qed.
End Shown.

(** ** Analyses: the directives of fragment definitions are not looked at *)
Section AnalysisPrinted.
  Variable S : schema.
  Variable d : document.
  Variable o : operation.
  Variable vals : list (name * value).
  Notation d' := (document_as_printed d).
  Notation o' := (as_printed o).
  Lemma included_printed ds : selection_included o' vals ds = selection_included o vals ds.
  Proof. reflexivity. Qed.
  Lemma cached_printed n : cached_fragment d' n = option_map fragment_as_printed (cached_fragment d n).
  Proof.
    unfold cached_fragment. cbn [document_as_printed doc_frags]. rewrite map_map. cbn [fragment_as_printed fr_name].
    induction (doc_frags d) as [|f l IH]; [reflexivity|]. cbn [map assoc_last]. rewrite IH. destruct (assoc_last n (map (fun f : fragment => (fr_name f, f)) l)); [reflexivity|]. destruct (teqb _ _); reflexivity.
  Qed.
  Lemma ovisit_printed fuel : forall act t b s, ovisit S d' o' vals fuel act t b s = ovisit S d o vals fuel act t b s.
  Proof.
    assert (Set_ : forall fuel act sub, Forall (fun s => forall t b, ovisit S d' o' vals fuel act t b s = ovisit S d o vals fuel act t b s) sub ->
                   forall t b, ovisit_set S d' o' vals fuel act t b sub = ovisit_set S d o vals fuel act t b sub).
    { intros fu act sub F t b. unfold ovisit_set. induction F as [|s l H _ IH]; [reflexivity|]. cbn [flat_map]. now rewrite H, IH. }
    induction fuel as [fuel IHf] using lt_wf_ind. intros act t b s. revert t b.
    induction s as [al n args ds sub IH|n ds|c ds sub IH] using selection_ind'; intros t b.
    - rewrite !OperationProofs.ovisit_field. destruct (get_field (td_fields t) n) as [fd|]; [|reflexivity]. rewrite included_printed. f_equal. f_equal. f_equal. f_equal.
      destruct sub; [reflexivity|]. destruct (get_type S (tref_base (fd_type fd))); [|reflexivity]. now apply Set_.
    - rewrite !OperationProofs.ovisit_spread, cached_printed, included_printed. f_equal. destruct (tmem n act); [reflexivity|]. destruct (cached_fragment d n) as [f|]; [|reflexivity].
      cbn [option_map fragment_as_printed fr_cond fr_sel]. destruct (get_type S (fr_cond f)); [|reflexivity]. destruct fuel as [|fuel]; [reflexivity|]. apply Set_.
      apply Forall_forall. intros x _ t9 b9. apply IHf. auto.
    - rewrite !OperationProofs.ovisit_inline, included_printed. f_equal. destruct (match c with Some c => get_type S c | None => Some t end); [|reflexivity]. now apply Set_.
  Qed.
  Lemma ovisit_operation_printed : shorthand_plain o -> ovisit_operation S d' o' vals = ovisit_operation S d o vals.
  Proof.
    intros H. unfold ovisit_operation. rewrite (as_printed_type o H). f_equal. f_equal. destruct (op_root_name S (op_type o)) as [n|]; [|reflexivity]. destruct (get_type S n); [|reflexivity].
    cbn [document_as_printed doc_frags as_printed op_sel]. rewrite map_length. unfold ovisit_set. apply flat_map_ext. intros s. apply ovisit_printed.
  Qed.
End AnalysisPrinted.

(** * C83 *)
(** Formatting twice is formatting once: the printed text is parsed, and printing what was parsed gives the same text. *)
Theorem c83_idempotent : forall recover other_digit parse_f64 print_float s d,
  (forall l b, parse_f64 l = Some b -> Forall (fun c => c < 128)%N l) ->
  parse_text recover other_digit parse_f64 s = inl d ->
  (forall b, In (TkFloat b) (tk_document d) -> float_literal (print_float b) /\ parse_f64 (print_float b) = Some b) ->
  exists d', parse_text recover other_digit parse_f64 (print_document print_float d) = inl d' /\
    print_document print_float d' = print_document print_float d.
Proof.
  intros rc od pf pr s d HA H HF. exists (document_as_printed d). split; [eapply formatted; eauto|]. apply print_printed. eapply parsed_shorthand; eauto.
Qed.
(** Two texts are formatted alike exactly if they have the same operations and the same fragments, each in the same order, where
    the query shorthand is the same as the query in full, and directives of fragment definitions do not count. *)
Theorem c83_canonical : forall recover other_digit parse_f64 print_float s1 d1 s2 d2,
  (forall l b, parse_f64 l = Some b -> Forall (fun c => c < 128)%N l) ->
  parse_text recover other_digit parse_f64 s1 = inl d1 -> parse_text recover other_digit parse_f64 s2 = inl d2 ->
  (forall b, In (TkFloat b) (tk_document d1 ++ tk_document d2) -> float_literal (print_float b) /\ parse_f64 (print_float b) = Some b) ->
  (print_document print_float d1 = print_document print_float d2 <->
   Forall2 same_operation (doc_ops d1) (doc_ops d2) /\
   Forall2 (fun f g => fr_name f = fr_name g /\ fr_cond f = fr_cond g /\ fr_sel f = fr_sel g) (doc_frags d1) (doc_frags d2)).
Proof.
  intros rc od pf pr s1 d1 s2 d2 HA H1 H2 HF. pose proof (parsed_shorthand _ _ _ _ _ H1) as P1. pose proof (parsed_shorthand _ _ _ _ _ H2) as P2.
  assert (E : print_document pr d1 = print_document pr d2 <-> document_as_printed d1 = document_as_printed d2).
  { split.
    - intros E. apply (formatted _ _ _ pr) in H1; [|exact HA|intros b I; apply HF, in_app_iff; auto]. apply (formatted _ _ _ pr) in H2; [|exact HA|intros b I; apply HF, in_app_iff; auto].
      rewrite E in H1. congruence.
    - intros E. rewrite <- (print_printed pr d1 P1), <- (print_printed pr d2 P2), E. reflexivity. }
  rewrite E. clear - P1 P2. destruct d1 as [ops1 fs1], d2 as [ops2 fs2]. unfold document_as_printed. cbn [doc_ops doc_frags] in *. split.
  - intros X. injection X as X Y. split.
    + clear Y. revert ops2 P2 X. induction P1 as [|o ops1 Q _ IH]; intros [|o2 ops2] P2 X; try discriminate X; constructor.
      * inversion_clear P2 as [|? ? Q2 _]. cbn [map] in X. injection X as X1 X2 X3 X4 X5 _. pose proof (as_printed_type o Q) as T. pose proof (as_printed_type o2 Q2) as T2. cbn in T, T2.
        repeat split; auto. congruence.
      * apply IH; [now inversion_clear P2|]. cbn [map] in X. now injection X.
    + revert fs2 Y. clear. induction fs1 as [|f fs1 IH]; intros [|f2 fs2] Y; try discriminate Y; constructor.
      * cbn [map] in Y. injection Y as Y1 Y2 Y3 _. auto.
      * apply IH. cbn [map] in Y. now injection Y.
  - intros (X & Y). f_equal.
    + clear Y. induction X as [|o o2 ops1 ops2 (X1 & X2 & X3 & X4 & X5) _ IH]; [reflexivity|]. inversion_clear P1 as [|? ? Q P1']. inversion_clear P2 as [|? ? Q2 P2']. cbn [map]. rewrite IH by assumption. f_equal.
      pose proof (as_printed_type o Q) as T. pose proof (as_printed_type o2 Q2) as T2. unfold as_printed in *. cbn in T, T2. rewrite T, T2. congruence.
    + clear - Y. induction Y as [|f f2 fs1 fs2 (Y1 & Y2 & Y3) _ IH]; [reflexivity|]. cbn [map]. rewrite IH. f_equal. unfold fragment_as_printed. congruence.
Qed.
(** Formatting changes nothing about validity: the same errors in the same order (for every schema, custom scalar rule and order
    of hash maps), if no fragment definition has directives. *)
Theorem c83_errors_partial : forall recover other_digit parse_f64 print_float s d,
  (forall l b, parse_f64 l = Some b -> Forall (fun c => c < 128)%N l) ->
  parse_text recover other_digit parse_f64 s = inl d ->
  (forall b, In (TkFloat b) (tk_document d) -> float_literal (print_float b) /\ parse_f64 (print_float b) = Some b) ->
  Forall (fun f => fr_dirs f = []) (doc_frags d) ->
  exists d', parse_text recover other_digit parse_f64 (print_document print_float d) = inl d' /\
    forall S hook str_enum one_of ord,
      validate S hook str_enum one_of ord d' = option_map (map told_in_full) (validate S hook str_enum one_of ord d).
Proof.
  intros rc od pf pr s d HA H HF N. exists (document_as_printed d). split; [eapply formatted; eauto|]. intros. apply validate_printed; [|exact N]. eapply parsed_shorthand; eauto.
Qed.
(** Analyses of operations: the same operation is found, or the same error; and the analyzers are told the same. *)
Theorem c83_analyses : forall recover other_digit parse_f64 print_float s d,
  (forall l b, parse_f64 l = Some b -> Forall (fun c => c < 128)%N l) ->
  parse_text recover other_digit parse_f64 s = inl d ->
  (forall b, In (TkFloat b) (tk_document d) -> float_literal (print_float b) /\ parse_f64 (print_float b) = Some b) ->
  exists d', parse_text recover other_digit parse_f64 (print_document print_float d) = inl d' /\
    forall S requested vals, analyze S d' requested vals = analyze S d requested vals.
Proof.
  intros rc od pf pr s d HA H HF. exists (document_as_printed d). split; [eapply formatted; eauto|]. intros S requested vals.
  pose proof (parsed_shorthand _ _ _ _ _ H) as P. rewrite Forall_forall in P. unfold analyze, resolve_operation. cbn [document_as_printed doc_ops]. destruct requested as [n|].
  - assert (E : forall l, find (fun o => match op_name o with Some m => teqb m n | None => false end) (map as_printed l) =
                          option_map as_printed (find (fun o => match op_name o with Some m => teqb m n | None => false end) l)).
    { induction l as [|o l IH]; [reflexivity|]. cbn [map find]. cbn [as_printed op_name]. destruct (match op_name o with Some m => teqb m n | None => false end); [reflexivity|exact IH]. }
    rewrite E. destruct (find _ (doc_ops d)) as [o|] eqn:F; [|reflexivity]. cbn [option_map]. f_equal. apply ovisit_operation_printed. apply P. now apply find_some in F.
  - destruct (doc_ops d) as [|o [|o2 l]] eqn:F; [reflexivity| |reflexivity]. cbn [map]. f_equal. apply ovisit_operation_printed. apply P. now left.
Qed.

(** The printer leaves out the directives of fragment definitions (see C03), so formatting can turn a valid document into an
    invalid one: a variable that is only used there is then unused. *)
Definition on_fragments_text : string := "directive @d(a: Boolean) on FRAGMENT_DEFINITION type Query { a: Int }".
Definition on_fragments_query : string := "query Q($x: Boolean) { ...F } fragment F on Query @d(a: $x) { a }".
Theorem c83_verdict_refuted : exists schema_text s S d d',
  read_schema_with all_builtins all_builtin_directives (fun _ => 1) (fun _ => false) no_floats (tx schema_text) = inl (inl S) /\
  read (tx s) = inl d /\ read (print_document (fun _ => []) d) = inl d' /\
  validate S any_value false true in_order d = Some [] /\ validate S any_value false true in_order d' <> Some [].
Proof.
  exists on_fragments_text, on_fragments_query, (schema_in on_fragments_text), (document_in on_fragments_query), (document_as_printed (document_in on_fragments_query)).
  split; [apply read_schema_in; vm_compute; reflexivity|]. split; [apply read_document_in; vm_compute; reflexivity|]. split; [vm_compute; reflexivity|].
  split; [vm_compute; reflexivity|].
  let x := eval vm_compute in (validate (schema_in on_fragments_text) any_value false true in_order (document_as_printed (document_in on_fragments_query))) in
    assert (E : validate (schema_in on_fragments_text) any_value false true in_order (document_as_printed (document_in on_fragments_query)) = x) by (vm_compute; reflexivity).
  rewrite E. intros H. discriminate H.
Qed.

(** Texts that meet the hypotheses: the pets (fragments without directives); a shorthand query and the same in full; an invalid
    shorthand query, whose error is told about the query in full. *)
Definition unpretty : string := "{node(id:1){...N,id@skip(if:true)}}fragment N on Node{id}".
Example c83_case :
  read (tx unpretty) = inl (document_in unpretty) /\ Forall (fun f => fr_dirs f = []) (doc_frags (document_in unpretty)) /\
  (forall b, ~ In (TkFloat b) (tk_document (document_in unpretty))) /\
  read (tx ("query " ++ unpretty)) = inl (document_in ("query " ++ unpretty)) /\
  document_in ("query " ++ unpretty) <> document_in unpretty /\
  print_document (fun _ => []) (document_in ("query " ++ unpretty)) = print_document (fun _ => []) (document_in unpretty) /\
  print_document (fun _ => []) (document_in unpretty) <> tx unpretty.
Proof.
  split; [apply read_document_in; vm_compute; reflexivity|].
  let x := eval vm_compute in (document_in unpretty) in assert (E : document_in unpretty = x) by (vm_compute; reflexivity).
  split; [rewrite E; cbn [doc_frags]; constructor; [reflexivity|constructor]|].
  split. { intros b I. let x := eval vm_compute in (tk_document (document_in unpretty)) in assert (E2 : tk_document (document_in unpretty) = x) by (vm_compute; reflexivity).
           rewrite E2 in I. cbn [In] in I. decompose [or] I; try (match goal with K : _ = TkFloat b |- _ => discriminate K end); assumption. }
  split; [apply read_document_in; vm_compute; reflexivity|].
  split. { let x := eval vm_compute in (document_in ("query " ++ unpretty)) in assert (E2 : document_in ("query " ++ unpretty) = x) by (vm_compute; reflexivity).
           rewrite E, E2. intros H. discriminate H. }
  split; [vm_compute; reflexivity|].
  let x := eval vm_compute in (print_document (fun _ => []) (document_in unpretty)) in assert (E2 : print_document (fun _ => []) (document_in unpretty) = x) by (vm_compute; reflexivity).
  let x := eval vm_compute in (tx unpretty) in assert (E3 : tx unpretty = x) by (vm_compute; reflexivity).
  rewrite E2, E3. intros H. discriminate H.
Qed.
Example c83_errors_case :
  validate pets any_value false true in_order (document_in "{ a } { b }") <> Some [] /\
  validate pets any_value false true in_order (document_in "{ a } { b }") <> validate pets any_value false true in_order (document_as_printed (document_in "{ a } { b }")).
Proof.
  let x := eval vm_compute in (validate pets any_value false true in_order (document_in "{ a } { b }")) in
    assert (E : validate pets any_value false true in_order (document_in "{ a } { b }") = x) by (vm_compute; reflexivity).
  let x := eval vm_compute in (validate pets any_value false true in_order (document_as_printed (document_in "{ a } { b }"))) in
    assert (E2 : validate pets any_value false true in_order (document_as_printed (document_in "{ a } { b }")) = x) by (vm_compute; reflexivity).
  rewrite E2, E. split; intros H; discriminate H.
Qed.
Print Assumptions c83_idempotent. Print Assumptions c83_canonical. Print Assumptions c83_errors_partial. Print Assumptions c83_analyses.
Print Assumptions c83_verdict_refuted.
