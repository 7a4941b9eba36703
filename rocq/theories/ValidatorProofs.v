(** The validator accepts a document if and only if the rules report nothing, and what each of them then says. *)
From Verif Require Import Base Ast CoercionTypes CoercionSpec Graph Maps Doc DocSpec DocProofs DocRules DocRulesSpec DocRulesProofs DocTypingProofs DocRulesProps
  DocVariables DocVariablesSpec DocVariablesProofs DocVariablesProps FragmentsSpec FragmentCycles CyclesProps Merging MergingSpec MergingProps
  Validator ValiditySpec.

Lemma map_nil {A B} (f : A -> B) l : map f l = [] <-> l = [].
Proof. destruct l; cbn; split; congruence. Qed.
Lemma app_nil {A} (l l' : list A) : l ++ l' = [] <-> l = [] /\ l' = [].
Proof. split; [apply app_eq_nil|]. intros [-> ->]. reflexivity. Qed.

(** at most one element with a property *)
Lemma filter_at_most_one {A} (p : A -> bool) (l : list A) :
  length (filter p l) <= 1 <-> forall i j x y, nth_error l i = Some x -> nth_error l j = Some y -> p x = true -> p y = true -> i = j.
Proof.
  induction l as [|a l IH]; cbn [filter].
  - split; [|cbn; lia]. intros _ i j x y H. destruct i; discriminate.
  - destruct (p a) eqn:Ea; cbn [length]; (split; [intros H|intros H]).
    + assert (filter p l = []) as F by (destruct (filter p l); [auto|cbn in H; lia]).
      assert (K : forall k z, nth_error l k = Some z -> p z = true -> False).
      { intros k z Hz Hp. assert (In z (filter p l)) as Hin by (apply filter_In; split; auto; eapply nth_error_In; eauto). rewrite F in Hin. destruct Hin. }
      intros [|i] [|j] x y Hi Hj Px Py; cbn in Hi, Hj; auto; exfalso; eauto.
    + assert (filter p l = []) as ->; [|cbn; lia]. destruct (filter p l) as [|z r] eqn:F; auto. exfalso.
      assert (Hin : In z (filter p l)) by (rewrite F; left; auto). apply filter_In in Hin as (Hin & Hp). apply In_nth_error in Hin as (k & Hk).
      specialize (H 0 (Datatypes.S k) a z eq_refl Hk Ea Hp). discriminate.
    + intros [|i] [|j] x y Hi Hj Px Py; cbn in Hi, Hj; auto; try congruence. f_equal. apply (proj1 IH H i j x y); auto.
    + apply IH. intros i j x y Hi Hj Px Py. specialize (H (Datatypes.S i) (Datatypes.S j) x y Hi Hj Px Py). congruence.
Qed.
Lemma NoDup_keys {A} (key : A -> name) (l : list A) : NoDup (map key l) <-> forall n, length (filter (fun x => teqb (key x) n) l) <= 1.
Proof.
  split.
  - intros H n. apply filter_at_most_one. intros i j x y Hi Hj Px Py. apply teqb_eq in Px, Py. rewrite NoDup_nth_error in H. apply H.
    + rewrite map_length. apply nth_error_Some. congruence.
    + rewrite !nth_error_map, Hi, Hj. cbn. congruence.
  - intros H. apply NoDup_nth_error. intros i j Hi E. rewrite map_length in Hi. rewrite !nth_error_map in E.
    destruct (nth_error l i) as [x|] eqn:Ei; [|apply nth_error_Some in Hi; congruence]. destruct (nth_error l j) as [y|] eqn:Ej; [|discriminate]. cbn in E.
    apply (proj1 (filter_at_most_one _ l) (H (key y)) i j x y); auto; apply teqb_eq; congruence.
Qed.

Section Accepted.
  Variable S : schema.
  Variable hook : name -> value -> option text.
  Variable str_enum one_of : bool.
  Variable ord : nat -> list (list fctx) -> list (list fctx).
  Variable d : document.

  (** nothing reported, by the rule on subscriptions and the merging rule only if [subs] and [merge] *)
  Variable subs merge : bool.
  Record silent : Prop := {
    si_operation_names : operation_name_errors (visit S d) = [];
    si_lone_anonymous : lone_anonymous_errors d (visit S d) = None;
    si_subscriptions : subs = true -> subscription_errors d (visit S d) = [];
    si_fields : field_selection_errors (visit S d) = [];
    si_merging : merge = true -> merging_errors S d ord = Some [];
    si_operation_types : operation_type_errors S (visit S d) = [];
    si_leafs : leaf_selection_errors S (visit S d) = [];
    si_argument_names : argument_name_errors S (visit S d) = [];
    si_argument_unique : argument_uniqueness_errors (visit S d) = [];
    si_argument_required : required_argument_errors S (visit S d) = [];
    si_fragment_names : fragment_name_errors (visit S d) = [];
    si_fragment_types : fragment_type_errors S (visit S d) = [];
    si_fragment_composite : fragment_composite_errors S (visit S d) = [];
    si_fragment_used : unused_fragment_errors d (visit S d) = [];
    si_fragment_targets : spread_target_errors d (visit S d) = [];
    si_fragment_cycles : fragment_cycle_errors d = Some [];
    si_possible : spread_possible_errors S d (visit S d) = [];
    si_values : value_errors S hook str_enum one_of (visit S d) = [];
    si_directive_defined : directive_defined_errors S (visit S d) = [];
    si_directive_places : directive_location_errors S (visit S d) = [];
    si_directive_unique : directive_uniqueness_errors S (visit S d) = [];
    si_variable_names : variable_uniqueness_errors (visit S d) = [];
    si_variable_types : variable_input_errors S (visit S d) = [];
    si_variable_defined : undefined_variable_errors d (visit S d) = Some [];
    si_variable_used : unused_variable_errors d (visit S d) = Some [];
    si_variable_usages : disallowed_usage_errors S d (visit S d) = Some []
  }.

  Definition panics : bool := existsb (fun e => match e with EPanic => true | _ => false end) (visit S d).
  Lemma no_panic : wf_schema S -> panics = false.
  Proof.
    intros H. unfold panics. destruct (existsb _ _) eqn:E; auto. apply existsb_exists in E as (e & Hin & He). destruct e; try discriminate.
    destruct (document_visit_never_panics S d H Hin).
  Qed.

  Lemma validate_total : wf_schema S -> some_order ord -> exists es, validate S hook str_enum one_of ord d = Some es.
  Proof.
    intros Hw Ho. unfold validate. fold panics. rewrite (no_panic Hw).
    destruct (merging_terminates S d ord Ho) as (e1 & ->). destruct (fragment_cycles_detected_exactly d) as (e2 & -> & _).
    destruct (undefined_variable_uses_reported_exactly S d) as (e3 & -> & _). destruct (unused_variables_reported_exactly S d) as (e4 & -> & _).
    destruct (disallowed_usages_reported_soundly S d) as (e5 & -> & _). eauto.
  Qed.

End Accepted.
Section AcceptedIff.
  Variable S : schema.
  Variable hook : name -> value -> option text.
  Variable str_enum one_of : bool.
  Variable ord : nat -> list (list fctx) -> list (list fctx).
  Variable d : document.
  Lemma validate_silent : validate S hook str_enum one_of ord d = Some [] <-> panics S d = false /\ silent S hook str_enum one_of ord d true true.
  Proof.
    unfold validate. fold (panics S d). destruct (panics S d) eqn:Ep; [split; [discriminate|intros [? _]; discriminate]|].
    destruct (merging_errors S d ord) as [e1|] eqn:E1; [|split; [discriminate|intros (_ & Q); pose proof (si_merging _ _ _ _ _ _ _ _ Q eq_refl); congruence]].
    destruct (fragment_cycle_errors d) as [e2|] eqn:E2; [|split; [discriminate|intros (_ & []); congruence]].
    destruct (undefined_variable_errors d (visit S d)) as [e3|] eqn:E3; [|split; [discriminate|intros (_ & []); congruence]].
    destruct (unused_variable_errors d (visit S d)) as [e4|] eqn:E4; [|split; [discriminate|intros (_ & []); congruence]].
    destruct (disallowed_usage_errors S d (visit S d)) as [e5|] eqn:E5; [|split; [discriminate|intros (_ & []); congruence]].
    split.
    - intros H. split; auto. injection H as H. rewrite !app_nil, !map_nil in H.
      destruct H as (H1&H2&H3&H4&H5&H6&H7&H8&H9&H10&H11&H12&H13&H14&H15&H16&H17&H18&H19&H20&H21&H22&H23&H24&H25&H26).
      constructor; auto; try congruence. destruct (lone_anonymous_errors d (visit S d)); [discriminate|reflexivity].
    - intros (_ & H). destruct H. f_equal. specialize (si_merging0 eq_refl). specialize (si_subscriptions0 eq_refl). rewrite !app_nil, !map_nil. rewrite si_lone_anonymous0.
      repeat split; auto; try congruence.
  Qed.
End AcceptedIff.

Section Places.
  Variable S : schema.
  Variable d : document.
  Hypothesis wf : wf_schema S.
  Hypothesis roots : forall ty t, root_type S ty t -> td_composite t = true.

  Lemma composite_place : document_ok S d -> forall r t s, sel_at S d r t s -> td_composite t = true.
  Proof.
    intros Hok r t s (sels & (t0 & sels0 & Htop & Hw) & _).
    assert (H0 : td_composite t0 = true /\ In t0 (s_types S) /\ forall s, In s sels0 -> sel_ok S t0 s).
    { destruct Hok as [Ho Hf]. inversion Htop; subst.
      - assert (In o (doc_ops d)) as Hin by (eapply nth_error_In; eauto). destruct (Ho o Hin) as (t1 & Ht1 & Hs).
        assert (t1 = t0) as -> by (eapply root_type_fun; eauto). split; [eauto|]. split; auto.
        unfold root_type in Ht1. destruct (op_type o); [|destruct Ht1 as (? & _ & Ht1)..]; apply get_type_Some in Ht1; tauto.
      - assert (In f (doc_frags d)) as Hin by (eapply nth_error_In; eauto). destruct (Hf f Hin) as (t1 & Ht1 & Hc & Hs).
        assert (t1 = t0) as -> by congruence. split; auto. split; auto. apply get_type_Some in Ht1. tauto. }
    clear Htop Hok. induction Hw as [t sels|t sels al n args ds sub fd t1 t' sels' Hin Hne Hf Ht1 Hw IH|t sels ds sub t' sels' Hin Hw IH|t sels c ds sub t1 t' sels' Hin Ht1 Hw IH]; [tauto| | |].
    - apply IH. destruct H0 as (Hc & Hi & Hs). specialize (Hs _ Hin). inversion Hs; subst; [congruence|].
      match goal with H : get_field _ _ = Some ?x |- _ => assert (x = fd) as -> by congruence end.
      assert (ft = t1) as -> by congruence. split; [|split; [apply get_type_Some in Ht1; tauto|auto]].
      destruct (wf_fields S wf t fd Hi) as (td & Hg & Hout).
      { match goal with H : get_field _ _ = Some fd |- _ => apply find_some in H; tauto end. }
      assert (td = t1) as -> by congruence. destruct t1; cbn in *; try reflexivity; try discriminate; exfalso; match goal with H : ~ True |- _ => apply H; exact I end.
    - apply IH. destruct H0 as (Hc & Hi & Hs). split; auto. split; auto. specialize (Hs _ Hin). inversion Hs; subst; auto.
    - apply IH. destruct H0 as (Hc & Hi & Hs). specialize (Hs _ Hin). inversion Hs; subst. assert (ft = t1) as -> by congruence.
      split; auto. split; auto. apply get_type_Some in Ht1. tauto.
  Qed.

  Lemma overlap_dec a b : td_composite a = true -> td_composite b = true -> overlap S a b \/ ~ overlap S a b.
  Proof.
    intros Ha Hb. assert (Pa := possible_types_spec S a). assert (Pb := possible_types_spec S b).
    destruct (possible_types S a) as [la|]; [|congruence]. destruct (possible_types S b) as [lb|]; [|congruence].
    destruct (existsb (fun n => tmem n lb) la) eqn:E.
    - left. apply existsb_exists in E as (n & H1 & H2). apply tmem_In in H2. exists n. split; [apply Pa|apply Pb]; auto.
    - right. intros (n & H1 & H2). apply Pa in H1. apply Pb in H2. assert (K : existsb (fun n => tmem n lb) la = true); [|congruence].
      apply existsb_exists. exists n. split; auto. now apply tmem_In.
  Qed.
  Lemma uses_dec i x : operation_uses S d i x \/ ~ operation_uses S d i x.
  Proof.
    destruct (reachable_fragments S d i) as (l & _ & Hl).
    destruct (in_dec text_dec x (flat_map (used_names (visit S d)) (l ++ [ROp i]))) as [H|H].
    - left. apply in_flat_map in H as (r & Hr & Hx). apply used_names_In in Hx. exists r. split; auto.
      apply in_app_or in Hr as [Hr|[<-|[]]]; [apply plus_star, Hl; auto|constructor].
    - right. intros (r & Hr & Hx). apply H, in_flat_map. exists r. split; [|apply used_names_In; auto]. apply in_or_app.
      inversion Hr; subst; [right; left; auto|left]. apply Hl, plus_inv_star. eauto.
  Qed.
  Lemma usage_dec vt vdef lt ldef : usage_ok vt vdef lt ldef \/ ~ usage_ok vt vdef lt ldef.
  Proof.
    unfold usage_ok. pose proof (compatible_iff vt lt). pose proof (compatible_iff vt (tref_nullable lt)).
    pose proof (non_null_default_iff vdef). pose proof (non_null_default_iff ldef).
    destruct (types_compatible vt lt), (types_compatible vt (tref_nullable lt)), (non_null_default vdef), (non_null_default ldef), (tref_required lt); intuition congruence.
  Qed.
End Places.

Section Exact.
  Variable S : schema.
  Variable hook : name -> value -> option text.
  Variable str_enum one_of : bool.
  Variable ord : nat -> list (list fctx) -> list (list fctx).
  Variable d : document.
  Hypothesis wf : wf_schema S.
  Hypothesis roots : forall ty t, root_type S ty t -> td_composite t = true.
  Hypothesis implicit : forall o, In o (doc_ops d) -> op_explicit o = false -> op_type o = OQuery /\ op_name o = None.
  Notation accepts := (fun n x => hook n x = None).
  Notation valid := (valid_document S accepts str_enum one_of d).
  Variable subs merge : bool.
  Notation quiet := (silent S hook str_enum one_of ord d subs merge).

  Hypothesis Hord : some_order ord.
  Hypothesis Hsub : if subs then nested_roots_single d else forall o, In o (doc_ops d) -> op_type o = OSubscription -> one_root d o.
  Hypothesis Hmerge : if merge then plain_numbers d /\ fields_agree S d /\ typename_plain S d else document_can_merge S d can_meet.
  Hypothesis Hlists : listed_usages_allowed S d.

  Lemma silent_valid : quiet -> valid.
  Proof.
    intros Q. destruct Q.
    assert (Hok : document_ok S d).
    { apply selections_match_schema; auto. intros o Ho E. apply (implicit o Ho E). }
    destruct (proj1 (fragment_rules_on_text S d Hok) (conj si_fragment_names0 (conj si_fragment_targets0 si_fragment_used0))) as (Hfn & Hft & Hfu).
    assert (Hcyc : forall n, ~ on_a_cycle d n).
    { destruct (fragment_cycles_detected_exactly d) as (errs & E & H & _). assert (errs = []) as -> by congruence. intros n Hn.
      assert (Hd : exists f, defines d n f). { inversion Hn as [? ? (f & Hf & _)|? ? ? (f & Hf & _)]; subst; eauto. }
      destruct Hd as (f & Hf). assert (fr_name f = n) as <- by (destruct Hf as (? & ? & _ & ? & _); auto). apply (H f). auto. }
    assert (Hdd : forall x loc, directive_at S d x loc -> exists dd, In dd (s_ddefs S) /\ dd_name dd = dir_name x).
    { intros x loc H. destruct (get_ddef S (dir_name x)) as [dd|] eqn:E.
      - apply find_some in E as (E1 & E2). apply teqb_eq in E2. eauto.
      - exfalso. assert (K : In x (directive_defined_errors S (visit S d))).
        { apply undefined_directives_reported_exactly. split; eauto. intros dd Hin E'. apply (find_none _ _ E dd) in Hin. cbn in Hin.
          rewrite E', teqb_refl in Hin. discriminate. }
        rewrite si_directive_defined0 in K. destruct K. }
    assert (Hsmall : forall (b : nat) (P : Prop), ~ (P /\ 2 <= b) -> P -> b <= 1) by (intros b P H1 H2; destruct (le_lt_dec b 1); auto; exfalso; apply H1; auto).
    assert (Hvu : forall o, In o (doc_ops d) -> NoDup (map vd_name (op_vars o))).
    { intros o Ho. apply NoDup_keys. intros n. eapply Hsmall; [|exact I]. intros (_ & K).
      assert (J : In (n, filter (fun v => teqb (vd_name v) n) (op_vars o)) (variable_uniqueness_errors (visit S d))).
      { apply repeated_variables_reported_exactly. eauto. }
      rewrite si_variable_names0 in J. destruct J. }
    assert (Hvt : forall o v, In o (doc_ops d) -> In v (op_vars o) -> exists td, get_type S (tref_base (vd_type v)) = Some td /\ td_is_input td = true).
    { intros o v Ho Hv. destruct (get_type S (tref_base (vd_type v))) as [td|] eqn:E; [destruct (td_is_input td) eqn:Ei; [eauto|]|].
      all: exfalso; assert (K : In v (variable_input_errors S (visit S d))) by (apply non_input_variables_reported_exactly; split; [eauto|]; intros (td' & E1 & E2); congruence).
      all: rewrite si_variable_types0 in K; destruct K. }
    apply values_accepted_exactly in si_values0. destruct si_values0 as (Hv1 & Hv2 & Hv3).
    constructor; auto.
    - intros i j o o' n Hi Hj En En'.
      assert (L : length (filter (fun o => match op_name o with Some m => teqb m n | None => false end) (doc_ops d)) <= 1).
      { eapply Hsmall; [|exact I]. intros (_ & K).
        assert (J : In (n, map (fun o => (n, o)) (filter (fun o => match op_name o with Some m => teqb m n | None => false end) (doc_ops d))) (operation_name_errors (visit S d))).
        { apply repeated_operation_names_reported_exactly; [intros; now apply implicit|]. rewrite map_length. auto. }
        rewrite si_operation_names0 in J. destruct J. }
      apply (proj1 (filter_at_most_one _ _) L i j o o' Hi Hj); rewrite ?En, ?En'; apply teqb_refl.
    - intros o Ho En. destruct (Nat.eq_dec (length (doc_ops d)) 1) as [L|L].
      + destruct (doc_ops d) as [|x [|y l]]; cbn in L; try lia. destruct Ho as [->|[]]. auto.
      + exfalso. assert (K : lone_anonymous_errors d (visit S d) = Some (filter (fun o => match op_name o with None => true | Some _ => false end) (doc_ops d))).
        { apply anonymous_operation_reported_exactly. split; auto. split; auto. intros E.
          assert (J : In o []) by (rewrite <- E; apply filter_In; rewrite En; auto). destruct J. }
        congruence.
    - destruct subs; [|exact Hsub]. specialize (si_subscriptions0 eq_refl). intros o Ho Et.
      destruct (counted_there d o) as (sels & Hc).
      { apply counted_in; [exact Ho|exact Hft]. }
      assert (K : ~ (In o (doc_ops d) /\ subscription_root_invalid d o = true)) by (intros K; apply (subscription_iff S) in K; rewrite si_subscriptions0 in K; destruct K).
      assert (L : length sels = 1). { destruct (Nat.eq_dec (length sels) 1) as [|No]; auto. exfalso. apply K. split; [exact Ho|]. now apply (counted_invalid d o sels Et Hfn Hc). }
      destruct sels as [|s [|s2 l]]; try discriminate L. destruct (Hsub o [s] s Ho Et Hc eq_refl) as [(al & n & args & ds & sub & ->)|H]; [|exact H].
      exists (response_name al n). intros y. rewrite (counted_response d o _ y Hc), fields_response; [cbn; intuition|]. intros s [<-|[]]. eauto 10.
    - destruct merge; [|exact Hmerge]. destruct Hmerge as (M1 & M2 & M3). apply merging_sound_graphql_partial with (ord := ord); auto.
    - intros w args defs Hat a Ha. destruct (get_ivd defs (fst a)) as [i|] eqn:E.
      + apply find_some in E as (E1 & E2). apply teqb_eq in E2. eauto.
      + exfalso. assert (K : In (w, a) (argument_name_errors S (visit S d))).
        { apply unknown_arguments_reported_exactly. exists args, defs. split; auto. split; auto. intros i Hi E'. apply (find_none _ _ E i) in Hi. cbn in Hi.
          rewrite E', teqb_refl in Hi. discriminate. }
        rewrite si_argument_names0 in K. destruct K.
    - intros w args defs Hat. apply NoDup_keys. intros n. eapply Hsmall; [|exact I]. intros (_ & K).
      assert (J : In (n, filter (fun a => teqb (fst a) n) args) (argument_uniqueness_errors (visit S d))).
      { apply repeated_arguments_reported_exactly. exists args. split; [|auto]. inversion Hat; subst.
        - left. eauto 10.
        - right. exists x, loc. split; auto. econstructor; eauto.
        - right. exists x, LVariableDefinition. split; auto. eapply dir_const; eauto. }
      rewrite si_argument_unique0 in J. destruct J.
    - intros w args defs Hat i Hi Hr Hd0. destruct (in_dec text_dec (iv_name i) (map fst args)) as [|No]; auto. exfalso.
      destruct (required_complete S d w args defs i Hat Hi (conj Hr (conj Hd0 No))) as (ms & Hm & _). rewrite si_argument_required0 in Hm. destruct Hm.
    - intros r t s c tc Hs Hc Htc. assert (C1 := composite_place S d wf roots Hok r t s Hs).
      assert (C2 : td_composite tc = true).
      { destruct Hc as [(n & ds & f & -> & Hd & <-)|(ds & sub & ->)].
        - destruct Hd as (l1 & l2 & El & _). destruct Hok as [_ Hf]. destruct (Hf f) as (t' & T1 & T2 & _); [rewrite El; apply in_or_app; right; left; auto|]. congruence.
        - apply (doc_ok_sel S d Hok) in Hs. inversion Hs; subst. congruence. }
      destruct (overlap_dec S t tc C1 C2) as [|No]; auto. exfalso.
      destruct Hc as [(n & ds & f & -> & Hd & <-)|(ds & sub & ->)].
      + assert (K : In (SpreadImpossible n t) (spread_possible_errors S d (visit S d))).
        { apply impossible_spreads_reported_exactly. eauto 10. }
        rewrite si_possible0 in K. destruct K.
      + assert (K : In (InlineImpossible c t) (spread_possible_errors S d (visit S d))).
        { apply impossible_inline_fragments_reported_exactly. eauto 10. }
        rewrite si_possible0 in K. destruct K.
    - intros o v x Ho Hv Hx. destruct (Hvt o v Ho Hv) as (td & T1 & T2). eapply Hv3; eauto.
    - intros x loc dd Hat Hdf. destruct (in_dec dloc_dec loc (dd_locs dd)) as [|No]; auto. exfalso.
      assert (K : In (x, loc) (directive_location_errors S (visit S d))) by (apply misplaced_directives_reported_exactly; eauto).
      rewrite si_directive_places0 in K. destruct K.
    - intros ds Hat i j x y dd Hi Hj E Hdf Hrep.
      assert (L : length (filter (fun z => teqb (dir_name z) (dir_name x)) ds) <= 1).
      { eapply Hsmall; [|exact I]. intros (_ & K).
        assert (J : In (filter (fun z => teqb (dir_name z) (dir_name x)) ds) (directive_uniqueness_errors S (visit S d))).
        { apply repeated_directives_reported_exactly. exists ds, (dir_name x), dd. auto. }
        rewrite si_directive_unique0 in J. destruct J. }
      apply (proj1 (filter_at_most_one _ _) L i j x y Hi Hj); [|rewrite <- E]; apply teqb_refl.
    - intros i o x Ho Hw. destruct (in_dec text_dec x (map vd_name (op_vars o))) as [|No]; auto. exfalso.
      destruct (undefined_variable_uses_reported_exactly S d) as (errs & E & H). assert (errs = []) as -> by congruence.
      apply (H i x). exists o. split; auto. split; auto. apply uses_are_read_off_the_text; auto.
    - intros i o v Ho Hv. apply (uses_are_read_off_the_text S d); auto. destruct (uses_dec S d i (vd_name v)) as [|No]; auto. exfalso.
      destruct (unused_variables_reported_exactly S d) as (errs & E & H). assert (errs = []) as -> by congruence. apply (H i v). eauto.
    - intros i o r v t df Ho Hr Hv (a & iv & Ha & Hl). destruct (usage_dec (vd_type v) (vd_default v) t df) as [|No]; auto. exfalso.
      assert (Hin : In o (doc_ops d)) by (eapply nth_error_In; eauto).
      destruct (disallowed_usages_all_reported_partial S d) as (errs & E & H). assert (errs = []) as -> by congruence.
      destruct (H i o r a iv (vd_name v) v t df) as (l & [] & _); [exact Ho|exact Hr| |eauto|exact Ha|exact Hl|intros Hl'; apply No; eapply Hlists; eauto|exact No].
      clear -Hv Hin Hvu. specialize (Hvu o Hin). induction (op_vars o) as [|w l IH]; [destruct Hv|]. cbn. inversion Hvu; subst. destruct Hv as [->|Hv].
      + now rewrite teqb_refl.
      + destruct (teqb (vd_name w) (vd_name v)) eqn:Et; [|auto]. apply teqb_eq in Et. exfalso. apply H1. rewrite Et. apply in_map. auto.
  Qed.
End Exact.

Section Complete.
  Variable S : schema.
  Variable hook : name -> value -> option text.
  Variable str_enum one_of : bool.
  Variable ord : nat -> list (list fctx) -> list (list fctx).
  Variable d : document.
  Hypothesis wf : wf_schema S.
  Hypothesis roots : forall ty t, root_type S ty t -> td_composite t = true.
  Hypothesis implicit : forall o, In o (doc_ops d) -> op_explicit o = false -> op_type o = OQuery /\ op_name o = None.
  Hypothesis Hord : some_order ord.
  Hypothesis Hsub : several_roots_differ d.
  Hypothesis Hnum : plain_numbers d.
  Hypothesis Hsimple : spreads_simple S d.

  Lemma none_in {A} (l : list A) : (forall x, ~ In x l) -> l = [].
  Proof. destruct l as [|x l]; auto. intros H. destruct (H x). left; auto. Qed.

  Lemma valid_silent : valid_document S (fun n x => hook n x = None) str_enum one_of d -> silent S hook str_enum one_of ord d true true.
  Proof.
    intros V. destruct V as [vd_operation_names0 vd_lone_anonymous0 vd_single_root0 vd_selections0 vd_merge0 vd_argument_names0 vd_argument_unique0 vd_argument_required0 vd_fragment_names0 vd_fragment_used0 vd_fragment_targets0 vd_fragment_cycles0 vd_possible0 vd_values0 vd_const_values0 vd_defaults0 vd_directive_defined0 vd_directive_places0 vd_directive_unique0 vd_variable_names0 vd_variable_types0 vd_variable_defined0 vd_variable_used0 vd_variable_usages0]. assert (Hok := vd_selections0).
    destruct (proj2 (selections_match_schema S d wf roots (fun o Ho E => proj1 (implicit o Ho E))) Hok) as (F1 & F2 & F3 & F4 & F5).
    destruct (proj2 (fragment_rules_on_text S d Hok) (conj vd_fragment_names0 (conj vd_fragment_targets0 vd_fragment_used0))) as (G1 & G2 & G3).
    assert (Han : argument_name_errors S (visit S d) = []).
    { apply none_in. intros [w a] H. apply unknown_arguments_reported_exactly in H as (args & defs & Hat & Ha & Hn).
      destruct (vd_argument_names0 w args defs Hat a Ha) as (i & Hi & E). apply (Hn i Hi E). }
    assert (Hdd : directive_defined_errors S (visit S d) = []).
    { apply none_in. intros x H. apply undefined_directives_reported_exactly in H as ((loc & Hat) & Hn). destruct (vd_directive_defined0 x loc Hat) as (dd & Hi & E). apply (Hn dd Hi E). }
    constructor; auto.
    - apply none_in. intros [n xs] H. apply repeated_operation_names_reported_exactly in H as (-> & H); [|intros; now apply implicit].
      rewrite map_length in H. match type of H with _ <= length (filter ?p ?l) => assert (K : length (filter p l) <= 1); [|lia] end.
      apply filter_at_most_one. intros i j x y Hi Hj Px Py. destruct (op_name x) as [m|] eqn:E1; [|discriminate]. destruct (op_name y) as [m'|] eqn:E2; [|discriminate].
      apply teqb_eq in Px, Py. subst. apply (vd_operation_names0 i j x y n); auto.
    - destruct (lone_anonymous_errors d (visit S d)) as [ops|] eqn:E; auto. exfalso. apply anonymous_operation_reported_exactly in E as (-> & Hne & Hl).
      destruct (filter _ _) as [|o l] eqn:E; [congruence|]. assert (Ho : In o (o :: l)) by (left; auto). rewrite <- E in Ho. apply filter_In in Ho as (Ho & En).
      destruct (op_name o) eqn:E'; [discriminate|]. rewrite (vd_lone_anonymous0 o Ho E') in Hl. cbn in Hl. lia.
    - intros _. apply none_in. intros o H. assert (Ho : In o (doc_ops d) /\ subscription_root_invalid d o = true) by now apply subscription_iff in H.
      destruct Ho as (Ho & Hi). assert (Et : op_type o = OSubscription) by (unfold subscription_root_invalid in Hi; destruct (op_type o); try discriminate; auto).
      destruct (counted_there d o) as (sels & Hc); [apply counted_in; [exact Ho|exact vd_fragment_targets0]|].
      destruct (vd_single_root0 o Ho Et) as (x & Hx). apply (counted_invalid d o sels Et vd_fragment_names0 Hc) in Hi.
      destruct (le_lt_dec 2 (length sels)) as [L|L]; [destruct (Hsub o sels Ho Et Hc L) as (y & z & Hy & Hz & Hn); apply Hx in Hy, Hz; congruence|].
      destruct sels as [|s [|s2 l]]; cbn in *; try lia. assert (K : root_response d (op_sel o) x) by now apply Hx. apply (counted_response d o [] x Hc) in K. inversion K; subst; contradiction.
    - intros _. apply merging_complete_partial; auto.
    - apply none_in. intros [n xs] H. apply repeated_arguments_reported_exactly in H as (args & Hat & -> & Hl).
      assert (K : exists w defs, args_at S d w args defs).
      { destruct Hat as [(r & t & al & f & ds & sub & fd & H1 & H2)|(x & loc & H1 & ->)].
        - do 2 eexists. eapply args_field; eauto.
        - destruct (vd_directive_defined0 x loc H1) as (dd & I & E). destruct (get_ddef S (dir_name x)) as [dd'|] eqn:Eg.
          + inversion H1; subst; do 2 eexists; [eapply args_directive|eapply args_const_directive]; eauto.
          + apply (find_none _ _ Eg) in I. cbn in I. rewrite E, teqb_refl in I. discriminate. }
      destruct K as (w & defs & K). apply vd_argument_unique0 in K. apply (proj1 (NoDup_keys fst args)) with (n := n) in K. exact (proj1 (Nat.le_ngt _ _) K Hl).
    - apply none_in. intros [w ms] H. apply required_arguments_reported_soundly in H as (Hne & args & defs & Hat & Hm). destruct ms as [|i ms]; [congruence|].
      destruct (proj1 (Hm i) (or_introl eq_refl)) as (I & R & D & N). apply N. eapply vd_argument_required0; eauto.
    - destruct (fragment_cycles_detected_exactly d) as (errs & -> & H & _). f_equal. apply none_in. intros f Hf. apply H in Hf as (_ & Hc). exact (vd_fragment_cycles0 _ Hc).
    - apply none_in. intros [n t|c t] H.
      + apply impossible_spreads_reported_exactly in H as (r & ds & f & ft & H1 & H2 & H3 & _ & _ & N). apply N. eapply vd_possible0; eauto. left. eauto 10.
      + apply impossible_inline_fragments_reported_exactly in H as (r & ds & sub & ft & H1 & H2 & _ & _ & N). apply N. eapply vd_possible0; eauto.
    - apply values_accepted_exactly. split; auto. split; auto. intros o v x td Ho Hv Hx _ _. eapply vd_defaults0; eauto.
    - apply none_in. intros [x loc] H. apply misplaced_directives_reported_exactly in H as (H1 & dd & H2 & N). apply N. eapply vd_directive_places0; eauto.
    - apply none_in. intros xs H. apply repeated_directives_reported_exactly in H as (ds & n & dd & Hat & Hg & Hr & -> & Hl).
      assert (K : length (filter (fun x => teqb (dir_name x) n) ds) <= 1); [|lia]. apply filter_at_most_one. intros i j x y Hi Hj Px Py.
      apply teqb_eq in Px, Py. eapply (vd_directive_unique0 ds Hat i j x y dd); eauto; congruence.
    - apply none_in. intros [n vs] H. apply repeated_variables_reported_exactly in H as (o & Ho & -> & Hl).
      pose proof (proj1 (NoDup_keys vd_name (op_vars o)) (vd_variable_names0 o Ho) n). lia.
    - apply none_in. intros v H. apply non_input_variables_reported_exactly in H as ((o & Ho & Hv) & N). apply N. eauto.
    - destruct (undefined_variable_uses_reported_exactly S d) as (errs & -> & H). f_equal. apply none_in. intros [i x] Hx. apply H in Hx as (o & Ho & Hu & N).
      apply N. eapply vd_variable_defined0; eauto. apply (uses_are_read_off_the_text S d); auto.
    - destruct (unused_variables_reported_exactly S d) as (errs & -> & H). f_equal. apply none_in. intros [i v] Hx. apply H in Hx as (o & Ho & Hv & N).
      apply N. apply (uses_are_read_off_the_text S d); auto. eapply vd_variable_used0; eauto.
    - destruct (disallowed_usages_reported_soundly S d) as (errs & -> & H). f_equal. apply none_in. intros [i [[x vd] l]] Hx.
      apply H in Hx as (o & r & t & df & Ho & Hr & Hf & Hu & N). apply find_some in Hf as (Hf & Ex). apply teqb_eq in Ex. subst x. apply N. eapply vd_variable_usages0; eauto.
  Qed.
End Complete.
