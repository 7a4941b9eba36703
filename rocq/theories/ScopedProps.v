(** C76: documents validated through the visibility layer. *)
From Coq Require Import String.
From Verif Require Import Base Ast CoercionTypes CoercionSpec Graph Maps DefParser ResolveSpec Doc DocSpec DocRules DocRulesSpec FragmentsSpec DocTypingProofs DocRulesProps DocVariables DocVariablesSpec DocVariablesProps
  OperationSpec ValueEqSpec MergingSpec MergingProps MergingComplete ValiditySpec ValidatorProofs EndToEndProofs TypegenSpec
  CompareSpec CompareProofs CompatSpec CompatProofs Visibility VisibilitySpec VisibilityProofs VisibilityProps ScopedSpec ScopedProofs ScopedDocProofs.
From Verif Require Validator CompatProps.
Local Open Scope string_scope.
Local Open Scope list_scope.

Notation validate := Validator.validate.

Section Theorems.
  Variables (S : schema) (W : warden).
  Hypothesis P : proper S W.

  (** Whatever has been looked up before, each lookup through the layer gives what the schema [scoped S W] has: to whoever only makes
      lookups, as the validator does, the layer is that schema. (The lists of all definitions are left out: they have the reachable
      definitions, C43, while all visible ones can be looked up. The validator of documents does not ask for them.) *)
  Theorem c76_view : forall r c o a c', history S W r c -> Visibility.run S W r o c = Some (Ok a c') -> o <> OTypes -> o <> ODirectiveDefs -> gives (scoped S W) o a.
  Proof using P.
    intros r c o a c' H E N1 N2. apply answers_gives; auto; [|eapply c40_exact; eauto]. apply history_Inv in H as (K & _); auto. rewrite (k_query _ _ _ K). discriminate.
  Qed.

  Hypothesis Q : visible_object S W (s_query S) <> None.
  (** The scoped schema is as resolution gives schemas, so that validating documents for it ends with a verdict. *)
  Theorem c76_validates : forall hook str_enum one_of ord d, some_order ord -> exists errors, validate (scoped S W) hook str_enum one_of ord d = Some errors.
  Proof using P Q. intros. apply validate_total; auto. apply rs_wf. now apply scoped_resolved. Qed.

  (** A document that the validator accepts for the scoped schema uses nothing that is hidden, wherever its selections lead in the
      schema behind it. *)
  Theorem c76_nothing_hidden : (forall p l, inputs_at S W p l -> NoDup (map iv_name l)) ->
    forall hook str_enum one_of ord d, (forall o, In o (doc_ops d) -> op_explicit o = false -> op_type o = Ast.OQuery) ->
    validate (scoped S W) hook str_enum one_of ord d = Some [] -> uses_shown S W str_enum d.
  Proof using P Q.
    intros Once hook se oo ord d Im A. apply validate_silent in A as (_ & A). pose proof (scoped_resolved S W P Q) as [Wf Rt _ _].
    assert (Ok : document_ok (scoped S W) d).
    { apply selections_match_schema; auto. repeat split; apply A. }
    assert (Defined : forall x loc, directive_at (scoped S W) d x loc -> exists dd, In dd (s_ddefs (scoped S W)) /\ dd_name dd = dir_name x).
    { intros x loc H. destruct (get_ddef (scoped S W) (dir_name x)) as [dd|] eqn:E.
      - apply find_some in E as (E1 & E2). apply teqb_eq in E2. eauto.
      - exfalso. assert (K : In x (directive_defined_errors (scoped S W) (Doc.visit (scoped S W) d))).
        { apply undefined_directives_reported_exactly. split; eauto. intros dd Hin E'. apply (find_none _ _ E dd) in Hin. cbn beta in Hin. rewrite E', teqb_refl in Hin. discriminate. }
        rewrite (si_directive_defined _ _ _ _ _ _ _ _ A) in K. destruct K. }
    assert (Args : forall w args defs, args_at (scoped S W) d w args defs -> forall a, In a args -> exists i, In i defs /\ iv_name i = fst a).
    { intros w args defs Hat a Ha. destruct (get_ivd defs (fst a)) as [i|] eqn:E.
      - apply get_ivd_Some in E as (E1 & E2). eauto.
      - exfalso. assert (K : In (w, a) (argument_name_errors (scoped S W) (Doc.visit (scoped S W) d))).
        { apply unknown_arguments_reported_exactly. exists args, defs. split; auto. split; auto. now apply get_ivd_None. }
        rewrite (si_argument_names _ _ _ _ _ _ _ _ A) in K. destruct K. }
    assert (Vars : forall o v, In o (doc_ops d) -> In v (op_vars o) -> exists td, get_type (scoped S W) (tref_base (vd_type v)) = Some td /\ td_is_input td = true).
    { intros o v Ho Hv. destruct (get_type (scoped S W) (tref_base (vd_type v))) as [td|] eqn:E; [destruct (td_is_input td) eqn:Ei; [eauto|]|].
      all: exfalso; assert (K : In v (variable_input_errors (scoped S W) (Doc.visit (scoped S W) d))) by (apply non_input_variables_reported_exactly; split; [eauto|]; intros (td' & E1 & E2); congruence).
      all: rewrite (si_variable_types _ _ _ _ _ _ _ _ A) in K; destruct K. }
    destruct (proj1 (values_accepted_exactly _ _ _ _ _) (si_values _ _ _ _ _ _ _ _ A)) as (V1 & V2 & V3).
    assert (ST : forall n u, get_type (scoped S W) n = Some u -> exists t, shown_type S W n t).
    { intros n u G. apply (scoped_get S W P) in G as (t & Vt & _). exists t. now apply shown_of. }
    constructor.
    - intros o Ho. destruct (proj1 Ok o Ho) as (u & Hu & _).
      assert (X : forall n, get_type (scoped S W) n = Some u -> exists t, get_type S n = Some t /\ shown S W t).
      { intros n G. apply (scoped_get S W P) in G as (t & Vt & _). exists t. split; [now apply visible_get in Vt|]. eapply visible_shown; eauto. }
      destruct (op_type o); unfold root_type in *.
      + apply X in Hu as (t & Ht & Sh). exists t. auto.
      + destruct Hu as (n & En & Hu). apply X in Hu as (t & Ht & Sh). exists t. split; [|exact Sh]. exists n. split; [|exact Ht]. cbn [scoped s_mutation] in En. unfold narrow_root in En.
        destruct (s_mutation S) as [m|]; [|discriminate]. destruct (visible_object S W m); congruence.
      + destruct Hu as (n & En & Hu). apply X in Hu as (t & Ht & Sh). exists t. split; [|exact Sh]. exists n. split; [|exact Ht]. cbn [scoped s_subscription] in En. unfold narrow_root in En.
        destruct (s_subscription S) as [m|]; [|discriminate]. destruct (visible_object S W m); congruence.
    - intros r t s H. destruct (sel_shown S W P d Ok _ _ _ H) as (Vt & _). eapply visible_shown; eauto.
    - intros r t al n args ds sub H. destruct (field_shown S W P d Ok _ _ _ _ _ _ _ H) as (_ & x & (u & Vu & I & E) & _). exists x. split; [|exact E]. eapply shown_field_of; eauto.
    - intros r t al n args ds sub a H Ha. destruct (field_argument_shown S W P d Ok Args _ _ _ _ _ _ _ _ H Ha) as (x & y & Vx & Hy & Ey). exists y. split; [|exact Ey].
      eapply shown_input_of; eauto. now constructor.
    - intros f Hf. destruct (proj2 Ok f Hf) as (u & Hu & _). eauto.
    - intros r t c ds sub H. destruct (sel_shown S W P d Ok _ _ _ H) as (_ & Hv). pose proof (doc_ok_sel _ _ Ok _ _ _ Hv) as K. inversion K; subst. eauto.
    - intros x loc H. destruct (ddef_shown S W P d Ok Defined _ _ H) as (e & Ve & _). exists e. now apply shown_ddef_of.
    - intros x loc a H Ha. destruct (directive_argument_shown S W P d Ok Defined Args _ _ _ H Ha) as (e & y & Ve & Hy & Ey). exists y. split; [|exact Ey]. eapply shown_input_of; eauto. now constructor.
    - intros o v Ho Hv. destruct (Vars o v Ho Hv) as (td & G & _). eauto.
    - intros t v n r w H St.
      assert (F : conforms (fun n x => hook n x = None) se oo (scoped S W) t v).
      { destruct H as [(r0 & a & i & H & -> & ->)|[(a & i & H & -> & ->)|(o & x & Ho & Hx & -> & Ex)]].
        - destruct (argument_shown S W P d Ok Defined Args Once _ _ _ H) as (j & Hj & <-). eapply V1; eauto.
        - destruct (const_argument_shown S W P d Ok Defined Args Once _ _ H) as (j & Hj & <-). eapply V2; eauto.
        - destruct (Vars o x Ho Hx) as (td & T1 & T2). eapply V3; eauto. }
      split.
      + intros k Hk He. apply (enum_shown S W P (fun n x => hook n x = None) se oo n r w k He Hk). eapply stands_fits; eauto. destruct Hk as [->|(_ & ->)]; exact I.
      + intros es k x -> Hk He. apply (object_shown S W P (fun n x => hook n x = None) se oo n r es k x He Hk). eapply stands_fits; eauto. exact I.
  Qed.

  Hypothesis N : names_once S.
  Hypothesis U : forall u, In (DUnion u) (s_types S) -> un_fields u = [typename_field].
  (** If nothing that is hidden has to be given, a document that is valid for the scoped schema is valid for the schema behind it. *)
  Theorem c76_valid_behind : hidden_optional S W -> forall accepts str_enum one_of d,
    valid_document (scoped S W) accepts str_enum one_of d -> valid_document S accepts str_enum one_of d.
  Proof using P N U. intros H. apply CompatProps.c65_keeps; auto. now apply scoped_keeps. Qed.
  (** So is, for documents as parsing gives them, one that is accepted for the scoped schema accepted for the schema behind it. The
      conditions are those of C60. *)
  Theorem c76_accepted_behind_partial : hidden_optional S W -> resolved S ->
    forall d, plain_numbers d -> (forall o, In o (doc_ops d) -> op_explicit o = false -> op_type o = Ast.OQuery /\ op_name o = None) ->
    nested_roots_single d -> several_roots_differ d -> fields_agree (scoped S W) d -> spreads_simple S d -> typename_plain (scoped S W) d -> listed_usages_allowed (scoped S W) d ->
    forall hook str_enum one_of ord ord', some_order ord -> some_order ord' ->
    validate (scoped S W) hook str_enum one_of ord d = Some [] -> validate S hook str_enum one_of ord' d = Some [].
  Proof using P Q N U.
    intros H RS d Num Im Nr Sr Fa Sp Tp Lu hook se oo ord ord' Ho Ho' A. pose proof (scoped_resolved S W P Q) as [Wf Rt _ _]. apply validate_silent in A as (_ & A).
    assert (V : valid_document (scoped S W) (fun n x => hook n x = None) se oo d) by (apply (silent_valid (scoped S W) hook se oo ord d Wf Rt Im) with (subs := true) (merge := true); auto).
    apply (c76_valid_behind H) in V. apply validate_silent. destruct RS as [Wf' Rt' _ _]. split; [now apply no_panic|]. eapply valid_silent; eauto.
  Qed.
End Theorems.
Print Assumptions c76_view.
Print Assumptions c76_validates.
Print Assumptions c76_nothing_hidden.
Print Assumptions c76_valid_behind.
Print Assumptions c76_accepted_behind_partial.
