(** Operations are validated independently of each other: a document is valid if and only if each of its operations is, with the fragments
    it needs, and nothing is defined twice or for nothing (C88). *)
From Verif Require Import Base Ast Examples CoercionTypes CoercionSpec Graph Maps Doc DocSpec DocProofs DocRules DocRulesSpec DocRulesProofs DocTypingProofs DocRulesProps
  DocVariables DocVariablesSpec DocVariablesProofs DocVariablesProps FragmentsSpec FragmentCycles CyclesProps ValueEqSpec Merging MergingSpec MergingProps MergingComplete MergingCheck MergingCases
  Lexer LexerSpec Parser ParserProps DefParser DefParserProps Resolve ResolveProps Validator ValiditySpec ValidatorProofs EndToEndProofs ValidatorProps TypegenSpec TypegenInputCases ValidatorCases
  TrimSpec TrimProofs TrimProps AloneSpec AloneProofs.
Local Open Scope string_scope.
Local Open Scope list_scope.

Ltac conj := repeat match goal with |- _ /\ _ => split end.
Section Modular.
  Variable S : schema.
  Variable accepts : name -> value -> Prop.
  Variable str_enum one_of : bool.
  Notation valid := (valid_document S accepts str_enum one_of).
  Lemma valid_alone d o d1 : valid d -> In o (doc_ops d) -> alone d o d1 -> valid d1.
  Proof.
    intros V Ho A. pose proof (vd_fragment_names _ _ _ _ _ V) as ND. apply (c87_valid S accepts str_enum one_of d1 d V (alone_trimmed d d1 o A Ho)).
    destruct (In_nth_error _ _ Ho) as (i & E). apply (alone_tight d d1 o A Ho ND i E). apply (valid_tight _ _ _ _ _ V).
  Qed.
  (** every fragment of a valid document is needed by an operation *)
  Lemma valid_needed d : valid d -> forall f, In f (doc_frags d) -> exists o, In o (doc_ops d) /\ needs d (op_sel o) (fr_name f).
  Proof.
    intros V. pose proof (vd_fragment_names _ _ _ _ _ V) as ND. set (names := map fr_name (doc_frags d)).
    assert (K : forall k f l, In f (doc_frags d) -> NoDup (fr_name f :: l) -> incl (fr_name f :: l) names ->
      (forall x, In x l -> star (fragment_uses d) (fr_name f) x) -> length names - length l <= k -> exists o, In o (doc_ops d) /\ needs d (op_sel o) (fr_name f)).
    { induction k as [|k IH]; intros f l Hf N I R Hk.
      - pose proof (NoDup_incl_length N I) as Hl. cbn in Hl. lia.
      - destruct (vd_fragment_used _ _ _ _ _ V f Hf) as (ds & r & O). destruct r as [i|j]; inversion O as [? o E P|? g E P]; subst.
        + exists o. split; [eapply nth_error_In; eauto|]. econstructor; eauto.
        + assert (Hg : In g (doc_frags d)) by (eapply nth_error_In; eauto). assert (Dg : defines d (fr_name g) g) by (apply (defines_in_iff d _ g ND); auto).
          assert (U : fragment_uses d (fr_name g) (fr_name f)) by (exists g; split; auto; apply spreads_occurs; eauto).
          assert (Rg : forall x, In x (fr_name f :: l) -> star (fragment_uses d) (fr_name f) x).
          { intros x [<-|Hx]; [constructor|auto]. }
          destruct (IH g (fr_name f :: l)) as (o & Ho & Hn); auto.
          * constructor; auto. intros Hi. apply (vd_fragment_cycles _ _ _ _ _ V (fr_name g)). apply plus_inv_star. exists (fr_name f). split; auto.
          * intros x [<-|Hx]; [apply List.in_map; auto|auto].
          * intros x Hx. econstructor 2; eauto.
          * cbn. lia.
          * exists o. split; auto. eapply nd_through; eauto. }
    intros f Hf. apply (K (length names) f []); auto.
    - constructor; auto. constructor.
    - intros x [<-|[]]. apply List.in_map. auto.
    - intros x [].
    - cbn. lia.
  Qed.

  Section Together.
    Variable d : document.
    Hypothesis names : forall i j o o' n, nth_error (doc_ops d) i = Some o -> nth_error (doc_ops d) j = Some o' -> op_name o = Some n -> op_name o' = Some n -> i = j.
    Hypothesis lone : forall o, In o (doc_ops d) -> op_name o = None -> doc_ops d = [o].
    Hypothesis ND : NoDup (map fr_name (doc_frags d)).
    Hypothesis needed : forall f, In f (doc_frags d) -> exists o, In o (doc_ops d) /\ needs d (op_sel o) (fr_name f).
    Hypothesis each : forall o, In o (doc_ops d) -> exists d1, alone d o d1 /\ valid d1.

    (** every place of the document is a place of one of the small documents *)
    Lemma op_twin i o : nth_error (doc_ops d) i = Some o -> exists d1, alone d o d1 /\ In o (doc_ops d) /\ valid d1 /\ twin d d1 o (ROp i) (ROp 0).
    Proof using each.
      intros E. assert (Ho : In o (doc_ops d)) by (eapply nth_error_In; eauto). destruct (each o Ho) as (d1 & A & V). exists d1. conj; auto. constructor; auto.
    Qed.
    Lemma frag_twin f : In f (doc_frags d) -> exists o d1, alone d o d1 /\ In o (doc_ops d) /\ valid d1 /\ needs d (op_sel o) (fr_name f) /\ In f (doc_frags d1).
    Proof using needed each.
      intros Hf. destruct (needed f Hf) as (o & Ho & Hn). destruct (each o Ho) as (d1 & A & V). exists o, d1. conj; auto. apply (an_frags _ _ _ A f Hf). auto.
    Qed.
    Definition is_root (r : root) : Prop := match r with ROp i => exists o, nth_error (doc_ops d) i = Some o | RFrag j => exists f, nth_error (doc_frags d) j = Some f end.
    Lemma some_twin r : is_root r -> exists o d1 r1, alone d o d1 /\ In o (doc_ops d) /\ valid d1 /\ twin d d1 o r r1.
    Proof using needed each.
      destruct r as [i|j]; intros (x & E).
      - destruct (op_twin i x E) as (d1 & A & Ho & V & W). exists x, d1, (ROp 0). auto.
      - destruct (frag_twin x (nth_error_In _ _ E)) as (o & d1 & A & Ho & V & _ & Hi). apply In_nth_error in Hi as (k & Ek). exists o, d1, (RFrag k).
        conj; auto. econstructor; eauto.
    Qed.
    Lemma set_root r t sels : set_at S d r t sels -> is_root r.
    Proof using. intros (t0 & sels0 & H & _). destruct H; cbn; eauto. Qed.
    Lemma sel_root r t s : sel_at S d r t s -> is_root r.
    Proof using. intros (sels & H & _). eapply set_root; eauto. Qed.
    Lemma directives_root r ds loc : directives_at S d r ds loc -> is_root r.
    Proof using. destruct 1; cbn; eauto using sel_root. Qed.
    Lemma argument_root r a i : argument_at S d r a i -> is_root r.
    Proof using. destruct 1; eauto using sel_root, directives_root. Qed.
    Lemma occurs_root s r : occurs_in d s r -> is_root r.
    Proof using. destruct 1; cbn; eauto. Qed.
    Lemma const_alone ds : const_directives_at d ds -> exists d1, valid d1 /\ const_directives_at d1 ds.
    Proof using each.
      intros (N & o & v & Ho & Hv & E). destruct (each o Ho) as (d1 & A & V). exists d1. split; auto. split; auto. exists o, v. rewrite (an_op _ _ _ A). conj; auto. left; auto.
    Qed.
    Lemma args_alone w args defs : args_at S d w args defs -> exists d1, valid d1 /\ args_at S d1 w args defs.
    Proof using ND needed each.
      destruct 1 as [r t al n args ds sub fd H Hf|r ds loc x dd H Hx Hd|ds x dd H Hx Hd].
      - destruct (some_twin r (sel_root _ _ _ H)) as (o & d1 & r1 & A & Ho & V & W). exists d1. split; auto. eapply args_field; eauto. eapply twin_sel; eauto.
      - destruct (some_twin r (directives_root _ _ _ H)) as (o & d1 & r1 & A & Ho & V & W). exists d1. split; auto. eapply args_directive; eauto. eapply twin_directives; eauto.
      - destruct (const_alone ds H) as (d1 & V & H1). exists d1. split; auto. eapply args_const_directive; eauto.
    Qed.
    Lemma directive_alone x loc : directive_at S d x loc -> exists d1, valid d1 /\ directive_at S d1 x loc.
    Proof using ND needed each.
      destruct 1 as [r ds loc x H Hx|ds x H Hx].
      - destruct (some_twin r (directives_root _ _ _ H)) as (o & d1 & r1 & A & Ho & V & W). exists d1. split; auto. eapply dir_var; eauto. eapply twin_directives; eauto.
      - destruct (const_alone ds H) as (d1 & V & H1). exists d1. split; auto. eapply dir_const; eauto.
    Qed.
    Lemma valid_together : valid d.
    Proof using names lone ND needed each.
      constructor; auto.
      - intros o Ho Et. destruct (each o Ho) as (d1 & A & V). assert (Ho1 : In o (doc_ops d1)) by (rewrite (an_op _ _ _ A); left; auto).
        destruct (vd_single_root _ _ _ _ _ V o Ho1 Et) as (x & Hx). exists x. intros y. rewrite <- Hx. split; intros H.
        + apply (root_response_alone d d1 o A Ho ND); auto. apply covered_op.
        + apply (root_response_more d1 d (alone_trimmed d d1 o A Ho) ND _ _ H). apply trims_same.
      - split.
        + intros o Ho. destruct (each o Ho) as (d1 & A & V). apply (proj1 (vd_selections _ _ _ _ _ V)). rewrite (an_op _ _ _ A). left; auto.
        + intros f Hf. destruct (frag_twin f Hf) as (o & d1 & A & Ho & V & _ & Hi). apply (proj2 (vd_selections _ _ _ _ _ V)). auto.
      - intros r t sels H x y Cx Cy E. destruct (some_twin r (set_root _ _ _ H)) as (o & d1 & r1 & A & Ho & V & W).
        destruct (twin_set S d d1 o A ND _ _ _ _ W H) as (H1 & C). destruct (collected_alone S d d1 o A Ho ND _ _ _ Cx C) as (Cx1 & Cx2).
        destruct (collected_alone S d d1 o A Ho ND _ _ _ Cy C) as (Cy1 & Cy2). destruct (vd_merge _ _ _ _ _ V _ _ _ H1 x y Cx1 Cy1 E) as (M1 & M2).
        split; intros K; [apply M1|apply M2]; [eapply shapes_alone|eapply conflict_alone]; eauto.
      - intros w args defs H. destruct (args_alone _ _ _ H) as (d1 & V & H1). apply (vd_argument_names _ _ _ _ _ V _ _ _ H1).
      - intros w args defs H. destruct (args_alone _ _ _ H) as (d1 & V & H1). apply (vd_argument_unique _ _ _ _ _ V _ _ _ H1).
      - intros w args defs H. destruct (args_alone _ _ _ H) as (d1 & V & H1). apply (vd_argument_required _ _ _ _ _ V _ _ _ H1).
      - intros f Hf. destruct (needed f Hf) as (o & Ho & Hn). inversion Hn as [n ds O|n ds m g Hm Hd O]; subst.
        + apply In_nth_error in Ho as (i & E). exists ds, (ROp i). econstructor; eauto.
        + apply (defines_in_iff d m g ND) in Hd as (Hg & _). apply In_nth_error in Hg as (j & E). exists ds, (RFrag j). econstructor; eauto.
      - intros n ds r H. destruct (some_twin r (occurs_root _ _ H)) as (o & d1 & r1 & A & Ho & V & W). pose proof (twin_occurs d d1 o A _ _ _ W H) as H1.
        apply (vd_fragment_targets _ _ _ _ _ V) in H1. apply in_map_iff in H1 as (f & <- & Hf). apply List.in_map. apply (alone_in d d1 o A f) in Hf. tauto.
      - intros n H. assert (Hn : exists f, defines d n f) by (inversion H as [? ? (f & Hd & _)|? ? ? (f & Hd & _) _]; subst; eauto). destruct Hn as (f & Hd).
        apply (defines_in_iff d n f ND) in Hd as (Hf & En). destruct (frag_twin f Hf) as (o & d1 & A & Ho & V & Hn & _). rewrite En in Hn.
        apply (vd_fragment_cycles _ _ _ _ _ V n). apply (uses_plus_alone d d1 o A Ho ND _ _ H Hn).
      - intros r t s c tc Hs Hc Ht. destruct (some_twin r (sel_root _ _ _ Hs)) as (o & d1 & r1 & A & Ho & V & W).
        apply (vd_possible _ _ _ _ _ V r1 t s c tc); auto; [eapply twin_sel; eauto|]. destruct Hc as [(n & ds & f & -> & Hd & Ec)|Hc]; [left|right; auto].
        exists n, ds, f. conj; auto. apply (alone_defines d d1 o A Ho ND). split; auto. apply (twin_needs d d1 o A ND r r1 n ds W). eapply sel_occurs; eauto.
      - intros r a i H. destruct (some_twin r (argument_root _ _ _ H)) as (o & d1 & r1 & A & Ho & V & W). eapply (vd_values _ _ _ _ _ V). eapply twin_argument; eauto.
      - intros a i (ds & x & dd & H & K). destruct (const_alone ds H) as (d1 & V & H1). apply (vd_const_values _ _ _ _ _ V). exists ds, x, dd. auto.
      - intros o v x Ho. destruct (each o Ho) as (d1 & A & V). apply (vd_defaults _ _ _ _ _ V). rewrite (an_op _ _ _ A). left; auto.
      - intros x loc H. destruct (directive_alone _ _ H) as (d1 & V & H1). apply (vd_directive_defined _ _ _ _ _ V _ _ H1).
      - intros x loc dd H. destruct (directive_alone _ _ H) as (d1 & V & H1). apply (vd_directive_places _ _ _ _ _ V _ _ _ H1).
      - intros ds [(r & loc & H)|H].
        + destruct (some_twin r (directives_root _ _ _ H)) as (o & d1 & r1 & A & Ho & V & W). apply (vd_directive_unique _ _ _ _ _ V). left. exists r1, loc. eapply twin_directives; eauto.
        + destruct (const_alone ds H) as (d1 & V & H1). apply (vd_directive_unique _ _ _ _ _ V). auto.
      - intros o Ho. destruct (each o Ho) as (d1 & A & V). apply (vd_variable_names _ _ _ _ _ V). rewrite (an_op _ _ _ A). left; auto.
      - intros o v Ho. destruct (each o Ho) as (d1 & A & V). apply (vd_variable_types _ _ _ _ _ V). rewrite (an_op _ _ _ A). left; auto.
      - intros i o x E (r & H & Wr). destruct (op_twin i o E) as (d1 & A & Ho & V & W). destruct (spreads_text_alone d d1 o A Ho ND _ _ H _ W) as (r2 & H2 & W2).
        apply (vd_variable_defined _ _ _ _ _ V 0); [rewrite (an_op _ _ _ A); reflexivity|]. exists r2. split; auto. eapply twin_written; eauto.
      - intros i o v E Hv. destruct (op_twin i o E) as (d1 & A & Ho & V & W). pose proof (alone_trimmed d d1 o A Ho) as T.
        destruct (thinner_positions _ _ _ (tr_frags _ _ T)) as (q & _ & Hq).
        assert (Hp : forall k o1, nth_error (doc_ops d1) k = Some o1 -> exists o', nth_error (doc_ops d) ((fun _ => i) k) = Some o' /\ trim_operation o1 o').
        { rewrite (an_op _ _ _ A). intros [|[|k]] o1 E1; try discriminate E1. injection E1 as <-. exists o. split; auto. split; auto using trims_same. }
        apply (writes_more d1 d ND _ q Hp Hq 0). apply (vd_variable_used _ _ _ _ _ V 0 o); auto. rewrite (an_op _ _ _ A). reflexivity.
      - intros i o r v t df E H Hv (a & iv & Ha & L). destruct (op_twin i o E) as (d1 & A & Ho & V & W). destruct (refers_alone S d d1 o A Ho ND _ _ H _ W) as (r2 & H2 & W2).
        apply (vd_variable_usages _ _ _ _ _ V 0 o r2); auto; [rewrite (an_op _ _ _ A); reflexivity|]. exists a, iv. split; auto. eapply twin_argument; eauto.
    Qed.
  End Together.
End Modular.

(** * C88 *)
Theorem c88_one_by_one :
  forall (S : schema) (accepts : name -> value -> Prop) (str_enum one_of : bool) (d : document),
    valid_document S accepts str_enum one_of d <->
    (** operation names are unique, and an operation without a name is alone *)
    (forall i j o o' n, nth_error (doc_ops d) i = Some o -> nth_error (doc_ops d) j = Some o' -> op_name o = Some n -> op_name o' = Some n -> i = j) /\
    (forall o, In o (doc_ops d) -> op_name o = None -> doc_ops d = [o]) /\
    (** fragment names are unique, and every fragment is needed by some operation *)
    NoDup (map fr_name (doc_frags d)) /\
    (forall f, In f (doc_frags d) -> exists o, In o (doc_ops d) /\ needs d (op_sel o) (fr_name f)) /\
    (** every operation is valid with just the fragments that it needs *)
    (forall o, In o (doc_ops d) -> exists d1, alone d o d1 /\ valid_document S accepts str_enum one_of d1).
Proof.
  intros S acc se oo d. split.
  - intros V. split; [apply (vd_operation_names _ _ _ _ _ V)|]. split; [apply (vd_lone_anonymous _ _ _ _ _ V)|]. split; [apply (vd_fragment_names _ _ _ _ _ V)|].
    split; [apply (valid_needed S acc se oo d V)|]. intros o Ho. destruct (alone_exists d o (vd_fragment_names _ _ _ _ _ V)) as (d1 & A). exists d1.
    split; auto. eapply valid_alone; eauto.
  - intros (H1 & H2 & H3 & H4 & H5). apply (valid_together S acc se oo d H1 H2 H3 H4 H5).
Qed.
Print Assumptions c88_one_by_one.
Theorem c88_alone :
  forall (S : schema) (accepts : name -> value -> Prop) (str_enum one_of : bool) (d : document) (o : operation) (d1 : document),
    valid_document S accepts str_enum one_of d -> In o (doc_ops d) -> alone d o d1 -> valid_document S accepts str_enum one_of d1.
Proof. intros. eapply valid_alone; eauto. Qed.
Print Assumptions c88_alone.
(** For the validator, from texts: an operation of an accepted query is accepted alone. Left to show: that this holds also of the queries for
    which acceptance is not known to be the same as validity (see C60). *)
Theorem c88_accepted_partial :
  forall so dor recover other_digit parse_f64 recover' other_digit' parse_f64' schema_text whole_text one_text S d d1 o,
    read_schema_with so dor recover other_digit parse_f64 schema_text = inl (inl S) ->
    parse_text recover' other_digit' parse_f64' whole_text = inl d -> parse_text recover' other_digit' parse_f64' one_text = inl d1 -> reads_numbers parse_f64' ->
  forall hook str_enum one_of ord ord', some_order ord -> some_order ord' ->
    nested_roots_single d -> spreads_simple S d -> typename_plain S d -> listed_usages_allowed S d -> several_roots_differ d1 ->
    In o (doc_ops d) -> alone d o d1 -> validate S hook str_enum one_of ord d = Some [] -> validate S hook str_enum one_of ord' d1 = Some [].
Proof.
  intros so dor rc od pf rc' od' pf' st wt pt S d d1 o HS HW HP HN hook se oo ord ord' Hord Hord' H1 H2 H3 H4 H5 Ho A HV.
  pose proof (accepted_texts_valid_partial _ _ _ _ _ _ _ _ _ _ _ _ HS HW HN hook se oo ord Hord H1 (spreads_simple_agree _ _ H2) H3 H4 HV) as V.
  pose proof (vd_fragment_names _ _ _ _ _ V) as ND.
  apply (valid_texts_accepted_partial _ _ _ _ _ _ _ _ _ _ _ _ HS HP HN hook se oo ord' Hord'); auto.
  - apply (simple_less S d1 d (alone_trimmed d d1 o A Ho) ND H2).
  - apply (c88_alone S _ se oo d o d1 V Ho A).
Qed.
Print Assumptions c88_accepted_partial.

(** ** A concrete case *)
Definition both_query : string :=
  "query A($n: Int) { pets(first: $n) { ...X } } query B { pets { ...Y id } }
   fragment X on Pet { id ...Z } fragment Y on Pet { name } fragment Z on Pet { name }".
Definition both_doc : document := Eval vm_compute in document_in both_query.
Lemma both_doc_eq : document_in both_query = both_doc. Proof. vm_compute. reflexivity. Qed.
Lemma both_parsed : read (tx both_query) = inl both_doc.
Proof. rewrite <- both_doc_eq. apply read_document_in. vm_compute. reflexivity. Qed.
Definition first_query : string := "query A($n: Int) { pets(first: $n) { ...X } } fragment X on Pet { id ...Z } fragment Z on Pet { name }".
Definition first_doc : document := Eval vm_compute in document_in first_query.
Definition first_op : operation := Eval vm_compute in hd (op_query None [] []) (doc_ops both_doc).
Lemma both_simple : spreads_simple pets both_doc.
Proof. apply spread_ok_simple. vm_compute. reflexivity. Qed.
Lemma both_valid : valid_document pets (fun n x => any_value n x = None) false true both_doc.
Proof.
  refine (accepted_texts_valid_partial _ _ _ _ _ _ _ _ _ _ _ _ pets_read both_parsed no_floats_numbers any_value false true in_order in_order_ok
    _ (spreads_simple_agree _ _ both_simple) _ _ _).
  - intros o sels s [<-|[<-|[]]] E; discriminate E.
  - apply typename_ok_plain. vm_compute. reflexivity.
  - apply lists_plain_document. vm_compute. reflexivity.
  - vm_compute. reflexivity.
Qed.
Lemma first_needs n : needs both_doc (op_sel first_op) n -> n = tx "X" \/ n = tx "Z".
Proof.
  induction 1 as [n ds O|n ds m f _ IH Hd O].
  - assert (H : In n (contained_spreads (op_sel first_op))) by (apply FragmentCyclesProofs.contained_spreads_In, spreads_occurs; eauto).
    vm_compute in H. destruct H as [<-|[]]. left. reflexivity.
  - apply (defines_in_iff both_doc m f (vd_fragment_names _ _ _ _ _ both_valid)) in Hd as (Hf & En).
    assert (H : In n (contained_spreads (fr_sel f))) by (apply FragmentCyclesProofs.contained_spreads_In, spreads_occurs; eauto).
    destruct Hf as [<-|[<-|[<-|[]]]]; vm_compute in H; try (destruct H as [<-|[]]); try destruct H. right. reflexivity.
Qed.
Lemma first_alone : alone both_doc first_op first_doc.
Proof.
  assert (NX : needs both_doc (op_sel first_op) (tx "X")).
  { apply (nd_here both_doc (op_sel first_op) (tx "X") []). eapply occ_field; [left; reflexivity|]. constructor. left. reflexivity. }
  assert (NZ : needs both_doc (op_sel first_op) (tx "Z")).
  { eapply (nd_through both_doc (op_sel first_op) (tx "Z") [] (tx "X")); [exact NX| |].
    - apply (defines_in_iff both_doc (tx "X") _ (vd_fragment_names _ _ _ _ _ both_valid)). split; [left; reflexivity|reflexivity].
    - constructor. right. left. reflexivity. }
  constructor.
  - reflexivity.
  - apply th_keep; [reflexivity|]. apply th_drop. apply th_keep; [reflexivity|]. constructor.
  - intros f [<-|[<-|[<-|[]]]].
    + split; [intros _; exact NX|]. intros _. left. reflexivity.
    + split.
      * intros [E|[E|[]]]; apply (f_equal fr_name) in E; vm_compute in E; discriminate E.
      * intros H. apply first_needs in H as [E|E]; vm_compute in E; discriminate E.
    + split; [intros _; exact NZ|]. intros _. right. left. reflexivity.
Qed.
Example c88_case :
  valid_document pets (fun n x => any_value n x = None) false true both_doc /\ In first_op (doc_ops both_doc) /\ alone both_doc first_op first_doc /\
  verdict in_order pets_text first_query = Some [] /\ length (doc_frags both_doc) = 3 /\ length (doc_frags first_doc) = 2.
Proof.
  split; [exact both_valid|]. split; [left; reflexivity|]. split; [exact first_alone|]. split; [vm_compute; reflexivity|]. split; reflexivity.
Qed.
