(** C53 and C61: exactly when the type generator panics on a query it has accepted. *)
From Verif Require Import Base Ast Maps Graph Doc DocSpec DocRulesSpec FragmentsSpec DocProofs DocRules DocTypingProofs DocRulesProofs DocRulesProps
  FragmentCycles FragmentCyclesProofs CyclesProps OperationProofs Merging MergingSpec MergingTermination MergingProps MergingCases Lexer LexerSpec Parser DefParser Resolve ResolveProps DefRules Validator ValiditySpec ValidatorProofs
  EndToEndProofs ValidatorProps ValidatorCases Examples ParserProps DefParserProps Json Typegen TypegenDe TypegenSpec TypegenProofs TypegenBorrow TypegenShapes TypegenProps TypegenCases TypegenInput TypegenInputSpec TypegenInputProofs TypegenInputProps TypegenInputCases TypegenMacro TypegenMacroProps TypegenMacroCases CompatProofs.
Local Open Scope string_scope.
Local Open Scope list_scope.

(** The field of unions, __typename, has no fields itself. (It is a String!, and so this is true unless the schema itself defines
    an object type, interface or union called String.) *)
Definition union_fields_plain (S : schema) : Prop :=
  forall u fd t, In (DUnion u) (s_types S) -> In fd (un_fields u) -> get_type S (tref_base (fd_type fd)) = Some t -> is_leaf t.

Section Converse.
  Variable S : schema.
  Variable borrow : bool.
  Variable sb : name -> option bool.
  Variable d : document.
  Hypothesis HR : resolved S.
  Hypothesis Hok : document_ok S d.
  Hypothesis Hplain : union_fields_plain S.
  Notation build_set := (build_set S borrow sb).
  Notation build_fields := (build_fields S borrow sb).
  Notation build_selection := (build_selection S borrow sb).
  Notation build_variants := (build_variants S borrow sb).

  (** the conversion got through the selection set, as a type or as the fields of a variant *)
  Definition got_through (t : tdef) (sels : list selection) : Prop :=
    td_composite t = true /\
    ((exists p e, build_set p t sels = Built e) \/ (exists o fs, t = DObject o /\ build_fields (ob_fields o) sels = Built fs)).
  Lemma Forall2_In_l {A B} (P : A -> B -> Prop) l l' x : Forall2 P l l' -> In x l -> exists y, P x y.
  Proof. induction 1; intros []; subst; eauto. Qed.
  Lemma fields_each fds sels fs s : build_fields fds sels = Built fs -> In s sels -> exists f, build_selection fds s = Built f.
  Proof. intros H Hs. apply bseq_Forall2 in H. exact (Forall2_In_l _ _ _ _ H Hs). Qed.
  Lemma variants_each u sels vs c ds sub : build_variants u sels = Built vs -> In (SInline c ds sub) sels ->
    exists n o fs, c = Some n /\ get_type S n = Some (DObject o) /\ build_fields (ob_fields o) sub = Built fs.
  Proof.
    revert vs. induction sels as [|s sels IH]; intros vs H Hin; [destruct Hin|]. cbn in H.
    destruct s as [al m args ds' sub'|m ds'|c' ds' sub'].
    - destruct Hin as [E|Hin]; [discriminate|eauto].
    - destruct Hin as [E|Hin]; [discriminate|eauto].
    - apply bbind_Built in H as ([m fds] & Hv & H). apply bbind_Built in H as (fs & Hfs & H). apply bmap_Built in H as (vs' & H & _).
      destruct Hin as [E|Hin]; [|eauto]. injection E as -> -> ->. unfold variant_fields in Hv.
      destruct c as [c|]; [|discriminate]. destruct (tmem c (un_members u)); [|discriminate].
      destruct (get_type S c) as [[| |o| | | |]|] eqn:Eg; try discriminate. injection Hv as <- <-. exists c, o, fs. auto.
  Qed.
  (** then it got through the sets directly inside *)
  Lemma got_through_field r t sels al n args ds sub fd t1 : set_at S d r t sels -> got_through t sels ->
    In (SField al n args ds sub) sels -> sub <> [] -> has_field t n fd -> get_type S (tref_base (fd_type fd)) = Some t1 ->
    got_through t1 sub.
  Proof.
    intros Hset (Hc & Hg) Hin Hne Hf Ht1. unfold has_field in Hf.
    assert (Ht : In t (s_types S)) by (eapply set_at_In; eauto).
    assert (Hl : ~ is_leaf t1).
    { pose proof (doc_ok_sel S d Hok r t _ (ex_intro _ sels (conj Hset Hin))) as Hsel.
      inversion Hsel as [? ? ? ? ? fd' ft Hf' Hft Hl|? ? ? ? ? ? fd' ft Hf' Hft Hl Hne2 _| | |]; subst; congruence. }
    split.
    { destruct (wf_fields S (rs_wf S HR) t fd Ht) as (td & Htd & Ho); [apply get_field_Some in Hf; tauto|].
      rewrite Ht1 in Htd. injection Htd as <-. destruct t1; cbn in *; auto; tauto. }
    assert (HB : (exists f, build_selection (td_fields t) (SField al n args ds sub) = Built f) -> exists p e, build_set p t1 sub = Built e).
    { intros (f & HB). rewrite build_field_eq in HB. rewrite Hf, Ht1 in HB. apply bmap_Built in HB as (e & HB & _). eauto. }
    left. destruct Hg as [(p & e & Hg)|(o & fs & -> & Hg)]; [|apply HB; eapply fields_each; eauto].
    apply build_set_result in Hg. inversion Hg as [? m ds' b Hc' E Eb|? fs Hc' Hu HF Hne'|u vs HV Hsp Hne'|? ? Hc' Hl']; subst.
    - destruct Hin as [E|[]]. discriminate.
    - apply HB. exact (Forall2_In_l _ _ _ _ HF Hin).
    - destruct Hl. exact (Hplain u fd t1 Ht (proj1 (get_field_Some _ _ _ Hf)) Ht1).
    - congruence.
  Qed.
  Lemma got_through_inline r t sels c ds sub : set_at S d r t sels -> got_through t sels -> In (SInline c ds sub) sels ->
    exists n o fs, c = Some n /\ get_type S n = Some (DObject o) /\ build_fields (ob_fields o) sub = Built fs.
  Proof.
    intros Hset (Hc & Hg) Hin.
    assert (HB : forall fds, (exists f, build_selection fds (SInline c ds sub) = Built f) -> False) by (intros fds (f & H); discriminate).
    destruct Hg as [(p & e & Hg)|(o & fs & -> & Hg)]; [|destruct (HB _ (fields_each _ _ _ _ Hg Hin))].
    apply build_set_result in Hg. inversion Hg as [? m ds' b Hc' E Eb|? fs Hc' Hu HF Hne'|u vs HV Hsp Hne'|? ? Hc' Hl]; subst.
    - destruct Hin as [E|[]]. discriminate.
    - destruct (HB _ (Forall2_In_l _ _ _ _ HF Hin)).
    - eapply variants_each; eauto.
    - congruence.
  Qed.
  Lemma got_through_within r t sels t' sels' : within S t sels t' sels' -> set_at S d r t sels -> got_through t sels -> got_through t' sels'.
  Proof.
    induction 1 as [|t sels al n args ds sub fd t1 t' sels' Hin Hne Hf Hg Hw IH|t sels ds sub t' sels' Hin Hw IH|t sels c ds sub t1 t' sels' Hin Hg Hw IH]; intros Hset HG; auto.
    - apply IH; [|eapply got_through_field; eauto]. eapply set_at_within; eauto. eapply within_field; eauto. constructor.
    - destruct (got_through_inline _ _ _ _ _ _ Hset HG Hin) as (n & o & fs & E & _). discriminate.
    - destruct (got_through_inline _ _ _ _ _ _ Hset HG Hin) as (n & o & fs & E & Ho & HB). injection E as ->. rewrite Hg in Ho. injection Ho as ->.
      apply IH; [|split; [reflexivity|right; eauto]]. eapply set_at_within; eauto. eapply within_inline_on; eauto. constructor.
  Qed.
  (** ... and there is no spread in variants. *)
  Lemma built_no_spread : (forall r t sels, top S d r t sels -> got_through t sels) -> no_spread_in_variants S d.
  Proof.
    intros H r u c ds sub n ds' (sels & (t0 & s0 & Htop & Hw) & Hin) Hs.
    assert (Hset : set_at S d r (DUnion u) sels) by (exists t0, s0; auto).
    assert (HG : got_through (DUnion u) sels).
    { eapply got_through_within; eauto. exists t0, s0. split; [exact Htop|constructor]. }
    destruct (got_through_inline _ _ _ _ _ _ Hset HG Hin) as (m & o & fs & _ & _ & HB).
    destruct (fields_each _ _ _ _ HB Hs) as (f & E). discriminate.
  Qed.
End Converse.

(** * C53: the generator panics exactly on spreads inside inline fragments on unions *)
(** For queries that the generator has accepted, with an alias for each custom scalar. *)
Theorem generation_succeeds_iff : forall S d borrow scalar_borrows,
  resolved S -> union_fields_plain S -> well_parsed d -> validated S d ->
  (forall x, In (DScalar x) (s_types S) -> scalar_borrows (sc_name x) <> None) ->
  ((exists types, convert S borrow scalar_borrows d = Built types) <-> no_spread_in_variants S d).
Proof.
  intros S d borrow sb HR Hp HW HV Hsc. split; [|apply generation_never_panics_partial; auto].
  intros (types & HC). pose proof (validated_ok S d HR HW HV) as Hok.
  apply (built_no_spread S borrow sb d HR Hok Hp). unfold convert in HC.
  apply bbind_Built in HC as (named & HN & HC). cbv zeta in HC. apply bbind_Built in HC as (flags & HF & HC). apply bbind_Built in HC as (ops & HO & _).
  apply bseq_Forall2 in HN. apply bseq_Forall2 in HO.
  intros r t sels Htop. inversion Htop as [i o t' Hi Ht|i f t' Hi Ht]; subst; apply nth_error_In in Hi.
  - destruct (Forall2_In_l _ _ _ _ HO Hi) as (e & He). split; [eapply (rs_roots S HR); eauto|]. left. exists (operation_item_name o), e.
    unfold build_operation in He. destruct (proj2 (op_root_name_type S (op_type o) t) Ht) as (n & E1 & E2). rewrite E1, E2 in He. exact He.
  - destruct (Forall2_In_l _ _ _ _ HN Hi) as (e & He). destruct (proj2 Hok f Hi) as (t' & Ht' & Hc & _). rewrite Ht in Ht'. injection Ht' as <-.
    split; [exact Hc|]. left. apply bmap_Built in He as (e' & He & _). unfold build_fragment in He. rewrite Ht in He. eauto.
Qed.
Print Assumptions generation_succeeds_iff.

(** * C61: what the macro answers, for all texts *)
Section Macro.
  Variable so : list builtin.
  Variable dor : list ddef.
  Variable recover : text -> nat.
  Variable other_digit : N -> bool.
  Variable parse_f64 : text -> option N.
  Variable hook : name -> value -> option text.
  Variable str_enum one_of : bool.
  Variable ord : nat -> list (list fctx) -> list (list fctx).
  Variable pascal : name -> name.
  Notation macro := (typegen_macro so dor recover other_digit parse_f64 hook str_enum one_of ord pascal).
  Notation schema_of_text := (read_schema_with so dor recover other_digit parse_f64).
  Notation query_of_text := (parse_text recover other_digit parse_f64).
  Notation types_of := (query_types recover other_digit parse_f64 hook str_enum one_of ord).
  Notation all_of := (all_queries recover other_digit parse_f64 hook str_enum one_of ord).

  (** The options and the schema are in order: the schema is read and is sound, the aliases fit it, and borrowing is not asked for
      with miniserde. *)
  Definition ready (schema_text : text) (borrow : bool) (cod : codec) (aliases : list alias) (S : schema) : Prop :=
    (cod = Miniserde -> borrow = false) /\ schema_of_text schema_text = inl (inl S) /\ definition_errors S = [] /\ aliases_fit pascal S borrow aliases.
  (** The text is a query that the validator and the generator's own rule accept. *)
  Definition accepted_query (S : schema) (q : text) (d : document) : Prop :=
    query_of_text q = inl d /\ validate S hook str_enum one_of ord d = Some [] /\ typegen_errors d (visit S d) = [].
  (** ... and types can be made for it. *)
  Definition good_query (S : schema) (q : text) : Prop := exists d, accepted_query S q d /\ no_spread_in_variants S d.

  Lemma no_panic_reported S d : validate S hook str_enum one_of ord d = Some [] ->
    existsb (fun e => match e with TPanic => true | _ => false end) (typegen_errors d (visit S d)) = false.
  Proof.
    intros V. match goal with |- ?x = false => destruct x eqn:E; auto end. exfalso. apply existsb_exists in E as (e & He & Ee). destruct e; try discriminate.
    apply validate_silent in V as (_ & V). exact (generator_rule_never_panics S d (si_fragment_targets _ _ _ _ _ _ _ _ V) He).
  Qed.
  Lemma types_good S borrow sb q : resolved S -> (forall x, In (DScalar x) (s_types S) -> sb (sc_name x) <> None) -> good_query S q ->
    forall i, exists types, types_of S borrow sb i q = inl types.
  Proof.
    intros RS Hc (d & (D & V & T) & Hn) i. unfold query_types. rewrite D, V, T. cbn [existsb].
    destruct (generation_never_panics_partial S d borrow sb RS (parsed_document _ _ _ _ _ D) (accepted_validated _ _ _ _ _ _ V T) Hc Hn) as (types & ->). eauto.
  Qed.
  Lemma all_good S borrow sb before q after : resolved S -> (forall x, In (DScalar x) (s_types S) -> sb (sc_name x) <> None) ->
    (forall q', In q' before -> good_query S q') -> forall i e, types_of S borrow sb (length before + i) q = inr e ->
    all_of S borrow sb i (before ++ q :: after) = inr e.
  Proof.
    intros RS Hc. induction before as [|b before IH]; intros Hb i e E; cbn [app all_queries].
    - cbn in E. rewrite E. reflexivity.
    - destruct (types_good S borrow sb b RS Hc (Hb b (or_introl eq_refl)) i) as (types & ->).
      rewrite (IH (fun q' H => Hb q' (or_intror H)) (Datatypes.S i) e); [reflexivity|].
      rewrite <- E. f_equal. cbn [length]. lia.
  Qed.
  Lemma ready_macro st borrow cod aliases S : ready st borrow cod aliases S ->
    exists m its, (forall x, In (DScalar x) (s_types S) -> scalar_lookup pascal m (sc_name x) <> None) /\ resolved S /\
      forall queries, macro st borrow cod aliases queries =
        match all_of S borrow (scalar_lookup pascal m) 0 queries with inl qs => MItems its qs | inr (Some e) => MError e | inr None => MPanic end.
  Proof.
    intros (HB & HS & HD & HA). apply custom_scalars_iff in HA as [m HM]. destruct (custom_scalars_conditions _ _ _ _ _ HM) as [Hc _].
    unfold read_schema_with in HS. destruct (parse_schema_text _ _ _ _ _ _) as [dd|] eqn:P; [|discriminate]. destruct (Resolve.resolve dd) as [S'|es] eqn:R; [|discriminate]. injection HS as ->.
    destruct (input_types_generated S borrow (scalar_lookup pascal m) (resolved_inputs _ _ R) Hc) as (its & HI & _).
    exists m, its. split; [exact Hc|]. split; [eapply resolved_schema; eauto|]. intros queries. unfold typegen_macro.
    replace (borrow && _) with false by (symmetry; destruct cod, borrow; auto; discriminate (HB eq_refl)).
    rewrite P, R, HD, HM, HI. reflexivity.
  Qed.

  (** The type String of the schema, that of __typename, has no fields. (A schema may define String itself, even as an object type.) *)
  Definition string_is_leaf (S : schema) : Prop := forall t, get_type S (tx "String") = Some t -> is_leaf t.
  Lemma string_plain st S : schema_of_text st = inl (inl S) -> string_is_leaf S -> union_fields_plain S.
  Proof.
    intros HS H u fd t Hu Hf Ht. rewrite (read_unions _ _ _ _ _ _ _ _ HS Hu) in Hf. destruct Hf as [<-|[]]. exact (H t Ht).
  Qed.

  (** The answer about queries: the first that is not good decides. *)
  Theorem macro_first_bad_query : forall schema_text borrow cod aliases S before q after,
    ready schema_text borrow cod aliases S -> some_order ord -> string_is_leaf S ->
    (forall q', In q' before -> good_query S q') ->
    let answer := macro schema_text borrow cod aliases (before ++ q :: after) in
    (forall es, query_of_text q = inr es -> answer = MError (MQuerySyntax (length before) es)) /\
    (forall d e es, query_of_text q = inl d -> validate S hook str_enum one_of ord d = Some (e :: es) -> answer = MError (MQueryInvalid (length before) (e :: es))) /\
    (forall d e es, query_of_text q = inl d -> validate S hook str_enum one_of ord d = Some [] -> typegen_errors d (visit S d) = e :: es ->
       answer = MError (MQueryUnsupported (length before) (e :: es))) /\
    (forall d, accepted_query S q d -> ~ no_spread_in_variants S d -> answer = MPanic).
  Proof.
    intros st borrow cod aliases S before q after HRd Ho Hp Hb answer. apply (string_plain _ _ (proj1 (proj2 HRd))) in Hp. destruct (ready_macro _ _ _ _ _ HRd) as (m & its & Hc & RS & HE).
    assert (K : forall e, types_of S borrow (scalar_lookup pascal m) (length before) q = inr e -> answer = match e with Some e => MError e | None => MPanic end).
    { intros e E. unfold answer. rewrite HE. rewrite (all_good S borrow (scalar_lookup pascal m) before q after RS Hc Hb 0 e); [destruct e; reflexivity|].
      rewrite Nat.add_0_r. exact E. }
    repeat split.
    - intros es D. apply (K (Some _)). unfold query_types. rewrite D. reflexivity.
    - intros d e es D V. apply (K (Some _)). unfold query_types. rewrite D, V. reflexivity.
    - intros d e es D V T. apply (K (Some _)). unfold query_types. rewrite D, V, (no_panic_reported _ _ V), T. reflexivity.
    - intros d (D & V & T) Hn. apply (K None). unfold query_types. rewrite D, V, T. cbn [existsb].
      destruct (convert S borrow (scalar_lookup pascal m) d) as [types|] eqn:C; [|reflexivity]. exfalso. apply Hn.
      apply (generation_succeeds_iff S d borrow (scalar_lookup pascal m) RS Hp (parsed_document _ _ _ _ _ D) (accepted_validated _ _ _ _ _ _ V T) Hc). eauto.
  Qed.
  (** It answers with types exactly if all is in order and every query is good. *)
  Theorem macro_succeeds_iff : forall schema_text borrow cod aliases queries,
    (forall S, schema_of_text schema_text = inl (inl S) -> string_is_leaf S) ->
    ((exists types queries_types, macro schema_text borrow cod aliases queries = MItems types queries_types) <->
     exists S, ready schema_text borrow cod aliases S /\ forall q, In q queries -> good_query S q).
  Proof.
    intros st borrow cod aliases queries Hp. split.
    - intros (its & qs & H). apply macro_items in H as (S & m & HS & HD & HM & HI & HQ & HB). exists S.
      split; [split; [exact HB|]; split; [exact HS|]; split; [exact HD|]; apply custom_scalars_iff; eauto|].
      apply all_queries_ok in HQ. intros q Hin.
      assert (K : exists ts j, types_of S borrow (scalar_lookup pascal m) j q = inl ts).
      { clear -HQ Hin. induction HQ as [|x y l l' (j & H) F IH]; [destruct Hin|destruct Hin as [<-|Hin]; eauto]. }
      destruct K as (ts & j & K). apply query_types_ok in K as (d & D & V & VD & C). exists d.
      split; [split; [exact D|]; split; [exact V|]; apply (va_typegen _ _ VD)|].
      destruct (custom_scalars_conditions _ _ _ _ _ HM) as [Hc _].
      apply (generation_succeeds_iff S d borrow (scalar_lookup pascal m) (read_schema_resolved _ _ _ _ _ _ _ HS) (string_plain _ _ HS (Hp S HS)) (parsed_document _ _ _ _ _ D) VD Hc). eauto.
    - intros (S & HRd & Hq). destruct (ready_macro _ _ _ _ _ HRd) as (m & its & Hc & RS & HE).
      assert (K : forall i, exists out, all_of S borrow (scalar_lookup pascal m) i queries = inl out).
      { clear HE. induction queries as [|q qs IH]; intros i; cbn [all_queries]; [eauto|].
        destruct (types_good S borrow (scalar_lookup pascal m) q RS Hc (Hq q (or_introl eq_refl)) i) as (types & ->).
        destruct (IH (fun q' H => Hq q' (or_intror H)) (Datatypes.S i)) as (out & ->). eauto. }
      destruct (K 0) as (out & E). exists its, out. rewrite HE, E. reflexivity.
  Qed.
  (** It panics exactly if all is in order and the first query that is not good is accepted all the same. *)
  Theorem macro_panics_iff : forall schema_text borrow cod aliases queries,
    some_order ord -> (forall S, schema_of_text schema_text = inl (inl S) -> string_is_leaf S) ->
    (macro schema_text borrow cod aliases queries = MPanic <->
     exists S before q d after, ready schema_text borrow cod aliases S /\ queries = before ++ q :: after /\
       (forall q', In q' before -> good_query S q') /\ accepted_query S q d /\ ~ no_spread_in_variants S d).
  Proof.
    intros st borrow cod aliases queries Ho Hp. split.
    - intros H.
      assert (HRd : exists S, ready st borrow cod aliases S).
      { revert H. unfold typegen_macro. destruct (borrow && _) eqn:B; [discriminate|].
        destruct (parse_schema_text _ _ _ _ _ _) as [dd|] eqn:P; [|discriminate]. destruct (Resolve.resolve dd) as [S|es] eqn:R; [|discriminate].
        destruct (definition_errors S) eqn:D; [|discriminate]. destruct (custom_scalars pascal S borrow aliases) as [m|] eqn:M; [|discriminate]. intros _.
        exists S. split; [intros ->; destruct borrow; auto|]. split; [unfold read_schema_with; rewrite P, R; reflexivity|]. split; [exact D|]. apply custom_scalars_iff; eauto. }
      destruct HRd as (S & HRd). exists S. destruct (ready_macro _ _ _ _ _ HRd) as (m & its & Hc & RS & HE).
      assert (HS : union_fields_plain S) by (apply (string_plain st); [apply HRd|apply Hp; apply HRd]).
      rewrite HE in H. destruct (all_of S borrow (scalar_lookup pascal m) 0 queries) as [|[|]] eqn:A; try discriminate. clear H HE.
      assert (K : forall qs i, all_of S borrow (scalar_lookup pascal m) i qs = inr None ->
        exists before q after j, qs = before ++ q :: after /\ (forall q', In q' before -> exists k ts, types_of S borrow (scalar_lookup pascal m) k q' = inl ts) /\
          types_of S borrow (scalar_lookup pascal m) j q = inr None).
      { clear. induction qs as [|q qs IH]; intros i A; cbn in A; [discriminate|]. destruct (types_of S borrow (scalar_lookup pascal m) i q) eqn:E.
        - destruct (all_of S borrow (scalar_lookup pascal m) (Datatypes.S i) qs) eqn:E'; [discriminate|]. injection A as ->.
          destruct (IH _ E') as (before & q' & after & j & -> & Hb & Hj). exists (q :: before), q', after, j. split; [reflexivity|]. split; [|exact Hj].
          intros x [<-|Hx]; eauto.
        - injection A as ->. exists [], q, qs, i. split; [reflexivity|]. split; [intros ? []|exact E]. }
      destruct (K _ _ A) as (before & q & after & j & -> & Hb & Hj). exists before, q.
      unfold query_types in Hj. destruct (query_of_text q) as [d|] eqn:D; [|discriminate]. exists d, after.
      destruct (validate_total S hook str_enum one_of ord d (rs_wf _ RS) Ho) as [[|e es] V]; rewrite V in Hj; [|discriminate].
      rewrite (no_panic_reported _ _ V) in Hj. destruct (typegen_errors d (visit S d)) eqn:T; [|discriminate].
      destruct (convert S borrow (scalar_lookup pascal m) d) as [|] eqn:C; [discriminate|].
      split; [exact HRd|]. split; [reflexivity|]. split.
      + intros q' Hq'. destruct (Hb q' Hq') as (k & ts & E). apply query_types_ok in E as (d' & D' & V' & VD' & C'). exists d'.
        split; [split; [exact D'|]; split; [exact V'|]; apply (va_typegen _ _ VD')|].
        apply (generation_succeeds_iff S d' borrow (scalar_lookup pascal m) RS HS (parsed_document _ _ _ _ _ D') VD' Hc). eauto.
      + split; [split; [exact D|]; split; [exact V|exact T]|]. intros Hn.
        destruct (generation_never_panics_partial S d borrow (scalar_lookup pascal m) RS (parsed_document _ _ _ _ _ D) (accepted_validated _ _ _ _ _ _ V T) Hc Hn) as (types & E). congruence.
    - intros (S & before & q & d & after & HRd & -> & Hb & HA & Hn).
      destruct (macro_first_bad_query _ _ _ _ _ before q after HRd Ho (Hp S (proj1 (proj2 HRd))) Hb) as (_ & _ & _ & H). eauto.
  Qed.
End Macro.
Print Assumptions macro_first_bad_query.
Print Assumptions macro_succeeds_iff.
Print Assumptions macro_panics_iff.

(** A concrete case: the second of three queries spreads a fragment inside an inline fragment on a union. The macro panics, and all
    the conditions of the theorems are met. *)
Definition bad_query : string := "{ find { __typename ... on User { ...U } } } fragment U on User { id }".
Example ex_shop_string : forall S, read_schema_with all_builtins all_builtin_directives (fun _ => 1) (fun _ => false) no_floats (tx shop_text) = inl (inl S) -> string_is_leaf S.
Proof. intros S HS t H. rewrite shop_read in HS. injection HS as <-. vm_compute in H. injection H as <-. exact I. Qed.
Example ex_macro_panics :
  expand shop_text true Serde [date_alias] [shop_query; bad_query; "{"] = MPanic /\
  exists S before q d after,
    ready all_builtins all_builtin_directives (fun _ => 1) (fun _ => false) no_floats same (tx shop_text) true Serde [date_alias] S /\ string_is_leaf S /\
    map tx [shop_query; bad_query; "{"] = before ++ q :: after /\
    (forall q', In q' before -> good_query (fun _ => 1) (fun _ => false) no_floats any_value false true in_order S q') /\
    accepted_query (fun _ => 1) (fun _ => false) no_floats any_value false true in_order S q d /\ ~ no_spread_in_variants S d.
Proof.
  assert (E : expand shop_text true Serde [date_alias] [shop_query; bad_query; "{"] = MPanic) by (vm_compute; reflexivity).
  split; [exact E|]. unfold expand in E. apply macro_panics_iff in E; [|apply in_order_ok|apply ex_shop_string].
  destruct E as (S & before & q & d & after & H1 & H2). exists S, before, q, d, after. split; [exact H1|]. split; [|exact H2].
  apply ex_shop_string. apply H1.
Qed.
Example ex_macro_succeeds : exists S, ready all_builtins all_builtin_directives (fun _ => 1) (fun _ => false) no_floats same (tx shop_text) true Serde [date_alias] S /\
  forall q, In q (map tx [shop_query; shop_query2]) -> good_query (fun _ => 1) (fun _ => false) no_floats any_value false true in_order S q.
Proof.
  apply (macro_succeeds_iff all_builtins all_builtin_directives (fun _ => 1) (fun _ => false) no_floats any_value false true in_order same (tx shop_text) true Serde [date_alias] (map tx [shop_query; shop_query2]) ex_shop_string).
  destruct ex_macro_types as [E _]. unfold expand in E. rewrite E. unfold shop_out. eauto.
Qed.
