(** C61: the macro [typegen], from the texts of a schema and of queries to types. *)
From Verif Require Import Base Ast Graph Doc DocSpec DocRules FragmentCycles Merging MergingSpec MergingTermination MergingProps Lexer LexerSpec Parser DefParser Resolve ResolveProps DefRules Validator ValiditySpec ValidatorProofs
  EndToEndProofs ValidatorProps Typegen TypegenSpec TypegenDe TypegenProps TypegenCodeProps TypegenInput TypegenInputSpec TypegenInputProofs TypegenInputProps TypegenInputCases
  Json TypegenResponseProps TypegenMacro.
Local Open Scope string_scope.
Local Open Scope list_scope.

Lemma accepted_validated S hook se oo ord d :
  validate S hook se oo ord d = Some [] -> typegen_errors d (visit S d) = [] -> validated S d.
Proof.
  intros H T. apply validate_silent in H as (_ & [S0 S1 S2 S3 S4 S5 S6 S7 S8 S9 S10 S11 S12 S13 S14 S15 S16 S17 S18 S19 S20 S21 S22 S23 S24 S25]).
  refine (Build_validated _ _ S3 S6 S11 S12 S5 S10 S14 S16 S1 S0 S15 T).
Qed.
Section Macro.
  Variable so : list builtin.
  Variable dor : list ddef.
  Variable recover : text -> nat.
  Variable other_digit : N -> bool.
  Variable parse_f64 : text -> option N.
  Variable hook : name -> value -> option text.
  Variable str_enum one_of : bool.
  Variable ord : nat -> list (list fctx) -> list (list fctx).
  Variable pascal : name -> name.
  Notation macro := (typegen_macro so dor recover other_digit parse_f64 hook str_enum one_of ord pascal).
  Notation schema_of_text := (read_schema_with so dor recover other_digit parse_f64).
  Notation query_of_text := (parse_text recover other_digit parse_f64).
  Notation types_of := (query_types recover other_digit parse_f64 hook str_enum one_of ord).
  Notation all_of := (all_queries recover other_digit parse_f64 hook str_enum one_of ord).

  Lemma query_types_ok S borrow sb i q types : types_of S borrow sb i q = inl types ->
    exists d, query_of_text q = inl d /\ validate S hook str_enum one_of ord d = Some [] /\ validated S d /\ convert S borrow sb d = Built types.
  Proof.
    unfold query_types. destruct (query_of_text q) as [d|]; [|discriminate]. destruct (validate S hook str_enum one_of ord d) as [[|]|] eqn:V; try discriminate.
    destruct (existsb _ _); [discriminate|]. destruct (typegen_errors d (visit S d)) eqn:T; [|discriminate]. destruct (convert S borrow sb d) eqn:C; [|discriminate].
    intros [= <-]. exists d. split; [reflexivity|]. split; [exact V|]. split; [eapply accepted_validated; eauto|exact C].
  Qed.
  Lemma all_queries_ok S borrow sb qs : forall i out, all_of S borrow sb i qs = inl out ->
    Forall2 (fun q types => exists j, types_of S borrow sb j q = inl types) qs out.
  Proof.
    induction qs as [|q qs IH]; intros i out H; cbn in H; [injection H as <-; constructor|].
    destruct (types_of S borrow sb i q) eqn:E; [|discriminate]. destruct (all_of S borrow sb (Datatypes.S i) qs) eqn:E'; [|discriminate].
    injection H as <-. constructor; eauto.
  Qed.
  Lemma all_queries_panic S borrow sb qs : forall i, all_of S borrow sb i qs = inr None -> exists q j, In q qs /\ types_of S borrow sb j q = inr None.
  Proof.
    induction qs as [|q qs IH]; intros i H; cbn in H; [discriminate|]. destruct (types_of S borrow sb i q) eqn:E.
    - destruct (all_of S borrow sb (Datatypes.S i) qs) eqn:E'; [discriminate|]. injection H as ->. destruct (IH _ E') as (q' & j & Hq & Hj). exists q', j. split; auto. right. auto.
    - injection H as ->. exists q, i. split; auto. left. auto.
  Qed.
  (** what an answer with items says *)
  Lemma macro_items st borrow cod aliases queries its qs : macro st borrow cod aliases queries = MItems its qs ->
    exists S m, schema_of_text st = inl (inl S) /\ definition_errors S = [] /\ custom_scalars pascal S borrow aliases = inl m /\
      schema_items S borrow (scalar_lookup pascal m) = Built its /\ all_of S borrow (scalar_lookup pascal m) 0 queries = inl qs /\
      (cod = Miniserde -> borrow = false).
  Proof.
    unfold typegen_macro, read_schema_with. intros H. destruct (borrow && _) eqn:B; [discriminate|].
    destruct (parse_schema_text _ _ _ _ _ _) as [dd|]; [|discriminate]. destruct (Resolve.resolve dd) as [S|es]; [|discriminate].
    destruct (definition_errors S) eqn:D; [|discriminate]. destruct (custom_scalars pascal S borrow aliases) as [m|] eqn:M; [|discriminate].
    destruct (schema_items S borrow (scalar_lookup pascal m)) as [x|] eqn:I; [|discriminate].
    destruct (all_queries _ _ _ _ _ _ _ _ _ _ _ _) as [y|[y|]] eqn:Q; try discriminate. injection H as <- <-.
    exists S, m. repeat split; auto. intros ->. destruct borrow; auto.
  Qed.

  (** * No panics *)
  (** Full statement: the macro never panics. The missing part: queries with a fragment spread inside an inline fragment on a
      union, see [macro_panics_refuted]. *)
  Theorem macro_never_panics_partial : forall schema_text borrow cod aliases queries,
    some_order ord ->
    (forall S q d, schema_of_text schema_text = inl (inl S) -> In q queries -> query_of_text q = inl d -> no_spread_in_variants S d) ->
    macro schema_text borrow cod aliases queries <> MPanic.
  Proof.
    intros st borrow cod aliases queries Ho Hq. unfold typegen_macro. destruct (borrow && _); [discriminate|].
    unfold read_schema_with in Hq. destruct (parse_schema_text _ _ _ _ _ _) as [dd|] eqn:P; [|discriminate].
    destruct (Resolve.resolve dd) as [S|es] eqn:R; [|discriminate]. specialize (Hq S).
    destruct (definition_errors S); [|discriminate]. destruct (custom_scalars pascal S borrow aliases) as [m|] eqn:M; [|discriminate].
    destruct (custom_scalars_conditions _ _ _ _ _ M) as [Hc _].
    pose proof (resolved_schema _ _ R) as RS.
    destruct (input_types_generated S borrow (scalar_lookup pascal m) (resolved_inputs _ _ R) Hc) as (its & -> & _).
    destruct (all_queries _ _ _ _ _ _ _ _ _ _ _ _) as [y|[y|]] eqn:Q; try discriminate. exfalso.
    apply all_queries_panic in Q as (q & j & Hin & Q). unfold query_types in Q. destruct (query_of_text q) as [d|] eqn:D; [|discriminate].
    destruct (validate_total S hook str_enum one_of ord d (rs_wf _ RS) Ho) as [[|e es] V]; rewrite V in Q; [|discriminate].
    destruct (existsb _ (typegen_errors d (visit S d))) eqn:E.
    - apply existsb_exists in E as (e & He & Ee). destruct e; try discriminate.
      apply validate_silent in V as (_ & V). exact (generator_rule_never_panics S d (si_fragment_targets _ _ _ _ _ _ _ _ V) He).
    - destruct (typegen_errors d (visit S d)) eqn:T; [|discriminate].
      destruct (generation_never_panics_partial S d borrow (scalar_lookup pascal m) RS (parsed_document _ _ _ _ _ D) (accepted_validated _ _ _ _ _ _ V T) Hc
        (Hq q d eq_refl Hin D)) as (types & K). rewrite K in Q. discriminate.
  Qed.

  (** * The types it generates *)
  (** The query at each position yields types, and only valid queries do. *)
  Theorem macro_accepts_valid_only_partial : forall schema_text borrow cod aliases queries types queries_types,
    some_order ord -> reads_numbers parse_f64 ->
    macro schema_text borrow cod aliases queries = MItems types queries_types ->
    exists S, schema_of_text schema_text = inl (inl S) /\
      Forall2 (fun q _ => exists d, query_of_text q = inl d /\
        (nested_roots_single d -> fields_agree S d -> typename_plain S d -> listed_usages_allowed S d ->
         valid_document S (fun n x => hook n x = None) str_enum one_of d)) queries queries_types.
  Proof.
    intros st borrow cod aliases queries its qs Ho HP H. apply macro_items in H as (S & m & HS & _ & _ & _ & HQ & _). exists S. split; auto.
    apply all_queries_ok in HQ. induction HQ as [|q ts l l' (j & H) F IH]; constructor; auto.
    apply query_types_ok in H as (d & D & V & _). exists d. split; auto. intros H1 H2 H3 H4.
    exact (accepted_texts_valid_partial _ _ _ _ _ _ _ _ _ _ _ _ HS D HP hook str_enum one_of ord Ho H1 H2 H3 H4 V).
  Qed.
  (** The generated code is accepted by the Rust compiler, as far as [compiles] says, and the input types have finite size. *)
  Theorem macro_output_compiles_partial : forall snake schema_text borrow cod aliases queries types queries_types,
    macro schema_text borrow cod aliases queries = MItems types queries_types ->
    (forall a, ~ plus (holds_inside types) a a) /\
    exists S, schema_of_text schema_text = inl (inl S) /\
      Forall2 (fun q ts => exists d, query_of_text q = inl d /\
        (names_fit S d pascal snake -> no_renamed_fragments d -> (cod = Serde -> no_typename_in_variants S d) ->
         (cod = Miniserde -> names_fit_miniserde S d pascal snake) -> compiles pascal snake cod ts)) queries queries_types.
  Proof.
    intros snake st borrow cod aliases queries its qs H. apply macro_items in H as (S & m & HS & _ & _ & HI & HQ & _).
    pose proof (read_schema_resolved _ _ _ _ _ _ _ HS) as RS. split.
    - unfold read_schema_with in HS. destruct (parse_schema_text _ _ _ _ _ _) as [dd|]; [|discriminate]. destruct (Resolve.resolve dd) eqn:R; [|discriminate]. injection HS as ->.
      eapply input_types_finite; eauto using resolved_inputs.
    - exists S. split; auto. apply all_queries_ok in HQ. induction HQ as [|q ts l l' (j & H) F IH]; constructor; auto.
      apply query_types_ok in H as (d & D & V & VD & C). exists d. split; auto. intros H1 H2 H3 H4.
      eapply generated_code_compiles_partial; eauto using parsed_document.
  Qed.
  (** Every answer a server may give to an operation of a query is read by the type generated for it, and shows what was sent. *)
  Theorem macro_reads_responses_partial : forall snake scalar_de (scalar_out : name -> json -> Prop) vals schema_text borrow cod aliases queries types queries_types,
    macro schema_text borrow cod aliases queries = MItems types queries_types ->
    (forall n j, scalar_out n j -> scalar_de n j = true) ->
    exists S, schema_of_text schema_text = inl (inl S) /\
      (wf_types S ->
       Forall2 (fun q ts => exists d, query_of_text q = inl d /\
        (compiles pascal snake cod ts ->
         (forall a b, In a (item_names d) -> In b (item_names d) -> pascal a = pascal b -> a = b) ->
         nothing_skipped S d vals -> union_spreads_cover S d -> (cod = Miniserde -> no_typename_in_variants S d) ->
         forall i o j, nth_error (doc_ops d) i = Some o -> operation_response S d vals scalar_out o j ->
         exists e v, nth_error ts i = Some e /\ de cod S scalar_de pascal (items ts) j (WBase e) = Some v /\ shows v j)) queries queries_types).
  Proof.
    intros snake sde sout vals st borrow cod aliases queries its qs H Hsc. apply macro_items in H as (S & m & HS & _ & _ & HI & HQ & _).
    pose proof (read_schema_resolved _ _ _ _ _ _ _ HS) as RS. exists S. split; auto. intros HT.
    apply all_queries_ok in HQ. induction HQ as [|q ts l l' (j & H) F IH]; constructor; auto.
    apply query_types_ok in H as (d & D & V & VD & C). exists d. split; auto. intros.
    eapply responses_deserialize_partial; eauto using parsed_document.
  Qed.
  (** * When it succeeds *)
  (** The aliases fit the custom scalars of the schema: each scalar has one; each is for a scalar, has no type or const
      parameters, and at most one lifetime, none if borrowing is off. *)
  Definition aliases_fit (S : schema) (borrow : bool) (aliases : list alias) : Prop :=
    (forall x, In (DScalar x) (s_types S) -> exists a, In a aliases /\ ta_name a = pascal (sc_name x)) /\
    (forall a, In a aliases -> ta_types a = false /\ ta_consts a = false /\ ta_lifetimes a <= (if borrow then 1 else 0) /\
       exists x, In (DScalar x) (s_types S) /\ ta_name a = pascal (sc_name x)).
  Lemma custom_scalars_iff S borrow aliases : (exists m, custom_scalars pascal S borrow aliases = inl m) <-> aliases_fit S borrow aliases.
  Proof.
    split.
    - intros [m H]. apply custom_scalars_defined in H as [H1 H2]. split; auto. intros x Hx. destruct (H1 x Hx) as (a & Ha & E & _). eauto.
    - intros [H1 H2]. unfold custom_scalars.
      assert (E1 : first_error (alias_check pascal S borrow) aliases = None).
      { apply first_error_None. intros a Ha. destruct (H2 a Ha) as (T & C & L & x & Hx & En). unfold alias_check. rewrite T, C.
        replace (negb borrow && Nat.ltb 0 (ta_lifetimes a)) with false by (symmetry; destruct borrow; cbn [negb andb]; auto; apply Nat.ltb_ge; auto).
        replace (borrow && Nat.ltb 1 (ta_lifetimes a)) with false by (symmetry; destruct borrow; cbn [negb andb]; auto; apply Nat.ltb_ge; auto).
        replace (existsb _ _) with true; auto. symmetry. apply existsb_exists. exists (sc_name x). split; [apply scalar_names_In; eauto|apply teqb_eq; auto]. }
      rewrite E1. match goal with |- context [first_error ?f ?l] => assert (E2 : first_error f l = None) end.
      { apply first_error_None. intros n Hn. apply scalar_names_In in Hn as (x & Hx & <-). destruct (H1 x Hx) as (a & Ha & En).
        destruct (assoc_last (pascal (sc_name x)) (map (fun a => (ta_name a, Nat.ltb 0 (ta_lifetimes a))) aliases)) eqn:E; auto. exfalso.
        apply (proj1 (assoc_last_None _ _) E). rewrite <- En. apply in_map_iff. exists (ta_name a, Nat.ltb 0 (ta_lifetimes a)). split; auto. apply in_map_iff. eauto. }
      rewrite E2. eauto.
  Qed.
  (** Full statement: without the condition on spreads, see [macro_panics_refuted]. *)
  Theorem macro_succeeds_iff_partial : forall schema_text borrow cod aliases queries,
    some_order ord ->
    (forall S q d, schema_of_text schema_text = inl (inl S) -> In q queries -> query_of_text q = inl d -> no_spread_in_variants S d) ->
    ((exists types queries_types, macro schema_text borrow cod aliases queries = MItems types queries_types) <->
     (cod = Miniserde -> borrow = false) /\
     exists S, schema_of_text schema_text = inl (inl S) /\ definition_errors S = [] /\ aliases_fit S borrow aliases /\
       forall q, In q queries -> exists d, query_of_text q = inl d /\ validate S hook str_enum one_of ord d = Some [] /\ typegen_errors d (visit S d) = []).
  Proof.
    intros st borrow cod aliases queries Ho Hq. split.
    - intros (its & qs & H). apply macro_items in H as (S & m & HS & HD & HM & HI & HQ & HB). split; auto. exists S. split; auto. split; auto.
      split; [apply custom_scalars_iff; eauto|]. apply all_queries_ok in HQ. intros q Hin.
      assert (K : exists ts j, types_of S borrow (scalar_lookup pascal m) j q = inl ts).
      { clear -HQ Hin. induction HQ as [|x y l l' (j & H) F IH]; [destruct Hin|destruct Hin as [<-|Hin]; eauto]. }
      destruct K as (ts & j & K). apply query_types_ok in K as (d & D & V & VD & _). exists d. split; auto. split; auto. apply (va_typegen _ _ VD).
    - intros (HB & S & HS & HD & HA & HQ). apply custom_scalars_iff in HA as [m HM].
      assert (P := macro_never_panics_partial st borrow cod aliases queries Ho Hq).
      destruct (custom_scalars_conditions _ _ _ _ _ HM) as [Hc _].
      assert (K : forall i, exists out, all_of S borrow (scalar_lookup pascal m) i queries = inl out).
      { pose proof (read_schema_resolved _ _ _ _ _ _ _ HS) as RS.
        assert (Hq' : forall q d, In q queries -> query_of_text q = inl d -> no_spread_in_variants S d) by (intros; eapply Hq; eauto). clear Hq P.
        induction queries as [|q qs IH]; intros i; cbn [all_queries]; [eauto|].
        destruct (HQ q (or_introl eq_refl)) as (d & D & V & T).
        destruct (generation_never_panics_partial S d borrow (scalar_lookup pascal m) RS (parsed_document _ _ _ _ _ D) (accepted_validated _ _ _ _ _ _ V T) Hc
          (Hq' q d (or_introl eq_refl) D)) as (types & K).
        assert (E : types_of S borrow (scalar_lookup pascal m) i q = inl types) by (unfold query_types; rewrite D, V, T, K; reflexivity).
        rewrite E. destruct (IH ltac:(intros; apply HQ; right; auto) ltac:(intros; eapply Hq'; [right|]; eauto) (Datatypes.S i)) as [out ->]. eauto. }
      revert P. unfold typegen_macro. unfold read_schema_with in HS.
      replace (borrow && _) with false by (symmetry; destruct cod, borrow; auto; discriminate (HB eq_refl)).
      destruct (parse_schema_text _ _ _ _ _ _) as [dd|]; [|discriminate]. destruct (Resolve.resolve dd) as [S'|es]; [|discriminate]. injection HS as ->.
      rewrite HD, HM. destruct (schema_items S borrow (scalar_lookup pascal m)) as [its|]; [|intros P; exfalso; apply P; reflexivity].
      destruct (K 0) as [out ->]. eauto.
  Qed.
  (** Each operation's type has a lifetime exactly when its data may borrow, which takes the option [borrow]. *)
  Theorem macro_lifetimes_exact : forall schema_text borrow cod aliases queries types queries_types,
    macro schema_text borrow cod aliases queries = MItems types queries_types ->
    exists S scalar_borrows, schema_of_text schema_text = inl (inl S) /\
      (forall x, In (DScalar x) (s_types S) -> exists a, In a aliases /\ ta_name a = pascal (sc_name x) /\ scalar_borrows (sc_name x) = Some (Nat.ltb 0 (ta_lifetimes a))) /\
      (forall x, In (SInput x) types -> (id_lifetime x = true <-> may_borrow S borrow scalar_borrows (id_name x))) /\
      Forall2 (fun q ts => exists d, query_of_text q = inl d /\
        forall i o t, nth_error (doc_ops d) i = Some o -> root_type S (op_type o) t ->
        exists e, nth_error ts i = Some e /\ (borrows e = true <-> selects_borrowed S d borrow scalar_borrows t (op_sel o))) queries queries_types.
  Proof.
    intros st borrow cod aliases queries its qs H. apply macro_items in H as (S & m & HS & _ & HM & HI & HQ & _).
    pose proof (read_schema_resolved _ _ _ _ _ _ _ HS) as RS. exists S, (scalar_lookup pascal m). split; auto.
    destruct (custom_scalars_conditions _ _ _ _ _ HM) as [_ Hn]. split; [apply (custom_scalars_defined _ _ _ _ _ HM)|]. split.
    - unfold read_schema_with in HS. destruct (parse_schema_text _ _ _ _ _ _) as [dd|]; [|discriminate]. destruct (Resolve.resolve dd) eqn:R; [|discriminate]. injection HS as ->.
      eapply lifetimes_of_inputs_exact; eauto using resolved_inputs.
    - apply all_queries_ok in HQ. induction HQ as [|q ts l l' (j & H) F IH]; constructor; auto.
      apply query_types_ok in H as (d & D & V & VD & C). exists d. split; auto. eapply lifetimes_of_operations_exact; eauto using parsed_document.
  Qed.
End Macro.
Print Assumptions macro_succeeds_iff_partial.
Print Assumptions macro_lifetimes_exact.
Print Assumptions macro_never_panics_partial.
Print Assumptions macro_accepts_valid_only_partial.
Print Assumptions macro_output_compiles_partial.
Print Assumptions macro_reads_responses_partial.
