(** Leaving out parts of a valid query leaves it valid unless something is used no more, or not there any more (C87). *)
From Verif Require Import Base Ast Examples CoercionTypes CoercionSpec Graph Maps Doc DocSpec DocProofs DocRules DocRulesSpec DocRulesProofs DocTypingProofs DocRulesProps
  DocVariables DocVariablesSpec DocVariablesProofs DocVariablesProps FragmentsSpec FragmentCycles CyclesProps ValueEqSpec Merging MergingSpec MergingProps MergingComplete MergingCheck MergingCases
  Lexer LexerSpec Parser ParserProps DefParser DefParserProps Resolve ResolveProps Validator ValiditySpec ValidatorProofs EndToEndProofs ValidatorProps TypegenSpec TypegenInputCases ValidatorCases
  TrimSpec TrimProofs.
Local Open Scope string_scope.
Local Open Scope list_scope.

(** * C87: what leaving out selections, fragments and operations can break *)
Lemma valid_tight S accepts str_enum one_of d : valid_document S accepts str_enum one_of d -> nothing_loose d.
Proof.
  intros W. constructor.
  - intros o Ho E. destruct (vd_single_root _ _ _ _ _ W o Ho E) as (x & Hx). exists x. apply Hx. reflexivity.
  - apply (vd_fragment_targets _ _ _ _ _ W).
  - apply (vd_fragment_used _ _ _ _ _ W).
  - apply (vd_variable_used _ _ _ _ _ W).
Qed.
Theorem c87_valid :
  forall (S : schema) (accepts : name -> value -> Prop) (str_enum one_of : bool) (d d' : document),
    valid_document S accepts str_enum one_of d' -> trimmed d d' ->
    (valid_document S accepts str_enum one_of d <-> nothing_loose d).
Proof.
  intros S acc se oo d d' V T. split; [apply valid_tight|apply (trimmed_valid S acc se oo d d' V T)].
Qed.
Print Assumptions c87_valid.

(** ** What holds of the whole holds of the part *)
Section Less.
  Variable S : schema.
  Variables d d' : document.
  Hypothesis T : trimmed d d'.
  Hypothesis ND' : NoDup (map fr_name (doc_frags d')).
  Lemma typename_plain_less : typename_plain S d' -> typename_plain S d.
  Proof using T.
    destruct (thinner_positions _ _ _ (tr_ops _ _ T)) as (p & _ & Hp). destruct (thinner_positions _ _ _ (tr_frags _ _ T)) as (q & _ & Hq).
    intros H r t al n args ds sub Hs. destruct (sel_more S d d' p q Hp Hq _ _ _ Hs) as (s' & Hs' & P). inversion P as [? ? ? ? ? sub' He Hsub| |]; subst.
    destruct (H _ _ _ _ _ _ _ Hs') as (A & B). split; auto. intros K. destruct (B K) as (B1 & B2 & B3 & ->). repeat split; auto.
    destruct sub as [|x sub]; auto. destruct (Hsub x (or_introl eq_refl)) as (? & [] & _).
  Qed.
  Lemma listed_less : listed_usages_allowed S d' -> listed_usages_allowed S d.
  Proof using T ND'.
    destruct (thinner_positions _ _ _ (tr_ops _ _ T)) as (p & _ & Hp). destruct (thinner_positions _ _ _ (tr_frags _ _ T)) as (q & _ & Hq).
    intros H i o r a iv v t df E Hr Hv Ha. destruct (Hp i o E) as (o' & E' & Ho). rewrite (to_vars _ _ Ho) in Hv.
    apply (H (p i) o' (from p q r) a iv v t df E'); auto.
    - apply (refers_more S d d' ND' p q Hp Hq _ _ Hr).
    - apply (argument_more S d d' p q Hp Hq _ _ _ Ha).
  Qed.
  Lemma simple_less : spreads_simple S d' -> spreads_simple S d.
  Proof using T ND'.
    destruct (thinner_positions _ _ _ (tr_ops _ _ T)) as (p & _ & Hp). destruct (thinner_positions _ _ _ (tr_frags _ _ T)) as (q & _ & Hq).
    exact (spreads_simple_less S d d' T ND' p q Hp Hq).
  Qed.
End Less.

(** From texts, for the validator: of an accepted query what is left after leaving out is accepted if and only if nothing is loose. Left to
    show: that this holds also of the queries for which acceptance is not known to be the same as validity (see C60). *)
Definition subscriptions_told (d : document) : Prop := nested_roots_single d /\ several_roots_differ d.
Theorem c87_accepted_partial :
  forall so dor recover other_digit parse_f64 recover' other_digit' parse_f64' schema_text whole_text part_text S d d',
    read_schema_with so dor recover other_digit parse_f64 schema_text = inl (inl S) ->
    parse_text recover' other_digit' parse_f64' whole_text = inl d' -> parse_text recover' other_digit' parse_f64' part_text = inl d -> reads_numbers parse_f64' ->
  forall hook str_enum one_of ord ord', some_order ord -> some_order ord' ->
    nested_roots_single d' -> spreads_simple S d' -> typename_plain S d' -> listed_usages_allowed S d' -> subscriptions_told d ->
    trimmed d d' -> validate S hook str_enum one_of ord' d' = Some [] ->
    (validate S hook str_enum one_of ord d = Some [] <-> nothing_loose d).
Proof.
  intros so dor rc od pf rc' od' pf' st wt pt S d d' HS HW HP HN hook se oo ord ord' Ho Ho' H1 H2 H3 H4 (H5 & H6) T HV.
  pose proof (accepted_texts_valid_partial _ _ _ _ _ _ _ _ _ _ _ _ HS HW HN hook se oo ord' Ho' H1 (spreads_simple_agree _ _ H2) H3 H4 HV) as V.
  pose proof (vd_fragment_names _ _ _ _ _ V) as ND'. pose proof (simple_less S d d' T ND' H2) as G2.
  rewrite <- (c87_valid _ _ _ _ d d' V T). split; intros H.
  - apply (accepted_texts_valid_partial _ _ _ _ _ _ _ _ _ _ _ _ HS HP HN hook se oo ord Ho); auto.
    + apply spreads_simple_agree. auto.
    + apply (typename_plain_less S d d' T); auto.
    + apply (listed_less S d d' T ND'); auto.
  - apply (valid_texts_accepted_partial _ _ _ _ _ _ _ _ _ _ _ _ HS HP HN hook se oo ord Ho); auto.
Qed.
Print Assumptions c87_accepted_partial.

(** * Writing selections in another order, or more often, does not matter *)
Lemma paired_thinner {A} (R : A -> A -> Prop) l l' : Forall2 R l l' -> thinner R l l'.
Proof. induction 1; constructor; auto. Qed.
Lemma paired_nth {A} (R : A -> A -> Prop) l l' : Forall2 R l l' -> forall i a, nth_error l i = Some a -> exists b, nth_error l' i = Some b /\ R a b.
Proof. induction 1 as [|a b l l' H _ IH]; intros [|i] x E; try discriminate E; cbn in *; [injection E as <-; eauto|auto]. Qed.
(** the same operations and fragments, with selections that are trimmed forms of each other *)
Record rearranged (d d' : document) : Prop := {
  ra_ops : Forall2 (fun o o' => trim_operation o o' /\ trim_operation o' o) (doc_ops d) (doc_ops d');
  ra_frags : Forall2 (fun f f' => trim_fragment f f' /\ trim_fragment f' f) (doc_frags d) (doc_frags d') }.
Lemma paired_weaken {A} (R Q : A -> A -> Prop) l l' : (forall a b, R a b -> Q a b) -> Forall2 R l l' -> Forall2 Q l l'.
Proof. intros H. induction 1; constructor; auto. Qed.
Lemma paired_flip {A} (R : A -> A -> Prop) l l' : Forall2 R l l' -> Forall2 (fun b a => R a b) l' l.
Proof. induction 1; constructor; auto. Qed.
Lemma rearranged_sym d d' : rearranged d d' -> rearranged d' d.
Proof.
  intros [A B]. split; apply paired_flip in A; apply paired_flip in B; [eapply paired_weaken; [|exact A]|eapply paired_weaken; [|exact B]]; cbn; intros ? ? [? ?]; auto.
Qed.
Lemma rearranged_trimmed d d' : rearranged d d' -> trimmed d d'.
Proof.
  intros [A B]. split; apply paired_thinner; [eapply paired_weaken; [|exact A]|eapply paired_weaken; [|exact B]]; cbn; intros ? ? [? _]; auto.
Qed.
Lemma rearranged_tight d d' : rearranged d d' -> NoDup (map fr_name (doc_frags d')) -> nothing_loose d' -> nothing_loose d.
Proof.
  intros R ND' L. pose proof (rearranged_trimmed _ _ R) as T. pose proof (rearranged_sym _ _ R) as R'. pose proof (rearranged_trimmed _ _ R') as T'.
  pose proof (names_once d d' T ND') as ND.
  assert (Hp : forall i o, nth_error (doc_ops d) i = Some o -> exists o', nth_error (doc_ops d') i = Some o' /\ trim_operation o o').
  { intros i o E. destruct (paired_nth _ _ _ (ra_ops _ _ R) i o E) as (o' & E' & X & _). eauto. }
  assert (Hq : forall i f, nth_error (doc_frags d) i = Some f -> exists f', nth_error (doc_frags d') i = Some f' /\ trim_fragment f f').
  { intros i f E. destruct (paired_nth _ _ _ (ra_frags _ _ R) i f E) as (f' & E' & X & _). eauto. }
  assert (Hp' : forall i o, nth_error (doc_ops d') i = Some o -> exists o', nth_error (doc_ops d) i = Some o' /\ trim_operation o o').
  { intros i o E. destruct (paired_nth _ _ _ (ra_ops _ _ R') i o E) as (o' & E' & X & _). eauto. }
  assert (Hq' : forall i f, nth_error (doc_frags d') i = Some f -> exists f', nth_error (doc_frags d) i = Some f' /\ trim_fragment f f').
  { intros i f E. destruct (paired_nth _ _ _ (ra_frags _ _ R') i f E) as (f' & E' & X & _). eauto. }
  constructor.
  - intros o Ho E. apply In_nth_error in Ho as (i & Ei). destruct (paired_nth _ _ _ (ra_ops _ _ R) i o Ei) as (o' & E' & X & Y). rewrite (to_type _ _ X) in E.
    destruct (nl_roots _ L o' (nth_error_In _ _ E') E) as (x & Hx). exists x. eapply (root_response_more d' d T' ND); eauto. apply (to_sel _ _ Y).
  - intros n ds r H. destruct (occurs_in_more d d' (fun i => i) (fun i => i) Hp Hq _ _ H) as (s' & H' & P). inversion P; subst. apply (nl_targets _ L) in H'.
    apply in_map_iff in H' as (f' & <- & Hf'). destruct (thinner_in _ _ _ (tr_frags _ _ T') f' Hf') as (f & Hf & X). rewrite (tf_name _ _ X). apply List.in_map. auto.
  - intros f Hf. destruct (thinner_in _ _ _ (tr_frags _ _ T) f Hf) as (f' & Hf' & X). destruct (nl_used _ L f' Hf') as (ds & r & H).
    destruct (occurs_in_more d' d (fun i => i) (fun i => i) Hp' Hq' _ _ H) as (s' & H' & P). inversion P; subst. rewrite (tf_name _ _ X). eauto.
  - intros i o v E Hv. destruct (Hp i o E) as (o' & E' & X). rewrite (to_vars _ _ X) in Hv.
    apply (writes_more d' d ND (fun i => i) (fun i => i) Hp' Hq' i). apply (nl_variables _ L i o' v E' Hv).
Qed.
Theorem c87_rearranged :
  forall (S : schema) (accepts : name -> value -> Prop) (str_enum one_of : bool) (d d' : document),
    rearranged d d' -> (valid_document S accepts str_enum one_of d <-> valid_document S accepts str_enum one_of d').
Proof.
  assert (K : forall S accepts se oo d d', rearranged d d' -> valid_document S accepts se oo d' -> valid_document S accepts se oo d).
  { intros S acc se oo d d' R V. apply (c87_valid S acc se oo d d' V (rearranged_trimmed _ _ R)).
    apply (rearranged_tight d d' R (vd_fragment_names _ _ _ _ _ V)). apply (valid_tight _ _ _ _ _ V). }
  intros S acc se oo d d' R. split; apply K; auto using rearranged_sym.
Qed.
Print Assumptions c87_rearranged.

(** ** A concrete case *)
(** the query of [ex_pets_valid] without the subscription, the fields of dogs and some others, in another order *)
Definition less_query : string :=
  "query Q($n: Int, $name: String, $k: Kind!, $withId: Boolean! = true) {
     pets(first: $n, where: {name: $name, kinds: [DOG, $k], not: {kinds: []}}) { __typename ...P }
   }
   fragment P on Pet { id @include(if: $withId) }".
Definition less_doc : document := Eval vm_compute in document_in less_query.
Lemma less_doc_eq : document_in less_query = less_doc. Proof. vm_compute. reflexivity. Qed.
Lemma less_parsed : read (tx less_query) = inl less_doc.
Proof. rewrite <- less_doc_eq. apply read_document_in. vm_compute. reflexivity. Qed.
Lemma less_trimmed : trimmed less_doc pets_doc.
Proof.
  assert (P : forall ds, trim (SField None (tx "id") [] ds []) (SField None (tx "id") [] ds [])).
  { intros ds. constructor; auto. intros s []. }
  split.
  - apply th_keep; [|apply th_end]. split; try reflexivity. intros s [<-|[]]. eexists. split; [left; reflexivity|].
    constructor; [discriminate|]. intros s [<-|[<-|[]]].
    + eexists. split; [right; right; left; reflexivity|]. constructor; auto. intros s [].
    + eexists. split; [left; reflexivity|]. constructor.
  - apply th_keep; [|apply th_end]. split; try reflexivity. intros s [<-|[]]. eexists. split; [left; reflexivity|]. apply P.
Qed.
Lemma less_told : subscriptions_told less_doc.
Proof. split; intros o sels; [intros s|]; intros [<-|[]] E; discriminate E. Qed.
Example c87_case :
  trimmed less_doc pets_doc /\ valid_document pets (fun n x => any_value n x = None) false true pets_doc /\ nothing_loose less_doc /\
  (forall ord, some_order ord -> validate pets any_value false true ord less_doc = Some []) /\
  (** leaving out the spread of the fragment, or the use of a variable: *)
  verdict in_order pets_text
    "query Q($k: Kind!) { pets(where: {kinds: [$k]}) { __typename } } fragment P on Pet { id }" <> Some [] /\
  verdict in_order pets_text "query Q($k: Kind!, $withId: Boolean!) { pets(where: {kinds: [$k]}) { __typename } }" <> Some [].
Proof.
  assert (A : forall ord, some_order ord -> validate pets any_value false true ord less_doc = Some []).
  { intros ord Ho. pose proof (simple_less pets less_doc pets_doc less_trimmed (vd_fragment_names _ _ _ _ _ ex_pets_valid) pets_simple) as L.
    apply (verdict_deterministic_partial _ _ _ _ _ _ _ _ _ _ _ _ pets_read less_parsed no_floats_numbers L any_value false true in_order ord in_order_ok Ho).
    vm_compute. reflexivity. }
  split; [exact less_trimmed|]. split; [exact ex_pets_valid|]. split; [|split; [exact A|]].
  - apply (c87_accepted_partial _ _ _ _ _ _ _ _ _ _ _ _ _ _ pets_read pets_parsed less_parsed no_floats_numbers any_value false true in_order in_order in_order_ok in_order_ok
      pets_subscriptions pets_simple); auto using less_told, less_trimmed, ex_pets_accepted, in_order_ok.
    + apply typename_ok_plain. vm_compute. reflexivity.
    + apply lists_plain_document. vm_compute. reflexivity.
  - split; vm_compute; intros E; discriminate E.
Qed.
Lemma trim_refl : forall s, trim s s.
Proof.
  fix F 1. intros [al n args ds sub|n ds|c ds sub]; constructor; auto.
  - induction sub as [|x sub IH]; intros s Hs; [destruct Hs|]. destruct Hs as [<-|Hs]; [exists x; split; [left; reflexivity|apply F]|].
    destruct (IH s Hs) as (s' & Hs' & P). exists s'. split; [right; exact Hs'|exact P].
  - induction sub as [|x sub IH]; intros s Hs; [destruct Hs|]. destruct Hs as [<-|Hs]; [exists x; split; [left; reflexivity|apply F]|].
    destruct (IH s Hs) as (s' & Hs' & P). exists s'. split; [right; exact Hs'|exact P].
Qed.
Lemma trims_incl sels sels' : incl sels sels' -> trims sels sels'.
Proof. intros H s Hs. exists s. split; [apply H; auto|apply trim_refl]. Qed.
(** the query of [ex_pets_valid] with the fields of its fragment in another order, and one twice *)
Definition swapped_doc : document :=
  {| doc_ops := doc_ops pets_doc;
     doc_frags := [{| fr_name := tx "P"; fr_cond := tx "Pet"; fr_dirs := [];
       fr_sel := [SField None (tx "name") [] [] [];
                  SField None (tx "id") [] [{| dir_name := tx "include"; dir_args := [(tx "if", VVar (tx "withId"))] |}] [];
                  SField None (tx "name") [] [] []] |}] |}.
Example c87_rearranged_case :
  rearranged swapped_doc pets_doc /\ swapped_doc <> pets_doc /\ valid_document pets (fun n x => any_value n x = None) false true swapped_doc.
Proof.
  assert (R : rearranged swapped_doc pets_doc).
  { split.
    - unfold swapped_doc. cbn [doc_ops]. generalize (doc_ops pets_doc). intros l. induction l as [|o l IH]; constructor; auto.
      split; split; auto; apply trims_incl; intros x Hx; exact Hx.
    - constructor; [|constructor]. split; split; try reflexivity; apply trims_incl; intros s Hs; cbn in *; tauto. }
  split; [exact R|]. split; [|apply (c87_rearranged pets _ false true _ _ R), ex_pets_valid].
  intros E. apply (f_equal (fun d => map (fun f => length (fr_sel f)) (doc_frags d))) in E. vm_compute in E. discriminate E.
Qed.
(** The validator does not keep to this: it rejects a subscription that has its one root field twice (see C60). *)
Theorem c87_rearranged_refuted : exists schema_text whole_text part_text,
  read_ok schema_text = true /\ parses whole_text = true /\ parses part_text = true /\
  rearranged (document_in part_text) (document_in whole_text) /\
  verdict in_order schema_text whole_text = Some [] /\ verdict in_order schema_text part_text <> Some [].
Proof.
  exists "type Query { a: Int } type Subscription { a: Int b: Int }", "subscription { a }", "subscription { a a }".
  split; [vm_compute; reflexivity|]. split; [vm_compute; reflexivity|]. split; [vm_compute; reflexivity|]. split; [|split].
  - split.
    + set (x := document_in "subscription { a a }"). set (y := document_in "subscription { a }"). vm_compute in x, y. subst x y. cbn [doc_ops].
      constructor; [|constructor]. split; split; try reflexivity; apply trims_incl; intros s Hs; cbn in *; tauto.
    + vm_compute. constructor.
  - vm_compute. reflexivity.
  - vm_compute. intros E. discriminate E.
Qed.
Print Assumptions c87_rearranged_refuted.
