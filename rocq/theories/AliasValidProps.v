(** The names that fields have in the response do not matter to validity (C93). *)
From Verif Require Import Base Ast Examples CoercionTypes Coercion CoercionSpec Graph Maps Doc DocSpec DocProofs DocRules DocRulesSpec DocRulesProofs DocTypingProofs DocRulesProps
  DocVariables DocVariablesSpec DocVariablesProofs DocVariablesProps FragmentsSpec FragmentCycles CyclesProps ValueEqSpec Merging MergingSpec MergingProps MergingComplete MergingCheck MergingCases
  Lexer LexerSpec Parser ParserProps DefParser DefParserProps Resolve ResolveProps Validator ValiditySpec ValidatorProofs EndToEndProofs ValidatorProps TypegenSpec TypegenInputCases ValidatorCases
  TrimProofs RenameSpec RenameProofs RenameProps AliasSpec AliasProofs.
Local Open Scope string_scope.
Local Open Scope list_scope.

(** * C93: validity *)
Theorem c93_valid :
  forall (S : schema) (accepts : name -> value -> Prop) (str_enum one_of : bool) (new back : name -> name) (d d' : document),
    undo new back -> realiased new d d' ->
    (valid_document S accepts str_enum one_of d <-> valid_document S accepts str_enum one_of d').
Proof.
  intros S acc se oo f f' d d' (F1 & F2) R. split; intros V.
  - apply (realiased_valid S acc se oo f' f F2 d' d); auto. apply (realiased_back f f'); auto.
  - apply (realiased_valid S acc se oo f f' F1 d d'); auto.
Qed.
Print Assumptions c93_valid.

(** From texts, for the validator. Left to show: the same of queries for which acceptance is not known to be validity (see C60). *)
Theorem c93_accepted_partial :
  forall so dor recover other_digit parse_f64 recover' other_digit' parse_f64' schema_text query_text query_text' S d d',
    read_schema_with so dor recover other_digit parse_f64 schema_text = inl (inl S) ->
    parse_text recover' other_digit' parse_f64' query_text = inl d -> parse_text recover' other_digit' parse_f64' query_text' = inl d' -> reads_numbers parse_f64' ->
  forall new back, undo new back -> realiased new d d' -> acceptance_is_validity S d -> acceptance_is_validity S d' ->
  forall hook str_enum one_of ord ord', some_order ord -> some_order ord' ->
    (validate S hook str_enum one_of ord d = Some [] <-> validate S hook str_enum one_of ord' d' = Some []).
Proof.
  intros so dor rc od pf rc' od' pf' st qt qt' S d d' HS HD HD' HN f f' F R (A1 & A2 & A3 & A4 & A5) (B1 & B2 & B3 & B4 & B5) hook se oo ord ord' Ho Ho'.
  pose proof (c93_valid S (fun n x => hook n x = None) se oo f f' d d' F R) as V. split; intros H.
  - apply (valid_texts_accepted_partial _ _ _ _ _ _ _ _ _ _ _ _ HS HD' HN hook se oo ord' Ho'); auto. apply V.
    apply (accepted_texts_valid_partial _ _ _ _ _ _ _ _ _ _ _ _ HS HD HN hook se oo ord Ho); auto. apply spreads_simple_agree. auto.
  - apply (valid_texts_accepted_partial _ _ _ _ _ _ _ _ _ _ _ _ HS HD HN hook se oo ord Ho); auto. apply V.
    apply (accepted_texts_valid_partial _ _ _ _ _ _ _ _ _ _ _ _ HS HD' HN hook se oo ord' Ho'); auto. apply spreads_simple_agree. auto.
Qed.
Print Assumptions c93_accepted_partial.

(** * The document with aliases written in it *)
Lemma aliased_alike new : forall s, alike new s (aliased_selection new s).
Proof.
  fix F 1. intros [al n args ds sub|n ds|c ds sub]; cbn; constructor.
  - unfold alias_for. destruct (teqb_spec (new (response_name al n)) n); auto.
  - intros s' Hs'. induction sub as [|x sub IH]; [destruct Hs'|]. destruct Hs' as [<-|Hs']; [exists x; split; [left; reflexivity|apply F]|].
    destruct (IH Hs') as (s & Hs & P). exists s. split; [right; exact Hs|exact P].
  - intros s Hs. induction sub as [|x sub IH]; [destruct Hs|]. destruct Hs as [<-|Hs]; [eexists; split; [left; reflexivity|apply F]|].
    destruct (IH Hs) as (s' & Hs' & P). exists s'. split; [right; exact Hs'|exact P].
  - intros s Hs. induction sub as [|x sub IH]; [destruct Hs|]. destruct Hs as [<-|Hs]; [eexists; split; [left; reflexivity|apply F]|].
    destruct (IH Hs) as (s' & Hs' & P). exists s'. split; [right; exact Hs'|exact P].
  - intros s' Hs'. induction sub as [|x sub IH]; [destruct Hs'|]. destruct Hs' as [<-|Hs']; [exists x; split; [left; reflexivity|apply F]|].
    destruct (IH Hs') as (s & Hs & P). exists s. split; [right; exact Hs|exact P].
Qed.
Lemma aliased_alikes new sels : alikes new sels (map (aliased_selection new) sels).
Proof.
  split.
  - intros s Hs. exists (aliased_selection new s). split; [apply List.in_map; auto|apply aliased_alike].
  - intros s' Hs'. apply in_map_iff in Hs' as (s & <- & Hs). exists s. split; [auto|apply aliased_alike].
Qed.
Lemma aliased_document_realiased new d : realiased new d (aliased_document new d).
Proof.
  split; cbn.
  - induction (doc_ops d) as [|o l IH]; constructor; auto. split; cbn; auto using aliased_alikes.
  - induction (doc_frags d) as [|f l IH]; constructor; auto. split; cbn; auto using aliased_alikes.
Qed.

(** ** A concrete case: the query of [ex_pets_valid] with [title] for [name]; if [name] and [barks] get one name it is not accepted *)
Definition titled_query : string :=
  "query Q($n: Int, $name: String, $k: Kind!, $withId: Boolean! = true) {
     pets(first: $n, where: {name: $name, kinds: [DOG, $k], not: {kinds: []}}) { ...P ... on Dog { b: barks title: name } __typename }
   }
   subscription S($k: Kind!, $withId: Boolean!) { petAdded(kind: $k) { ...P } }
   fragment P on Pet { id @include(if: $withId) title: name }".
Definition titled_doc : document := Eval vm_compute in document_in titled_query.
Lemma titled_doc_eq : document_in titled_query = titled_doc. Proof. vm_compute. reflexivity. Qed.
Lemma titled_parsed : read (tx titled_query) = inl titled_doc.
Proof. rewrite <- titled_doc_eq. apply read_document_in. vm_compute. reflexivity. Qed.
Definition new_title := swap (tx "name") (tx "title").
Lemma titled_settled : acceptance_is_validity pets titled_doc.
Proof.
  split; [|split; [|split; [|split]]].
  - intros o sels s Ho E Hc Hs. left. cbn [doc_ops titled_doc] in Ho. destruct Ho as [<-|[<-|[]]]; [discriminate E|].
    destruct Hc as [K|c ds sels K|n ds f K _]; [cbn in Hs; injection Hs as <-; repeat eexists|discriminate K|discriminate K].
  - intros o sels Ho E Hc Hs. cbn [doc_ops titled_doc] in Ho. destruct Ho as [<-|[<-|[]]]; [discriminate E|].
    destruct Hc as [K|c ds sels K|n ds f K _]; [cbn in Hs; lia|discriminate K|discriminate K].
  - apply spread_ok_simple. vm_compute. reflexivity.
  - apply typename_ok_plain. vm_compute. reflexivity.
  - apply lists_plain_document. vm_compute. reflexivity.
Qed.
Example c93_valid_case :
  undo new_title new_title /\ aliased_document new_title pets_doc = titled_doc /\ realiased new_title pets_doc titled_doc /\
  valid_document pets (fun n x => any_value n x = None) false true pets_doc /\ valid_document pets (fun n x => any_value n x = None) false true titled_doc /\
  acceptance_is_validity pets pets_doc /\ acceptance_is_validity pets titled_doc /\
  (forall ord, some_order ord -> validate pets any_value false true ord titled_doc = Some []) /\
  validate pets any_value false true in_order (aliased_document (fun n => if teqb n (tx "b") then tx "name" else n) pets_doc) <> Some [].
Proof.
  assert (E : aliased_document new_title pets_doc = titled_doc) by (vm_compute; reflexivity).
  assert (R : realiased new_title pets_doc titled_doc) by (rewrite <- E; apply aliased_document_realiased).
  split; [apply swap_undo|]. split; [exact E|]. split; [exact R|]. split; [exact ex_pets_valid|].
  split; [apply (c93_valid pets _ false true new_title new_title _ _ (swap_undo _ _) R), ex_pets_valid|].
  split; [exact pets_settled|]. split; [exact titled_settled|]. split; [|vm_compute; discriminate].
  intros ord Ho. apply (c93_accepted_partial _ _ _ _ _ _ _ _ _ _ _ _ _ _ pets_read pets_parsed titled_parsed no_floats_numbers _ _ (swap_undo _ _) R
      pets_settled titled_settled any_value false true in_order ord in_order_ok Ho). apply ex_pets_accepted, in_order_ok.
Qed.
