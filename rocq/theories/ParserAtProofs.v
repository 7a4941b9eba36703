(** Forgetting the positions gives the parser of [Parser.v]. *)
From Coq Require Import String.
From Verif Require Import Base Ast Lexer Parser Location ParserAt ParserSpec ParserAtSpec.

Definition plain_err (e : lerr) : perr :=
  match e with
  | LEName t => PEName (fst t) | LEIdent t v => PEIdent (fst t) v | LEOneOf t vs => PEOneOf (fst t) vs | LEEnum n => PEEnum (fst n) | LEToken t => PEToken (fst t)
  | LEEof => PEEof | LEEmpty => PEEmpty | LEPanic => PEPanic | LEFuel => PEFuel
  end.
Definition forget {A B} (f : A -> B) (x : lresult A) : presult B :=
  match x with LOk a r => POk (f a) (map fst r) | LErr e r => PErr (plain_err e) (map fst r) end.
Lemma forget_bind {A A' B B'} (h : A -> A') (g : B -> B') x x' f f' : forget h x = x' ->
  (forall a r, forget g (f a r) = f' (h a) (map fst r)) -> forget g (lbind x f) = bind x' f'.
Proof. intros <- H. destruct x; cbn; auto. Qed.

Lemma forget_name ts : forget fst (expect_name_at ts) = expect_name (map fst ts).
Proof. destruct ts as [|[[] ?] r]; reflexivity. Qed.
Lemma forget_variable ts : forget fst (expect_variable_at ts) = expect_variable (map fst ts).
Proof. destruct ts as [|[[] ?] r]; reflexivity. Qed.
Lemma forget_name_value v ts : forget (fun _ => tt) (expect_name_value_at v ts) = expect_name_value v (map fst ts).
Proof. destruct ts as [|[[] ?] r]; cbn; try reflexivity. destruct (teqb _ _); reflexivity. Qed.
Lemma forget_punct p ts : forget (fun _ => tt) (expect_punct_at p ts) = expect_punct p (map fst ts).
Proof. destruct ts as [|[[] ?] r]; cbn; try reflexivity. destruct (punct_eqb _ _); reflexivity. Qed.
Lemma forget_unexpected {A B} (f : A -> B) ts : forget f (unexpected_at ts) = unexpected (map fst ts).
Proof. destruct ts as [|t r]; reflexivity. Qed.
Lemma forget_next p ts : next_if_punct p (map fst ts) = option_map (fun x => map fst (snd x)) (next_if_punct_at p ts).
Proof. destruct ts as [|[[] ?] r]; cbn; try reflexivity. destruct (punct_eqb _ _); reflexivity. Qed.
Lemma forget_next_name ts : next_if_name (map fst ts) = option_map (fun x => (fst (fst x), map fst (snd x))) (next_if_name_at ts).
Proof. destruct ts as [|[[] ?] r]; reflexivity. Qed.
Lemma forget_peek p ts : peek_punct p (map fst ts) = peek_punct_at p ts.
Proof. destruct ts as [|[[] ?] r]; reflexivity. Qed.
Lemma forget_peek_name v ts : peek_name_matches v (map fst ts) = peek_name_matches_at v ts.
Proof. destruct ts as [|[[] ?] r]; reflexivity. Qed.

Lemma forget_many0 {A B} (f : A -> B) item item' close : (forall ts, forget f (item ts) = item' (map fst ts)) ->
  forall fuel ts, forget (fun l => map f (fst l)) (many0_at item close fuel ts) = many0 item' close fuel (map fst ts).
Proof.
  intros H. induction fuel as [|fuel IH]; intros ts; cbn [many0_at many0]; [reflexivity|]. rewrite forget_next.
  destruct (next_if_punct_at close ts) as [[sp r]|]; [reflexivity|]. cbn [option_map].
  eapply forget_bind; [apply H|]. intros a r. eapply forget_bind; [apply IH|]. reflexivity.
Qed.
Lemma forget_many1 {A B} (f : A -> B) item item' close : (forall ts, forget f (item ts) = item' (map fst ts)) ->
  forall fuel ts, forget (fun l => map f (fst l)) (many1_at item close fuel ts) = many1 item' close fuel (map fst ts).
Proof.
  intros H. induction fuel as [|fuel IH]; intros ts; cbn [many1_at many1]; [reflexivity|].
  eapply forget_bind; [apply H|]. intros a r. rewrite forget_next. destruct (next_if_punct_at close r) as [[sp r']|]; [reflexivity|].
  cbn [option_map]. eapply forget_bind; [apply IH|]. reflexivity.
Qed.
Lemma forget_many_at {A B} (f : A -> B) item item' : (forall ts, forget f (item ts) = item' (map fst ts)) ->
  forall fuel ts, forget (map f) (many_at_at item fuel ts) = many_at item' fuel (map fst ts).
Proof.
  intros H. induction fuel as [|fuel IH]; intros ts; cbn [many_at_at many_at]; [reflexivity|]. rewrite forget_peek.
  destruct (peek_punct_at PAt ts); [|reflexivity]. eapply forget_bind; [apply H|]. intros a r. eapply forget_bind; [apply IH|]. reflexivity.
Qed.
Lemma forget_value c : forall fuel ts, forget plain_value (parse_value_at c fuel ts) = parse_value c fuel (map fst ts).
Proof.
  induction fuel as [|fuel IH]; intros ts; [reflexivity|]. destruct ts as [|[t sp] r]; [reflexivity|].
  cbn [parse_value_at parse_value map fst snd].
  destruct t as [p| | | | |]; try reflexivity; [|destruct c; reflexivity].
  destruct p; try reflexivity.
  - eapply forget_bind; [rewrite map_length; apply forget_many0; exact IH|]. reflexivity.
  - eapply forget_bind; [rewrite map_length; apply (forget_many0 (fun kv => (fst (fst kv), plain_value (snd kv))))|reflexivity].
    intros ts. eapply forget_bind; [apply forget_name|]. intros k r1. eapply (forget_bind (fun _ => tt)); [apply forget_punct|]. intros u r2.
    eapply forget_bind; [apply IH|]. reflexivity.
Qed.
Lemma forget_argument c ts : forget plain_argument (parse_argument_at c ts) = parse_argument c (map fst ts).
Proof.
  unfold parse_argument_at, parse_argument. eapply forget_bind; [apply forget_name|]. intros k r1.
  eapply (forget_bind (fun _ => tt)); [apply forget_punct|]. intros u r2. eapply forget_bind; [rewrite map_length; apply forget_value|]. reflexivity.
Qed.
Lemma forget_arguments c ts : forget plain_arguments (parse_arguments_at c ts) = parse_arguments c (map fst ts).
Proof.
  unfold parse_arguments_at, parse_arguments. rewrite forget_peek. destruct (peek_punct_at POpenRound ts); [|reflexivity].
  eapply (forget_bind (fun _ => tt)); [apply forget_punct|]. intros u r.
  rewrite map_length, <- (forget_many1 plain_argument (parse_argument_at c) (parse_argument c) PCloseRound (forget_argument c)).
  destruct (many1_at _ _ _ _); reflexivity.
Qed.
Lemma forget_directive c ts : forget plain_directive (parse_directive_at c ts) = parse_directive c (map fst ts).
Proof.
  unfold parse_directive_at, parse_directive. eapply (forget_bind (fun _ => tt)); [apply forget_punct|]. intros u r1.
  eapply forget_bind; [apply forget_name|]. intros n r2. eapply forget_bind; [apply forget_arguments|]. reflexivity.
Qed.
Lemma forget_directives c ts : forget plain_directives (parse_directives_at c ts) = parse_directives c (map fst ts).
Proof.
  unfold parse_directives_at, parse_directives. destruct (peek_punct_at PAt ts) eqn:E.
  - rewrite map_length, <- (forget_many_at plain_directive (parse_directive_at c) (parse_directive c) (forget_directive c)).
    destruct (many_at_at _ _ _); reflexivity.
  - cbn [many_at]. rewrite forget_peek, E. reflexivity.
Qed.
Lemma forget_bang ts : parse_bang (map fst ts) = (is_some (fst (parse_bang_at ts)), map fst (snd (parse_bang_at ts))).
Proof. unfold parse_bang, parse_bang_at. rewrite forget_next. destruct (next_if_punct_at PBang ts) as [[sp r]|]; reflexivity. Qed.
Lemma forget_type : forall fuel ts, forget plain_type (parse_type_at fuel ts) = parse_tref fuel (map fst ts).
Proof.
  induction fuel as [|fuel IH]; intros ts; cbn [parse_type_at parse_tref]; [reflexivity|]. rewrite forget_next.
  destruct (next_if_punct_at POpenSquare ts) as [[o r]|]; cbn [option_map snd].
  - eapply forget_bind; [apply IH|]. intros inner r1. eapply (forget_bind (fun _ => tt)); [apply forget_punct|]. intros c r2. rewrite forget_bang.
    destruct (parse_bang_at r2) as [bang r3]. reflexivity.
  - rewrite forget_next_name. destruct (next_if_name_at ts) as [[n r]|]; cbn [option_map fst snd].
    + rewrite forget_bang. destruct (parse_bang_at r) as [bang r1]. reflexivity.
    + apply forget_unexpected.
Qed.
Lemma forget_default ts : forget (option_map plain_value) (parse_default_at ts) = parse_default (map fst ts).
Proof.
  unfold parse_default_at, parse_default. rewrite forget_next. destruct (next_if_punct_at PEquals ts) as [[sp r]|]; [|reflexivity]. cbn [option_map snd].
  eapply forget_bind; [rewrite map_length; apply forget_value|]. reflexivity.
Qed.
Lemma forget_vardef ts : forget plain_vardef (parse_vardef_at ts) = parse_vardef (map fst ts).
Proof.
  unfold parse_vardef_at, parse_vardef. eapply forget_bind; [apply forget_variable|]. intros n r1.
  eapply (forget_bind (fun _ => tt)); [apply forget_punct|]. intros u r2. eapply forget_bind; [rewrite map_length; apply forget_type|]. intros t r3.
  eapply forget_bind; [apply forget_default|]. intros d r4. eapply forget_bind; [apply forget_directives|]. reflexivity.
Qed.
Lemma forget_vardefs ts : forget plain_vardefs (parse_vardefs_at ts) = parse_vardefs (map fst ts).
Proof.
  unfold parse_vardefs_at, parse_vardefs. rewrite forget_peek. destruct (peek_punct_at POpenRound ts); [|reflexivity].
  eapply (forget_bind (fun _ => tt)); [apply forget_punct|]. intros u r.
  rewrite map_length, <- (forget_many1 plain_vardef parse_vardef_at parse_vardef PCloseRound forget_vardef).
  destruct (many1_at _ _ _ _); reflexivity.
Qed.
Lemma forget_condition ts : forget fst (parse_condition_at ts) = parse_condition (map fst ts).
Proof. unfold parse_condition_at, parse_condition. eapply (forget_bind (fun _ => tt)); [apply forget_name_value|]. intros u r. apply forget_name. Qed.
Lemma forget_set_with item item' ts : (forall ts, forget plain_selection (item ts) = item' (map fst ts)) ->
  forget plain_set (parse_set_with_at item ts) = parse_set_with item' (map fst ts).
Proof.
  intros H. unfold parse_set_with_at, parse_set_with. eapply (forget_bind (fun _ => tt)); [apply forget_punct|]. intros u r.
  rewrite map_length, <- (forget_many1 plain_selection item item' PCloseBrace H). destruct (many1_at _ _ _ _); reflexivity.
Qed.
Lemma forget_selection : forall fuel ts, forget plain_selection (parse_selection_at fuel ts) = parse_selection fuel (map fst ts).
Proof.
  induction fuel as [|fuel IH]; intros ts; [reflexivity|]. destruct ts as [|[t sp] rest]; [reflexivity|].
  cbn [parse_selection_at parse_selection map fst snd]. destruct t as [p|s| | | |]; try reflexivity.
  - destruct p; try reflexivity.
    replace (match map fst rest with TkName n :: _ => negb (teqb n (tx "on")) | _ => false end)
      with (match rest with (TkName n, _) :: _ => negb (teqb n (tx "on")) | _ => false end) by (destruct rest as [|[[] ?] ?]; reflexivity).
    destruct (match rest with (TkName n, _) :: _ => negb (teqb n (tx "on")) | _ => false end).
    + eapply forget_bind; [apply forget_name|]. intros n r1. destruct (teqb (fst n) (tx "on")); [reflexivity|].
      eapply forget_bind; [apply forget_directives|]. reflexivity.
    + eapply (forget_bind (option_map fst)).
      { rewrite forget_peek_name. destruct (peek_name_matches_at (tx "on") rest); [|reflexivity]. eapply forget_bind; [apply forget_condition|]. reflexivity. }
      intros c r1. eapply forget_bind; [apply forget_directives|]. intros ds r2. eapply forget_bind; [apply forget_set_with; exact IH|]. reflexivity.
  - eapply (forget_bind (fun p : option lname * lname => (option_map fst (fst p), fst (snd p)))).
    { rewrite forget_peek. destruct (peek_punct_at PColon rest).
      - eapply forget_bind; [exact (forget_name ((TkName s, sp) :: rest))|]. intros al r1. eapply (forget_bind (fun _ => tt)); [apply forget_punct|]. intros u r2.
        eapply forget_bind; [apply forget_name|]. reflexivity.
      - eapply forget_bind; [exact (forget_name ((TkName s, sp) :: rest))|]. reflexivity. }
    intros p r1. eapply forget_bind; [apply forget_arguments|]. intros args r2. eapply forget_bind; [apply forget_directives|]. intros ds r3.
    eapply (forget_bind (fun sub : option lset => match sub with Some l => plain_set l | None => [] end)).
    { rewrite forget_peek. destruct (peek_punct_at POpenBrace r3); [|reflexivity].
      rewrite <- (forget_set_with (parse_selection_at fuel) (parse_selection fuel) r3 IH). destruct (parse_set_with_at _ _); reflexivity. }
    intros sub r4. reflexivity.
Qed.
Lemma forget_set ts : forget plain_set (parse_set_at ts) = parse_set (map fst ts).
Proof. unfold parse_set_at, parse_set. rewrite map_length. apply forget_set_with, forget_selection. Qed.
Lemma forget_peek_optype ts : peek_optype (map fst ts) = peek_optype_at ts.
Proof. destruct ts as [|[[] ?] r]; reflexivity. Qed.
Lemma forget_operation ts : forget plain_operation (parse_operation_at ts) = parse_operation (map fst ts).
Proof.
  unfold parse_operation_at, parse_operation. rewrite forget_peek_optype, forget_peek. destruct (peek_optype_at ts).
  - eapply forget_bind; [apply forget_name|]. intros n0 r0. destruct (optype_of (fst n0)) as [ty|]; [|reflexivity]. rewrite forget_next_name.
    destruct (next_if_name_at r0) as [[n r1]|]; cbn [option_map fst snd];
      (eapply forget_bind; [apply forget_vardefs|]; intros vs r2; eapply forget_bind; [apply forget_directives|]; intros ds r3;
       eapply forget_bind; [apply forget_set|]; reflexivity).
  - destruct (peek_punct_at POpenBrace ts); [|apply forget_unexpected]. eapply forget_bind; [apply forget_set|]. reflexivity.
Qed.
Lemma forget_fragment ts : forget plain_fragment (parse_fragment_at ts) = parse_fragment (map fst ts).
Proof.
  unfold parse_fragment_at, parse_fragment. eapply (forget_bind (fun _ => tt)); [apply forget_name_value|]. intros f r0.
  eapply forget_bind; [apply forget_name|]. intros n r1. destruct (teqb (fst n) (tx "on")); [reflexivity|].
  eapply forget_bind; [apply forget_condition|]. intros c r2. eapply forget_bind; [apply forget_directives|]. intros ds r3.
  eapply forget_bind; [apply forget_set|]. reflexivity.
Qed.
Lemma forget_try ts : try_definition (map fst ts) = option_map (forget plain_definition) (try_definition_at ts).
Proof.
  unfold try_definition_at, try_definition. rewrite forget_peek_optype, forget_peek, forget_peek_name.
  destruct (peek_optype_at ts || peek_punct_at POpenBrace ts); [|destruct (peek_name_matches_at (tx "fragment") ts); [|reflexivity]]; cbn [option_map]; f_equal.
  - rewrite <- forget_operation. destruct (parse_operation_at ts); reflexivity.
  - rewrite <- forget_fragment. destruct (parse_fragment_at ts); reflexivity.
Qed.
Lemma document_of_snoc ds d : document_of (ds ++ [d]) =
  match d with
  | inl o => {| doc_ops := doc_ops (document_of ds) ++ [o]; doc_frags := doc_frags (document_of ds) |}
  | inr f => {| doc_ops := doc_ops (document_of ds); doc_frags := doc_frags (document_of ds) ++ [f] |}
  end.
Proof. unfold document_of. rewrite !flat_map_app. destruct d; cbn; rewrite ?app_nil_r; reflexivity. Qed.
Lemma forget_loop : forall fuel ts d errs b,
  document_loop fuel (map fst ts) (plain_document d) (map plain_err errs) b =
  let '(d', errs') := document_loop_at fuel ts d errs b in (plain_document d', map plain_err errs').
Proof.
  induction fuel as [|fuel IH]; intros ts d errs b; cbn [document_loop document_loop_at]; [rewrite map_app; reflexivity|].
  rewrite forget_try. destruct (try_definition_at ts) as [[x r|e r]|]; cbn [option_map forget].
  - rewrite <- (IH r (d ++ [x]) errs false).
    assert (E : plain_document (d ++ [x]) = document_of (map plain_definition d ++ [plain_definition x])) by (unfold plain_document; rewrite map_app; reflexivity).
    rewrite E, document_of_snoc. destruct x; reflexivity.
  - rewrite <- (IH r d (if b then errs else errs ++ [e]) true). destruct b; [reflexivity|]. rewrite map_app. reflexivity.
  - destruct ts as [|t r]; cbn [map]; [reflexivity|].
    rewrite <- (IH r d (if b then errs else errs ++ [LEToken t]) true). destruct b; [reflexivity|]. rewrite map_app. reflexivity.
Qed.
Lemma items_at_tokens items : item_tokens (map fst items) = map fst (items_at items).
Proof. induction items as [|[[t|e] sp] items IH]; cbn; [reflexivity| |]; unfold item_tokens, items_at in IH; rewrite IH; reflexivity. Qed.
Lemma lexing_errors_items items : lexing_errors items = [] <-> item_errors (map fst items) = [].
Proof.
  unfold lexing_errors, item_errors. induction items as [|[[t|e] sp] items IH]; cbn; [tauto|exact IH|]. split; intros H; discriminate H.
Qed.
Lemma forget_document eof items :
  match parse_document_at eof items with
  | inl d => parse_document (map fst items) = inl (plain_document d)
  | inr _ => exists es, parse_document (map fst items) = inr es
  end.
Proof.
  unfold parse_document_at, parse_document. rewrite items_at_tokens, map_length.
  pose proof (forget_loop (S (length (items_at items))) (items_at items) [] [] false) as H. cbn [map] in H. change (plain_document []) with {| doc_ops := []; doc_frags := [] |} in H.
  unfold ltok in *. rewrite H. clear H. destruct (document_loop_at _ _ _ _ _) as [d errs].
  pose proof (lexing_errors_items items) as L.
  destruct (lexing_errors items) as [|e es], (item_errors (map fst items)) as [|e' es'].
  2: { exfalso. destruct L as [L _]. specialize (L eq_refl). discriminate L. }
  2: { exfalso. destruct L as [_ L]. specialize (L eq_refl). discriminate L. }
  2: { cbn. eexists. reflexivity. }
  destruct errs as [|e es]; [|cbn; eexists; reflexivity]. destruct d as [|x d]; [cbn; eexists; reflexivity|]. cbn [map].
  destruct x; cbn; [reflexivity|]. destruct (flat_map _ _); reflexivity.
Qed.
