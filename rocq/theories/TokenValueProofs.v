(** The values that the parser makes of one token are neither lists nor objects. *)
From Coq Require Import String.
From Verif Require Import Base Ast Lexer Parser Location ParserAt ParserAtSpec SpanProofs CoercionAt ValidatorAt ValidatorAtSpec ValidatorErrorProofs.

Definition token_node (n : node) : Prop := match n with NValue (LVLeaf x _) => is_token x | _ => True end.
Notation atomic := (Forall token_node).
Definition makes {A} (p : list ltok -> lresult A) (ns : A -> list node) : Prop := forall ts a r, p ts = LOk a r -> atomic (ns a).
Ltac step H x r := apply lbind_ok in H; destruct H as (x & r & ? & H).
Lemma flat_atomic {A} (f : A -> list node) l : Forall (fun x => atomic (f x)) l -> atomic (flat_map f l).
Proof. induction 1 as [|x l H _ IH]; [constructor|]. apply Forall_app. auto. Qed.
Lemma many0_makes {A} (item : list ltok -> lresult A) ns close : makes item ns -> forall fuel ts l r, many0_at item close fuel ts = LOk l r -> Forall (fun x => atomic (ns x)) (fst l).
Proof.
  intros M. induction fuel as [|fuel IH]; intros ts l r H; cbn [many0_at] in H; [discriminate|]. destruct (next_if_punct_at close ts) as [[sp r0]|]; [injection H as <- <-; constructor|].
  step H a r1. step H l' r2. injection H as <- <-. constructor; eauto.
Qed.
Lemma many1_makes {A} (item : list ltok -> lresult A) ns close : makes item ns -> forall fuel ts l r, many1_at item close fuel ts = LOk l r -> Forall (fun x => atomic (ns x)) (fst l).
Proof.
  intros M. induction fuel as [|fuel IH]; intros ts l r H; cbn [many1_at] in H; [discriminate|]. step H a r1. destruct (next_if_punct_at close r1) as [[sp r0]|].
  - injection H as <- <-. repeat constructor. eauto.
  - step H l' r2. injection H as <- <-. constructor; eauto.
Qed.
Lemma many_at_makes {A} (item : list ltok -> lresult A) ns : makes item ns -> forall fuel ts l r, many_at_at item fuel ts = LOk l r -> Forall (fun x => atomic (ns x)) l.
Proof.
  intros M. induction fuel as [|fuel IH]; intros ts l r H; cbn [many_at_at] in H; [discriminate|]. destruct (peek_punct_at PAt ts); [|injection H as <- <-; constructor].
  step H a r1. step H l' r2. injection H as <- <-. constructor; eauto.
Qed.
Lemma value_makes c : forall fuel, makes (parse_value_at c fuel) value_nodes.
Proof.
  induction fuel as [|fuel IH]; intros ts v r H; cbn [parse_value_at] in H; [discriminate|]. destruct ts as [|t ts]; [discriminate|]. destruct (fst t) as [p|n|n|z|b|s] eqn:E.
  - destruct p; try discriminate; step H l r1; injection H as <- <-; (constructor; [exact I|]); apply flat_atomic.
    + eapply many0_makes; [exact IH|eassumption].
    + eapply (many0_makes _ (fun kv : lname * lvalue => NName (fst kv) :: value_nodes (snd kv))); [|eassumption]. intros ts' kv r' H'. step H' k r2. step H' u r3. step H' x r4. injection H' as <- <-.
      constructor; [exact I|]. eapply IH; eassumption.
  - injection H as <- <-. constructor; [|constructor]. cbn [token_node]. repeat match goal with |- is_token (if ?b then _ else _) => destruct b; [exact I|] end. exact I.
  - destruct c; [discriminate|]. injection H as <- <-. repeat constructor.
  - injection H as <- <-. repeat constructor.
  - injection H as <- <-. repeat constructor.
  - injection H as <- <-. repeat constructor.
Qed.
Lemma argument_makes c : makes (parse_argument_at c) argument_nodes.
Proof. intros ts a r H. unfold parse_argument_at in H. step H k r1. step H u r2. step H v r3. injection H as <- <-. constructor; [exact I|]. constructor; [exact I|]. eapply value_makes; eassumption. Qed.
Lemma arguments_makes c : makes (parse_arguments_at c) arguments_nodes.
Proof.
  intros ts a r H. unfold parse_arguments_at in H. destruct (peek_punct_at POpenRound ts); [|injection H as <- <-; constructor]. step H o r1. step H l r2. injection H as <- <-.
  constructor; [exact I|]. apply flat_atomic. cbn [fst]. eapply many1_makes; [apply argument_makes|eassumption].
Qed.
Lemma directive_makes c : makes (parse_directive_at c) directive_nodes.
Proof.
  intros ts a r H. unfold parse_directive_at in H. step H o r1. step H n r2. step H l r3. injection H as <- <-. constructor; [exact I|]. constructor; [exact I|]. eapply arguments_makes; eassumption.
Qed.
Lemma directives_makes c : makes (parse_directives_at c) directives_nodes.
Proof.
  intros ts a r H. unfold parse_directives_at in H. destruct (peek_punct_at PAt ts); [|injection H as <- <-; constructor]. step H l r1. injection H as <- <-. cbn [directives_nodes].
  apply Forall_app. split; [destruct (directives_span l); repeat constructor|]. apply flat_atomic. eapply many_at_makes; [apply directive_makes|eassumption].
Qed.
Lemma type_atomic t : atomic (type_nodes t).
Proof. induction t as [n r sp|t IH r sp]; repeat constructor. exact IH. Qed.
Lemma vardef_makes : makes parse_vardef_at vardef_nodes.
Proof.
  intros ts v r H. unfold parse_vardef_at in H. step H n r1. step H u r2. step H t r3. step H d r4. step H ds r5. injection H as <- <-. constructor; [exact I|].
  apply Forall_app. split; [apply type_atomic|]. apply Forall_app. split; [|eapply directives_makes; eassumption]. cbn [lvd_default].
  match goal with X : parse_default_at _ = _ |- _ => unfold parse_default_at in X; destruct (next_if_punct_at PEquals r3) as [[sp r']|]; [step X x r6; injection X as <- <-; eapply value_makes; eassumption|injection X as <- <-; constructor] end.
Qed.
Lemma vardefs_makes : makes parse_vardefs_at vardefs_nodes.
Proof.
  intros ts a r H. unfold parse_vardefs_at in H. destruct (peek_punct_at POpenRound ts); [|injection H as <- <-; constructor]. step H o r1. step H l r2. injection H as <- <-.
  constructor; [exact I|]. apply flat_atomic. cbn [fst]. eapply many1_makes; [apply vardef_makes|eassumption].
Qed.
Lemma set_makes item : makes item selection_nodes -> makes (parse_set_with_at item) set_nodes.
Proof. intros M ts a r H. unfold parse_set_with_at in H. step H o r1. step H l r2. injection H as <- <-. constructor; [exact I|]. apply flat_atomic. cbn [fst]. eapply many1_makes; eassumption. Qed.
Lemma names_atomic n : atomic (name_nodes n).
Proof. destruct n; repeat constructor. Qed.
Lemma selection_makes : forall fuel, makes (parse_selection_at fuel) selection_nodes.
Proof.
  induction fuel as [|fuel IH]; intros ts s r H; cbn [parse_selection_at] in H; [discriminate|]. destruct ts as [|[t sp] ts]; [discriminate|].
  destruct t as [p|n|n|z|b|x]; try discriminate.
  - destruct p; try discriminate. destruct (match ts with (TkName n, _) :: _ => negb (teqb n (tx "on")) | _ => false end).
    + step H n r1. destruct (teqb (fst n) (tx "on")); [discriminate|]. step H ds r2. injection H as <- <-. constructor; [exact I|]. constructor; [exact I|]. eapply directives_makes; eassumption.
    + step H c r1. step H ds r2. step H sub r3. injection H as <- <-. cbn [selection_nodes]. constructor; [exact I|]. apply Forall_app. split; [apply names_atomic|]. apply Forall_app. split; [eapply directives_makes; eassumption|].
      eapply (set_makes _ IH); eassumption.
  - step H p r1. step H args r2. step H ds r3. step H sub r4. injection H as <- <-. cbn [selection_nodes]. constructor; [exact I|]. apply Forall_app. split; [apply names_atomic|]. constructor; [exact I|].
    apply Forall_app. split; [eapply arguments_makes; eassumption|]. apply Forall_app. split; [eapply directives_makes; eassumption|].
    match goal with X : (if peek_punct_at POpenBrace r3 then _ else _) = _ |- _ => destruct (peek_punct_at POpenBrace r3); [step X l r5; injection X as <- <-|injection X as <- <-; constructor] end.
    eapply (set_makes _ IH); eassumption.
Qed.
Lemma operation_makes : makes parse_operation_at operation_nodes.
Proof.
  intros ts o r H. unfold parse_operation_at in H. destruct (peek_optype_at ts).
  - step H n0 r0. destruct (optype_of (fst n0)) as [ty|]; [|discriminate]. destruct (match next_if_name_at r0 with Some (n, r1) => (Some n, r1) | None => (None, r0) end) as [n r1].
    step H vs r2. step H ds r3. step H sub r4. injection H as <- <-. cbn [operation_nodes]. constructor; [exact I|]. constructor; [exact I|]. apply Forall_app. split; [apply names_atomic|].
    apply Forall_app. split; [eapply vardefs_makes; eassumption|]. apply Forall_app. split; [eapply directives_makes; eassumption|]. eapply (set_makes _ (selection_makes _)); eassumption.
  - destruct (peek_punct_at POpenBrace ts); [|unfold unexpected_at in H; destruct ts; discriminate]. step H sub r1. injection H as <- <-. constructor; [exact I|]. eapply (set_makes _ (selection_makes _)); eassumption.
Qed.
Lemma fragment_makes : makes parse_fragment_at fragment_nodes.
Proof.
  intros ts f r H. unfold parse_fragment_at in H. step H f0 r0. step H n r1. destruct (teqb (fst n) (tx "on")); [discriminate|]. step H c r2. step H ds r3. step H sub r4. injection H as <- <-.
  unfold fragment_nodes. constructor; [exact I|]. constructor; [exact I|]. constructor; [exact I|]. apply Forall_app. split; [eapply directives_makes; eassumption|]. eapply (set_makes _ (selection_makes _)); eassumption.
Qed.
Lemma loop_makes : forall fuel ts d errs b, atomic (document_nodes d) -> atomic (document_nodes (fst (document_loop_at fuel ts d errs b))).
Proof.
  induction fuel as [|fuel IH]; intros ts d errs b D; cbn [document_loop_at]; [exact D|]. destruct (try_definition_at ts) as [[x r|e r]|] eqn:E.
  - apply IH. unfold document_nodes. rewrite flat_map_app. apply Forall_app. split; [exact D|]. cbn [flat_map]. rewrite app_nil_r. unfold try_definition_at in E.
    destruct (peek_optype_at ts || peek_punct_at POpenBrace ts); [|destruct (peek_name_matches_at (tx "fragment") ts); [|discriminate]]; injection E as E; step E y r'; injection E as <- <-.
    + eapply operation_makes; eassumption.
    + eapply fragment_makes; eassumption.
  - apply IH. exact D.
  - destruct ts as [|t r]; [exact D|]. apply IH. exact D.
Qed.
Theorem parsed_tokens recover other_digit parse_f64 s d : parse_text_at recover other_digit parse_f64 s = inl d -> tokens_only (document_nodes d).
Proof.
  unfold parse_text_at, parse_document_at. destruct (document_loop_at _ _ _ _ _) as [d' errs] eqn:El.
  assert (A : atomic (document_nodes d')) by (change d' with (fst (d', errs)); rewrite <- El; apply loop_makes; constructor).
  intros H. assert (E : d' = d).
  { destruct (match lexing_errors _ with [] => _ | _ => _ end); [injection H as H; exact H|discriminate]. }
  subst d'. intros x sp Hin. exact (proj1 (Forall_forall _ _) A _ Hin).
Qed.
