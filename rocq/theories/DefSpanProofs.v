(** The positions of the parts of a schema document. *)
From Coq Require Import String Sorted.
From Verif Require Import Base Ast Lexer LexerSpec LexerProofs Parser Location DefParser ParserAt DefParserAt ParserSpec ParserAtSpec DefParserSpec DefParserAtSpec
  LexerStreamProofs LexerBlockProofs LexerTokenProofs ParserProofs ParserDocProofs ParserAtProofs LexerProps SpanProofs DefParserProofs DefParserAtProofs DefSpanSpec.

(** ** What the functions of the parser read *)
Definition yields {A} (p : list ltok -> lresult A) (w : A -> piece) : Prop :=
  forall ts a r, ordered ts -> p ts = LOk a r -> exists mid, ts = mid ++ r /\ w a mid.
Lemma fol (p q : piece) a rest r : p a -> (exists mid, rest = mid ++ r /\ q mid) -> exists mid, a ++ rest = mid ++ r /\ (p ;; q) mid.
Proof. intros H (m & -> & Hm). exists (a ++ m). rewrite app_assoc. split; [reflexivity|]. exists a, m. auto. Qed.
Lemma lst (p : piece) a r : p a -> exists mid, a ++ r = mid ++ r /\ p mid.
Proof. eauto. Qed.
Lemma one_at t sp : at_range sp (one t) [(t, sp)].
Proof. split; [exists sp; reflexivity|]. exact (covers_one (t, sp)). Qed.
Lemma name_yields : yields expect_name_at name_piece.
Proof. intros ts n r _ H. apply expect_name_at_inv in H as ->. exists [(TkName (fst n), snd n)]. split; [reflexivity|]. apply one_at. Qed.
Lemma word_yields w : yields (expect_name_value_at (tx w)) (fun sp => at_range sp (word w)).
Proof. intros ts n r _ H. apply expect_name_value_at_inv in H as ->. exists [(TkName (tx w), n)]. split; [reflexivity|]. apply one_at. Qed.
Lemma mark_yields p : yields (expect_punct_at p) (fun sp => at_range sp (mark p)).
Proof. intros ts n r _ H. apply expect_punct_at_inv in H as ->. exists [(P p, n)]. split; [reflexivity|]. apply one_at. Qed.
Lemma unranged sp p ts : at_range sp p ts -> p ts.
Proof. intros (H & _). exact H. Qed.
Lemma desc_inv ts d r : next_if_string_at ts = (d, r) -> exists mid, ts = mid ++ r /\ desc_piece d mid.
Proof.
  destruct ts as [|[[] sp] ts]; cbn; intros [= <- <-]; try (exists []; split; reflexivity).
  exists [(TkStr s, sp)]. split; [reflexivity|]. apply one_at.
Qed.
Lemma value_yields c fuel : yields (parse_value_at c fuel) value_piece.
Proof.
  intros ts v r O H. destruct (value_reads c fuel _ _ _ O H) as (mid & E & (G & _) & C). exists mid. split; [exact E|]. split; [|exact C]. split; [|exact G].
  exact (read_tokens plain_value _ _ _ _ (forget_value c fuel) (parse_value_sound c fuel) ts v r mid H E).
Qed.
Lemma directive_yields c : yields (parse_directive_at c) directive_piece.
Proof.
  intros ts v r O H. destruct (directive_reads c _ _ _ O H) as (mid & E & (G & _) & C). exists mid. split; [exact E|]. split; [|exact C]. split; [|exact G].
  exact (read_tokens plain_directive _ _ _ _ (forget_directive c) (parse_directive_sound c) ts v r mid H E).
Qed.
Lemma each_nil {A} (w : A -> piece) : each w [] [].
Proof. exists []. split; [reflexivity|constructor]. Qed.
Lemma each_cons {A} (w : A -> piece) x l a b : w x a -> each w l b -> each w (x :: l) (a ++ b).
Proof. intros H (p & -> & F). exists (a :: p). split; [reflexivity|constructor; assumption]. Qed.
Lemma many1_yields {A} (item : list ltok -> lresult A) w close : yields item w -> forall fuel ts l r,
  ordered ts -> many1_at item close fuel ts = LOk l r -> exists mid, ts = mid ++ (P close, snd l) :: r /\ each w (fst l) mid /\ fst l <> [].
Proof.
  intros Y. induction fuel as [|fuel IH]; intros ts l r O; cbn [many1_at]; [discriminate|]. intros H. apply lbind_ok in H. destruct H as (a & r1 & H1 & H).
  destruct (Y _ _ _ O H1) as (m1 & -> & W1). destruct (next_if_punct_at close r1) as [[sp r0]|] eqn:E.
  - injection H as <- <-. apply next_if_punct_at_inv in E as ->. exists m1. split; [reflexivity|]. cbn. split; [|discriminate]. rewrite <- (app_nil_r m1). apply each_cons; [exact W1|apply each_nil].
  - apply lbind_ok in H. destruct H as (l1 & r2 & H2 & [= <- <-]). destruct (IH _ _ _ (ordered_suffix _ _ O) H2) as (m2 & -> & W2 & _).
    exists (m1 ++ m2). rewrite <- app_assoc. split; [reflexivity|]. split; [apply each_cons; auto|discriminate].
Qed.
Lemma enclosed_yields {A} (item : list ltok -> lresult A) w op close : yields item w -> yields (enclosed_at item op close) (enclosed op close w).
Proof.
  intros Y ts l r O H. unfold enclosed_at in H. apply lbind_ok in H. destruct H as (o & r1 & H1 & H). apply lbind_ok in H. destruct H as (l1 & r2 & H2 & [= <- <-]).
  apply expect_punct_at_inv in H1 as ->. destruct (many1_yields _ _ _ Y _ _ _ _ (ordered_suffix [_] _ O) H2) as (m & -> & W & N).
  exists ((P op, o) :: m ++ [(P close, snd l1)]). split; [cbn; rewrite <- app_assoc; reflexivity|]. cbn [fst snd].
  assert (O1 : ordered ((P op, o) :: m ++ [(P close, snd l1)])) by (pre r2 O). split; [exact N|]. split.
  - exists [(P op, o)], (m ++ [(P close, snd l1)]). split; [reflexivity|]. split; [exists o; reflexivity|]. exists m, [(P close, snd l1)]. split; [reflexivity|]. split; [exact W|].
    exists (snd l1). reflexivity.
  - exact (covers_merge _ _ _ [(P op, o)] (m ++ [(P close, snd l1)]) ((P op, o) :: m) [(P close, snd l1)] O1 (covers_one (P op, o)) (covers_one (P close, snd l1)) eq_refl eq_refl).
Qed.
Lemma many_at_yields {A} (item : list ltok -> lresult A) w : yields item w -> forall fuel, yields (many_at_at item fuel) (each w).
Proof.
  intros Y. induction fuel as [|fuel IH]; intros ts l r O; cbn [many_at_at]; [discriminate|].
  destruct (peek_punct_at PAt ts); [|intros [= <- <-]; exists []; split; [reflexivity|apply each_nil]].
  intros H. apply lbind_ok in H. destruct H as (a & r1 & H1 & H). apply lbind_ok in H. destruct H as (l1 & r2 & H2 & [= <- <-]).
  destruct (Y _ _ _ O H1) as (m1 & -> & W1). destruct (IH _ _ _ (ordered_suffix _ _ O) H2) as (m2 & -> & W2).
  exists (m1 ++ m2). rewrite <- app_assoc. split; [reflexivity|]. apply each_cons; auto.
Qed.
Lemma directives_each l mid : ordered mid -> each directive_piece l mid -> directives_piece (Some (l, directives_span l)) mid.
Proof.
  intros O (pieces & -> & F). destruct F as [|x p l pieces Hp F]; [split; reflexivity|].
  cbn [directives_span]. destruct l as [|y l].
  - inversion F; subst. cbn in *. split; [|rewrite app_nil_r; apply Hp]. exists [p]. split; [reflexivity|]. constructor; [exact Hp|constructor].
  - cbn [directives_piece]. split; [exists (p :: pieces); split; [reflexivity|constructor; assumption]|].
    assert (E : exists q mq, concat (p :: pieces) = q ++ mq /\ covers mq (ld_span (last (y :: l) x))).
    { clear O. revert x p Hp. induction F as [|z pz l' ps Hz F IH]; intros x p Hp; [exists [], p; cbn; rewrite app_nil_r; split; [reflexivity|apply Hp]|].
      destruct (IH z pz Hz) as (q & mq & Eq & C). exists (p ++ q), mq. cbn [concat] in *. rewrite Eq, app_assoc. split; [reflexivity|].
      replace (last (z :: l') x) with (last l' z); [exact C|]. clear. revert z. induction l' as [|u l' IH]; intros z; [reflexivity|]. cbn in *. destruct l'; auto. }
    destruct E as (q & mq & Eq & C). apply (covers_merge _ _ _ p (concat pieces) q mq O (proj2 Hp) C); [reflexivity|exact Eq].
Qed.
Lemma all_directives_yields : yields all_directives_at directives_piece.
Proof.
  intros ts a r O H. unfold all_directives_at in H. apply lbind_ok in H. destruct H as (l & r2 & H2 & [= <- <-]).
  destruct (many_at_yields _ _ (directive_yields true) _ _ _ _ O H2) as (mid & -> & W). exists mid. split; [reflexivity|]. apply directives_each; [|exact W]. exact (ordered_prefix _ _ O).
Qed.
Lemma directives_yields : yields (parse_directives_at true) directives_piece.
Proof.
  intros ts a r O H. unfold parse_directives_at in H. destruct (peek_punct_at PAt ts); [|injection H as <- <-; exists []; split; reflexivity].
  exact (all_directives_yields ts a r O H).
Qed.
Lemma bang_piece_tokens b : bang_piece (is_some b) (bang_tokens b).
Proof. destruct b as [sp|]; [exists sp; reflexivity|reflexivity]. Qed.
Lemma type_yields : forall fuel, yields (parse_dtype_at fuel) type_piece.
Proof.
  induction fuel as [|fuel IH]; intros ts t r O H; [discriminate H|]. cbn [parse_dtype_at] in H. destruct (next_if_punct_at POpenSquare ts) as [[o r0]|] eqn:E.
  - apply next_if_punct_at_inv in E as ->. apply lbind_ok in H. destruct H as (i & r1 & H1 & H). apply lbind_ok in H. destruct H as (c & r2 & H2 & H).
    destruct (parse_bang_at r2) as [b r3] eqn:Eb. apply parse_bang_at_inv in Eb as ->. injection H as <- <-.
    destruct (IH _ _ _ (ordered_suffix [_] _ O) H1) as (m & -> & W). apply expect_punct_at_inv in H2 as ->.
    assert (O1 : ordered ((P POpenSquare, o) :: m ++ [(P PCloseSquare, c)])) by (pre (bang_tokens b ++ r3) O).
    exists (((P POpenSquare, o) :: m ++ [(P PCloseSquare, c)]) ++ bang_tokens b). split; [cbn; rewrite <- !app_assoc; reflexivity|].
    exists ((P POpenSquare, o) :: m ++ [(P PCloseSquare, c)]), (bang_tokens b). split; [reflexivity|]. split; [|apply bang_piece_tokens]. split.
    + exists [(P POpenSquare, o)], (m ++ [(P PCloseSquare, c)]). split; [reflexivity|]. split; [exists o; reflexivity|]. exists m, [(P PCloseSquare, c)].
      split; [reflexivity|]. split; [exact W|]. exists c. reflexivity.
    + exact (covers_merge _ _ _ [(P POpenSquare, o)] (m ++ [(P PCloseSquare, c)]) ((P POpenSquare, o) :: m) [(P PCloseSquare, c)] O1
        (covers_one (P POpenSquare, o)) (covers_one (P PCloseSquare, c)) eq_refl eq_refl).
  - destruct (next_if_name_at ts) as [[n r0]|] eqn:En; [|destruct ts; discriminate H]. apply next_if_name_at_inv in En as ->.
    destruct (parse_bang_at r0) as [b r1] eqn:Eb. apply parse_bang_at_inv in Eb as ->. injection H as <- <-.
    set (n' := (TkName (fst n), snd n)) in *. assert (O1 : ordered (n' :: bang_tokens b)) by (pre r1 O).
    exists (n' :: bang_tokens b). split; [reflexivity|]. split.
    + exists [n'], (bang_tokens b). split; [reflexivity|]. split; [apply one_at|apply bang_piece_tokens].
    + destruct b as [b|]; cbn [bang_tokens] in *; [|exact (covers_one n')].
      exact (covers_merge _ _ _ [n'] [(P PBang, b)] [n'] [(P PBang, b)] O1 (covers_one n') (covers_one (P PBang, b)) eq_refl eq_refl).
Qed.
Lemma default_yields : yields parse_default_at default_piece.
Proof.
  intros ts o r O H. unfold parse_default_at in H. destruct (next_if_punct_at PEquals ts) as [[sp r0]|] eqn:E.
  - apply next_if_punct_at_inv in E as ->. apply lbind_ok in H. destruct H as (v & r1 & H & [= <- <-]).
    destruct (value_yields true _ _ _ _ (ordered_suffix [_] _ O) H) as (m & -> & W). exists ((P PEquals, sp) :: m). split; [reflexivity|].
    exists [(P PEquals, sp)], m. split; [reflexivity|]. split; [exists sp; reflexivity|exact W].
  - injection H as <- <-. exists []. split; reflexivity.
Qed.
Create HintDb yl. 
#[local] Hint Resolve name_yields word_yields mark_yields value_yields directive_yields all_directives_yields directives_yields type_yields default_yields : yl.
(** one step of a function of the parser *)
Ltac st H O := apply lbind_ok in H;
  let a := fresh "a" in let r1 := fresh "r" in let H1 := fresh "H" in let Y := fresh "Y" in let m := fresh "m" in let W := fresh "W" in
  destruct H as (a & r1 & H1 & H);
  match type of H1 with ?p ?ts = LOk _ _ => eassert (Y : yields p _) by (eauto 2 with yl);
    destruct (Y _ _ _ O H1) as (m & -> & W); clear Y; clear H1; apply ordered_suffix in O; cbv beta in W end.
Ltac ds H O := let d := fresh "d" in let r := fresh "r" in let E := fresh "E" in let m := fresh "m" in let W := fresh "W" in
  match type of H with context [next_if_string_at ?ts] => destruct (next_if_string_at ts) as [d r] eqn:E end;
  apply desc_inv in E; destruct E as (m & -> & W); apply ordered_suffix in O.
Ltac fin := repeat (apply fol; [first [assumption|eapply unranged; eassumption]|]); apply lst; first [assumption|eapply unranged; eassumption].
Lemma ivd_yields : yields parse_ivd_at ivd_piece.
Proof. intros ts a r O H. unfold parse_ivd_at in H. ds H O. do 5 st H O. injection H as <- <-. unfold ivd_piece. cbn. fin. Qed.
#[local] Hint Resolve ivd_yields : yl.
Lemma args_yields : yields parse_ivds_args_at args_piece.
Proof.
  intros ts a r O H. unfold parse_ivds_args_at in H. destruct (peek_punct_at POpenRound ts); [|injection H as <- <-; exists []; split; reflexivity].
  apply lbind_ok in H. destruct H as (l & r1 & H & [= <- <-]). exact (enclosed_yields _ _ _ _ ivd_yields _ _ _ O H).
Qed.
#[local] Hint Resolve args_yields : yl.
Lemma fdef_yields : yields parse_fdef_at fdef_piece.
Proof. intros ts a r O H. unfold parse_fdef_at in H. ds H O. do 5 st H O. injection H as <- <-. unfold fdef_piece. cbn. fin. Qed.
Lemma fdefs_yields : yields parse_fdefs_at (enclosed POpenBrace PCloseBrace fdef_piece).
Proof. exact (enclosed_yields _ _ _ _ fdef_yields). Qed.
Lemma evd_yields : yields parse_evd_at evd_piece.
Proof.
  intros ts a r O H. unfold parse_evd_at in H. ds H O. st H O. destruct (teqb _ _ || _ || _); [discriminate|]. st H O. injection H as <- <-. unfold evd_piece. cbn. fin.
Qed.
Lemma evds_yields : yields parse_evds_at (enclosed POpenBrace PCloseBrace evd_piece).
Proof. exact (enclosed_yields _ _ _ _ evd_yields). Qed.
Lemma input_fields_yields : yields parse_input_fields_at (enclosed POpenBrace PCloseBrace ivd_piece).
Proof. exact (enclosed_yields _ _ _ _ ivd_yields). Qed.
Lemma many_sep_yields {A} (item : list ltok -> lresult A) w sep : yields item w -> forall fuel, yields (many_sep_at item sep fuel) (each (fun x => mark sep ;; w x)).
Proof.
  intros Y. induction fuel as [|fuel IH]; intros ts l r O; cbn [many_sep_at]; [discriminate|].
  destruct (next_if_punct_at sep ts) as [[sp r0]|] eqn:E; [|intros [= <- <-]; exists []; split; [reflexivity|apply each_nil]].
  apply next_if_punct_at_inv in E as ->. intros H. apply lbind_ok in H. destruct H as (a & r1 & H1 & H). apply lbind_ok in H. destruct H as (l1 & r2 & H2 & [= <- <-]).
  pose proof (ordered_suffix [_] _ O) as O1. destruct (Y _ _ _ O1 H1) as (m1 & -> & W1). destruct (IH _ _ _ (ordered_suffix _ _ O1) H2) as (m2 & -> & W2).
  exists (([(P sep, sp)] ++ m1) ++ m2). split; [rewrite <- !app_assoc; reflexivity|]. apply each_cons; [|exact W2]. exists [(P sep, sp)], m1.
  split; [reflexivity|]. split; [exists sp; reflexivity|exact W1].
Qed.
Lemma sep_list_yields {A} (item : list ltok -> lresult A) w sep : yields item w -> yields (parse_sep_list_at item sep) (separated sep w).
Proof.
  intros Y ts l r O H. unfold parse_sep_list_at in H.
  assert (E : exists m0, ts = m0 ++ match next_if_punct_at sep ts with Some (_, r) => r | None => ts end /\ maybe (mark sep) m0).
  { destruct (next_if_punct_at sep ts) as [[sp r0]|] eqn:E; [|exists []; split; [reflexivity|left; reflexivity]].
    apply next_if_punct_at_inv in E as ->. exists [(P sep, sp)]. split; [reflexivity|]. right. exists sp. reflexivity. }
  destruct E as (m0 & E & W0). rewrite E in O. apply ordered_suffix in O. cbv zeta in H. rewrite E. clear E. remember (match next_if_punct_at sep ts with Some (_, r) => r | None => ts end) as r0. clear Heqr0.
  apply lbind_ok in H. destruct H as (a & r1 & H1 & H). apply lbind_ok in H. destruct H as (l1 & r2 & H2 & [= <- <-]).
  destruct (Y _ _ _ O H1) as (m1 & -> & W1). destruct (many_sep_yields _ _ sep Y _ _ _ _ (ordered_suffix _ _ O) H2) as (m2 & -> & W2).
  unfold separated. fin.
Qed.
Lemma separated_some {A} sep (w : A -> piece) l ts : separated sep w l ts -> l <> [].
Proof. destruct l; [intros []|discriminate]. Qed.
Lemma implements_yields : yields parse_implements_at implements_piece.
Proof.
  intros ts a r O H. unfold parse_implements_at in H. destruct (peek_name_matches_at (tx "implements") ts); [|injection H as <- <-; exists []; split; reflexivity].
  st H O. destruct (sep_list_yields _ _ PAmpersand name_yields _ _ _ O H) as (m2 & -> & W2). pose proof (separated_some _ _ _ _ W2) as N.
  unfold implements_piece. destruct a as [|x a]; [congruence|]. fin.
Qed.
Lemma location_yields : yields parse_location_at location_piece.
Proof.
  intros ts a r O H. unfold parse_location_at in H. apply lbind_ok in H. destruct H as (n & r1 & H1 & H). apply expect_name_at_inv in H1 as ->.
  destruct (dloc_of (fst n)) as [l|] eqn:E; [|discriminate]. injection H as <- <-. apply dloc_of_inv in E. rewrite E, dloc_word. exists [(TkName (tx (location_word l)), snd n)].
  split; [reflexivity|]. apply one_at.
Qed.
Lemma members_yields : yields (parse_sep_list_at expect_name_at PPipe) (separated PPipe name_piece).
Proof. exact (sep_list_yields _ _ _ name_yields). Qed.
Lemma locations_yields : yields (parse_sep_list_at parse_location_at PPipe) (separated PPipe location_piece).
Proof. exact (sep_list_yields _ _ _ location_yields). Qed.
#[local] Hint Resolve fdefs_yields evds_yields input_fields_yields implements_yields members_yields locations_yields : yl.
Ltac def H O f := unfold f in H; ds H O; repeat st H O; injection H as <- <-; unfold tdef_piece; fin.
Lemma scalar_yields : yields parse_scalar_at tdef_piece.
Proof. intros ts a r O H. def H O parse_scalar_at. Qed.
Lemma object_yields : yields parse_object_at tdef_piece.
Proof. intros ts a r O H. def H O parse_object_at. Qed.
Lemma interface_yields : yields parse_interface_at tdef_piece.
Proof. intros ts a r O H. def H O parse_interface_at. Qed.
Lemma union_yields : yields parse_union_at tdef_piece.
Proof. intros ts a r O H. def H O parse_union_at. Qed.
Lemma input_yields : yields parse_input_at tdef_piece.
Proof. intros ts a r O H. def H O parse_input_at. Qed.
Lemma enum_yields : yields parse_enum_at tdef_piece.
Proof. intros ts a r O H. def H O parse_enum_at. Qed.
Lemma repeatable_inv ts rep r : (match next_if_name_matches_at (tx "repeatable") ts with Some r => (true, r) | None => (false, ts) end) = (rep, r) ->
  exists mid, ts = mid ++ r /\ (if rep then word "repeatable" else nothing) mid.
Proof.
  unfold next_if_name_matches_at. destruct ts as [|[[] sp] ts]; try (intros [= <- <-]; exists []; split; reflexivity).
  destruct (teqb_spec n (tx "repeatable")) as [->|_]; intros [= <- <-]; [|exists []; split; reflexivity].
  exists [(TkName (tx "repeatable"), sp)]. split; [reflexivity|]. exists sp. reflexivity.
Qed.
Lemma ddef_yields : yields parse_ddef_at ddef_piece.
Proof.
  intros ts a r O H. unfold parse_ddef_at in H. ds H O. do 4 st H O.
  destruct (match next_if_name_matches_at (tx "repeatable") _ with Some r => _ | None => _ end) as [rep r5] eqn:E. apply repeatable_inv in E. destruct E as (m5 & -> & W5). apply ordered_suffix in O.
  do 2 st H O. injection H as <- <-. unfold ddef_piece. cbn [ldd_desc ldd_name ldd_args ldd_repeatable ldd_locs]. fin.
Qed.
Lemma root_yields : yields parse_root_at root_piece.
Proof.
  intros ts a r O H. unfold parse_root_at in H. apply lbind_ok in H. destruct H as (w & r1 & H1 & H). apply expect_name_at_inv in H1 as ->. apply (ordered_suffix [_]) in O.
  destruct (optype_of (fst w)) as [ty|] eqn:E; [|discriminate]. do 2 st H O. injection H as <- <-. unfold root_piece. cbn [fst snd].
  replace (TkName (fst w)) with (TkName (optype_word ty)) by (f_equal; clear - E; unfold optype_of in E; repeat match type of E with context [teqb ?a ?b] => destruct (teqb_spec a b) as [->|] end; try discriminate; injection E as <-; reflexivity).
  apply (fol _ _ [(TkName (optype_word ty), snd w)]); [exists (snd w); reflexivity|]. fin.
Qed.
Lemma roots_yields : yields (enclosed_at parse_root_at POpenBrace PCloseBrace) (enclosed POpenBrace PCloseBrace root_piece).
Proof. exact (enclosed_yields _ _ _ _ root_yields). Qed.
#[local] Hint Resolve roots_yields : yl.
Lemma esdef_yields : yields parse_esdef_at esdef_piece.
Proof. intros ts a r O H. unfold parse_esdef_at in H. ds H O. do 3 st H O. injection H as <- <-. unfold esdef_piece. cbn. rewrite <- surjective_pairing. fin. Qed.
Lemma sysdef_yields ts x r : ordered ts -> try_sysdef_at ts = Some (LOk x r) -> exists mid, ts = mid ++ r /\ sysdef_piece x mid.
Proof.
  intros O. unfold try_sysdef_at. destruct (next_identifier_at ts) as [n|]; [|discriminate].
  assert (T : forall p, yields p tdef_piece -> Some (as_type_at (p ts)) = Some (LOk x r) -> exists mid, ts = mid ++ r /\ sysdef_piece x mid).
  { intros p Y [= H]. unfold as_type_at in H. apply lbind_ok in H. destruct H as (t & r1 & H & [= <- <-]). exact (Y _ _ _ O H). }
  repeat (match goal with |- context [if teqb ?a ?b then _ else _] => destruct (teqb a b) end;
    [first [apply T; first [exact scalar_yields|exact object_yields|exact interface_yields|exact union_yields|exact input_yields|exact enum_yields]
           |intros [= H]; apply lbind_ok in H; destruct H as (t & r1 & H & [= <- <-]); first [exact (esdef_yields _ _ _ O H)|exact (ddef_yields _ _ _ O H)]]|]).
  discriminate.
Qed.
Lemma sysdoc_grows fuel : forall ts d errs b d' errs', sysdoc_loop_at fuel ts d errs b = (d', errs') -> exists l, errs' = errs ++ l.
Proof.
  induction fuel as [|fuel IH]; intros ts d errs b d' errs'; cbn [sysdoc_loop_at]; [intros [= <- <-]; eauto|].
  assert (K : forall ts d e b, sysdoc_loop_at fuel ts d (if b : bool then errs else errs ++ [e]) true = (d', errs') -> exists l, errs' = errs ++ l).
  { intros ts0 d0 e [|] H; apply IH in H; destruct H as (l & ->); [eauto|]. exists (e :: l). rewrite <- app_assoc. reflexivity. }
  destruct (try_sysdef_at ts) as [[x r|e r]|]; [apply IH|apply K|]. destruct ts as [|t r]; [intros [= <- <-]; exists []; rewrite app_nil_r; reflexivity|apply K].
Qed.
Lemma sysdoc_yields fuel : forall ts d d', ordered ts -> sysdoc_loop_at fuel ts d [] false = (d', []) -> exists l, d' = d ++ l /\ each sysdef_piece l ts.
Proof.
  induction fuel as [|fuel IH]; intros ts d d' O; cbn [sysdoc_loop_at]; [discriminate|]. destruct (try_sysdef_at ts) as [[x r|e r]|] eqn:E.
  - intros H. destruct (sysdef_yields _ _ _ O E) as (mid & -> & W). apply ordered_suffix in O. destruct (IH _ _ _ O H) as (l & -> & F). exists (x :: l).
    rewrite <- app_assoc. split; [reflexivity|]. apply each_cons; auto.
  - intros H. apply sysdoc_grows in H. destruct H as (l & H). discriminate.
  - destruct ts as [|t r]; [intros [= <-]; exists []; rewrite app_nil_r; split; [reflexivity|apply each_nil]|].
    intros H. apply sysdoc_grows in H. destruct H as (l & H). discriminate.
Qed.
Lemma document_yields eof items d : ordered (items_at items) -> parse_sysdoc_at eof items = inl d -> lexing_errors items = [] /\ each sysdef_piece d (items_at items).
Proof.
  intros O. unfold parse_sysdoc_at. destruct (sysdoc_loop_at _ _ _ _ _) as [d' errs] eqn:E. destruct (lexing_errors items) as [|e es]; [|discriminate].
  destruct errs as [|e errs]; [|discriminate]. destruct (sysdoc_yields _ _ _ _ O E) as (l & -> & F). cbn [app] in *. destruct l as [|x l]; [discriminate|]. intros [= <-]. auto.
Qed.

(** ** The tokens of pieces *)
Definition toks (ts : list ltok) : list token := map fst ts.
Lemma toks_app a b : toks (a ++ b) = toks a ++ toks b.
Proof. apply map_app. Qed.
Definition spells {A} (w : A -> piece) (tk : A -> list token) : Prop := forall a ts, w a ts -> toks ts = tk a.
Lemma followed_tokens (p q : piece) a b ts : (forall ts, p ts -> toks ts = a) -> (forall ts, q ts -> toks ts = b) -> (p ;; q) ts -> toks ts = a ++ b.
Proof. intros Hp Hq (x & y & -> & Hx & Hy). rewrite toks_app, (Hp _ Hx), (Hq _ Hy). reflexivity. Qed.
Lemma one_tokens t ts : one t ts -> toks ts = [t].
Proof. intros (sp & ->). reflexivity. Qed.
Lemma nothing_tokens ts : nothing ts -> toks ts = [].
Proof. intros ->. reflexivity. Qed.
Lemma range_tokens sp (p : piece) l ts : (forall ts, p ts -> toks ts = l) -> at_range sp p ts -> toks ts = l.
Proof. intros H (Hp & _). auto. Qed.
Lemma each_tokens {A} (w : A -> piece) tk : spells w tk -> spells (each w) (fun l => concat (map tk l)).
Proof. intros H l ts (ps & -> & F). induction F as [|x p l ps Hp F IH]; [reflexivity|]. cbn. rewrite toks_app, (H _ _ Hp), IH. reflexivity. Qed.
Lemma name_tokens : spells name_piece (fun n => [TkName (fst n)]).
Proof. intros n ts (H & _). exact (one_tokens _ _ H). Qed.
Lemma desc_tokens : spells desc_piece (fun d => tk_desc (plain_desc d)).
Proof. intros [s|] ts; [intros (H & _); exact (one_tokens _ _ H)|intros ->; reflexivity]. Qed.
Lemma directives_tokens : spells directives_piece (fun o => tk_directives (plain_directives o)).
Proof.
  intros [[l [sp|]]|] ts; [|intros (-> & ->); reflexivity|intros ->; reflexivity]. intros (H & _). cbn.
  assert (S : spells directive_piece (fun d => tk_directive (plain_directive d))) by (intros d us ((U & _) & _); exact U).
  rewrite (each_tokens _ _ S _ _ H). unfold tk_directives. rewrite ?flat_map_concat_map, map_map. reflexivity.
Qed.
Lemma bang_piece_spells : spells bang_piece tk_bang.
Proof. intros [|] ts; [exact (one_tokens _ _)|intros ->; reflexivity]. Qed.
Lemma type_tokens : spells type_piece (fun t => tk_tref (plain_type t)).
Proof.
  intros t. induction t as [n req sp|i IH req sp]; intros ts.
  - intros (H & _). exact (followed_tokens _ _ _ _ _ (name_tokens n) (bang_piece_spells req) H).
  - intros (a & b & -> & (Ha & _) & Hb). destruct Ha as (o & m & -> & Ho & (m' & c & -> & Hm & Hc)). cbn. rewrite !toks_app, (one_tokens _ _ Ho), (IH _ Hm), (one_tokens _ _ Hc), (bang_piece_spells _ _ Hb).
    cbn. rewrite <- app_assoc. reflexivity.
Qed.
Lemma default_tokens : spells default_piece (fun o => tk_default (option_map plain_value o)).
Proof. intros [v|] ts; [|intros ->; reflexivity]. intros (a & b & -> & Ha & ((Hb & _) & _)). rewrite toks_app, (one_tokens _ _ Ha). exact (f_equal (cons (P PEquals)) Hb). Qed.
Ltac parts_of H := repeat match type of H with (_ ;; _) _ => let a := fresh "m" in let b := fresh "n" in let W := fresh "W" in destruct H as (a & b & -> & W & H) end.
Ltac tok := repeat first [rewrite toks_app|match goal with
  | W : name_piece _ ?m |- context [toks ?m] => rewrite (name_tokens _ _ W)
  | W : desc_piece _ ?m |- context [toks ?m] => rewrite (desc_tokens _ _ W)
  | W : directives_piece _ ?m |- context [toks ?m] => rewrite (directives_tokens _ _ W)
  | W : type_piece _ ?m |- context [toks ?m] => rewrite (type_tokens _ _ W)
  | W : default_piece _ ?m |- context [toks ?m] => rewrite (default_tokens _ _ W)
  | W : mark _ ?m |- context [toks ?m] => rewrite (one_tokens _ _ W)
  | W : word _ ?m |- context [toks ?m] => rewrite (one_tokens _ _ W)
  | W : one _ ?m |- context [toks ?m] => rewrite (one_tokens _ _ W)
  end].
Lemma ivd_tokens : spells ivd_piece (fun i => tk_ivd (plain_ivd i)).
Proof. intros i ts H. unfold ivd_piece in H. parts_of H. tok. unfold tk_ivd. cbn. rewrite <- ?app_assoc. reflexivity. Qed.
Lemma enclosed_tokens {A} op cl (w : A -> piece) tk l ts : spells w tk -> enclosed op cl w l ts -> toks ts = P op :: concat (map tk (fst l)) ++ [P cl].
Proof. intros S (_ & H & _). parts_of H. tok. rewrite (each_tokens _ _ S _ _ W0). reflexivity. Qed.
Lemma args_tokens : spells args_piece (fun o => tk_args_def (plain_ivds o)).
Proof.
  intros [[l sp]|] ts; [|intros ->; reflexivity]. intros H. pose proof (proj1 H) as N. apply (enclosed_tokens _ _ _ _ _ _ ivd_tokens) in H. rewrite H. cbn [fst] in *.
  destruct l as [|i l]; [congruence|]. cbn [plain_ivds fst map tk_args_def]. f_equal. f_equal. cbn. rewrite map_map. reflexivity.
Qed.
Lemma fdef_tokens : spells fdef_piece (fun f => tk_fdef (plain_fdef f)).
Proof. intros i ts H. unfold fdef_piece in H. parts_of H. tok. rewrite (args_tokens _ _ W1). unfold tk_fdef. cbn. rewrite <- ?app_assoc. reflexivity. Qed.
Lemma evd_tokens : spells evd_piece (fun e => tk_evd (plain_evd e)).
Proof. intros i ts H. unfold evd_piece in H. parts_of H. tok. reflexivity. Qed.
Lemma root_tokens : spells root_piece (fun p => tk_root (fst p, fst (snd p))).
Proof. intros i ts H. unfold root_piece in H. parts_of H. tok. reflexivity. Qed.

(** ** Parts *)
Notation all_placed ts l := (Forall (part_placed ts) l).
Lemma placed_wide a ts b p : part_placed ts p -> part_placed (a ++ ts ++ b) p.
Proof. intros (x & m & y & -> & H1 & H2). exists (a ++ x), m, (y ++ b). rewrite !app_assoc. auto. Qed.
Lemma placed_left a b l : all_placed a l -> all_placed (a ++ b) l.
Proof. intros H. eapply Forall_impl; [|exact H]. intros p. exact (placed_wide [] a b p). Qed.
Lemma placed_right a b l : all_placed b l -> all_placed (a ++ b) l.
Proof. intros H. eapply Forall_impl; [|exact H]. intros p Hp. pose proof (placed_wide a b [] p Hp) as K. rewrite app_nil_r in K. exact K. Qed.
Lemma placed_here ts l sp : toks ts = l -> covers ts sp -> part_placed ts (l, sp).
Proof. intros E C. exists [], ts, []. rewrite app_nil_r. auto. Qed.
Lemma name_placed n ts : name_piece n ts -> part_placed ts (name_part n).
Proof. intros H. apply placed_here; [exact (name_tokens _ _ H)|apply H]. Qed.
Lemma desc_placed d ts : desc_piece d ts -> all_placed ts (desc_parts d).
Proof. intros H. destruct d as [s|]; [|constructor]. repeat constructor. apply placed_here; [exact (desc_tokens (Some s) _ H)|apply H]. Qed.
Lemma nodes_placed ts l : Forall (well_placed ts) l -> all_placed ts (map node_part l).
Proof. intros F. apply Forall_map. exact F. Qed.
Lemma each_placed {A} (w : A -> piece) (ps : A -> list part) : (forall a ts, w a ts -> all_placed ts (ps a)) ->
  forall l ts, each w l ts -> all_placed ts (flat_map ps l).
Proof.
  intros H l ts (pieces & -> & F). induction F as [|x p l pieces Hp F IH]; [constructor|]. cbn. apply Forall_app. split; [apply placed_left; auto|apply placed_right; auto].
Qed.
Lemma directives_placed o ts : directives_piece o ts -> all_placed ts (directives_parts o).
Proof.
  intros H. pose proof (directives_tokens _ _ H) as T. destruct o as [[l [sp|]]|]; [|destruct H as (-> & ->); constructor|constructor].
  destruct H as (H & C). unfold directives_parts. cbn [directives_nodes app map]. constructor.
  - exact (placed_here ts (tk_directives (map plain_directive l)) sp T C).
  - assert (K : all_placed ts (flat_map (fun d => map node_part (directive_nodes d)) l)) by (apply (each_placed directive_piece); [intros d us ((_ & U) & _); apply nodes_placed; exact U|exact H]).
    clear - K. induction l as [|d l IH]; [constructor|]. cbn [flat_map] in *. rewrite map_app. apply Forall_app in K. apply Forall_app. split; [apply K|apply IH; apply K].
Qed.
Lemma value_placed v ts : value_piece v ts -> all_placed ts (value_parts v).
Proof. intros ((_ & H) & _). apply nodes_placed. exact H. Qed.
Lemma type_placed : forall t ts, type_piece t ts -> all_placed ts (type_parts t).
Proof.
  intros t. induction t as [n req sp|i IH req sp]; intros ts H.
  - pose proof (type_tokens _ _ H) as T. destruct H as ((a & b & -> & Ha & Hb) & C). constructor; [exact (placed_here _ _ _ T C)|]. apply placed_left. repeat constructor. exact (name_placed _ _ Ha).
  - destruct H as (a & b & -> & (Ha & C) & Hb). apply placed_left. cbn [type_parts]. destruct Ha as (o & m & -> & Ho & (m' & c & -> & Hm & Hc)). constructor.
    + apply placed_here; [|exact C]. rewrite !toks_app, (one_tokens _ _ Ho), (type_tokens _ _ Hm), (one_tokens _ _ Hc). reflexivity.
    + apply placed_right, placed_left. exact (IH _ Hm).
Qed.
Lemma default_placed d ts : default_piece d ts -> all_placed ts (match d with Some v => value_parts v | None => [] end).
Proof. destruct d as [v|]; [|constructor]. intros (a & b & -> & _ & H). apply placed_right. exact (value_placed _ _ H). Qed.
Lemma placed_cons ts x l : all_placed ts [x] -> all_placed ts l -> all_placed ts (x :: l).
Proof. intros H1 H2. constructor; [inversion H1; assumption|exact H2]. Qed.
Lemma name_placed1 n ts : name_piece n ts -> all_placed ts [name_part n].
Proof. repeat constructor. now apply name_placed. Qed.
(** what holds of one of the pieces holds of all together *)
Ltac fact := first [eapply desc_placed; eassumption|eapply directives_placed; eassumption|eapply type_placed; eassumption|eapply default_placed; eassumption|eapply name_placed1; eassumption|eassumption].
Ltac here1 := match goal with
  | |- Forall (part_placed (?a ++ ?b)) ?l => first [solve [apply placed_left; fact]|solve [apply placed_right; here1]]
  | |- Forall _ _ => fact
  end.
Ltac here := match goal with
  | |- Forall _ [] => constructor
  | |- Forall _ (_ ++ _) => apply Forall_app; split; here
  | |- Forall _ (_ :: ?l) => lazymatch l with [] => here1 | _ => apply placed_cons; here end
  | |- Forall _ _ => here1
  end.
Lemma ivd_placed i ts : ivd_piece i ts -> all_placed ts (ivd_parts i).
Proof. intros H. unfold ivd_piece in H. parts_of H. unfold ivd_parts. here. Qed.
Lemma enclosed_placed {A} op cl (w : A -> piece) tk ps l ts : spells w tk -> (forall a ts, w a ts -> all_placed ts (ps a)) -> enclosed op cl w l ts ->
  all_placed ts ((P op :: concat (map tk (fst l)) ++ [P cl], snd l) :: flat_map ps (fst l)).
Proof.
  intros S Q H. pose proof (enclosed_tokens _ _ _ _ _ _ S H) as T. destruct H as (_ & H & C). constructor; [exact (placed_here _ _ _ T C)|]. destruct H as (a & b & -> & _ & (m & c & -> & H & _)).
  apply placed_right, placed_left. exact (each_placed _ _ Q _ _ H).
Qed.
Lemma args_placed o ts : args_piece o ts -> all_placed ts (args_parts o).
Proof.
  destruct o as [[l sp]|]; [|constructor]. intros H. pose proof (proj1 H) as N. apply (enclosed_placed _ _ _ _ _ _ _ ivd_tokens ivd_placed) in H. cbn [fst snd args_parts] in *.
  replace (tk_args_def (map plain_ivd l)) with (P POpenRound :: concat (map (fun i => tk_ivd (plain_ivd i)) l) ++ [P PCloseRound]); [exact H|].
  destruct l as [|i l]; [congruence|]. cbn. rewrite map_map. reflexivity.
Qed.
Ltac fact ::= first [eapply desc_placed; eassumption|eapply directives_placed; eassumption|eapply type_placed; eassumption|eapply default_placed; eassumption|eapply name_placed1; eassumption
  |eapply args_placed; eassumption|eassumption].
Lemma fdef_placed f ts : fdef_piece f ts -> all_placed ts (fdef_parts f).
Proof. intros H. unfold fdef_piece in H. parts_of H. unfold fdef_parts. here. Qed.
Lemma evd_placed e ts : evd_piece e ts -> all_placed ts (evd_parts e).
Proof. intros H. unfold evd_piece in H. parts_of H. unfold evd_parts. here. Qed.
Lemma root_placed e ts : root_piece e ts -> all_placed ts [name_part (snd e)].
Proof. intros H. unfold root_piece in H. parts_of H. here. Qed.
Lemma braces_placed {A B} (w : A -> piece) (tk : B -> list token) (f : A -> B) ps l ts : spells w (fun a => tk (f a)) -> (forall a ts, w a ts -> all_placed ts (ps a)) ->
  enclosed POpenBrace PCloseBrace w l ts -> all_placed ts ((braced tk (map f (fst l)), snd l) :: flat_map ps (fst l)).
Proof. intros S Q H. apply (enclosed_placed _ _ _ _ _ _ _ S Q) in H. unfold braced. rewrite map_map. exact H. Qed.
Lemma fields_placed l ts : enclosed POpenBrace PCloseBrace fdef_piece l ts -> all_placed ts (fields_parts l).
Proof. exact (braces_placed _ _ _ _ _ _ fdef_tokens fdef_placed). Qed.
Lemma input_placed l ts : enclosed POpenBrace PCloseBrace ivd_piece l ts -> all_placed ts ((braced tk_ivd (map plain_ivd (fst l)), snd l) :: flat_map ivd_parts (fst l)).
Proof. exact (braces_placed _ _ _ _ _ _ ivd_tokens ivd_placed). Qed.
Lemma enum_placed l ts : enclosed POpenBrace PCloseBrace evd_piece l ts -> all_placed ts ((braced tk_evd (map plain_evd (fst l)), snd l) :: flat_map evd_parts (fst l)).
Proof. exact (braces_placed _ _ _ _ _ _ evd_tokens evd_placed). Qed.
Lemma separated_placed {A} sep (w : A -> piece) (ps : A -> part) l ts : (forall a ts, w a ts -> part_placed ts (ps a)) -> separated sep w l ts -> all_placed ts (map ps l).
Proof.
  intros H. destruct l as [|x l]; [constructor|]. intros (a & b & -> & _ & (c & d & -> & Hc & Hd)). cbn [map]. apply placed_right. apply placed_cons; [apply placed_left; repeat constructor; auto|].
  apply placed_right. apply (each_placed _ (fun x => [ps x])) in Hd; [|intros y us (u & v & -> & _ & Hv); apply placed_right; repeat constructor; auto].
  replace (map ps l) with (flat_map (fun x => [ps x]) l); [exact Hd|]. clear. induction l as [|y l IH]; [reflexivity|]. cbn. now rewrite IH.
Qed.
Lemma implements_placed l ts : implements_piece l ts -> all_placed ts (map name_part l).
Proof. destruct l as [|x l]; [constructor|]. intros (a & b & -> & _ & H). apply placed_right. exact (separated_placed _ _ _ _ _ name_placed H). Qed.
Lemma members_placed sep l ts : separated sep name_piece l ts -> all_placed ts (map name_part l).
Proof. exact (separated_placed _ _ _ _ _ name_placed). Qed.
Lemma locations_placed sep l ts : separated sep location_piece l ts -> all_placed ts (map (fun l => (tk_location (fst l), snd l)) l).
Proof. apply separated_placed. intros a us (H & C). apply placed_here; [exact (one_tokens _ _ H)|exact C]. Qed.
Ltac fact ::= first [eapply desc_placed; eassumption|eapply directives_placed; eassumption|eapply type_placed; eassumption|eapply default_placed; eassumption|eapply name_placed1; eassumption
  |eapply args_placed; eassumption|eapply fields_placed; eassumption|eapply input_placed; eassumption|eapply enum_placed; eassumption|eapply implements_placed; eassumption
  |eapply members_placed; eassumption|eapply locations_placed; eassumption|eassumption].
Lemma tdef_placed t ts : tdef_piece t ts -> all_placed ts (tdef_parts t).
Proof.
  intros H. destruct t; cbn [tdef_piece tdef_parts] in *; parts_of H.
  - here.
  - here.
  - here.
  - here.
  - apply Forall_app. split; [here1|]. apply placed_cons; [here1|]. apply Forall_app. split; [here1|]. do 4 apply placed_right. exact (input_placed _ _ H).
  - apply Forall_app. split; [here1|]. apply placed_cons; [here1|]. apply Forall_app. split; [here1|]. do 4 apply placed_right. exact (enum_placed _ _ H).
Qed.
Lemma ddef_placed d ts : ddef_piece d ts -> all_placed ts (ddef_parts d).
Proof. intros H. unfold ddef_piece in H. parts_of H. unfold ddef_parts. here. Qed.
Lemma esdef_placed e ts : esdef_piece e ts -> all_placed ts (esdef_parts e).
Proof.
  intros H. unfold esdef_piece in H. parts_of H. unfold esdef_parts. apply Forall_app. split; [here1|]. apply placed_cons.
  - apply placed_right, placed_left. repeat constructor. apply placed_here; [exact (one_tokens _ _ (proj1 W0))|apply W0].
  - apply Forall_app. split; [here1|]. do 3 apply placed_right.
    pose proof (braces_placed root_piece tk_root (fun p => (fst p, fst (snd p))) (fun p => [name_part (snd p)]) _ _ root_tokens root_placed H) as K. cbn [fst snd] in K.
    replace (map (fun p => name_part (snd p)) (les_roots e)) with (flat_map (fun p : optype * lname => [name_part (snd p)]) (les_roots e)); [exact K|].
    clear. induction (les_roots e) as [|y l IH]; [reflexivity|]. cbn. now rewrite IH.
Qed.
Lemma sysdef_placed x ts : sysdef_piece x ts -> all_placed ts (sysdef_parts x).
Proof. destruct x; [apply esdef_placed|apply ddef_placed|apply tdef_placed]. Qed.
Lemma document_placed d ts : each sysdef_piece d ts -> all_placed ts (flat_map sysdef_parts d).
Proof. exact (each_placed _ _ sysdef_placed d ts). Qed.
Section Slice.
  Variables (recover : text -> nat) (other_digit : N -> bool) (parse_f64 : text -> option N).
  Lemma part_slice (bom : other_digit 65279%N = false) ts s x : placed parse_f64 0 ts s -> part_placed ts x ->
    exists p m q, s = p ++ m ++ q /\ snd x = (bytes p, bytes (p ++ m)) /\ map fst (lex recover other_digit parse_f64 false m) = map inl (fst x).
  Proof.
    intros P (before & mine & after & -> & E & (first & lst & b & a & E1 & E2 & E3)). apply placed_skip in P. destruct P as (p & s' & -> & P).
    rewrite E1 in P. cbn [app] in P. apply placed_cut in P. destruct P as (w & l & m & q & -> & Hw & Hl & F1 & F2 & Hs). rewrite <- E1 in *. rewrite E in Hs.
    exists (p ++ w), (l ++ m), q. split; [rewrite <- !app_assoc; reflexivity|]. split.
    - rewrite E3. assert (L : last mine first = lst). { rewrite E2. apply last_last. } rewrite L in F2. rewrite F1, F2. f_equal; rewrite !bytes_app; lia.
    - exact (lexs_complete recover other_digit parse_f64 _ _ (source_digits recover other_digit parse_f64 bom _ _ Hs) 0).
  Qed.
End Slice.
