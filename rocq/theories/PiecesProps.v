(** C78: pieces of documents parsed by themselves. *)
From Coq Require Import String Lia.
From Verif Require Import Base Ast Lexer LexerSpec LexerProps Parser ParserSpec ParserProofs ParserDocProofs ParserProps Pieces PiecesSpec.
Local Open Scope string_scope.
Local Open Scope list_scope.


(** ** What the parsers of pieces take *)
Lemma from_tokens_sound k ts x r : from_tokens k ts = POk x r -> ts = written k x ++ r /\ well k x.
Proof.
  destruct k; cbn [from_tokens written well piece] in *; intros H.
  - apply parse_value_sound in H. exact H.
  - apply parse_argument_sound in H. exact H.
  - unfold parse_arguments_piece in H. bi H u r1 E. apply expect_punct_inv in E. apply (many1_sound _ _ _ _ (parse_argument_sound const)) in H as (-> & O & NE). split; [|auto].
    rewrite E. destruct x; [congruence|]. unfold tk_arguments. cbn [app]. now rewrite <- app_assoc.
  - apply parse_directive_sound in H. exact H.
  - apply parse_directives_sound in H. exact H.
  - apply parse_tref_sound in H. easy.
  - apply parse_vardef_sound in H. exact H.
  - unfold parse_vardefs_piece in H. bi H u r1 E. apply expect_punct_inv in E. apply (many1_sound _ _ _ _ parse_vardef_sound) in H as (-> & O & NE). split; [|auto].
    rewrite E. destruct x; [congruence|]. unfold tk_vardefs. cbn [app]. now rewrite <- app_assoc.
  - unfold parse_condition in H. bi H u r1 E. apply expect_name_value_inv in E. apply expect_name_inv in H. now subst.
  - unfold parse_field_piece in H. destruct ts as [|t ts]; [discriminate|]. destruct t; try discriminate.
    pose proof H as H'. apply parse_selection_sound in H' as (E & O). split; [exact E|]. split; [exact O|]. cbn [length parse_selection] in H.
    bi H p r1 E1. bi H args r2 E2. bi H ds r3 E3. bi H sub r4 E4. injection H as <- <-. eauto 6.
  - unfold parse_spread_piece in H. bi H u r0 E0. bi H n r1 E1. destruct (teqb n (tx "on")) eqn:N; [discriminate|]. bi H ds r2 E2. injection H as <- <-.
    apply expect_punct_inv in E0. apply expect_name_inv in E1. apply parse_directives_sound in E2 as (-> & O). subst. cbn [tk_selection app selection_ok]. rewrite N, O. eauto 6.
  - unfold parse_inline_piece in H. bi H u r0 E0. bi H c r1 E1. bi H ds r2 E2. bi H sub r3 E3. injection H as <- <-.
    apply expect_punct_inv in E0. apply parse_directives_sound in E2 as (-> & O2). apply parse_set_sound in E3 as (-> & O3). unfold set_ok in O3. subst ts.
    assert (K : r0 = (match c with Some t => [TkName (tx "on"); TkName t] | None => [] end) ++ tk_directives ds ++ tk_set sub ++ r3).
    { destruct (peek_name_matches (tx "on") r0).
      - bi E1 c' r4 E4. injection E1 as <- E1. apply parse_condition_inv in E4. rewrite E4, E1. reflexivity.
      - injection E1 as <- E1. exact E1. }
    split; [|split; [cbn [selection_ok]; rewrite O2; exact O3|eauto]]. rewrite K. cbn [tk_selection]. unfold tk_set. destruct c; cbn [app]; repeat (rewrite <- app_assoc; cbn [app]); reflexivity.
  - apply parse_selection_sound in H. exact H.
  - apply parse_set_sound in H. exact H.
  - apply parse_operation_sound in H. exact H.
  - apply parse_fragment_sound in H. exact H.
Qed.
Lemma goes_on_false k r : ~ goes_on k r -> plain_after (continues k) r.
Proof.
  intros H. apply Forall_forall. intros p Hp. destruct (peek_punct p r) eqn:E; [|reflexivity]. exfalso. apply H. apply peek_punct_inv in E as (r' & ->). exists p, r'. auto.
Qed.
Lemma from_tokens_complete k x r : well k x -> ~ goes_on k r -> from_tokens k (written k x ++ r) = POk x r.
Proof.
  intros W G. apply goes_on_false in G. revert x W G. destruct k; cbn [from_tokens written well piece continues]; intros x W G; unfold plain_after in G;
    repeat match goal with F : Forall _ (_ :: _) |- _ => inversion_clear F end.
  - apply parse_value_complete; [exact W|]. rewrite app_length. lia.
  - now apply parse_argument_complete.
  - destruct W as (NE & O). unfold parse_arguments_piece.
    assert (E : tk_arguments x ++ r = P POpenRound :: concat (map tk_argument x) ++ P PCloseRound :: r) by (destruct x; [congruence|]; unfold tk_arguments; cbn [app]; now rewrite <- app_assoc).
    rewrite E, expect_punct_ok. cbn [bind]. unfold arguments_ok in O. rewrite forallb_forall in O. apply (many1_complete _ _ (fun _ => True)); [easy|exact NE| | |].
    + intros a r' I _. apply parse_argument_complete. exact (O _ I).
    + intros a r' I. split; [easy|]. reflexivity.
    + rewrite app_length. assert (length x <= length (concat (map tk_argument x))); [|lia]. apply concat_length_all. intros. unfold tk_argument. congruence.
  - now apply parse_directive_complete.
  - now apply parse_directives_complete.
  - apply parse_tref_complete; [rewrite app_length; lia|assumption].
  - apply parse_vardef_complete; [exact W|]. repeat constructor; assumption.
  - destruct W as (NE & O). unfold parse_vardefs_piece.
    assert (E : tk_vardefs x ++ r = P POpenRound :: concat (map tk_vardef x) ++ P PCloseRound :: r) by (destruct x; [congruence|]; unfold tk_vardefs; cbn [app]; now rewrite <- app_assoc).
    rewrite E, expect_punct_ok. cbn [bind]. rewrite forallb_forall in O. apply (many1_complete _ _ (plain_after [PBang; PEquals; POpenRound; PAt])); [repeat constructor|exact NE| | |].
    + intros a r' I F. apply parse_vardef_complete; [exact (O _ I)|exact F].
    + intros a r' I. split; [repeat constructor|reflexivity].
    + rewrite app_length. assert (length x <= length (concat (map tk_vardef x))); [|lia]. apply concat_length_all. intros. unfold tk_vardef. congruence.
  - cbn [app parse_condition expect_name_value]. unfold parse_condition. cbn [expect_name_value bind expect_name]. rewrite teqb_refl. reflexivity.
  - destruct W as (O & al & n & args & ds & sub & ->). assert (K : exists m l, tk_selection (SField al n args ds sub) ++ r = TkName m :: l) by (cbn [tk_selection]; destruct al; cbn [app]; eauto).
    unfold parse_field_piece. destruct K as (m & l & K). rewrite K, <- K. apply parse_selection_complete; [exact O|rewrite app_length; lia|repeat constructor; assumption].
  - destruct W as (O & n & ds & ->). cbn [selection_ok] in O. apply andb_prop in O as (O1 & O2). apply negb_true_iff in O1. unfold parse_spread_piece. cbn [tk_selection app]. rewrite expect_punct_ok. cbn [bind expect_name]. rewrite O1.
    rewrite parse_directives_complete; auto.
  - destruct W as (O & c & ds & sub & ->). cbn [selection_ok] in O. rewrite <- andb_assoc in O. apply andb_prop in O as (O1 & O2). unfold parse_inline_piece.
    assert (E : tk_selection (SInline c ds sub) ++ r =
      P PEllipse :: (match c with Some t => [TkName (tx "on"); TkName t] | None => [] end) ++ tk_directives ds ++ tk_set sub ++ r).
    { cbn [tk_selection]. unfold tk_set. destruct c; cbn [app]; repeat (rewrite <- app_assoc; cbn [app]); reflexivity. }
    rewrite E, expect_punct_ok. cbn [bind].
    assert (H : forall c' : option name, bind (parse_directives false (tk_directives ds ++ tk_set sub ++ r)) (fun ds r2 =>
        bind (parse_set r2) (fun sub r3 => POk (SInline c' ds sub) r3)) = POk (SInline c' ds sub) r).
    { intros c'. rewrite parse_directives_complete; [|exact O1|reflexivity|reflexivity]. cbn [bind]. now rewrite parse_set_complete. }
    destruct c as [t|]; cbn [app].
    + cbn [peek_name_matches]. rewrite teqb_refl. unfold parse_condition. cbn [expect_name_value]. rewrite teqb_refl. cbn [bind expect_name]. exact (H (Some t)).
    + replace (peek_name_matches (tx "on") (tk_directives ds ++ tk_set sub ++ r)) with false by (destruct ds; reflexivity). cbn [bind]. exact (H None).
  - apply parse_selection_complete; [exact W|rewrite app_length; lia|repeat constructor; assumption].
  - now apply parse_set_complete.
  - now apply parse_operation_complete.
  - now apply parse_fragment_complete.
Qed.
Lemma from_tokens_safe k ts : k <> KSpread -> safe 0 ts (from_tokens k ts).
Proof.
  destruct k; cbn [from_tokens]; intros H; try congruence.
  - apply (safe_weaken 1); [lia|]. apply safe_value. lia.
  - apply (safe_weaken 1); [lia|]. apply safe_argument.
  - unfold parse_arguments_piece. apply (safe_weaken 1); [lia|]. apply (safe_bind 1); [apply safe_expect_punct|]. intros u r _ L. apply (safe_weaken 1); [lia|]. apply safe_many1; [|lia]. intros. apply safe_argument.
  - apply (safe_weaken 1); [lia|]. apply safe_directive.
  - apply safe_directives.
  - apply (safe_weaken 1); [lia|]. apply safe_tref. lia.
  - apply (safe_weaken 1); [lia|]. apply safe_vardef.
  - unfold parse_vardefs_piece. apply (safe_weaken 1); [lia|]. apply (safe_bind 1); [apply safe_expect_punct|]. intros u r _ L. apply (safe_weaken 1); [lia|]. apply safe_many1; [|lia]. intros. apply safe_vardef.
  - apply (safe_weaken 1); [lia|]. apply safe_condition.
  - unfold parse_field_piece. destruct ts as [|[] ts]; try (cbn; repeat split; try discriminate; lia). apply (safe_weaken 1); [lia|]. apply safe_selection. lia.
  - unfold parse_inline_piece. apply (safe_weaken 1); [lia|]. apply (safe_bind 1); [apply safe_expect_punct|]. intros u r _ L. apply (safe_bind 0).
    { destruct (peek_name_matches (tx "on") r); [|apply safe_ok]. apply (safe_weaken 1); [lia|]. apply (safe_bind 1); [apply safe_condition|]. intros. apply safe_ok. }
    intros c r1 _ L1. apply (safe_bind 0); [apply safe_directives|]. intros ds r2 _ L2. apply (safe_weaken 1); [lia|]. apply (safe_bind 1); [apply safe_set|]. intros. apply safe_ok.
  - apply (safe_weaken 1); [lia|]. apply safe_selection. lia.
  - apply (safe_weaken 1); [lia|]. apply safe_set.
  - apply (safe_weaken 1); [lia|]. apply safe_operation.
  - apply (safe_weaken 1); [lia|]. apply safe_fragment.
Qed.

(** ** The errors that are seen *)
Lemma asked_none n : forall items, asked_errors n items = [] -> n <= length (item_tokens items) ->
  exists rest, items = map inl (firstn n (item_tokens items)) ++ rest.
Proof.
  induction n as [|n IH]; intros items H L; [exists items; reflexivity|]. destruct items as [|[t|e] items]; cbn in H; [cbn in L; lia| |discriminate].
  destruct (IH items H) as (rest & E); [change (S n <= S (length (item_tokens items))) in L; lia|]. exists rest. cbn. f_equal. exact E.
Qed.
Lemma asked_fewer m n : forall items, m <= n -> asked_errors n items = [] -> asked_errors m items = [].
Proof.
  revert n. induction m as [|m IH]; intros n items L H; [destruct items; reflexivity|]. destruct n as [|n]; [lia|]. destruct items as [|[t|e] items]; cbn in *; [reflexivity| |discriminate].
  apply (IH n); [lia|exact H].
Qed.
Lemma asked_app l : forall n rest, asked_errors (length l + n) (map inl l ++ rest) = asked_errors n rest.
Proof. induction l as [|t l IH]; intros n rest; [reflexivity|]. cbn. apply IH. Qed.
Lemma asked_all n l : asked_errors n (map inl l) = [].
Proof. revert n. induction l as [|t l IH]; intros [|n]; cbn; auto. Qed.
Lemma item_tokens_app l rest : item_tokens (map inl l ++ rest) = l ++ item_tokens rest.
Proof. unfold item_tokens. rewrite flat_map_app. f_equal. apply item_tokens_map. Qed.

Lemma asked_first n : forall items, exists pre, first_tokens n items pre /\ asked_errors n items = item_errors pre.
Proof.
  intros items. revert n. induction items as [|[t|e] items IH]; intros n.
  - exists []. split; [|destruct n; reflexivity]. exists []. split; [reflexivity|]. destruct n; [right; auto|left; cbn; split; [reflexivity|lia]].
  - destruct n as [|n]; [exists []; split; [|reflexivity]; exists (inl t :: items); split; [reflexivity|right; auto]|].
    destruct (IH n) as (pre & (post & E & H) & A). exists (inl t :: pre). split; [|exact A]. exists post. split; [cbn; now rewrite E|].
    change (item_tokens (inl t :: pre)) with (t :: item_tokens pre). cbn [length]. destruct H as [(H & L)|(L & H)]; [left; split; [exact H|lia]|right]. split; [lia|]. right.
    destruct H as [->|(q & t' & ->)]; [exists [], t; reflexivity|exists (inl t :: q), t'; reflexivity].
  - destruct n as [|n]; [exists []; split; [|reflexivity]; exists (inr e :: items); split; [reflexivity|right; auto]|].
    destruct (IH (S n)) as (pre & (post & E & H) & A). exists (inr e :: pre). split; [|cbn [asked_errors]; rewrite A; reflexivity]. exists post. split; [cbn; now rewrite E|].
    change (item_tokens (inr e :: pre)) with (item_tokens pre). destruct H as [H|(L & H)]; [now left|right]. split; [exact L|]. right.
    destruct H as [->|(q & t' & ->)]; [cbn in L; discriminate|exists (inr e :: q), t'; reflexivity].
Qed.
(** ** Any parser *)
Section With.
  Context {A : Type}.
  Variable from : list token -> presult A.
  Variable ahead : presult A -> nat.
  Implicit Type items : list (token + lex_error).
  Lemma parsed_starts items x : parse_with from ahead items = Parsed x ->
    exists r, from (item_tokens items) = POk x r /\ forall w, item_tokens items = w ++ r -> exists rest, items = map inl w ++ rest.
  Proof using.
    unfold parse_with. destruct (from (item_tokens items)) as [y r|e r] eqn:E.
    - destruct (asked_errors _ items) eqn:H; [|discriminate]. intros [= ->]. exists r. split; [reflexivity|]. intros w T.
      assert (L : length (item_tokens items) - length r = length w) by (rewrite T, app_length; lia).
      rewrite L in H. apply (asked_fewer (length w)) in H; [|lia]. apply asked_none in H as (rest & H); [|rewrite T, app_length; lia].
      exists rest. rewrite H at 1. rewrite T, firstn_app, Nat.sub_diag, firstn_all. cbn [firstn]. now rewrite app_nil_r.
    - destruct e; try discriminate; destruct (asked_errors _ items); discriminate.
  Qed.
  Lemma parsed_followed w x rest : from (w ++ item_tokens rest) = POk x (item_tokens rest) -> asked_errors (ahead (POk x (item_tokens rest))) rest = [] ->
    parse_with from ahead (map inl w ++ rest) = Parsed x.
  Proof using.
    intros E H. unfold parse_with. rewrite item_tokens_app, E.
    replace (length (w ++ item_tokens rest) - length (item_tokens rest)) with (length w) by (rewrite app_length; lia).
    now rewrite asked_app, H.
  Qed.
  (** the tokens that were taken or looked at *)
  Definition looked_at (ts : list token) : nat := length ts - length (match from ts with POk _ r | PErr _ r => r end) + ahead (from ts).
  Lemma failed_errors items es : parse_with from ahead items = Failed es ->
    exists pre, first_tokens (looked_at (item_tokens items)) items pre /\
      match item_errors pre with
      | [] => exists e r, from (item_tokens items) = PErr e r /\ es = [EParse e]
      | les => es = map ELex les
      end.
  Proof using.
    unfold parse_with. fold (looked_at (item_tokens items)). destruct (asked_first (looked_at (item_tokens items)) items) as (pre & F & AE). rewrite AE.
    intros H. exists pre. split; [exact F|]. destruct (from (item_tokens items)) as [x r|e r] eqn:E.
    - destruct (item_errors pre); [discriminate|]. now injection H as <-.
    - destruct e; try discriminate; (destruct (item_errors pre); [injection H as <-; eauto|now injection H as <-]).
  Qed.
  Lemma parsed_or_errors items : safe 0 (item_tokens items) (from (item_tokens items)) ->
    (exists x, parse_with from ahead items = Parsed x) \/ exists e es, parse_with from ahead items = Failed (e :: es) /\ Forall genuine (e :: es).
  Proof using.
    intros S. unfold parse_with. destruct (from (item_tokens items)) as [y r|e r].
    - destruct (asked_errors _ items) as [|e es]; [left; eauto|]. right. eexists _, _. split; [reflexivity|]. apply Forall_forall. intros z Hz. change (In z (map ELex (e :: es))) in Hz. apply in_map_iff in Hz as (y' & <- & _). exact I.
    - right. destruct S as (S1 & S2 & S3 & _). cbv zeta. set (es := asked_errors _ items). clearbody es.
      assert (G : Forall genuine (map ELex es)) by (apply Forall_forall; intros z Hz; apply in_map_iff in Hz as (y' & <- & _); exact I).
      destruct es as [|e' es]; [exists (EParse e), []|exists (ELex e'), (map ELex es)]; (split; [destruct e; try reflexivity; exfalso; congruence|]); [|exact G]. constructor; [split; assumption|constructor].
  Qed.
End With.

Section C78.
  Variable k : kind.
  Variable ahead : presult (piece k) -> nat.
  Implicit Type items : list (token + lex_error).

  (** What is returned is what the text starts with. *)
  Theorem c78_starts : forall items x, parse_piece k ahead items = Parsed x -> well k x /\ exists rest, items = map inl (written k x) ++ rest.
  Proof using. intros items x H. apply parsed_starts in H as (r & E & H). apply from_tokens_sound in E as (T & W). auto. Qed.
  (** A text that starts with a piece is accepted, if what follows does not continue the piece and has no lexing errors as far as it is
      looked at; *)
  Theorem c78_followed : forall items x rest, well k x -> items = map inl (written k x) ++ rest -> ~ goes_on k (item_tokens rest) ->
    asked_errors (ahead (POk x (item_tokens rest))) rest = [] -> parse_piece k ahead items = Parsed x.
  Proof using. intros items x rest W -> G E. apply parsed_followed; [|exact E]. now apply from_tokens_complete. Qed.
  (** hence a text that is just the piece, *)
  Theorem c78_whole : forall items x, well k x -> items = map inl (written k x) -> parse_piece k ahead items = Parsed x.
  Proof using.
    intros items x W ->. apply (c78_followed _ x []); [exact W|now rewrite app_nil_r| |destruct (ahead _); reflexivity]. intros (p & r & H & _). discriminate.
  Qed.
  (** and for pieces that end with a closing token or a name of their own, exactly the texts that start with them. *)
  Theorem c78_closed_iff : continues k = [] -> (forall x r, ahead (POk x r) = 0) ->
    forall items x, parse_piece k ahead items = Parsed x <-> well k x /\ exists rest, items = map inl (written k x) ++ rest.
  Proof using.
    intros C Z items x. split; [apply c78_starts|]. intros (W & rest & ->). apply (c78_followed _ x rest); [exact W|reflexivity| |rewrite Z; destruct rest; reflexivity].
    intros (p & r & _ & H). rewrite C in H. exact H.
  Qed.
  (** Everything else is reported. *)
  Theorem c78_or_errors : k <> KSpread -> forall items,
    (exists x, parse_piece k ahead items = Parsed x) \/ exists e es, parse_piece k ahead items = Failed (e :: es) /\ Forall genuine (e :: es).
  Proof using. intros K items. apply parsed_or_errors. now apply from_tokens_safe. Qed.
  (** What is reported is what the lexer found as far as it was asked, all of it, or else what the parser found. *)
  Theorem c78_errors : forall items es, parse_piece k ahead items = Failed es ->
    exists pre, first_tokens (looked_at (from_tokens k) ahead (item_tokens items)) items pre /\
      match item_errors pre with
      | [] => exists e r, from_tokens k (item_tokens items) = PErr e r /\ es = [EParse e]
      | les => es = map ELex les
      end.
  Proof using. intros items es. apply failed_errors. Qed.
End C78.
(** A fragment spread by itself panics exactly on [... on]. *)
Theorem c78_spread_panics_iff : forall ahead items, parse_piece KSpread ahead items = Panicked <-> exists r, item_tokens items = P PEllipse :: TkName (tx "on") :: r.
Proof.
  intros ahead items. unfold parse_piece, parse_with. cbn [from_tokens]. generalize (item_tokens items). intros ts. split.
  - intros H. unfold parse_spread_piece in H. destruct (expect_punct PEllipse ts) as [u r0|e r0] eqn:E0; cbn [bind] in H.
    + apply expect_punct_inv in E0. destruct r0 as [|t r0]; [destruct (asked_errors _ items); discriminate|]. destruct t; cbn [expect_name bind] in H; try (destruct (asked_errors _ items); discriminate).
      destruct (teqb_spec n (tx "on")) as [->|N]; [eauto|]. pose proof (safe_directives false r0) as S. destruct (parse_directives false r0) as [ds r2|e r2]; cbn [bind] in H.
      * destruct (asked_errors _ items); discriminate.
      * destruct S as (S1 & S2 & _). destruct e; try congruence; destruct (asked_errors _ items); discriminate.
    + pose proof (safe_expect_punct PEllipse ts) as S. rewrite E0 in S. destruct S as (S1 & S2 & _). destruct e; try congruence; destruct (asked_errors _ items); discriminate.
  - intros (r & ->). unfold parse_spread_piece. rewrite expect_punct_ok. cbn [bind expect_name]. rewrite teqb_refl. reflexivity.
Qed.
(** "Only texts that are a piece are accepted" is false: what comes after the piece is not looked at, *)
Theorem c78_trailing_refuted : forall recover other_digit parse_f64,
  let items := map fst (lex recover other_digit parse_f64 false (tx "[][")) in
  parse_piece (KValue true) (fun _ => 0) items = Parsed (VList []) /\ ~ exists v, value_ok true v = true /\ items = map inl (tk_value v).
Proof.
  intros recover other_digit parse_f64 items. assert (E : items = map inl [P POpenSquare; P PCloseSquare; P POpenSquare]) by reflexivity. rewrite E. split; [reflexivity|].
  intros (v & _ & H). assert (T : [P POpenSquare; P PCloseSquare; P POpenSquare] = tk_value v) by (rewrite <- (item_tokens_map (tk_value v)), <- H; reflexivity).
  apply (f_equal (fun l => last l (P PBang))) in T. destruct v as [n|z|b|s|[]| |n|l|l]; cbn [tk_value] in T; try discriminate; rewrite app_comm_cons, last_last in T; discriminate.
Qed.
(** not even by the lexer; *)
Theorem c78_trailing_garbage_refuted : forall recover other_digit parse_f64,
  let items := map fst (lex recover other_digit parse_f64 false (tx "[]?")) in
  parse_piece (KValue true) (fun _ => 0) items = Parsed (VList []) /\ item_errors items <> [].
Proof.
  intros recover other_digit parse_f64 items. assert (E : exists e l, items = map inl [P POpenSquare; P PCloseSquare] ++ inr e :: l) by (eexists _, _; reflexivity).
  destruct E as (e & l & ->). split; [|discriminate]. apply (c78_followed (KValue true) (fun _ => 0) _ (VList []) (inr e :: l)); [reflexivity..| |reflexivity]. intros (p & r & _ & []).
Qed.
(** and a fragment spread may panic. *)
Theorem c78_spread_refuted : forall recover other_digit parse_f64 ahead,
  parse_piece KSpread ahead (map fst (lex recover other_digit parse_f64 false (tx "... on"))) = Panicked.
Proof. intros. apply c78_spread_panics_iff. exists []. reflexivity. Qed.

(** * Cases *)
Definition read_piece (k : kind) (s : string) : outcome (piece k) := parse_piece k (fun _ => 1) (map fst (lex (fun _ => 1) (fun _ => false) (fun _ => None) false (tx s))).
Example piece_cases :
  read_piece (KValue false) "[1, $x]" = Parsed (VList [VInt 1; VVar (tx "x")]) /\
  read_piece (KValue true) "[1, $x]" = Failed [EParse (PEToken (TkVar (tx "x")))] /\
  read_piece (KValue true) "[1 ? 2]" = Failed [ELex UnrecognizedToken] /\
  read_piece KType "[Int!]!" = Parsed (TList (TBase (tx "Int") true) true) /\
  read_piece (KDirectives true) "" = Parsed [] /\
  read_piece KSpread "...f @d" = Parsed (SSpread (tx "f") [{| dir_name := tx "d"; dir_args := [] |}]) /\
  read_piece KSpread "...on" = Panicked /\
  read_piece KField "a: b" = Parsed (SField (Some (tx "a")) (tx "b") [] [] []) /\
  read_piece KCondition "on T" = Parsed (tx "T") /\
  read_piece KInline "... { a }" = Parsed (SInline None [] [SField None (tx "a") [] [] []]).
Proof. repeat split. Qed.
Example closed_case : continues KSet = [] /\ well KSet [SField None (tx "a") [] [] []]
  /\ parse_piece KSet (fun _ => 0) (map fst (lex (fun _ => 1) (fun _ => false) (fun _ => None) false (tx "{a} ?"))) = Parsed [SField None (tx "a") [] [] []].
Proof. repeat split. Qed.
Example followed_case : well KType (TBase (tx "Int") false) /\ ~ goes_on KType [P PEquals] /\ goes_on KType [P PBang].
Proof. split; [exact I|]. split; [intros (p & r & H & [<-|[]]); discriminate|]. exists PBang, []. split; [reflexivity|now left]. Qed.

Example errors_case : parse_piece (KValue true) (fun _ => 0) (map fst (lex (fun _ => 1) (fun _ => false) (fun _ => None) false (tx "[ ? 1 ? ? ] ?")))
  = Failed [ELex UnrecognizedToken; ELex UnrecognizedToken; ELex UnrecognizedToken].
Proof. reflexivity. Qed.
Print Assumptions c78_errors. Print Assumptions c78_starts. Print Assumptions c78_followed. Print Assumptions c78_whole. Print Assumptions c78_closed_iff. Print Assumptions c78_or_errors.
Print Assumptions c78_spread_panics_iff. Print Assumptions c78_trailing_refuted. Print Assumptions c78_trailing_garbage_refuted. Print Assumptions c78_spread_refuted.
