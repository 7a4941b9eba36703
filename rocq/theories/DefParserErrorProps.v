(** Property C70: where syntax errors in schema texts are. *)
From Coq Require Import String Sorted Lia.
From Verif Require Import Base Ast Lexer LexerSpec LexerProofs LexerStreamProofs LexerProps Parser Location LocationSpec LocationProofs LocationProps DefParser DefParserSpec DefParserProofs DefParserProps
  ParserAt DefParserAt ParserSpec ParserAtSpec DefParserAtSpec ParserProps ParserAtProofs DefParserAtProofs SpanProofs SpanProps ParserErrorProofs ParserErrorAtProofs ParserErrorTextProofs ParserErrorProps
  DefParserErrorProofs DefParserErrorAtProofs.
Local Open Scope string_scope.
Local Open Scope list_scope.

(** [accepted_schema recover other_digit parse_f64 s]: parsing [s] gives a definition document. *)
Definition accepted_schema (recover : text -> nat) (other_digit : N -> bool) (parse_f64 : text -> option N) (s : text) : Prop :=
  exists d, parse_schema_text all_builtins all_builtin_directives recover other_digit parse_f64 s = inl d.
Lemma accepted_schema_iff recover other_digit parse_f64 s : accepted_schema recover other_digit parse_f64 s <->
  exists ts, sdl_tokens ts /\ tokens_of recover other_digit parse_f64 s ts.
Proof.
  unfold accepted_schema, parse_schema_text, tokens_of. split.
  - intros (d & H). apply parse_sysdoc_ok in H. destruct H as (xs & H1 & H2 & H3 & _). exists (written xs). split; [exists xs; auto|exact H3].
  - intros (ts & (xs & H1 & H2 & <-) & H3). eexists. apply parse_sysdoc_ok. exists xs. eauto.
Qed.
Lemma fold_push xs : forall d, fold_left push xs d = extend d xs.
Proof. induction xs as [|x xs IH]; intros d; cbn [fold_left]; [rewrite extend_nil; reflexivity|]. rewrite IH, extend_cons. reflexivity. Qed.
Definition all_count (d : defdoc) : nat := length (df_schemas d) + length (df_ddefs d) + length (df_types d).
Lemma all_count_extend d xs : all_count (extend d xs) = all_count d + length xs.
Proof. revert d. induction xs as [|x xs IH]; intros d; [rewrite extend_nil; cbn; lia|]. rewrite extend_cons, IH. unfold all_count, push. destruct x; cbn [df_schemas df_ddefs df_types]; rewrite app_length; cbn [length]; lia. Qed.
(** Reading a schema text with positions gives the definitions of the text, and they are those that reading without positions
    gives; one fails if and only if the other does. *)
Theorem c70_same : forall scalar_order directive_order recover other_digit parse_f64 s,
  match parse_schema_text_at recover other_digit parse_f64 s with
  | inl l => parse_schema_text scalar_order directive_order recover other_digit parse_f64 s = inl (completed scalar_order directive_order (map plain_sysdef l))
  | inr _ => exists es, parse_schema_text scalar_order directive_order recover other_digit parse_f64 s = inr es
  end.
Proof.
  intros so do_ recover other_digit parse_f64 s. unfold parse_schema_text_at, parse_schema_text, parse_sysdoc_at, parse_sysdoc. set (items := lex recover other_digit parse_f64 false s). clearbody items.
  rewrite items_at_tokens, map_length. pose proof (forget_sysdoc_loop (S (length (items_at items))) (items_at items) [] new_document [] false) as H. unfold ltok in *.
  destruct (sysdoc_loop_at _ _ _ _ _) as [l errs]. cbn [map fold_left] in H. rewrite H. pose proof (lexing_errors_items items) as L.
  destruct (lexing_errors items) as [|e es], (item_errors (map fst items)) as [|e' es'].
  2: { exfalso. destruct L as [L _]. specialize (L eq_refl). discriminate L. }
  2: { exfalso. destruct L as [_ L]. specialize (L eq_refl). discriminate L. }
  2: { cbn. eexists. reflexivity. }
  destruct errs as [|e es]; [|cbn; eexists; reflexivity]. cbn [map] in H |- *. apply sysdoc_loop_sound in H; [|reflexivity]. destruct H as (xs & _ & F & E). rewrite E, definition_count_0 by exact F.
  rewrite fold_push in E. pose proof (f_equal all_count E) as C. rewrite !all_count_extend, !map_length in C. assert (C' : length l = length xs) by lia.
  destruct l as [|x l], xs as [|y xs]; try discriminate C'; [eexists; reflexivity|]. cbn [map]. cbn [map] in E. rewrite <- E. reflexivity.
Qed.
Lemma accepted_schema_at recover other_digit parse_f64 s : accepted_schema recover other_digit parse_f64 s <-> exists l, parse_schema_text_at recover other_digit parse_f64 s = inl l.
Proof.
  unfold accepted_schema. pose proof (c70_same all_builtins all_builtin_directives recover other_digit parse_f64 s) as H. destruct (parse_schema_text_at recover other_digit parse_f64 s) as [l|es].
  - rewrite H. split; eauto.
  - destruct H as (es' & ->). split; intros (x & E); discriminate E.
Qed.
Lemma rejected_cases recover other_digit parse_f64 s es : lexing_errors (lex recover other_digit parse_f64 false s) = [] ->
  parse_schema_text_at recover other_digit parse_f64 s = inr es ->
  (items_at (lex recover other_digit parse_f64 false s) = [] /\ es = [parse_error_error (bytes s) LEEmpty]) \/
  exists d e errs, es = map (parse_error_error (bytes s)) (e :: errs) /\
    sysdoc_loop_at (S (length (items_at (lex recover other_digit parse_f64 false s)))) (items_at (lex recover other_digit parse_f64 false s)) [] [] false = (d, e :: errs).
Proof.
  intros L. unfold parse_schema_text_at, parse_sysdoc_at. rewrite L, eof_bytes. destruct (sysdoc_loop_at _ _ _ _ _) as [d errs] eqn:E.
  destruct errs as [|e errs].
  - destruct d as [|x d]; [|discriminate]. intros [= <-]. left. split; [|reflexivity].
    pose proof (forget_sysdoc_loop (S (length (items_at (lex recover other_digit parse_f64 false s)))) (items_at (lex recover other_digit parse_f64 false s)) [] new_document [] false) as F. rewrite E in F.
    apply sysdoc_loop_sound in F; [|reflexivity]. destruct F as (xs & T & _ & D). apply (f_equal all_count) in D. rewrite all_count_extend, map_length in D. cbn [map fold_left] in D.
    destruct xs; [|cbn [length] in D; lia]. destruct (items_at _); [reflexivity|discriminate T].
  - intros [= <-]. right. exists d, e, errs. auto.
Qed.


(** what the message of an error on the token [t] says, and that a schema text that begins with [p] can go on as it says: [p], a line
    end, then what was expected *)
Inductive expected (accepted : text -> Prop) (p : text) (t : token) : text -> Prop :=
| expected_word v q : accepted (p ++ 10%N :: v ++ q) -> expected accepted p t (tx "Expected to find: " ++ v)
| expected_name n q : is_name n -> accepted (p ++ 10%N :: n ++ 32%N :: q) -> expected accepted p t (tx "Expected a name")
| expected_one v vs q : In v vs -> accepted (p ++ 10%N :: v ++ q) -> expected accepted p t (tx "Expected one of the following: " ++ joined vs)
| expected_enum_value w v q : t = TkName w -> In w [tx "null"; tx "true"; tx "false"] -> is_name v -> ~ In v [tx "null"; tx "true"; tx "false"] ->
    accepted (p ++ 10%N :: v ++ 32%N :: q) -> expected accepted p t (w ++ tx " is not an allowed enum value")
| expected_other q : accepted (p ++ q) -> expected accepted p t (tx "Unexpected token").
Lemma reserved_words n : reserved n = true <-> In n [tx "null"; tx "true"; tx "false"].
Proof.
  unfold reserved. rewrite !orb_true_iff, !teqb_eq. split; [intros [[->| ->]| ->]; cbn; tauto|]. intros [<-|[<-|[<-|[]]]]; auto.
Qed.
Lemma asked_message recover other_digit parse_f64 n e t msg p : lerr_token e = Some t -> er_primary (parse_error_error n e) = Some (msg, snd t) ->
  as_asked_in (accepted_schema recover other_digit parse_f64) (plain_err e) p -> expected (accepted_schema recover other_digit parse_f64) p (fst t) msg.
Proof.
  intros T Em A. destruct e as [u|u v0|u vs|u|u| | | |]; try discriminate T; injection T as <-; cbn [plain_err as_asked_in] in A; cbn [parse_error_error er_primary] in Em; injection Em as <-.
  - destruct A as (nm & q & N & A). exact (expected_name _ _ _ nm q N A).
  - destruct A as (q & A). exact (expected_word _ _ _ v0 q A).
  - destruct A as (v & q & I & A). exact (expected_one _ _ _ v vs q I A).
  - destruct A as (R & v & q & N & R' & A). apply (expected_enum_value _ _ _ (fst u) v q); [reflexivity|apply reserved_words, R|exact N| |exact A]. intros I. apply reserved_words in I. congruence.
  - destruct A as (q & A). exact (expected_other _ _ _ q A).
Qed.
Lemma same_prefix p p' q q' : p ++ q = p' ++ q' -> bytes p = bytes p' -> p = p' /\ q = q'.
Proof.
  intros E B. assert (H1 : split_bytes (p ++ q) (bytes p) = Some (p, q)) by (apply split_bytes_spec; auto). assert (H2 : split_bytes (p ++ q) (bytes p) = Some (p', q')) by (apply split_bytes_spec; auto).
  rewrite H1 in H2. injection H2 as -> ->. auto.
Qed.
Lemma lexeme_tokens recover other_digit parse_f64 t l : lexeme parse_f64 t l -> tokens_of recover other_digit parse_f64 l [t].
Proof. intros H. apply c05_layout. rewrite <- (app_nil_r l). apply (source_token _ _ [] t l []); auto using apart_nil; [constructor|]. constructor. left. constructor. Qed.
(** The text has no lexing errors and is rejected. Then either it has no tokens, and the one error says so; or the first error is on
    a token of the text: the text before that token can be completed to a schema document, in the way the message says, and the text up
    to and including the token cannot; or it is on a description, the text up to and including the description can be completed, and
    either the text up to and including the next token cannot or there is no next token; or the first error is at the end, and the
    whole text can be completed. *)
Theorem c70_first_error : forall recover other_digit parse_f64 s es,
  (forall l b, parse_f64 l = Some b -> Forall (fun c => c < 128)%N l) -> other_digit 65279%N = false ->
  lexing_errors (lex recover other_digit parse_f64 false s) = [] ->
  parse_schema_text_at recover other_digit parse_f64 s = inr es ->
  (tokens_of recover other_digit parse_f64 s [] /\
     es = [{| er_message := tx "Document does not contain any definitions"; er_primary := None; er_secondary := [] |}]) \/
  exists e rest msg a b, es = e :: rest /\ er_primary e = Some (msg, (a, b)) /\
   ((exists p m q t, s = p ++ m ++ q /\ a = bytes p /\ b = bytes (p ++ m) /\ tokens_of recover other_digit parse_f64 m [t] /\
      expected (accepted_schema recover other_digit parse_f64) p t msg /\
      (forall c q', blank c -> ~ accepted_schema recover other_digit parse_f64 (p ++ m ++ c :: q'))) \/
    (exists p m w m2 q d t, s = p ++ m ++ w ++ m2 ++ q /\ a = bytes p /\ b = bytes (p ++ m) /\ msg = tx "Unexpected token" /\
      tokens_of recover other_digit parse_f64 m [TkStr d] /\ ignored w /\ tokens_of recover other_digit parse_f64 m2 [t] /\
      (exists q', accepted_schema recover other_digit parse_f64 (p ++ m ++ w ++ q')) /\
      (forall c q', blank c -> ~ accepted_schema recover other_digit parse_f64 (p ++ m ++ w ++ m2 ++ c :: q'))) \/
    (exists p m q d, s = p ++ m ++ q /\ a = bytes p /\ b = bytes (p ++ m) /\ msg = tx "Unexpected token" /\
      tokens_of recover other_digit parse_f64 m [TkStr d] /\ tokens_of recover other_digit parse_f64 q [] /\
      exists q', accepted_schema recover other_digit parse_f64 (s ++ q')) \/
    (a = bytes s /\ b = bytes s /\ msg = tx "Unexpected EOF" /\ exists q', accepted_schema recover other_digit parse_f64 (s ++ q'))).
Proof.
  intros recover other_digit parse_f64 s es Hf Hb L H. destruct (rejected_cases _ _ _ _ _ L H) as [(E & ->)|(d & e & errs & -> & El)].
  - left. split; [|reflexivity]. unfold tokens_of. assert (F : map fst (lex recover other_digit parse_f64 false s) = map inl (map fst (items_at (lex recover other_digit parse_f64 false s)))).
    { clear - L. induction (lex recover other_digit parse_f64 false s) as [|[[t|x] sp] l IH]; [reflexivity| |]; cbn in L |- *.
      - f_equal. apply IH, L.
      - destruct x; discriminate L. }
    rewrite F, E. reflexivity.
  - right. exists (parse_error_error (bytes s) e), (map (parse_error_error (bytes s)) errs). pose proof (parse_error_primary (bytes s) e) as Pr.
    pose proof (accepted_schema_iff recover other_digit parse_f64) as AI.
    pose proof (lexs_placed recover other_digit parse_f64 Hf (length s) s (le_n _) 0 L) as P. change (lexs recover other_digit parse_f64 false 0 s) with (lex recover other_digit parse_f64 false s) in P.
    apply sysdoc_first_error in El; [|lia]. destruct El as [G|e pre t r T E G B|pre d0 sp t2 r E G B|pre d0 sp E G].
    + exists (tx "Unexpected EOF"), (bytes s), (bytes s). split; [reflexivity|]. split; [reflexivity|]. right. right. right. do 3 (split; [reflexivity|]).
      exact (end_text_in recover other_digit parse_f64 Hb _ _ AI Hf _ L G).
    + rewrite T in Pr. destruct Pr as (msg & Em). destruct (error_text_in recover other_digit parse_f64 Hb _ _ AI Hf _ _ _ _ _ L E G B) as (p & m & q & E1 & E2 & E3 & E4 & E5 & E6).
      exists msg, (bytes p), (bytes (p ++ m)). split; [reflexivity|]. rewrite <- E2. split; [exact Em|]. left. exists p, m, q, (fst t).
      pose proof (asked_message _ _ _ _ _ _ _ _ T Em E5). auto 10.
    + change ((TkStr d0, sp) :: t2 :: r) with ([(TkStr d0, sp)] ++ t2 :: r) in E. rewrite app_assoc in E. rewrite E, <- app_assoc in P.
      change [(TkStr d0, sp); t2] with ([(TkStr d0, sp)] ++ [t2]) in B. rewrite app_assoc in B.
      destruct (error_text_in recover other_digit parse_f64 Hb _ _ AI Hf (PEToken (fst t2)) _ _ _ _ L E G B) as (p' & m2 & q & E1 & E2 & E3 & E4 & E5 & E6).
      apply placed_skip in P. destruct P as (p0 & s1 & Es & P). cbn [app plus] in P. inversion P as [|pos' w1 t' m ts' s2 Hw1 Hm Ha1 P2]; subst ts' t' pos' s1. inversion P2 as [|pos' w t' l ts' s3 Hw Hl Ha2 P3]; subst ts' pos' s2.
      exists (tx "Unexpected token"), (bytes (p0 ++ w1)), (bytes ((p0 ++ w1) ++ m)). split; [reflexivity|]. split; [cbn; subst sp; rewrite !bytes_app; reflexivity|]. right. left.
      subst t2. cbn [fst snd] in *. injection E2 as E2a E2b.
      assert (X : p' = (p0 ++ w1) ++ m ++ w /\ m2 ++ q = l ++ s3).
      { apply same_prefix; [rewrite <- E1, Es, <- !app_assoc; reflexivity|]. rewrite !bytes_app. lia. }
      destruct X as (X1 & X2).
      assert (Y : m2 = l /\ q = s3). { apply same_prefix; [exact X2|]. rewrite bytes_app in E2b. lia. }
      destruct Y as (-> & ->). exists (p0 ++ w1), m, w, l, s3, d0, t'. split; [rewrite Es, <- !app_assoc; reflexivity|]. do 3 (split; [reflexivity|]).
      split; [apply lexeme_tokens, Hm|]. split; [exact Hw|]. split; [exact E4|]. rewrite X1 in E5, E6. split.
      * destruct E5 as (q' & A). exists q'. rewrite <- !app_assoc in A. rewrite <- !app_assoc. exact A.
      * intros c q' Hc A. apply (E6 c q' Hc). rewrite <- !app_assoc in A. rewrite <- !app_assoc. exact A.
    + rewrite E in P. apply placed_skip in P. destruct P as (p0 & s1 & Es & P). cbn [plus] in P. inversion P as [|pos' w1 t' m ts' s2 Hw1 Hm Ha1 P2]; subst ts' t' pos' s1. inversion P2 as [pos' w Hw|]; subst pos' w.
      exists (tx "Unexpected token"), (bytes (p0 ++ w1)), (bytes ((p0 ++ w1) ++ m)). split; [reflexivity|]. split; [cbn; subst sp; rewrite !bytes_app; reflexivity|]. right. right. left.
      exists (p0 ++ w1), m, s2, d0. split; [rewrite Es, <- !app_assoc; reflexivity|]. do 3 (split; [reflexivity|]). split; [apply lexeme_tokens, Hm|].
      split; [apply c05_layout; constructor; exact Hw|]. exact (end_text_in recover other_digit parse_f64 Hb _ _ AI Hf _ L G).
Qed.
(** All errors are on tokens of the text or at its end, each after the one before; there are no other marks. *)
Theorem c70_in_order : forall recover other_digit parse_f64 s es,
  (forall l b, parse_f64 l = Some b -> Forall (fun c => c < 128)%N l) ->
  lexing_errors (lex recover other_digit parse_f64 false s) = [] -> items_at (lex recover other_digit parse_f64 false s) <> [] ->
  parse_schema_text_at recover other_digit parse_f64 s = inr es ->
  exists marks, map er_primary es = map Some marks /\ Forall (fun e => er_secondary e = []) es /\
    Forall (fun m : note => In (snd m) (map snd (items_at (lex recover other_digit parse_f64 false s))) \/ snd m = (bytes s, bytes s)) marks /\
    StronglySorted (fun a b : note => snd (snd a) <= fst (snd b)) marks.
Proof.
  intros recover other_digit parse_f64 s es Hf L NE H. destruct (rejected_cases _ _ _ _ _ L H) as [(E & _)|(d & e & errs & -> & El)]; [contradiction|].
  apply sysdoc_loop_spots in El; [|lia]. destruct El as (errs' & El & Sp). cbn in El. subst errs'. clear H. revert Sp. generalize (e :: errs). clear e errs. intros errs Sp.
  pose proof (items_ordered recover other_digit parse_f64 s Hf) as O.
  assert (W : Forall (fun t : ltok => snd (snd t) <= bytes s) (items_at (lex recover other_digit parse_f64 false s))).
  { pose proof (lexs_placed recover other_digit parse_f64 Hf (length s) s (le_n _) 0 L) as P. change (lexs recover other_digit parse_f64 false 0 s) with (lex recover other_digit parse_f64 false s) in P.
    clear - P. change (bytes s) with (0 + bytes s). induction P as [|pos w t l ts s' Hw Hl Ha P IH]; [constructor|]. rewrite !bytes_app. constructor; [cbn; lia|].
    eapply Forall_impl; [|exact IH]. cbn. intros x Hx. lia. }
  clear NE L. remember false as b0 eqn:Eb0. clear Eb0. induction Sp as [b ts|ts|b t r errs Sp IH|b lead d' mid r errs M O' Sp IH|e t pre r errs T Sp IH].
  - exists []. repeat split; constructor.
  - exists [(tx "Unexpected EOF", (bytes s, bytes s))]. split; [reflexivity|]. split; [repeat constructor|]. split; [constructor; [right; reflexivity|constructor]|]. repeat constructor.
  - change (t :: r) with ([t] ++ r) in *. destruct (IH (ordered_suffix _ _ O) (proj2 (proj1 (Forall_app _ _ _) W))) as (marks & M1 & M2 & M3 & M4). exists marks.
    split; [exact M1|]. split; [exact M2|]. split; [|exact M4]. eapply Forall_impl; [|exact M3]. intros m [Hm|Hm]; [left|right; exact Hm]. rewrite map_app. apply in_or_app. right. exact Hm.
  - destruct (IH (ordered_suffix _ _ O) (proj2 (proj1 (Forall_app _ _ _) W))) as (marks & M1 & M2 & M3 & M4). exists marks.
    split; [exact M1|]. split; [exact M2|]. split; [|exact M4]. eapply Forall_impl; [|exact M3]. intros m [Hm|Hm]; [left|right; exact Hm]. rewrite map_app. apply in_or_app. right. exact Hm.
  - pose proof (parse_error_primary (bytes s) e) as Pr. rewrite T in Pr. destruct Pr as (msg & Em).
    change (t :: r) with ([t] ++ r) in *. rewrite app_assoc in *. pose proof (ordered_suffix _ _ O) as O'. pose proof (proj2 (proj1 (Forall_app _ _ _) W)) as W'.
    destruct (IH O' W') as (marks & M1 & M2 & M3 & M4). exists ((msg, snd t) :: marks). cbn [map]. split; [rewrite Em, M1; reflexivity|].
    split; [constructor; [apply parse_error_secondary|exact M2]|]. split.
    + constructor; [left; rewrite !map_app; apply in_or_app; left; apply in_or_app; right; left; reflexivity|]. eapply Forall_impl; [|exact M3]. intros m [Hm|Hm]; [left|right; exact Hm].
      rewrite map_app. apply in_or_app. right. exact Hm.
    + constructor; [exact M4|]. eapply Forall_impl; [|exact M3]. cbn [snd]. intros m [Hm| ->].
      * apply in_map_iff in Hm. destruct Hm as (x & <- & Hx). apply ordered_app in O. destruct O as (_ & _ & O3). specialize (O3 t x ltac:(apply in_or_app; right; left; reflexivity) Hx). apply O3.
      * apply Forall_app in W. destruct W as (W & _). rewrite Forall_forall in W. apply W. apply in_or_app. right. left. reflexivity.
Qed.
(** One mistake does not lead to a second error by itself: between two errors the text has a whole schema definition. *)
Theorem c70_no_cascade : forall recover other_digit parse_f64 s es,
  (forall l b, parse_f64 l = Some b -> Forall (fun c => c < 128)%N l) -> other_digit 65279%N = false ->
  lexing_errors (lex recover other_digit parse_f64 false s) = [] -> parse_schema_text_at recover other_digit parse_f64 s = inr es ->
  forall i e1 e2 m1 m2, nth_error es i = Some e1 -> nth_error es (S i) = Some e2 -> er_primary e1 = Some m1 -> er_primary e2 = Some m2 ->
  exists p m q, s = p ++ m ++ q /\ snd (snd m1) <= bytes p /\ bytes (p ++ m) <= fst (snd m2) /\ accepted_schema recover other_digit parse_f64 m.
Proof.
  intros recover other_digit parse_f64 s es Hf Hb L H i e1 e2 m1 m2 H1 H2 P1 P2. destruct (rejected_cases _ _ _ _ _ L H) as [(_ & ->)|(d & e & errs & -> & El)].
  { destruct i; discriminate H2. }
  apply sysdoc_loop_spots in El; [|lia]. destruct El as (errs' & El & Sp). cbn [app] in El. subst errs'. rewrite nth_error_map in H1, H2.
  destruct (nth_error (e :: errs) i) as [x1|] eqn:X1; [|discriminate H1]. destruct (nth_error (e :: errs) (S i)) as [x2|] eqn:X2; [|discriminate H2].
  injection H1 as <-. injection H2 as <-. destruct (spots_between _ _ _ Sp i x1 x2 X1 X2) as (pre & t & mid & post & lead & df & E & M & O & T & I & K).
  pose proof (parse_error_primary (bytes s) x1) as Q1. rewrite T in Q1. destruct Q1 as (msg1 & Q1). rewrite P1 in Q1. injection Q1 as ->.
  pose proof (lexs_placed recover other_digit parse_f64 Hf (length s) s (le_n _) 0 L) as P. change (lexs recover other_digit parse_f64 false 0 s) with (lex recover other_digit parse_f64 false s) in P.
  pose proof (items_ordered recover other_digit parse_f64 s Hf) as Or. rewrite E in P, Or. pose proof P as Pw. apply placed_skip in P. destruct P as (p & s' & -> & P).
  destruct mid as [|t0 mid]; [exfalso; destruct (tk_sysdef_head lead df O) as (dd & dn & dl & Ed); rewrite Ed in M; destruct dd; discriminate M|].
  cbn [app] in P. apply placed_cut in P. destruct P as (w & l & m & q & -> & Hw & Hl & F1 & F2 & Hsrc). exists (p ++ w), (l ++ m), q. split; [rewrite <- !app_assoc; reflexivity|].
  apply ordered_app in Or. destruct Or as (_ & Or & O1). apply ordered_app in Or. destruct Or as (Om & _ & O2).
  assert (B1 : snd (snd t) <= fst (snd t0)) by (apply O1; [exact I|left; reflexivity]).
  split; [cbn [snd]; rewrite bytes_app; cbn [plus] in F1; rewrite <- F1; exact B1|].
  assert (Lst : In (last (t0 :: mid) t0) (t0 :: mid)) by (destruct (exists_last (l := t0 :: mid)) as (u & v & ->); [discriminate|]; rewrite last_last; apply in_or_app; right; left; reflexivity).
  split.
  - destruct K as [->|(t2 & T2 & I2)].
    + cbn in P2. injection P2 as <-. cbn [fst snd]. rewrite !bytes_app. lia.
    + pose proof (parse_error_primary (bytes (p ++ w ++ (l ++ m) ++ q)) x2) as Q2. rewrite T2 in Q2. destruct Q2 as (msg2 & Q2). rewrite P2 in Q2. injection Q2 as ->. cbn [snd].
      replace (bytes ((p ++ w) ++ l ++ m)) with (snd (snd (last (t0 :: mid) t0))) by (rewrite F2, !bytes_app; lia). apply O2; [exact Lst|exact I2].
  - apply accepted_schema_iff. exists (tk_sysdef lead df). split; [exists [(lead, df)]; split; [discriminate|]; split; [repeat constructor; exact O|]; cbn; apply app_nil_r|]. apply c05_layout. apply (source_digits recover other_digit parse_f64 Hb).
    unfold ltok in *. rewrite M in Hsrc. exact Hsrc.
Qed.
(** Converted to GraphQL errors, none of them panics; there is one GraphQL error for each, with its message and, unless it is at the
    end of a text that ends with a line end, the line and column of its place. *)
Theorem c70_located : forall search offset_line further recover other_digit parse_f64 s es,
  searches search -> tells_places further offset_line -> (forall l b, parse_f64 l = Some b -> Forall (fun c => c < 128)%N l) ->
  lexing_errors (lex recover other_digit parse_f64 false s) = [] -> items_at (lex recover other_digit parse_f64 false s) <> [] ->
  parse_schema_text_at recover other_digit parse_f64 s = inr es ->
  exists gs marks, into_graphql_errors search offset_line s es = Some gs /\ map er_primary es = map Some marks /\
    Forall2 (fun (m : note) g => fst (snd m) < bytes s \/ (forall before c, s = before ++ [c] -> ends_line further c = false) ->
      located further s m (ge_message g) (ge_line g) (ge_col g)) marks gs.
Proof.
  intros search offset_line further recover other_digit parse_f64 s es Hs T Hf L NE H. destruct (c70_in_order _ _ _ _ _ Hf L NE H) as (marks & M1 & M2 & M3 & _). clear H NE L.
  pose proof (lexed_placeable recover other_digit parse_f64 false further s Hf) as F.
  assert (B : starts_char s (bytes s) (length s)) by (exists s, []; rewrite app_nil_r; auto).
  assert (Q : Forall (fun m : note => on_boundary s (fst (snd m)) /\
    (fst (snd m) < bytes s \/ (forall before c, s = before ++ [c] -> ends_line further c = false) -> placeable further s (fst (snd m)))) marks).
  { eapply Forall_impl; [|exact M3]. intros m [Hm|Hm].
    - apply in_map_iff in Hm. destruct Hm as (t & Et & Ht). unfold items_at in Ht. apply in_flat_map in Ht. destruct Ht as (i & Hi & Ht). pose proof (proj1 (Forall_forall _ _) F i Hi) as Pl.
      destruct i as [[u|u] sp]; [|destruct Ht]. destruct Ht as [<-|[]]. cbn in Et, Pl. rewrite <- Et. split; [destruct Pl as (i & Hi' & _); exists i; exact Hi'|auto].
    - rewrite Hm. cbn [fst snd]. split; [exists (length s); exact B|]. intros [K|K]; [lia|]. exists (length s). auto. }
  clear F M3 B. revert marks M1 Q. induction es as [|e es IH]; intros [|m marks] M1 Q; try discriminate M1.
  - exists [], []. repeat split. constructor.
  - cbn [map] in M1. injection M1 as Em M1. inversion_clear M2 as [|? ? _ M2']. inversion_clear Q as [|? ? (Q1 & Q2) Q']. destruct (IH M2' _ M1 Q') as (gs & marks' & G & M3 & F2).
    assert (N : flat_map notes_of [e] = [m]) by (cbn; unfold notes_of, reported; rewrite Em; reflexivity).
    destruct (proj2 (c62_panics_iff search offset_line s [e] Hs)) as (g1 & G1); [rewrite N; auto|].
    assert (A : into_graphql_errors search offset_line s (e :: es) = Some (g1 ++ gs)).
    { change (e :: es) with ([e] ++ es). rewrite c62_history by exact Hs. rewrite G1, G. reflexivity. }
    assert (One : exists g, g1 = [g]).
    { unfold into_graphql_errors in G1. cbn [errors_from] in G1. unfold looked_at in G1. rewrite Em in G1. cbn [report_all] in G1.
      destruct (report _ _ _ _ m) as [[g m']|]; [|discriminate]. injection G1 as <-. eauto. }
    destruct One as (g & ->). exists (g :: gs), (m :: marks'). split; [exact A|]. split; [cbn [map]; rewrite Em, M3; reflexivity|]. constructor; [|exact F2].
    intros K. destruct (c62_located search offset_line further s [e] Hs T) as (gs' & E' & L'); [rewrite N; auto|]. rewrite G1 in E'. injection E' as <-. rewrite N in L'. inversion_clear L'. assumption.
Qed.

(** A text without tokens is rejected, but its error becomes no GraphQL error at all. *)
Notation read_schema_at := (parse_schema_text_at (fun _ => 1) (fun _ => false) no_floats).
Theorem c70_empty_unreported_refuted : exists s es, read_schema_at s = inr es /\ forall search offset_line, into_graphql_errors search offset_line s es = Some [].
Proof. exists (tx "# nothing"). eexists. split; [vm_compute; reflexivity|]. reflexivity. Qed.
(** It is not so that the marked token is always the first one that no schema document has there: here the description is marked,
    but the mistake is the word after it. *)
Theorem c70_description_marked_refuted : ~ forall s es msg a b e rest, lexing_errors (lex (fun _ => 1) (fun _ => false) no_floats false s) = [] ->
  read_schema_at s = inr es -> es = e :: rest -> er_primary e = Some (msg, (a, b)) ->
  forall p m q, s = p ++ m ++ q -> m <> [] -> a = bytes p -> b = bytes (p ++ m) -> forall q', ~ accepted_schema (fun _ => 1) (fun _ => false) no_floats (p ++ m ++ q').
Proof.
  intros H. assert (E : exists e, read_schema_at (tx """The user"" typ User { id: ID }") = inr [e] /\ er_primary e = Some (tx "Unexpected token", (0, 10))) by (eexists; split; vm_compute; reflexivity).
  destruct E as (e & E & P). refine (H (tx """The user"" typ User { id: ID }") _ _ _ _ e [] _ E eq_refl P [] (tx """The user""") (tx " typ User { id: ID }") _ _ _ _ (tx " type User { id: ID }") _); try (vm_compute; reflexivity); try discriminate.
  apply accepted_schema_at. eexists. vm_compute. reflexivity.
Qed.
(** Cases: the marked texts of the errors. *)
Definition marked (s : text) : option (list text) :=
  match read_schema_at s with
  | inl _ => None
  | inr es => Some (map (fun e => match er_primary e with Some (m, sp) => m ++ tx " @ " ++ text_of s sp | None => er_message e end) es)
  end.
Example c70_cases :
  marked (tx "type Query { a(b: [Int!): Int }") = Some [tx "Expected to find: ] @ )"] /\
  marked (tx "type Query { a Int } union U = A | B | scalar S directive @d on FIELD | FIEDL") = Some (map tx ["Expected to find: : @ Int"; "Unexpected token @ S"]) /\
  marked (tx "directive @d on FIELD | FIEDL scalar S input I { x: ") =
    Some (map tx ["Expected one of the following: QUERY, MUTATION, SUBSCRIPTION, FIELD, FRAGMENT_DEFINITION, FRAGMENT_SPREAD, INLINE_FRAGMENT, VARIABLE_DEFINITION, SCHEMA, SCALAR, OBJECT, FIELD_DEFINITION, ARGUMENT_DEFINITION, INTERFACE, UNION, ENUM, ENUM_VALUE, INPUT_OBJECT, INPUT_FIELD_DEFINITION @ FIEDL"; "Unexpected EOF @ "]) /\
  marked (tx "enum E { A true }") = Some [tx "true is not an allowed enum value @ true"] /\
  marked (tx "schema { query: Q subscripton: S } scalar T }") = Some (map tx ["Expected one of the following: query, mutation, subscription @ subscripton"; "Unexpected token @ }"]) /\
  marked (tx "type Query implements & { a: Int }") = Some [tx "Expected a name @ {"] /\
  marked (tx "scalar A ""about B""") = Some [tx "Unexpected token @ ""about B"""] /\
  marked (tx "directive @d(x: Int = $y) on FIELD") = Some [tx "Unexpected token @ $y"] /\
  marked (tx "type Query {") = Some [tx "Unexpected EOF @ "] /\
  marked (tx " ,, ") = Some [tx "Document does not contain any definitions"].
Proof. repeat split; vm_compute; reflexivity. Qed.
Print Assumptions c70_same. Print Assumptions c70_first_error. Print Assumptions c70_in_order. Print Assumptions c70_no_cascade. Print Assumptions c70_located. Print Assumptions c70_empty_unreported_refuted. Print Assumptions c70_description_marked_refuted.
(** an error on a token, one on a description, one at the end: the hypotheses of the theorems are met *)
Example c70_meets_hypotheses :
  forall s, In s [tx "type Query { a( }"; tx """d"" typ Query { a: Int }"; tx "type Query { a: Int"] ->
  lexing_errors (lex (fun _ => 1) (fun _ => false) no_floats false s) = [] /\ items_at (lex (fun _ => 1) (fun _ => false) no_floats false s) <> [] /\ exists es, read_schema_at s = inr es.
Proof. intros s [<-|[<-|[<-|[]]]]; (split; [vm_compute; reflexivity|]; split; [vm_compute; discriminate|]; eexists; vm_compute; reflexivity). Qed.
