(** Property C64: where syntax errors are. *)
From Coq Require Import String Sorted Lia.
From Verif Require Import Base Ast Lexer LexerSpec LexerProofs LexerStreamProofs LexerProps Parser Location LocationSpec LocationProofs LocationProps ParserAt ParserSpec
  ParserAtSpec ParserProps ParserAtProofs SpanProofs SpanProps ParserErrorProofs ParserErrorAtProofs ParserErrorTextProofs.
Local Open Scope string_scope.
Local Open Scope list_scope.

(** [accepted recover other_digit parse_f64 s]: parsing [s] gives a document. *)
Lemma parse_error_primary eof e : match lerr_token e with
  | Some t => exists msg, er_primary (parse_error_error eof e) = Some (msg, snd t)
  | None => e = LEEof -> exists msg, er_primary (parse_error_error eof e) = Some (msg, (eof, eof))
  end.
Proof. destruct e; cbn; eauto; discriminate. Qed.
Lemma parse_error_secondary eof e : er_secondary (parse_error_error eof e) = [].
Proof. destruct e; reflexivity. Qed.
Lemma eof_bytes s : list_sum (map utf8_len s) = bytes s.
Proof. rewrite <- blen_bytes. induction s as [|c s IH]; [reflexivity|]. unfold blen in *. cbn. rewrite <- IH. reflexivity. Qed.
Lemma rejected_cases recover other_digit parse_f64 s es : lexing_errors (lex recover other_digit parse_f64 false s) = [] ->
  parse_text_at recover other_digit parse_f64 s = inr es ->
  (items_at (lex recover other_digit parse_f64 false s) = [] /\ es = [parse_error_error (bytes s) LEEmpty]) \/
  exists d e errs, es = map (parse_error_error (bytes s)) (e :: errs) /\
    document_loop_at (S (length (items_at (lex recover other_digit parse_f64 false s)))) (items_at (lex recover other_digit parse_f64 false s)) [] [] false = (d, e :: errs).
Proof.
  intros L. unfold parse_text_at, parse_document_at. rewrite L, eof_bytes. destruct (document_loop_at _ _ _ _ _) as [d errs] eqn:E.
  destruct errs as [|e errs].
  - destruct d as [|x d]; [|discriminate]. intros [= <-]. left. split; [|reflexivity].
    pose proof (forget_loop (S (length (items_at (lex recover other_digit parse_f64 false s)))) (items_at (lex recover other_digit parse_f64 false s)) [] [] false) as F. rewrite E in F.
    apply (ParserDocProofs.document_loop_sound _ _ _ _ _ _) in F; [|reflexivity]. destruct F as (ds & T & _ & D). destruct ds as [|x ds].
    + destruct (items_at _); [reflexivity|discriminate T].
    + exfalso. destruct x as [o|f]; apply (f_equal (fun d => length (doc_ops d) + length (doc_frags d))) in D; cbn in D; lia.
  - intros H. assert (H' : es = map (parse_error_error (bytes s)) (e :: errs)) by (destruct d; injection H as <-; reflexivity). subst es. right. exists d, e, errs. auto.
Qed.

Lemma asked_message recover other_digit parse_f64 n e t msg p : lerr_token e = Some t -> er_primary (parse_error_error n e) = Some (msg, snd t) ->
  as_asked recover other_digit parse_f64 (plain_err e) p ->
  (exists q', accepted recover other_digit parse_f64 (p ++ q')) /\
  (forall v, msg = tx "Expected to find: " ++ v -> exists q', accepted recover other_digit parse_f64 (p ++ 10%N :: v ++ q')) /\
  (msg = tx "Expected a name" -> exists n q', is_name n /\ accepted recover other_digit parse_f64 (p ++ 10%N :: n ++ 32%N :: q')).
Proof.
  intros T Em A. destruct e as [u|u v0|u vs|u|u| | | |]; try discriminate T; cbn in Em; injection Em as <- _; unfold as_asked in A; cbn [plain_err as_asked_in] in A.
  - destruct A as (nm & q & N & A). split; [eauto|]. split; [intros v E; discriminate E|]. intros _. eauto.
  - destruct A as (q & A). split; [eauto|]. split; [|intros E; discriminate E]. intros v E. change (tx "Expected to find: " ++ v0 = tx "Expected to find: " ++ v) in E. apply app_inv_head in E. subst v. eauto.
  - destruct A as (v & q & _ & A). split; [eauto|]. split; intros; discriminate.
  - destruct A as (R & v & q & _ & _ & A). split; [eauto|]. unfold reserved in R. apply orb_prop in R. destruct R as [R|R]; [apply orb_prop in R; destruct R as [R|R]|]; apply teqb_eq in R; rewrite R;
      split; intros; discriminate.
  - split; [exact A|]. split; intros; discriminate.
Qed.
(** The text has no lexing errors and is rejected. Then either it has no tokens, and the one error says so; or the first error is on
    a token of the text: the text before that token can be completed to a document, and in the way the message says if it says what
    was expected there; the text up to and including the token cannot; or the first error is at the end, and the whole text can
    be completed. *)
Theorem c64_first_error : forall recover other_digit parse_f64 s es,
  (forall l b, parse_f64 l = Some b -> Forall (fun c => c < 128)%N l) -> other_digit 65279%N = false ->
  lexing_errors (lex recover other_digit parse_f64 false s) = [] ->
  parse_text_at recover other_digit parse_f64 s = inr es ->
  (tokens_of recover other_digit parse_f64 s [] /\
     es = [{| er_message := tx "Document does not contain any definitions"; er_primary := None; er_secondary := [] |}]) \/
  exists e rest msg a b, es = e :: rest /\ er_primary e = Some (msg, (a, b)) /\
   ((exists p m q t, s = p ++ m ++ q /\ a = bytes p /\ b = bytes (p ++ m) /\ tokens_of recover other_digit parse_f64 m [t] /\
      (exists q', accepted recover other_digit parse_f64 (p ++ q')) /\
      (forall v, msg = tx "Expected to find: " ++ v -> exists q', accepted recover other_digit parse_f64 (p ++ 10%N :: v ++ q')) /\
      (msg = tx "Expected a name" -> exists n q', is_name n /\ accepted recover other_digit parse_f64 (p ++ 10%N :: n ++ 32%N :: q')) /\
      (forall c q', blank c -> ~ accepted recover other_digit parse_f64 (p ++ m ++ c :: q'))) \/
    (a = bytes s /\ b = bytes s /\ exists q', accepted recover other_digit parse_f64 (s ++ q'))).
Proof.
  intros recover other_digit parse_f64 s es Hf Hb L H. destruct (rejected_cases _ _ _ _ _ L H) as [(E & ->)|(d & e & errs & -> & El)].
  - left. split; [|reflexivity]. unfold tokens_of. assert (F : map fst (lex recover other_digit parse_f64 false s) = map inl (map fst (items_at (lex recover other_digit parse_f64 false s)))).
    { clear - L. induction (lex recover other_digit parse_f64 false s) as [|[[t|x] sp] l IH]; [reflexivity| |]; cbn in L |- *.
      - f_equal. apply IH, L.
      - destruct x; discriminate L. }
    rewrite F, E. reflexivity.
  - right. exists (parse_error_error (bytes s) e), (map (parse_error_error (bytes s)) errs). pose proof (parse_error_primary (bytes s) e) as Pr.
    apply located_first_error in El; [|lia]. destruct El as [(-> & G)|(pre & t & r & T & E & G & B)].
    + destruct (Pr eq_refl) as (msg & Em). exists msg, (bytes s), (bytes s). split; [reflexivity|]. split; [exact Em|]. right. do 2 (split; [reflexivity|]).
      exact (end_text _ _ _ Hb Hf _ L G).
    + rewrite T in Pr. destruct Pr as (msg & Em). destruct (error_text _ _ _ Hb Hf _ _ _ _ _ L E G B) as (p & m & q & E1 & E2 & E3 & E4 & E5 & E6).
      exists msg, (bytes p), (bytes (p ++ m)). split; [reflexivity|]. rewrite <- E2. split; [exact Em|]. left. exists p, m, q, (fst t).
      destruct (asked_message _ _ _ _ _ _ _ _ T Em E5) as (A1 & A2 & A3). auto 10.
Qed.
(** All errors are on tokens of the text or at its end, each after the one before; there are no other marks. *)
Theorem c64_in_order : forall recover other_digit parse_f64 s es,
  (forall l b, parse_f64 l = Some b -> Forall (fun c => c < 128)%N l) ->
  lexing_errors (lex recover other_digit parse_f64 false s) = [] -> items_at (lex recover other_digit parse_f64 false s) <> [] ->
  parse_text_at recover other_digit parse_f64 s = inr es ->
  exists marks, map er_primary es = map Some marks /\ Forall (fun e => er_secondary e = []) es /\
    Forall (fun m : note => In (snd m) (map snd (items_at (lex recover other_digit parse_f64 false s))) \/ snd m = (bytes s, bytes s)) marks /\
    StronglySorted (fun a b : note => snd (snd a) <= fst (snd b)) marks.
Proof.
  intros recover other_digit parse_f64 s es Hf L NE H. destruct (rejected_cases _ _ _ _ _ L H) as [(E & _)|(d & e & errs & -> & El)]; [contradiction|].
  apply loop_at_spots in El; [|lia]. destruct El as (errs' & El & Sp). cbn in El. subst errs'. clear H. revert Sp. generalize (e :: errs). clear e errs. intros errs Sp.
  pose proof (items_ordered recover other_digit parse_f64 s Hf) as O.
  assert (W : Forall (fun t : ltok => snd (snd t) <= bytes s) (items_at (lex recover other_digit parse_f64 false s))).
  { pose proof (lexs_placed recover other_digit parse_f64 Hf (length s) s (le_n _) 0 L) as P. change (lexs recover other_digit parse_f64 false 0 s) with (lex recover other_digit parse_f64 false s) in P.
    clear - P. change (bytes s) with (0 + bytes s). induction P as [|pos w t l ts s' Hw Hl Ha P IH]; [constructor|]. rewrite !bytes_app. constructor; [cbn; lia|].
    eapply Forall_impl; [|exact IH]. cbn. intros x Hx. lia. }
  clear NE L. remember false as b0 eqn:Eb0. clear Eb0. induction Sp as [b ts|ts|b t r errs Sp IH|b d' mid r errs M O' Sp IH|e t pre r errs T Sp IH].
  - exists []. repeat split; constructor.
  - exists [(tx "Unexpected EOF", (bytes s, bytes s))]. split; [reflexivity|]. split; [repeat constructor|]. split; [constructor; [right; reflexivity|constructor]|]. repeat constructor.
  - change (t :: r) with ([t] ++ r) in *. destruct (IH (ordered_suffix _ _ O) (proj2 (proj1 (Forall_app _ _ _) W))) as (marks & M1 & M2 & M3 & M4). exists marks.
    split; [exact M1|]. split; [exact M2|]. split; [|exact M4]. eapply Forall_impl; [|exact M3]. intros m [Hm|Hm]; [left|right; exact Hm]. rewrite map_app. apply in_or_app. right. exact Hm.
  - destruct (IH (ordered_suffix _ _ O) (proj2 (proj1 (Forall_app _ _ _) W))) as (marks & M1 & M2 & M3 & M4). exists marks.
    split; [exact M1|]. split; [exact M2|]. split; [|exact M4]. eapply Forall_impl; [|exact M3]. intros m [Hm|Hm]; [left|right; exact Hm]. rewrite map_app. apply in_or_app. right. exact Hm.
  - pose proof (parse_error_primary (bytes s) e) as Pr. rewrite T in Pr. destruct Pr as (msg & Em).
    change (t :: r) with ([t] ++ r) in *. rewrite app_assoc in *. pose proof (ordered_suffix _ _ O) as O'. pose proof (proj2 (proj1 (Forall_app _ _ _) W)) as W'.
    destruct (IH O' W') as (marks & M1 & M2 & M3 & M4). exists ((msg, snd t) :: marks). cbn [map]. split; [rewrite Em, M1; reflexivity|].
    split; [constructor; [apply parse_error_secondary|exact M2]|]. split.
    + constructor; [left; rewrite !map_app; apply in_or_app; left; apply in_or_app; right; left; reflexivity|]. eapply Forall_impl; [|exact M3]. intros m [Hm|Hm]; [left|right; exact Hm].
      rewrite map_app. apply in_or_app. right. exact Hm.
    + constructor; [exact M4|]. eapply Forall_impl; [|exact M3]. cbn [snd]. intros m [Hm| ->].
      * apply in_map_iff in Hm. destruct Hm as (x & <- & Hx). apply ordered_app in O. destruct O as (_ & _ & O3). specialize (O3 t x ltac:(apply in_or_app; right; left; reflexivity) Hx). apply O3.
      * apply Forall_app in W. destruct W as (W & _). rewrite Forall_forall in W. apply W. apply in_or_app. right. left. reflexivity.
Qed.
(** One mistake does not lead to a second error by itself: between two errors the text has a whole definition. *)
Theorem c64_no_cascade : forall recover other_digit parse_f64 s es,
  (forall l b, parse_f64 l = Some b -> Forall (fun c => c < 128)%N l) -> other_digit 65279%N = false ->
  lexing_errors (lex recover other_digit parse_f64 false s) = [] -> parse_text_at recover other_digit parse_f64 s = inr es ->
  forall i e1 e2 m1 m2, nth_error es i = Some e1 -> nth_error es (S i) = Some e2 -> er_primary e1 = Some m1 -> er_primary e2 = Some m2 ->
  exists p m q, s = p ++ m ++ q /\ snd (snd m1) <= bytes p /\ bytes (p ++ m) <= fst (snd m2) /\ accepted recover other_digit parse_f64 m.
Proof.
  intros recover other_digit parse_f64 s es Hf Hb L H i e1 e2 m1 m2 H1 H2 P1 P2. destruct (rejected_cases _ _ _ _ _ L H) as [(_ & ->)|(d & e & errs & -> & El)].
  { destruct i; discriminate H2. }
  apply loop_at_spots in El; [|lia]. destruct El as (errs' & El & Sp). cbn [app] in El. subst errs'. rewrite nth_error_map in H1, H2.
  destruct (nth_error (e :: errs) i) as [x1|] eqn:X1; [|discriminate H1]. destruct (nth_error (e :: errs) (S i)) as [x2|] eqn:X2; [|discriminate H2].
  injection H1 as <-. injection H2 as <-. destruct (spots_between _ _ _ Sp i x1 x2 X1 X2) as (pre & t & mid & post & df & E & M & O & T & I & K).
  pose proof (parse_error_primary (bytes s) x1) as Q1. rewrite T in Q1. destruct Q1 as (msg1 & Q1). rewrite P1 in Q1. injection Q1 as ->.
  pose proof (lexs_placed recover other_digit parse_f64 Hf (length s) s (le_n _) 0 L) as P. change (lexs recover other_digit parse_f64 false 0 s) with (lex recover other_digit parse_f64 false s) in P.
  pose proof (items_ordered recover other_digit parse_f64 s Hf) as Or. rewrite E in P, Or. pose proof P as Pw. apply placed_skip in P. destruct P as (p & s' & -> & P).
  destruct mid as [|t0 mid]; [exfalso; symmetry in M; revert M; apply ParserDocProofs.tk_definition_nonempty|].
  cbn [app] in P. apply placed_cut in P. destruct P as (w & l & m & q & -> & Hw & Hl & F1 & F2 & Hsrc). exists (p ++ w), (l ++ m), q. split; [rewrite <- !app_assoc; reflexivity|].
  apply ordered_app in Or. destruct Or as (_ & Or & O1). apply ordered_app in Or. destruct Or as (Om & _ & O2).
  assert (B1 : snd (snd t) <= fst (snd t0)) by (apply O1; [exact I|left; reflexivity]).
  split; [cbn [snd]; rewrite bytes_app; cbn [plus] in F1; rewrite <- F1; exact B1|].
  assert (Lst : In (last (t0 :: mid) t0) (t0 :: mid)) by (destruct (exists_last (l := t0 :: mid)) as (u & v & ->); [discriminate|]; rewrite last_last; apply in_or_app; right; left; reflexivity).
  split.
  - destruct K as [->|(t2 & T2 & I2)].
    + cbn in P2. injection P2 as <-. cbn [fst snd]. rewrite !bytes_app. lia.
    + pose proof (parse_error_primary (bytes (p ++ w ++ (l ++ m) ++ q)) x2) as Q2. rewrite T2 in Q2. destruct Q2 as (msg2 & Q2). rewrite P2 in Q2. injection Q2 as ->. cbn [snd].
      replace (bytes ((p ++ w) ++ l ++ m)) with (snd (snd (last (t0 :: mid) t0))) by (rewrite F2, !bytes_app; lia). apply O2; [exact Lst|exact I2].
  - apply accepted_iff. exists [df]. split; [discriminate|]. split; [auto|]. cbn [map concat]. rewrite app_nil_r. apply c05_layout. apply (source_digits recover other_digit parse_f64 Hb).
    unfold ltok in *. rewrite M in Hsrc. exact Hsrc.
Qed.
(** Converted to GraphQL errors, none of them panics; there is one GraphQL error for each, with its message and, unless it is at the
    end of a text that ends with a line end, the line and column of its place. *)
Theorem c64_located : forall search offset_line further recover other_digit parse_f64 s es,
  searches search -> tells_places further offset_line -> (forall l b, parse_f64 l = Some b -> Forall (fun c => c < 128)%N l) ->
  lexing_errors (lex recover other_digit parse_f64 false s) = [] -> items_at (lex recover other_digit parse_f64 false s) <> [] ->
  parse_text_at recover other_digit parse_f64 s = inr es ->
  exists gs marks, into_graphql_errors search offset_line s es = Some gs /\ map er_primary es = map Some marks /\
    Forall2 (fun (m : note) g => fst (snd m) < bytes s \/ (forall before c, s = before ++ [c] -> ends_line further c = false) ->
      located further s m (ge_message g) (ge_line g) (ge_col g)) marks gs.
Proof.
  intros search offset_line further recover other_digit parse_f64 s es Hs T Hf L NE H. destruct (c64_in_order _ _ _ _ _ Hf L NE H) as (marks & M1 & M2 & M3 & _). clear H NE L.
  pose proof (lexed_placeable recover other_digit parse_f64 false further s Hf) as F.
  assert (B : starts_char s (bytes s) (length s)) by (exists s, []; rewrite app_nil_r; auto).
  assert (Q : Forall (fun m : note => on_boundary s (fst (snd m)) /\
    (fst (snd m) < bytes s \/ (forall before c, s = before ++ [c] -> ends_line further c = false) -> placeable further s (fst (snd m)))) marks).
  { eapply Forall_impl; [|exact M3]. intros m [Hm|Hm].
    - apply in_map_iff in Hm. destruct Hm as (t & Et & Ht). unfold items_at in Ht. apply in_flat_map in Ht. destruct Ht as (i & Hi & Ht). pose proof (proj1 (Forall_forall _ _) F i Hi) as Pl.
      destruct i as [[u|u] sp]; [|destruct Ht]. destruct Ht as [<-|[]]. cbn in Et, Pl. rewrite <- Et. split; [destruct Pl as (i & Hi' & _); exists i; exact Hi'|auto].
    - rewrite Hm. cbn [fst snd]. split; [exists (length s); exact B|]. intros [K|K]; [lia|]. exists (length s). auto. }
  clear F M3 B. revert marks M1 Q. induction es as [|e es IH]; intros [|m marks] M1 Q; try discriminate M1.
  - exists [], []. repeat split. constructor.
  - cbn [map] in M1. injection M1 as Em M1. inversion_clear M2 as [|? ? _ M2']. inversion_clear Q as [|? ? (Q1 & Q2) Q']. destruct (IH M2' _ M1 Q') as (gs & marks' & G & M3 & F2).
    assert (N : flat_map notes_of [e] = [m]) by (cbn; unfold notes_of, reported; rewrite Em; reflexivity).
    destruct (proj2 (c62_panics_iff search offset_line s [e] Hs)) as (g1 & G1); [rewrite N; auto|].
    assert (A : into_graphql_errors search offset_line s (e :: es) = Some (g1 ++ gs)).
    { change (e :: es) with ([e] ++ es). rewrite c62_history by exact Hs. rewrite G1, G. reflexivity. }
    assert (One : exists g, g1 = [g]).
    { unfold into_graphql_errors in G1. cbn [errors_from] in G1. unfold looked_at in G1. rewrite Em in G1. cbn [report_all] in G1.
      destruct (report _ _ _ _ m) as [[g m']|]; [|discriminate]. injection G1 as <-. eauto. }
    destruct One as (g & ->). exists (g :: gs), (m :: marks'). split; [exact A|]. split; [cbn [map]; rewrite Em, M3; reflexivity|]. constructor; [|exact F2].
    intros K. destruct (c62_located search offset_line further s [e] Hs T) as (gs' & E' & L'); [rewrite N; auto|]. rewrite G1 in E'. injection E' as <-. rewrite N in L'. inversion_clear L'. assumption.
Qed.
(** A text without tokens is rejected, but its error becomes no GraphQL error at all. *)
Theorem c64_empty_unreported_refuted : exists s es, read_at s = inr es /\ forall search offset_line, into_graphql_errors search offset_line s es = Some [].
Proof. exists (tx "# nothing"). eexists. split; [vm_compute; reflexivity|]. reflexivity. Qed.

(** Cases: the marked texts of the errors. *)
Definition marked (s : text) : option (list text) :=
  match read_at s with
  | inl _ => None
  | inr es => Some (map (fun e => match er_primary e with Some (m, sp) => m ++ tx " @ " ++ text_of s sp | None => er_message e end) es)
  end.
Example c64_cases :
  marked (tx "{ a(b: [1, {c: }]) }") = Some [tx "Unexpected token @ }"] /\
  marked (tx "query Q($x Int) { a } fragment on on T { b } { c") = Some (map tx ["Expected to find: : @ Int"; "Unexpected token @ on"; "Unexpected EOF @ "]) /\
  marked (tx "{ a } } { b }") = Some [tx "Unexpected token @ }"] /\
  marked (tx "{ ... on { b } }") = Some [tx "Expected a name @ {"] /\
  marked (tx "subscription { }") = Some [tx "Unexpected token @ }"] /\
  marked (tx " ,, ") = Some [tx "Document does not contain any definitions"].
Proof. repeat split; vm_compute; reflexivity. Qed.
(** an error on a token, one at the end: the hypotheses of the theorems are met *)
Example c64_meets_hypotheses :
  (lexing_errors (lex (fun _ => 1) (fun _ => false) no_floats false (tx "{ a( }")) = [] /\ items_at (lex (fun _ => 1) (fun _ => false) no_floats false (tx "{ a( }")) <> [] /\
   exists es, read_at (tx "{ a( }") = inr es) /\
  (lexing_errors (lex (fun _ => 1) (fun _ => false) no_floats false (tx "{ a ")) = [] /\ exists es, read_at (tx "{ a ") = inr es).
Proof. repeat split; try (eexists; vm_compute; reflexivity); vm_compute; try reflexivity; discriminate. Qed.
Print Assumptions c64_first_error. Print Assumptions c64_in_order. Print Assumptions c64_no_cascade. Print Assumptions c64_located. Print Assumptions c64_empty_unreported_refuted.
