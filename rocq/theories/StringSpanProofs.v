(** Errors inside a string literal are marked inside that literal (used in C62). *)
From Verif Require Import Base Lexer LexerSpec LexerProofs LexerTokenProofs LexerStreamProofs LexerProps Location LocationSpec.

(** the byte range from [a] to [b] is a non-empty part of [doc] between [lo] and [hi] *)
Definition part_of (doc : text) (lo hi : nat) (e : string_error) : Prop :=
  match e with
  | InvalidUnicodeEscape a b | InvalidCharacters a b => on_boundary doc a /\ on_boundary doc b /\ lo <= a /\ a < b /\ b <= hi
  end.
Lemma part_weaken doc lo hi hi' e : hi <= hi' -> part_of doc lo hi e -> part_of doc lo hi' e.
Proof. intros L. destruct e; cbn; intros (A & B & C & D & E); repeat split; auto; lia. Qed.
Lemma boundary_app before l r : on_boundary (before ++ l ++ r) (bytes before + bytes l).
Proof. exists (length (before ++ l)), (before ++ l), r. rewrite bytes_app, <- app_assoc. auto. Qed.

Lemma hex_bytes h : Forall hex_digit h -> bytes h = length h.
Proof.
  induction 1 as [|c h Hc _ IH]; [reflexivity|]. rewrite <- blen_bytes in *. unfold blen in *. cbn [fold_right length]. rewrite IH.
  unfold utf8_len. unfold hex_digit, digit in Hc. destruct (N.ltb_spec c 128); lia.
Qed.
Lemma escape_bytes h : four_hex h -> bytes (unicode_escape h) = 6.
Proof. intros (L & H). unfold unicode_escape. rewrite bytes_app, (hex_bytes _ H), L. reflexivity. Qed.
Lemma bad_unicode recover c s a b r : scan_string recover c s = (SIBadUnicode a b, r) ->
  exists l1 l2 l3, c :: s = l1 ++ l2 ++ l3 ++ r /\ bytes l1 = a /\ bytes l1 + bytes l2 = b /\ a < b.
Proof.
  unfold scan_string. repeat (destruct (N.eqb c _); [try discriminate|]).
  2: discriminate.
  unfold scan_escape. destruct (scan_fixed (c :: s)) as [[h r1]|] eqn:E1.
  - apply scan_fixed_Some in E1. destruct E1 as (Hh & E1). pose proof (escape_bytes h Hh) as B. destruct (scan_fixed r1) as [[h' r2]|] eqn:E2.
    + apply scan_fixed_Some in E2. destruct E2 as (Hh' & ->). pose proof (escape_bytes h' Hh') as B'. intros [= H <-].
      unfold surrogate_pair in H.
      destruct (between 55296 56319 (hex_number h)); [destruct (between _ _ (hex_number h')); [destruct (is_scalar _); [discriminate|]|]|
        destruct (is_scalar (hex_number h)); [destruct (is_scalar (hex_number h')); [discriminate|]|]]; injection H as <- <-.
      * exists [], (unicode_escape h ++ unicode_escape h'), []. rewrite E1, <- app_assoc, bytes_app, B, B'. repeat split; try reflexivity; lia.
      * exists (unicode_escape h), (unicode_escape h'), []. rewrite E1, B, B'. repeat split; try reflexivity; lia.
      * exists (unicode_escape h), (unicode_escape h'), []. rewrite E1, B, B'. repeat split; try reflexivity; lia.
      * exists [], (unicode_escape h), (unicode_escape h'). rewrite E1, B. repeat split; try reflexivity; lia.
    + destruct (is_scalar _); intros H; [discriminate|]. injection H as <- <- <-.
      exists [], (unicode_escape h), []. rewrite E1, B. repeat split; try reflexivity; lia.
  - destruct (strip_prefix _ _) as [r1|] eqn:E2.
    + apply strip_prefix_Some in E2. destruct (take_while is_hex r1) as [|h hs] eqn:E3; [discriminate|].
      destruct (drop_while is_hex r1) as [|d r2] eqn:E4; [discriminate|]. destruct (N.eqb_spec d 125) as [->|]; [|discriminate].
      destruct (_ && _); intros H; [discriminate|]. injection H as <- <- <-.
      exists [], ([92; 117; 123]%N ++ (h :: hs) ++ [125%N]), []. repeat split.
      * rewrite E2, <- (tw_dw is_hex r1), E3, E4. cbn [app]. do 4 f_equal. rewrite <- app_assoc. reflexivity.
      * rewrite !bytes_app, (hex_bytes (h :: hs)); [change (bytes []) with 0; change (bytes [92; 117; 123]%N) with 3; change (bytes [125%N]) with 1; cbn [length]; lia|]. rewrite <- E3. eapply Forall_impl; [|apply tw_all]. intros x. apply is_hex_iff.
      * cbn. lia.
    + destruct s as [|e s]; [discriminate|]. repeat (destruct (N.eqb e _); [discriminate|]). discriminate.
Qed.

Lemma lex_string_spans recover compat doc lo : forall fuel s pos acc errs es r before,
  doc = before ++ s -> bytes before = pos -> lo <= pos -> Forall (part_of doc lo pos) errs ->
  lex_string recover compat fuel pos s acc errs = (inr (StringValueInvalid es), r) ->
  exists mid, s = mid ++ r /\ Forall (part_of doc lo (pos + bytes mid)) es.
Proof.
  induction fuel as [|fuel IH]; intros s pos acc errs es r before D B L F H; destruct s as [|c s]; try discriminate H.
  cbn [lex_string] in H. destruct (scan_string recover c s) as [it r1] eqn:E.
  pose proof (scan_string_eats _ _ _ _ _ E) as (l & Nl & El).
  assert (St : pos + (blen (c :: s) - blen r1) = pos + bytes l) by (rewrite El, blen_app, blen_bytes; lia). rewrite St in H.
  assert (K : forall acc' errs', Forall (part_of doc lo (pos + bytes l)) errs' ->
    lex_string recover compat fuel (pos + bytes l) r1 acc' errs' = (inr (StringValueInvalid es), r) ->
    exists mid, c :: s = mid ++ r /\ Forall (part_of doc lo (pos + bytes mid)) es).
  { intros acc' errs' F' H'. destruct (IH r1 (pos + bytes l) acc' errs' es r (before ++ l)) as (mid & Em & Fm); auto.
    - rewrite D, El, <- app_assoc. reflexivity.
    - rewrite bytes_app. lia.
    - lia.
    - exists (l ++ mid). rewrite El, Em, <- app_assoc, bytes_app, Nat.add_assoc. auto. }
  assert (F1 : Forall (part_of doc lo (pos + bytes l)) errs) by (eapply Forall_impl; [|exact F]; intros e; apply part_weaken; lia).
  assert (Q : part_of doc lo (pos + bytes l) (InvalidCharacters pos (pos + bytes l))).
  { cbn. pose proof (bytes_pos l Nl). repeat split; try lia.
    - exists (length before), before, (c :: s). auto.
    - rewrite D, El, <- B. apply boundary_app. }
  destruct it.
  - exact (K _ _ F1 H).
  - refine (K _ _ _ H). apply Forall_app. split; [exact F1|]. constructor; [|constructor].
    destruct (bad_unicode _ _ _ _ _ _ E) as (l1 & l2 & l3 & E1 & <- & <- & Lt). cbn.
    assert (Ll : bytes l1 + bytes l2 <= bytes l).
    { assert (X : bytes (c :: s) = bytes l + bytes r1) by (rewrite El; apply bytes_app).
      assert (Y : bytes (c :: s) = bytes l1 + (bytes l2 + (bytes l3 + bytes r1))) by (rewrite E1, !bytes_app; reflexivity). lia. }
    repeat split; try lia.
    + rewrite D, E1, <- B. apply boundary_app.
    + rewrite D, E1, <- B, <- bytes_app. rewrite (app_assoc l1 l2). apply boundary_app.
  - refine (K _ _ _ H). apply Forall_app. split; [exact F1|]. constructor; [exact Q|constructor].
  - destruct compat; [exact (K _ _ F1 H)|]. refine (K _ _ _ H). apply Forall_app. split; [exact F1|]. constructor; [exact Q|constructor].
  - destruct compat; [exact (K _ _ F1 H)|]. refine (K _ _ _ H). apply Forall_app. split; [exact F1|]. constructor; [exact Q|constructor].
  - destruct errs as [|e errs]; [discriminate H|]. injection H as <- <-. exists l. split; [exact El|exact F1].
Qed.
Lemma lex_token_spans recover other_digit parse_f64 compat doc before pos c s es r :
  doc = before ++ c :: s -> bytes before = pos ->
  lex_token recover other_digit parse_f64 compat pos c s = (inr (StringValueInvalid es), r) ->
  exists mid, c :: s = mid ++ r /\ Forall (part_of doc pos (pos + bytes mid)) es.
Proof.
  intros D B. unfold lex_token. destruct (punct_of c); [discriminate|]. destruct (N.eqb c 46). { destruct (strip_prefix _ _); discriminate. }
  destruct (N.eqb c 36). { destruct s as [|d s]; [discriminate|]. destruct (is_name_start d); discriminate. }
  destruct (is_name_start c); [discriminate|]. destruct (_ || _).
  { unfold lex_number. destruct (scan_int _ _) as [[ip r1]|]; [|discriminate]. destruct (scan_decimal _ _) as [dp r2]. destruct (scan_exponent _ _) as [ep r3].
    unfold no_trailing. intros H. destruct (dp ++ ep); [destruct (parse_i32 ip)|destruct (parse_f64 _)]; (destruct compat; [discriminate|destruct (take_while is_trailing r3); discriminate]). }
  destruct (N.eqb_spec c c_quote) as [->|]; [|discriminate]. destruct (strip_prefix _ _).
  { destruct (lex_block _ _ _ _); discriminate. }
  intros H. destruct (lex_string_spans recover compat doc pos (length s) s (pos + 1) [] [] es r (before ++ [c_quote])) as (mid & -> & F); auto.
  - rewrite D, <- app_assoc. reflexivity.
  - rewrite bytes_app, B. reflexivity.
  - lia.
  - exists (c_quote :: mid). split; [reflexivity|]. change (c_quote :: mid) with ([c_quote] ++ mid). rewrite bytes_app, Nat.add_assoc. exact F.
Qed.
Lemma lex_items_spans recover other_digit parse_f64 compat doc : forall fuel pos s before, doc = before ++ s -> bytes before = pos ->
  Forall (fun i : item => forall es, fst i = inr (StringValueInvalid es) -> Forall (part_of doc (fst (snd i)) (snd (snd i))) es)
         (lex_items recover other_digit parse_f64 compat fuel pos s).
Proof.
  induction fuel as [|fuel IH]; intros pos s before D B; cbn [lex_items].
  - destruct (skip_ignored false s); repeat constructor. intros es H. discriminate H.
  - pose proof (skip_sound (length s) s ltac:(auto)) as Hs. destruct (skip_ignored false s) as [|c s1]; [constructor|].
    destruct Hs as (w & -> & _). rewrite !blen_app. replace (pos + (blen w + blen (c :: s1) - blen (c :: s1))) with (pos + bytes w) by (rewrite <- blen_bytes; lia).
    destruct (lex_token recover other_digit parse_f64 compat (pos + bytes w) c s1) as (res & s2) eqn:E.
    pose proof (lex_token_eats _ _ _ _ _ _ _ _ _ E) as ((l & Hl & El) & _).
    assert (St : pos + bytes w + (blen (c :: s1) - blen s2) = pos + bytes w + bytes l) by (rewrite El, blen_app, blen_bytes; lia). rewrite St.
    constructor.
    + cbn [fst snd]. intros es ->. destruct (lex_token_spans recover other_digit parse_f64 compat doc (before ++ w) (pos + bytes w) c s1 es s2) as (mid & Em & F); auto.
      * rewrite D, <- app_assoc. reflexivity.
      * rewrite bytes_app. lia.
      * rewrite El in Em. apply app_inv_tail in Em. subst mid. exact F.
    + apply (IH _ _ (before ++ w ++ l)).
      * rewrite D, El, <- !app_assoc. reflexivity.
      * rewrite !bytes_app. lia.
Qed.
