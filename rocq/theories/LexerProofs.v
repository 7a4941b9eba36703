From Verif Require Import Base Decimal10 Lexer LexerSpec.

(** ** Character classes *)
Lemma between_iff a b c : between a b c = true <-> (a <= c <= b)%N.
Proof. unfold between. rewrite andb_true_iff, !N.leb_le. tauto. Qed.
Lemma is_digit_iff c : is_digit c = true <-> digit c.
Proof. unfold is_digit, digit. rewrite andb_true_iff, !N.leb_le. tauto. Qed.
Lemma is_name_start_iff c : is_name_start c = true <-> name_start c.
Proof. unfold is_name_start, name_start. rewrite !orb_true_iff, N.eqb_eq, !between_iff. tauto. Qed.
Lemma is_name_char_iff c : is_name_char c = true <-> name_continue c.
Proof. unfold is_name_char, name_continue. rewrite orb_true_iff, is_name_start_iff, is_digit_iff. tauto. Qed.
Lemma is_hex_iff c : is_hex c = true <-> hex_digit c.
Proof. unfold is_hex, hex_digit, is_digit. rewrite !orb_true_iff, andb_true_iff, !N.leb_le, !between_iff. tauto. Qed.
Lemma is_scalar_iff c : is_scalar c = true <-> scalar c.
Proof. unfold is_scalar, scalar. rewrite orb_true_iff, N.leb_le, between_iff. tauto. Qed.
Lemma is_blank_iff c : is_blank c = true <-> blank c.
Proof.
  unfold is_blank, c_tab, c_space, c_newline, c_return. rewrite !orb_true_iff, !N.eqb_eq. split.
  - intros [[[[[-> | ->] | ->] | ->] | ->] | ->]; constructor.
  - intros H; inversion H; tauto.
Qed.
Lemma is_line_end_iff c : is_line_end c = true <-> line_end c.
Proof. unfold is_line_end, line_end, c_newline, c_return. rewrite orb_true_iff, !N.eqb_eq. tauto. Qed.
Lemma false_of_not (b : bool) (P : Prop) : (b = true <-> P) -> ~ P -> b = false.
Proof. destruct b; [intros H N; exfalso; tauto|auto]. Qed.
Lemma not_of_false (b : bool) (P : Prop) : (b = true <-> P) -> b = false -> ~ P.
Proof. intros H E HP. apply H in HP. congruence. Qed.

(** ** take_while, drop_while, strip_prefix *)
Definition stops (p : N -> bool) (r : text) : Prop := match r with c :: _ => p c = false | [] => True end.
Lemma tw_dw p s : take_while p s ++ drop_while p s = s.
Proof. induction s as [|c s IH]; cbn; auto. destruct (p c); cbn; congruence. Qed.
Lemma tw_all p s : Forall (fun c => p c = true) (take_while p s).
Proof. induction s as [|c s IH]; cbn; auto. destruct (p c) eqn:E; auto. Qed.
Lemma dw_stops p s : stops p (drop_while p s).
Proof. induction s as [|c s IH]; cbn; auto. destruct (p c) eqn:E; auto. Qed.
Lemma tw_app p l r : Forall (fun c => p c = true) l -> stops p r -> take_while p (l ++ r) = l.
Proof.
  intros H Hr. induction H as [|c l Hc H IH]; cbn.
  - destruct r as [|c r]; cbn in *; auto. rewrite Hr. auto.
  - rewrite Hc. congruence.
Qed.
Lemma dw_app p l r : Forall (fun c => p c = true) l -> stops p r -> drop_while p (l ++ r) = r.
Proof.
  intros H Hr. induction H as [|c l Hc H IH]; cbn.
  - destruct r as [|c r]; cbn in *; auto. rewrite Hr. auto.
  - rewrite Hc. auto.
Qed.
Lemma dw_length p s : length (drop_while p s) <= length s.
Proof. induction s as [|c s IH]; cbn; auto. destruct (p c); cbn; lia. Qed.
Lemma strip_prefix_Some l s r : strip_prefix l s = Some r <-> s = l ++ r.
Proof.
  revert s; induction l as [|x l IH]; intros s; cbn; [split; congruence|].
  destruct s as [|y s]; [split; discriminate|].
  destruct (N.eqb_spec x y) as [->|H]; [rewrite IH; split; congruence|split; congruence].
Qed.
Lemma strip_prefix_None l s : strip_prefix l s = None <-> ~ starts_with l s.
Proof.
  unfold starts_with. split.
  - intros E [r H]. apply strip_prefix_Some in H. congruence.
  - intros H. destruct (strip_prefix l s) eqn:E; auto. exfalso. apply H. apply strip_prefix_Some in E. eauto.
Qed.

(** ** Hexadecimal numbers *)
Lemma hex_value_eq c : hex_digit c -> hex_value c = hex_digit_value c.
Proof.
  intros H. unfold hex_value, hex_digit_value, is_digit. unfold hex_digit in H.
  destruct (N.leb_spec 48 c), (N.leb_spec c 57); cbn; auto; lia.
Qed.
Lemma hex_number_acc l : Forall hex_digit l -> forall acc,
  fold_left (fun acc c => (acc * 16 + hex_value c)%N) l acc = (acc * 16 ^ N.of_nat (length l) + hex_denotes l)%N.
Proof.
  induction 1 as [|c l Hc H IH]; intros acc; [cbn; lia|].
  cbn [fold_left length hex_denotes]. rewrite IH, (hex_value_eq c Hc), Nat2N.inj_succ, N.pow_succ_r'. lia.
Qed.
Lemma hex_number_eq l : Forall hex_digit l -> hex_number l = hex_denotes l.
Proof. intros H. unfold hex_number. rewrite hex_number_acc by auto. lia. Qed.

(** ** Fixed-width escapes *)
Lemma scan_fixed_Some s h r : scan_fixed s = Some (h, r) <-> four_hex h /\ s = unicode_escape h ++ r.
Proof.
  unfold scan_fixed, four_hex, unicode_escape. split.
  - destruct s as [|b [|u [|h1 [|h2 [|h3 [|h4 r']]]]]]; try discriminate.
    destruct (_ && _) eqn:E; [|discriminate]. intros [= <- <-].
    rewrite !andb_true_iff, !is_hex_iff, !N.eqb_eq in E. destruct E as (((((-> & ->) & H1) & H2) & H3) & H4).
    repeat split; auto.
  - intros ((Hl & Hh) & ->).
    destruct h as [|h1 [|h2 [|h3 [|h4 [|? ?]]]]]; cbn in Hl; try discriminate.
    inversion Hh as [|? ? H1 Hh1]; subst. inversion Hh1 as [|? ? H2 Hh2]; subst.
    inversion Hh2 as [|? ? H3 Hh3]; subst. inversion Hh3 as [|? ? H4 Hh4]; subst.
    cbn. rewrite (proj2 (is_hex_iff h1) H1), (proj2 (is_hex_iff h2) H2), (proj2 (is_hex_iff h3) H3), (proj2 (is_hex_iff h4) H4).
    reflexivity.
Qed.
Lemma scan_fixed_None s : scan_fixed s = None -> forall h r, four_hex h -> s <> unicode_escape h ++ r.
Proof. intros E h r H ->. rewrite (proj2 (scan_fixed_Some _ h r)) in E; [discriminate|auto]. Qed.

(** ** Every scanner consumes a non-empty prefix *)
Definition eats (s r : text) : Prop := exists l, l <> [] /\ s = l ++ r.
Lemma eats_length s r : eats s r -> length r < length s.
Proof. intros (l & Hl & ->). rewrite app_length. destruct l; cbn; [congruence|lia]. Qed.
Lemma eats_cons c s r : (exists l, s = l ++ r) -> eats (c :: s) r.
Proof. intros [l ->]. exists (c :: l). split; [discriminate|reflexivity]. Qed.
Lemma eats_trans s r r' : eats s r -> (exists l, r = l ++ r') -> eats s r'.
Proof. intros (l & Hl & ->) (l' & ->). exists (l ++ l'). split; [destruct l; [congruence|discriminate]|apply app_assoc]. Qed.
Lemma eats_dw p c s : p c = true -> eats (c :: s) (drop_while p (c :: s)).
Proof. intros E. cbn. rewrite E. apply eats_cons. exists (take_while p s). symmetry. apply tw_dw. Qed.
Lemma suffix_dw p s : exists l, s = l ++ drop_while p s.
Proof. exists (take_while p s). symmetry. apply tw_dw. Qed.
Lemma suffix_refl (s : text) : exists l, s = l ++ s.
Proof. exists []. reflexivity. Qed.
Lemma suffix_cons c (s r : text) : (exists l, s = l ++ r) -> exists l, c :: s = l ++ r.
Proof. intros [l ->]. exists (c :: l). reflexivity. Qed.
Lemma suffix_trans (s r r' : text) : (exists l, s = l ++ r) -> (exists l, r = l ++ r') -> exists l, s = l ++ r'.
Proof. intros [l ->] [l' ->]. exists (l ++ l'). apply app_assoc. Qed.
Lemma eats_suffix s r : eats s r -> exists l, s = l ++ r.
Proof. intros (l & _ & ->). eauto. Qed.
Lemma blen_app a b : blen (a ++ b) = blen a + blen b.
Proof. unfold blen. induction a as [|c a IH]; cbn [app fold_right]; [reflexivity|]. lia. Qed.

Definition from_source (c : N) : Prop := c <> 34%N /\ c <> 92%N /\ ~ line_end c.
Lemma is_source_char_iff c : is_source_char c = true <-> from_source c.
Proof.
  unfold is_source_char, from_source, line_end, c_backslash, c_quote, c_newline, c_return.
  rewrite negb_true_iff, !orb_false_iff, !N.eqb_neq. tauto.
Qed.

Definition piece_list_text (ps : list piece) : text := concat (map piece_text ps).
Definition fixed_head (ps : list piece) : Prop := match ps with PcFixed _ :: _ | PcPair _ _ :: _ => True | _ => False end.
Lemma scan_fixed_pieces ps r : Forall piece_ok ps -> ~ fixed_head ps -> scan_fixed (piece_list_text ps ++ 34%N :: r) = None.
Proof.
  intros Hok Hf. destruct ps as [|p ps].
  - destruct r as [|? [|? [|? [|? [|? ?]]]]]; reflexivity.
  - inversion Hok as [|? ? Hp Hps]; subst. destruct p as [c|e c|h|h1 h2|h]; cbn [fixed_head] in Hf; try tauto.
    + destruct Hp as (H1 & H2 & _). apply N.eqb_neq in H2. cbn [piece_list_text map concat piece_text app].
      unfold scan_fixed. destruct (_ ++ _) as [|? [|? [|? [|? [|? ?]]]]]; try reflexivity.
      unfold c_backslash. rewrite H2. reflexivity.
    + cbn [piece_list_text map concat piece_text app]. destruct (scan_fixed _) as [[h' r']|] eqn:E; [|reflexivity].
      exfalso. apply scan_fixed_Some in E. destruct E as (_ & E). injection E as E _. subst e.
      cbn in Hp. repeat (destruct Hp as [Hp|Hp]; [congruence|]). destruct Hp.
    + cbn [piece_list_text map concat piece_text app]. destruct (scan_fixed _) as [[h' r']|] eqn:E; [|reflexivity].
      exfalso. apply scan_fixed_Some in E. destruct E as ((Hl & Hh) & E). destruct h' as [|c h']; [discriminate|].
      injection E as E _. inversion Hh as [|? ? Hc]; subst. unfold hex_digit in Hc. lia.
Qed.
Lemma surrogate_pair_two a b : scalar a -> scalar b -> surrogate_pair a b = SIChars [a; b].
Proof.
  intros Ha Hb. unfold surrogate_pair. apply is_scalar_iff in Hb. rewrite (proj2 (is_scalar_iff a) Ha), Hb.
  destruct (between 55296 56319 a) eqn:E; [|reflexivity]. apply between_iff in E. unfold scalar in Ha. lia.
Qed.
Lemma surrogate_pair_one a b : (55296 <= a <= 56319)%N -> (56320 <= b <= 57343)%N ->
  surrogate_pair a b = SIChars [((a - 55296) * 1024 + (b - 56320) + 65536)%N].
Proof.
  intros Ha Hb. unfold surrogate_pair. rewrite (proj2 (between_iff _ _ a) Ha), (proj2 (between_iff _ _ b) Hb).
  rewrite (proj2 (is_scalar_iff _)); [reflexivity|]. unfold scalar. lia.
Qed.


Section WithParams.
  Variable recover : text -> nat.
  Variable compat : bool.
  Set Default Proof Using "Type".

  Lemma after_error_eats c s : eats (c :: s) (after_error recover (c :: s)).
  Proof.
    unfold after_error. destruct (Nat.max 1 (recover (c :: s))) as [|n] eqn:E; [lia|].
    cbn [skipn]. apply eats_cons. exists (firstn n s). symmetry. apply firstn_skipn.
  Qed.
  Lemma scan_escape_eats c s it r : scan_escape recover (c :: s) = (it, r) -> eats (c :: s) r.
  Proof.
    unfold scan_escape.
    destruct (scan_fixed (c :: s)) as [[h r1]|] eqn:E1.
    - apply scan_fixed_Some in E1. destruct E1 as (Hh & E1).
      destruct (scan_fixed r1) as [[h' r2]|] eqn:E2.
      + apply scan_fixed_Some in E2. destruct E2 as (Hh' & ->). intros [= _ <-]. rewrite E1.
        exists (unicode_escape h ++ unicode_escape h'). split; [discriminate|rewrite app_assoc; reflexivity].
      + intros [= _ <-]. rewrite E1. exists (unicode_escape h). split; [discriminate|reflexivity].
    - destruct (strip_prefix _ _) as [r1|] eqn:E2.
      + apply strip_prefix_Some in E2.
        destruct (take_while is_hex r1) as [|h hs] eqn:E3; [intros [= _ <-]; apply after_error_eats|].
        destruct (drop_while is_hex r1) as [|d r2] eqn:E4; [intros [= _ <-]; apply after_error_eats|].
        assert (K : eats (c :: s) r2).
        { rewrite E2, <- (tw_dw is_hex r1), E4.
          exists ([92; 117; 123]%N ++ take_while is_hex r1 ++ [d]). split; [discriminate|].
          cbn [app]. do 3 f_equal. rewrite <- app_assoc. reflexivity. }
        destruct (N.eqb d 125); intros [= _ <-]; [exact K|apply after_error_eats].
      + destruct s as [|e s]; [intros [= _ <-]; apply after_error_eats|].
        repeat (destruct (N.eqb e _); [intros [= _ <-]; apply eats_cons, suffix_cons, suffix_refl|]).
        intros [= _ <-]. apply after_error_eats.
  Qed.

  Lemma scan_string_eats c s it r : scan_string recover c s = (it, r) -> eats (c :: s) r.
  Proof.
    unfold scan_string.
    destruct (N.eqb c c_quote) eqn:E1; [intros [= _ <-]; apply eats_cons, suffix_refl|].
    destruct (N.eqb c c_newline) eqn:E2; [intros [= _ <-]; apply eats_cons, suffix_refl|].
    destruct (N.eqb c c_return) eqn:E3; [intros [= _ <-]; apply eats_cons, suffix_refl|].
    destruct (N.eqb c c_backslash) eqn:E4; [apply scan_escape_eats|].
    intros [= _ <-]. apply eats_dw. unfold is_source_char. rewrite E1, E2, E3, E4. reflexivity.
  Qed.

  (** enough fuel is enough *)
  Lemma lex_string_fuel : forall f1 f2 pos s acc errs, length s <= f1 -> length s <= f2 ->
    lex_string recover compat f1 pos s acc errs = lex_string recover compat f2 pos s acc errs.
  Proof.
    induction f1 as [|f1 IH]; intros f2 pos s acc errs H1 H2.
    - destruct s; [|cbn in H1; lia]. destruct f2; reflexivity.
    - destruct s as [|c s]; [destruct f2; reflexivity|].
      destruct f2 as [|f2]; [cbn in H2; lia|].
      cbn [lex_string]. destruct (scan_string recover c s) as [it r] eqn:E.
      apply scan_string_eats, eats_length in E. cbn [length] in *.
      destruct it; try reflexivity; try (apply IH; lia); destruct compat; apply IH; lia.
  Qed.
  Definition lstr (pos : nat) (s acc : text) (errs : list string_error) := lex_string recover compat (length s) pos s acc errs.
  Lemma lstr_cons pos c s acc errs : lstr pos (c :: s) acc errs =
    let '(it, r) := scan_string recover c s in
    let stop := pos + (blen (c :: s) - blen r) in
    match it with
    | SIQuote => ((match errs with [] => inl (TkStr acc) | _ => inr (StringValueInvalid errs) end), r)
    | SIChars l => lstr stop r (acc ++ l) errs
    | SIBadUnicode a b => lstr stop r acc (errs ++ [InvalidUnicodeEscape (pos + a) (pos + b)])
    | SIBad => lstr stop r acc (errs ++ [InvalidCharacters pos stop])
    | SINewline => if compat then lstr stop r (acc ++ [c]) errs else lstr stop r acc (errs ++ [InvalidCharacters pos stop])
    | SIReturn => if compat then lstr stop r (acc ++ [c]) errs else lstr stop r acc (errs ++ [InvalidCharacters pos stop])
    end.
  Proof.
    unfold lstr. cbn [length lex_string]. destruct (scan_string recover c s) as [it r] eqn:E.
    apply scan_string_eats, eats_length in E. cbn [length] in E.
    assert (K : forall pos acc errs, lex_string recover compat (length s) pos r acc errs = lex_string recover compat (length r) pos r acc errs).
    { intros. apply lex_string_fuel; lia. }
    cbn zeta. destruct it; rewrite ?K; reflexivity.
  Qed.
  (** a string token's rest is a suffix, and the string lexer never runs out of fuel *)
  Lemma lstr_suffix : forall n s, length s <= n -> forall pos acc errs res r,
    lstr pos s acc errs = (res, r) -> (exists l, s = l ++ r) /\ res <> inr OutOfFuel.
  Proof.
    induction n as [|n IH]; intros s Hn pos acc errs res r H.
    - destruct s; [|cbn in Hn; lia]. injection H as <- <-. split; [exists []; reflexivity|discriminate].
    - destruct s as [|c s]; [injection H as <- <-; split; [exists []; reflexivity|discriminate]|].
      rewrite lstr_cons in H. destruct (scan_string recover c s) as [it r1] eqn:E.
      apply scan_string_eats in E. pose proof (eats_length _ _ E) as Hl. cbn [length] in *.
      assert (K : forall pos acc errs, lstr pos r1 acc errs = (res, r) -> (exists l, c :: s = l ++ r) /\ res <> inr OutOfFuel).
      { intros p a e He. apply IH in He; [|lia]. destruct He as [He1 He2]. split; auto.
        eapply suffix_trans; [apply eats_suffix; exact E|exact He1]. }
      destruct it; try (eapply K; exact H).
      + destruct compat; eapply K; exact H.
      + destruct compat; eapply K; exact H.
      + injection H as <- <-. split; [apply eats_suffix; auto|]. destruct errs; discriminate.
  Qed.

  (** ** Strings: what is taken *)
  (** source characters can be read one by one *)
  Lemma lstr_char pos c s acc errs : from_source c -> lstr pos (c :: s) acc errs = lstr (pos + utf8_len c) s (acc ++ [c]) errs.
  Proof.
    intros Hc. apply is_source_char_iff in Hc. rewrite lstr_cons.
    assert (J : forall c s, is_source_char c = true ->
              scan_string recover c s = (SIChars (take_while is_source_char (c :: s)), drop_while is_source_char (c :: s))).
    { clear. intros c s Hc. pose proof (proj1 (is_source_char_iff c) Hc) as (H1 & H2 & H3). unfold scan_string.
      unfold line_end in H3.
      rewrite (proj2 (N.eqb_neq c c_quote)), (proj2 (N.eqb_neq c c_newline)), (proj2 (N.eqb_neq c c_return)), (proj2 (N.eqb_neq c c_backslash));
        unfold c_newline, c_return; auto. }
    rewrite (J c s Hc). cbn [take_while drop_while]. rewrite Hc.
    assert (E : pos + (blen (c :: s) - blen (drop_while is_source_char s)) =
                (pos + utf8_len c) + (blen s - blen (drop_while is_source_char s))).
    { destruct (suffix_dw is_source_char s) as [l El]. rewrite El at 1 3. change (c :: l ++ drop_while is_source_char s) with ((c :: l) ++ drop_while is_source_char s).
      rewrite !blen_app. unfold blen at 1. cbn [fold_right]. fold (blen l). lia. }
    cbn zeta. rewrite E. clear E.
    destruct s as [|d s]; [reflexivity|].
    destruct (is_source_char d) eqn:Ed.
    - rewrite (lstr_cons _ d s), (J d s Ed). cbn [take_while drop_while]. rewrite Ed. cbn zeta.
      rewrite <- app_assoc. reflexivity.
    - cbn [take_while drop_while]. rewrite Ed. rewrite Nat.sub_diag, Nat.add_0_r. reflexivity.
  Qed.

  (** a quotation mark ends the string *)
  Lemma lstr_quote pos r acc errs : lstr pos (34%N :: r) acc errs = ((match errs with [] => inl (TkStr acc) | _ => inr (StringValueInvalid errs) end), r).
  Proof. rewrite lstr_cons. reflexivity. Qed.
  (** escapes *)
  Lemma lstr_escape pos s acc errs : lstr pos (92%N :: s) acc errs =
    let '(it, r) := scan_escape recover (92%N :: s) in
    let stop := pos + (blen (92%N :: s) - blen r) in
    match it with
    | SIQuote => ((match errs with [] => inl (TkStr acc) | _ => inr (StringValueInvalid errs) end), r)
    | SIChars l => lstr stop r (acc ++ l) errs
    | SIBadUnicode a b => lstr stop r acc (errs ++ [InvalidUnicodeEscape (pos + a) (pos + b)])
    | SIBad => lstr stop r acc (errs ++ [InvalidCharacters pos stop])
    | SINewline => if compat then lstr stop r (acc ++ [92%N]) errs else lstr stop r acc (errs ++ [InvalidCharacters pos stop])
    | SIReturn => if compat then lstr stop r (acc ++ [92%N]) errs else lstr stop r acc (errs ++ [InvalidCharacters pos stop])
    end.
  Proof. rewrite lstr_cons. reflexivity. Qed.
  Lemma scan_simple e c s : In (e, c) simple_escapes -> scan_escape recover (92%N :: e :: s) = (SIChars [c], s).
  Proof.
    intros H. cbn in H. repeat (destruct H as [H|H]; [injection H as <- <-; destruct s as [|? [|? [|? [|? ?]]]]; reflexivity|]). destruct H.
  Qed.
  Lemma scan_braced h s : h <> [] -> Forall hex_digit h ->
    scan_escape recover ([92; 117; 123]%N ++ h ++ 125%N :: s) =
    ((if Nat.ltb (length h + 4) 13 && is_scalar (hex_denotes h) then SIChars [hex_denotes h] else SIBadUnicode 0 (length h + 4)), s).
  Proof.
    intros Hn Hh.
    assert (E1 : take_while is_hex (h ++ 125%N :: s) = h).
    { apply tw_app; [|reflexivity]. eapply Forall_impl; [|exact Hh]. intros c. apply is_hex_iff. }
    assert (E2 : drop_while is_hex (h ++ 125%N :: s) = 125%N :: s).
    { apply dw_app; [|reflexivity]. eapply Forall_impl; [|exact Hh]. intros c. apply is_hex_iff. }
    unfold scan_escape.
    destruct (scan_fixed _) as [[h' r']|] eqn:E.
    { exfalso. apply scan_fixed_Some in E. destruct E as ((Hl & Hh') & E). destruct h' as [|c h']; [discriminate|].
      injection E as E _. inversion Hh' as [|? ? Hc]; subst. unfold hex_digit in Hc. lia. }
    rewrite (proj2 (strip_prefix_Some _ _ (h ++ 125%N :: s))) by reflexivity.
    rewrite E1, E2. destruct h as [|x h]; [congruence|]. rewrite N.eqb_refl, hex_number_eq by auto. reflexivity.
  Qed.
  Lemma scan_pair h1 h2 r : four_hex h1 -> four_hex h2 ->
    scan_escape recover (unicode_escape h1 ++ unicode_escape h2 ++ r) = (surrogate_pair (hex_denotes h1) (hex_denotes h2), r).
  Proof.
    intros H1 H2. unfold scan_escape. rewrite (proj2 (scan_fixed_Some _ h1 (unicode_escape h2 ++ r))) by auto.
    rewrite (proj2 (scan_fixed_Some _ h2 r)) by auto. rewrite !hex_number_eq by (apply H1 || apply H2). reflexivity.
  Qed.
  Lemma scan_one h r : four_hex h -> scan_fixed r = None ->
    scan_escape recover (unicode_escape h ++ r) = ((if is_scalar (hex_denotes h) then SIChars [hex_denotes h] else SIBadUnicode 0 6), r).
  Proof.
    intros H1 H2. unfold scan_escape. rewrite (proj2 (scan_fixed_Some _ h r)) by auto.
    rewrite H2. rewrite !hex_number_eq by apply H1. reflexivity.
  Qed.
  Lemma lstr_pieces : forall n ps, length ps <= n -> forall pos acc r,
    Forall piece_ok ps -> Forall short_braces ps -> even_runs ps ->
    lstr pos (piece_list_text ps ++ 34%N :: r) acc [] = (inl (TkStr (acc ++ map piece_value ps)), r).
  Proof.
    induction n as [|n IH]; intros ps Hn pos acc r Hok Hsb Hev.
    - destruct ps; [|cbn in Hn; lia]. cbn [map]. rewrite app_nil_r. apply lstr_quote.
    - destruct ps as [|p ps]; [cbn [map]; rewrite app_nil_r; apply lstr_quote|].
      cbn [length] in Hn. inversion Hok as [|? ? Hp Hps]; subst. inversion Hsb as [|? ? Hs Hss]; subst.
      unfold piece_list_text. cbn [map concat]. fold (piece_list_text ps). rewrite <- app_assoc.
      assert (K : forall v pos', even_runs ps -> lstr pos' (piece_list_text ps ++ 34%N :: r) (acc ++ [v]) [] =
                    (inl (TkStr (acc ++ v :: map piece_value ps)), r)).
      { intros v pos' He. rewrite (IH ps ltac:(lia) _ _ _ Hps Hss He), <- app_assoc. reflexivity. }
      destruct p as [c|e c|h|h1 h2|h]; cbn [piece_text piece_value].
      + cbn [app]. rewrite lstr_char by exact Hp. apply K. exact Hev.
      + cbn [app]. rewrite lstr_escape, (scan_simple e c) by exact Hp. apply K. exact Hev.
      + destruct Hp as [Hh Hsc].
        assert (J : forall s, lstr pos (unicode_escape h ++ s) acc [] =
                  let '(it, r) := scan_escape recover (unicode_escape h ++ s) in
                  let stop := pos + (blen (unicode_escape h ++ s) - blen r) in
                  match it with
                  | SIQuote => (inl (TkStr acc), r)
                  | SIChars l => lstr stop r (acc ++ l) []
                  | SIBadUnicode a b => lstr stop r acc [InvalidUnicodeEscape (pos + a) (pos + b)]
                  | SIBad => lstr stop r acc [InvalidCharacters pos stop]
                  | SINewline => if compat then lstr stop r (acc ++ [92%N]) [] else lstr stop r acc [InvalidCharacters pos stop]
                  | SIReturn => if compat then lstr stop r (acc ++ [92%N]) [] else lstr stop r acc [InvalidCharacters pos stop]
                  end).
        { intros s. apply (lstr_escape pos (117%N :: h ++ s) acc []). }
        rewrite J. clear J.
        destruct ps as [|p2 ps2]; [|destruct p2 as [c2|e2 c2|h2|h21 h22|h2]].
        * rewrite scan_one; [|exact Hh|apply (scan_fixed_pieces []); auto]. rewrite (proj2 (is_scalar_iff _) Hsc). apply K. exact I.
        * rewrite scan_one; [|exact Hh|apply scan_fixed_pieces; auto]. rewrite (proj2 (is_scalar_iff _) Hsc). apply K. exact Hev.
        * rewrite scan_one; [|exact Hh|apply scan_fixed_pieces; auto]. rewrite (proj2 (is_scalar_iff _) Hsc). apply K. exact Hev.
        * inversion Hps as [|? ? Hp2 Hps2]; subst. inversion Hss as [|? ? Hs2 Hss2]; subst. destruct Hp2 as [Hh2 Hsc2].
          unfold piece_list_text. cbn [map concat piece_text]. fold (piece_list_text ps2). rewrite <- app_assoc.
          rewrite scan_pair by auto. rewrite surrogate_pair_two by auto. cbn zeta.
          cbn [length] in Hn. rewrite (IH ps2 ltac:(lia) _ _ _ Hps2 Hss2 Hev), <- app_assoc. reflexivity.
        * destruct Hev.
        * rewrite scan_one; [|exact Hh|apply scan_fixed_pieces; auto]. rewrite (proj2 (is_scalar_iff _) Hsc). apply K. exact Hev.
      + destruct Hp as (Hh1 & Hh2 & Hr1 & Hr2). rewrite <- app_assoc.
        unfold unicode_escape at 1. cbn [app]. rewrite lstr_escape.
        change (92%N :: 117%N :: h1 ++ unicode_escape h2 ++ piece_list_text ps ++ 34%N :: r)
          with (unicode_escape h1 ++ unicode_escape h2 ++ piece_list_text ps ++ 34%N :: r).
        rewrite scan_pair by auto. rewrite surrogate_pair_one by auto. apply K. exact Hev.
      + destruct Hp as (Hh1 & Hh2 & Hsc). rewrite <- !app_assoc. cbn [app]. rewrite lstr_escape.
        change (92%N :: 117%N :: 123%N :: h ++ 125%N :: piece_list_text ps ++ 34%N :: r)
          with ([92; 117; 123]%N ++ h ++ 125%N :: piece_list_text ps ++ 34%N :: r).
        rewrite scan_braced by auto. rewrite (proj2 (is_scalar_iff _) Hsc).
        cbn in Hs. rewrite (proj2 (Nat.ltb_lt _ _)) by lia. apply K. exact Hev.
  Qed.

  Lemma lstr_errors : forall n s, length s <= n -> forall pos acc errs t r, errs <> [] -> lstr pos s acc errs <> (inl t, r).
  Proof.
    induction n as [|n IH]; intros s Hn pos acc errs t r He; destruct s as [|c s]; try (cbn in Hn; lia); try discriminate.
    rewrite lstr_cons. destruct (scan_string recover c s) as [it r1] eqn:E. apply scan_string_eats, eats_length in E.
    cbn [length] in *. cbn zeta.
    assert (K : forall x, errs ++ [x] <> []) by (intros x; destruct errs; discriminate).
    destruct it; try (apply IH; auto; lia).
    - assert (J : forall pos acc errs, errs <> [] -> lstr pos r1 acc errs <> (inl t, r)) by (intros; apply IH; auto; lia).
      destruct compat; apply J; auto.
    - assert (J : forall pos acc errs, errs <> [] -> lstr pos r1 acc errs <> (inl t, r)) by (intros; apply IH; auto; lia).
      destruct compat; apply J; auto.
    - destruct errs; [congruence|discriminate].
  Qed.
  (** the outcomes of reading an escape *)
  Lemma scan_escape_chars s l r : scan_escape recover (92%N :: s) = (SIChars l, r) ->
    exists ps, Forall piece_ok ps /\ Forall short_braces ps /\ 92%N :: s = piece_list_text ps ++ r /\ l = map piece_value ps /\ ps <> [] /\
      (forall ps' r', Forall piece_ok ps' -> even_runs ps' -> r = piece_list_text ps' ++ 34%N :: r' -> even_runs (ps ++ ps')).
  Proof.
    unfold scan_escape. destruct (scan_fixed (92%N :: s)) as [[h r1]|] eqn:E1.
    - apply scan_fixed_Some in E1. destruct E1 as (Hh & E1).
      destruct (scan_fixed r1) as [[h' r2]|] eqn:E2.
      + apply scan_fixed_Some in E2. destruct E2 as (Hh' & ->). rewrite !hex_number_eq by (apply Hh || apply Hh').
        unfold surrogate_pair. destruct (between 55296 56319 _) eqn:B1.
        * apply between_iff in B1. destruct (between 56320 57343 _) eqn:B2; [|discriminate]. apply between_iff in B2.
          destruct (is_scalar _); [|discriminate]. intros [= <- <-]. exists [PcPair h h']. repeat split; auto.
          -- constructor; [|constructor]. cbn. auto.
          -- constructor; [exact I|constructor].
          -- rewrite E1. cbn [piece_list_text map concat piece_text]. rewrite app_nil_r, <- app_assoc. reflexivity.
          -- discriminate.
        * destruct (is_scalar (hex_denotes h)) eqn:S1; [|discriminate]. destruct (is_scalar (hex_denotes h')) eqn:S2; [|discriminate].
          apply is_scalar_iff in S1, S2. intros [= <- <-]. exists [PcFixed h; PcFixed h']. repeat split; auto.
          -- constructor; [split; auto|]. constructor; [split; auto|constructor].
          -- repeat constructor.
          -- rewrite E1. cbn [piece_list_text map concat piece_text]. rewrite app_nil_r, <- app_assoc. reflexivity.
          -- discriminate.
      + rewrite hex_number_eq by apply Hh. destruct (is_scalar (hex_denotes h)) eqn:S1; [|discriminate].
        apply is_scalar_iff in S1. intros [= <- <-]. exists [PcFixed h]. repeat split; auto.
        * constructor; [split; auto|constructor].
        * repeat constructor.
        * rewrite E1. cbn [piece_list_text map concat piece_text]. rewrite app_nil_r. reflexivity.
        * discriminate.
        * intros ps' r' Hok Hev Er. cbn [app even_runs]. destruct ps' as [|p ps']; [exact I|].
          inversion Hok as [|? ? Hp Hps]; subst. destruct p as [c|e c|h2|h21 h22|h2]; auto.
          -- exfalso. rewrite (proj2 (scan_fixed_Some _ h2 (piece_list_text ps' ++ 34%N :: r'))) in E2; [discriminate|].
             destruct Hp as [Hp _]. split; [exact Hp|]. unfold piece_list_text. cbn [map concat piece_text]. rewrite <- app_assoc. reflexivity.
          -- exfalso. rewrite (proj2 (scan_fixed_Some _ h21 (unicode_escape h22 ++ piece_list_text ps' ++ 34%N :: r'))) in E2; [discriminate|].
             destruct Hp as [Hp _]. split; [exact Hp|]. unfold piece_list_text. cbn [map concat piece_text]. rewrite <- !app_assoc. reflexivity.
    - destruct (strip_prefix _ _) as [r1|] eqn:E2.
      + apply strip_prefix_Some in E2. rewrite E2.
        pose proof (tw_dw is_hex r1) as E3. pose proof (tw_all is_hex r1) as Ha.
        destruct (take_while is_hex r1) as [|h hs]; [discriminate|]. destruct (drop_while is_hex r1) as [|d r2]; [discriminate|].
        destruct (N.eqb_spec d 125) as [->|]; [|discriminate].
        assert (Hh : Forall hex_digit (h :: hs)). { eapply Forall_impl; [|exact Ha]. intros c. apply is_hex_iff. }
        rewrite hex_number_eq by exact Hh. cbn zeta.
        destruct (Nat.ltb_spec (length (h :: hs) + 4) 13) as [Hlt|]; [|discriminate].
        destruct (is_scalar _) eqn:S1; [|discriminate]. apply is_scalar_iff in S1. cbn [andb].
        intros [= <- <-]. exists [PcBraced (h :: hs)]. repeat split; auto.
        * constructor; [|constructor]. cbn. repeat split; auto. discriminate.
        * constructor; [|constructor]. cbn [short_braces]. lia.
        * rewrite <- E3. cbn [piece_list_text map concat piece_text app]. rewrite app_nil_r, <- app_assoc. reflexivity.
        * discriminate.
      + destruct s as [|e s]; [discriminate|].
        repeat match goal with
        | |- (if N.eqb e ?k then (SIChars [?v], _) else _) = _ -> _ =>
            destruct (N.eqb_spec e k) as [->|];
            [intros [= <- <-]; exists [PcSimple k v]; repeat split; auto;
             [constructor; [cbn; tauto|constructor]|constructor; [exact I|constructor]|discriminate]|]
        end.
        discriminate.
  Qed.
  Lemma scan_escape_no_quote s it r : scan_escape recover (92%N :: s) = (it, r) -> it <> SIQuote /\ it <> SINewline /\ it <> SIReturn.
  Proof.
    unfold scan_escape, surrogate_pair. intros H.
    repeat match type of H with
           | context [match scan_fixed ?x with _ => _ end] => destruct (scan_fixed x) as [[? ?]|]
           | context [match strip_prefix ?x ?y with _ => _ end] => destruct (strip_prefix x y)
           | context [if ?b then _ else _] => destruct b
           | context [match ?x with [] => _ | _ :: _ => _ end] => destruct x
           end; injection H as <- <-; repeat split; discriminate.
  Qed.
End WithParams.

Section Strict.
  Variable recover : text -> nat.
  Lemma lstr_sound : forall n s, length s <= n -> forall pos acc t r,
    lstr recover false pos s acc [] = (inl t, r) ->
    exists ps, Forall piece_ok ps /\ Forall short_braces ps /\ even_runs ps /\
      s = piece_list_text ps ++ 34%N :: r /\ t = TkStr (acc ++ map piece_value ps).
  Proof.
    induction n as [|n IH]; intros s Hn pos acc t r H; destruct s as [|c s]; try (cbn in Hn; lia); try discriminate.
    cbn [length] in Hn.
    destruct (N.eq_dec c 34) as [->|N1].
    { rewrite lstr_quote in H. injection H as <- <-. exists []. cbn. rewrite app_nil_r. auto. }
    destruct (N.eq_dec c 92) as [->|N2].
    - rewrite lstr_escape in H. destruct (scan_escape recover (92%N :: s)) as [it r1] eqn:E.
      pose proof (scan_escape_no_quote _ _ _ _ E) as (Q1 & Q2 & Q3).
      pose proof (eats_length _ _ (scan_escape_eats _ _ _ _ _ E)) as Hl. cbn [length] in Hl. cbn zeta in H.
      destruct it; try congruence; try (exfalso; revert H; eapply lstr_errors; [reflexivity|discriminate]).
      apply scan_escape_chars in E. destruct E as (ps1 & Hok1 & Hsb1 & E1 & -> & _ & Hev1).
      apply IH in H; [|lia]. destruct H as (ps2 & Hok2 & Hsb2 & Hev2 & E2 & ->).
      exists (ps1 ++ ps2). split; [apply Forall_app; auto|]. split; [apply Forall_app; auto|]. split; [|split].
      + eapply Hev1; eauto.
      + rewrite E1, E2. unfold piece_list_text. rewrite map_app, concat_app, <- app_assoc. reflexivity.
      + rewrite map_app, app_assoc. reflexivity.
    - destruct (N.eq_dec c 10) as [->|N3].
      { rewrite lstr_cons in H. cbn in H. exfalso. revert H. eapply lstr_errors; [reflexivity|discriminate]. }
      destruct (N.eq_dec c 13) as [->|N4].
      { rewrite lstr_cons in H. cbn in H. exfalso. revert H. eapply lstr_errors; [reflexivity|discriminate]. }
      assert (Hc : from_source c) by (unfold from_source, line_end; tauto).
      rewrite lstr_char in H by exact Hc.
      apply IH in H; [|lia]. destruct H as (ps2 & Hok2 & Hsb2 & Hev2 & -> & ->).
      exists (PcChar c :: ps2). split; [constructor; auto|]. split; [constructor; auto; exact I|]. split; [exact Hev2|]. split; [reflexivity|].
      cbn [map piece_value]. rewrite <- app_assoc. reflexivity.
  Qed.
  Lemma lex_string_iff pos s v r : lex_string recover false (length s) pos s [] [] = (inl (TkStr v), r) <->
    exists body, string_taken body v /\ s = body ++ 34%N :: r.
  Proof.
    fold (lstr recover false pos s [] []). split.
    - intros H. apply (lstr_sound (length s) s) in H; auto. destruct H as (ps & H1 & H2 & H3 & H4 & H5). injection H5 as ->.
      exists (piece_list_text ps). split; [exists ps; auto|exact H4].
    - intros (body & (ps & H1 & H2 & H3 & -> & ->) & ->). apply (lstr_pieces recover false (length ps) ps); auto.
  Qed.
End Strict.
