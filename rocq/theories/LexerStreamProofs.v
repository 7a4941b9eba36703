(** The whole lexer: the sequence of items for a source text. *)
From Verif Require Import Base Decimal10 Lexer LexerSpec LexerProofs LexerBlockProofs LexerTokenProofs.

(** ** Ignored text *)
Lemma blen_bytes s : blen s = bytes s.
Proof.
  unfold bytes. induction s as [|c s IH]; [reflexivity|]. unfold blen. cbn [fold_right flat_map]. fold (blen s). rewrite app_length, <- IH. f_equal.
  unfold utf8_len, utf8. destruct (N.ltb_spec c 128), (N.leb_spec c 127); try lia; [reflexivity|].
  destruct (N.ltb_spec c 2048), (N.leb_spec c 2047); try lia; [reflexivity|].
  destruct (N.ltb_spec c 65536), (N.leb_spec c 65535); try lia; reflexivity.
Qed.
Lemma ignored_app a b : ignored a -> ignored b -> ignored (a ++ b).
Proof. induction 1 as [|c w Hc H IH|body e w Hb He H IH]; intros Hb'; cbn [app]; auto; [constructor; auto|].
  rewrite <- app_assoc. cbn [app]. apply ignored_comment; auto.
Qed.
Lemma ignored_end_app a b : ignored a -> ignored_end b -> ignored_end (a ++ b).
Proof.
  intros Ha [Hb | (w1 & body & H1 & H2 & ->)]; [left; apply ignored_app; auto|].
  right. exists (a ++ w1), body. split; [apply ignored_app; auto|]. split; [exact H2|apply app_assoc].
Qed.
Lemma not_blank c : is_blank c = false -> N.eqb c 35 = false -> ~ blank c /\ c <> 35%N.
Proof. intros H1 H2. split; [eapply not_of_false; [apply is_blank_iff|exact H1]|apply N.eqb_neq; exact H2]. Qed.
Lemma skip_comment s : (Forall (fun c => ~ line_end c) s /\ skip_ignored true s = []) \/
  exists body e s', s = body ++ e :: s' /\ Forall (fun c => ~ line_end c) body /\ line_end e /\ skip_ignored true s = skip_ignored false s'.
Proof.
  induction s as [|c s IH]; [left; split; [constructor|reflexivity]|]. cbn [skip_ignored].
  destruct (is_line_end c) eqn:E; cbn [negb].
  - right. exists [], c, s. split; [reflexivity|]. split; [constructor|]. split; [apply is_line_end_iff; exact E|reflexivity].
  - pose proof (not_of_false _ _ (is_line_end_iff c) E) as Hc.
    destruct IH as [(H1 & H2) | (body & e & s' & -> & H1 & H2 & H3)].
    + left. split; [constructor; auto|exact H2].
    + right. exists (c :: body), e, s'. split; [reflexivity|]. split; [constructor; auto|]. auto.
Qed.
Lemma skip_sound : forall n s, length s <= n ->
  match skip_ignored false s with
  | [] => ignored_end s
  | c :: r => exists w, s = w ++ c :: r /\ ignored w /\ ~ blank c /\ c <> 35%N
  end.
Proof.
  induction n as [|n IH]; intros s Hn; destruct s as [|c s]; cbn [length] in Hn; try lia.
  - left. constructor.
  - left. constructor.
  - cbn [skip_ignored]. destruct (is_blank c) eqn:E1.
    + apply is_blank_iff in E1. specialize (IH s ltac:(lia)). destruct (skip_ignored false s) as [|d r].
      * change (c :: s) with ([c] ++ s). apply ignored_end_app; [repeat constructor; auto|exact IH].
      * destruct IH as (w & -> & H1 & H2). exists (c :: w). split; [reflexivity|]. split; [constructor; auto|exact H2].
    + destruct (N.eqb_spec c 35) as [->|E2].
      * destruct (skip_comment s) as [(H1 & ->) | (body & e & s' & -> & H1 & H2 & ->)].
        -- right. exists [], s. split; [constructor|]. auto.
        -- rewrite app_length in Hn. cbn [length] in Hn. specialize (IH s' ltac:(lia)). destruct (skip_ignored false s') as [|d r].
           ++ replace (35%N :: body ++ e :: s') with ((35%N :: body ++ e :: []) ++ s') by (cbn; rewrite <- app_assoc; reflexivity).
              apply ignored_end_app; [apply ignored_comment; auto; constructor|exact IH].
           ++ destruct IH as (w & -> & H3 & H4). exists (35%N :: body ++ e :: w). split; [cbn; rewrite <- app_assoc; reflexivity|].
              split; [apply ignored_comment; auto|exact H4].
      * exists []. split; [reflexivity|]. split; [constructor|]. apply not_blank; [exact E1|apply N.eqb_neq; exact E2].
Qed.
Lemma skip_body body s : Forall (fun c => ~ line_end c) body -> skip_ignored true (body ++ s) = skip_ignored true s.
Proof.
  induction 1 as [|c body Hc H IH]; [reflexivity|]. cbn [app skip_ignored].
  rewrite (false_of_not _ _ (is_line_end_iff c) Hc). cbn [negb]. exact IH.
Qed.
Lemma skip_app w s : ignored w -> skip_ignored false (w ++ s) = skip_ignored false s.
Proof.
  induction 1 as [|c w Hc H IH|body e w Hb He H IH]; [reflexivity| |].
  - cbn [app skip_ignored]. rewrite (proj2 (is_blank_iff c) Hc). exact IH.
  - cbn [app skip_ignored]. change (is_blank 35) with false. cbn [N.eqb Pos.eqb]. rewrite <- app_assoc, skip_body by exact Hb.
    cbn [app skip_ignored]. rewrite (proj2 (is_line_end_iff e) He). cbn [negb]. exact IH.
Qed.
Lemma skip_end w : ignored_end w -> skip_ignored false w = [].
Proof.
  intros [H | (w1 & body & H1 & H2 & ->)].
  - rewrite <- (app_nil_r w), skip_app by exact H. reflexivity.
  - rewrite skip_app by exact H1. cbn [skip_ignored]. change (is_blank 35) with false. cbn [N.eqb Pos.eqb].
    rewrite <- (app_nil_r body), skip_body by exact H2. reflexivity.
Qed.
Lemma skip_stop c s : ~ blank c -> c <> 35%N -> skip_ignored false (c :: s) = c :: s.
Proof.
  intros H1 H2. cbn [skip_ignored]. rewrite (false_of_not _ _ (is_blank_iff c) H1), (proj2 (N.eqb_neq c 35) H2). reflexivity.
Qed.
Lemma skip_length s : length (skip_ignored false s) <= length s.
Proof.
  pose proof (skip_sound (length s) s ltac:(auto)) as H. destruct (skip_ignored false s) as [|c r]; [cbn; lia|].
  destruct H as (w & -> & _). rewrite app_length. lia.
Qed.

Section Stream.
  Variables (recover : text -> nat) (other_digit : N -> bool) (parse_f64 : text -> option N) (compat : bool).
  Set Default Proof Using "Type".
  Notation lex_token := (lex_token recover other_digit parse_f64 compat).
  Notation lex_items := (lex_items recover other_digit parse_f64 compat).
  Notation lex := (lex recover other_digit parse_f64 compat).

  Lemma scan_int_eats c s l r : scan_int other_digit (c :: s) = Some (l, r) -> eats (c :: s) r.
  Proof. intros E. apply scan_int_sound in E. destruct E as (-> & H & _). exists l. auto. Qed.
  Lemma no_trailing_suffix r k res r' : no_trailing compat r k = (res, r') -> (exists l, r = l ++ r') /\ (res = k \/ res = inr UnrecognizedToken).
  Proof.
    unfold no_trailing. destruct compat; [intros H; injection H as <- <-; split; [apply suffix_refl|auto]|].
    destruct (take_while is_trailing r); intros H; injection H as <- <-; (split; [|auto]); [apply suffix_refl|apply suffix_dw].
  Qed.
  Lemma lex_number_eats c s res r : lex_number recover other_digit parse_f64 compat (c :: s) = (res, r) -> eats (c :: s) r /\ res <> inr OutOfFuel.
  Proof.
    unfold lex_number. destruct (scan_int other_digit (c :: s)) as [(ip & r1)|] eqn:E1.
    2: { intros H. injection H as <- <-. split; [apply after_error_eats|discriminate]. }
    apply scan_int_eats in E1.
    destruct (scan_decimal other_digit r1) as (dp & r2) eqn:E2. apply scan_decimal_sound in E2. destruct E2 as (E2 & _).
    destruct (scan_exponent other_digit r2) as (ep & r3) eqn:E3. apply scan_exponent_sound in E3. destruct E3 as (E3 & _).
    assert (K : eats (c :: s) r3). { eapply eats_trans; [exact E1|]. rewrite E2, E3, app_assoc. eauto. }
    destruct (dp ++ ep); intros H; apply no_trailing_suffix in H; destruct H as (H1 & H2); (split; [eapply eats_trans; [exact K|exact H1]|]).
    - destruct H2 as [-> | ->]; [destruct (parse_i32 ip); discriminate|discriminate].
    - destruct H2 as [-> | ->]; [destruct (parse_f64 _); discriminate|discriminate].
  Qed.
  Lemma lex_token_eats pos c s res r : lex_token pos c s = (res, r) -> eats (c :: s) r /\ res <> inr OutOfFuel.
  Proof.
    pose proof (after_error_eats recover c s) as Herr. unfold Lexer.lex_token.
    destruct (punct_of c). { intros H. injection H as <- <-. split; [apply eats_cons, suffix_refl|discriminate]. }
    destruct (N.eqb c 46).
    { destruct (strip_prefix _ _) as [r0|] eqn:E; intros H; injection H as <- <-; (split; [|discriminate]); [|exact Herr].
      apply strip_prefix_Some in E. exists [46; 46; 46]%N. split; [discriminate|exact E]. }
    destruct (N.eqb c 36).
    { destruct s as [|d s]; [intros H; injection H as <- <-; split; [exact Herr|discriminate]|].
      destruct (is_name_start d); intros H; injection H as <- <-; (split; [|discriminate]); [|exact Herr]. apply eats_cons. exact (suffix_dw is_name_char (d :: s)). }
    destruct (is_name_start c) eqn:Ec.
    { intros H. injection H as <- <-. split; [exact (eats_dw is_name_char c s (is_name_char_start _ Ec))|discriminate]. }
    destruct (_ || _); [apply lex_number_eats|].
    destruct (N.eqb c c_quote); [|intros H; injection H as <- <-; split; [exact Herr|discriminate]].
    destruct (strip_prefix _ _) as [r0|] eqn:E.
    - apply strip_prefix_Some in E. pose proof (lex_block_no_fuel (length r0) r0 [] [] ltac:(auto)) as Hf.
      destruct (lex_block (length r0) r0 [] []) as [ls r1| |] eqn:E2; [| |congruence].
      + intros H. injection H as <- <-. split; [|discriminate]. fold (lblock r0 [] []) in E2. apply (lblock_sound (length r0)) in E2; auto.
        destruct E2 as (body & raw & _ & -> & _). exists ([c_quote; c_quote; c_quote] ++ body ++ quotes3). split; [discriminate|].
        rewrite E, <- !app_assoc. reflexivity.
      + intros H. injection H as <- <-. split; [|discriminate]. exists (c :: s). split; [discriminate|]. rewrite app_nil_r. reflexivity.
    - intros H. apply (lstr_suffix recover compat (length s) s) in H; auto. destruct H as (H1 & H2). split; [apply eats_cons; exact H1|exact H2].
  Qed.

  Lemma lex_items_fuel : forall f1 f2 pos s, length s <= f1 -> length s <= f2 -> lex_items f1 pos s = lex_items f2 pos s.
  Proof.
    induction f1 as [|f1 IH]; intros f2 pos s H1 H2.
    - destruct s; [|cbn in H1; lia]. destruct f2; reflexivity.
    - destruct f2 as [|f2]; [destruct s; [reflexivity|cbn in H2; lia]|]. cbn [Lexer.lex_items]. pose proof (skip_length s) as Hs.
      destruct (skip_ignored false s) as [|c s1]; [reflexivity|]. cbn zeta. destruct (lex_token _ c s1) as (res & s2) eqn:E.
      apply lex_token_eats in E. destruct E as (E & _). apply eats_length in E. cbn [length] in *. f_equal. apply IH; lia.
  Qed.
  Definition lexs (pos : nat) (s : text) : list item := lex_items (length s) pos s.
  Lemma lexs_eq pos s : lexs pos s =
    match skip_ignored false s with
    | [] => []
    | c :: s1 =>
        let start := pos + (blen s - blen (c :: s1)) in
        let '(r, s2) := lex_token start c s1 in
        let stop := start + (blen (c :: s1) - blen s2) in
        (r, (start, stop)) :: lexs stop s2
    end.
  Proof.
    unfold lexs. destruct s as [|x s]; [reflexivity|]. cbn [length Lexer.lex_items]. pose proof (skip_length (x :: s)) as Hs. cbn [length] in Hs.
    destruct (skip_ignored false (x :: s)) as [|c s1]; [reflexivity|]. cbn zeta. destruct (lex_token _ c s1) as (res & s2) eqn:E.
    apply lex_token_eats in E. destruct E as (E & _). apply eats_length in E. cbn [length] in *. f_equal. apply lex_items_fuel; lia.
  Qed.

  (** *** spans *)
  Definition item_ok (r : token + lex_error) (l : text) : Prop :=
    r <> inr OutOfFuel /\ (compat = false -> forall t, r = inl t -> lexeme parse_f64 t l).
  Hypothesis f64_ascii : forall l b, parse_f64 l = Some b -> Forall (fun c => c < 128)%N l.
  Set Default Proof Using "All".
  Lemma lexs_tiles : forall n s, length s <= n -> forall pos, tiles item_ok pos s (lexs pos s).
  Proof.
    induction n as [|n IH]; intros s Hn pos.
    - destruct s; [|cbn in Hn; lia]. apply tiles_end. left. constructor.
    - rewrite lexs_eq. pose proof (skip_sound (length s) s ltac:(auto)) as Hs. destruct (skip_ignored false s) as [|c s1]; [apply tiles_end; exact Hs|].
      destruct Hs as (w & -> & Hw & _). cbn zeta. rewrite !blen_app.
      replace (pos + (blen w + blen (c :: s1) - blen (c :: s1))) with (pos + blen w) by lia.
      destruct (lex_token (pos + blen w) c s1) as (res & s2) eqn:E. pose proof (lex_token_eats _ _ _ _ _ E) as ((l & Hl & El) & Hf).
      rewrite El. rewrite blen_app. replace (pos + blen w + (blen l + blen s2 - blen s2)) with (pos + blen w + blen l) by lia. rewrite !blen_bytes.
      apply tiles_item; auto.
      + split; [exact Hf|]. intros Hc t ->. rewrite Hc in E. apply lex_token_sound in E; [|exact f64_ascii].
        destruct E as (l' & El' & H & _). rewrite El in El'. apply app_inv_tail in El'. subst l'. exact H.
      + apply IH. rewrite app_length in Hn. rewrite El, app_length in Hn. destruct l; [congruence|]. cbn in Hn. lia.
  Qed.
End Stream.

Section Tokens.
  Variables (recover : text -> nat) (other_digit : N -> bool) (parse_f64 : text -> option N).
  Set Default Proof Using "All".
  Notation lexs := (lexs recover other_digit parse_f64 false).

  Lemma lexeme_head t l : lexeme parse_f64 t l -> exists c l', l = c :: l' /\ ~ blank c /\ c <> 35%N.
  Proof.
    assert (K : forall c, digit c \/ c = 45%N \/ name_start c -> ~ blank c /\ c <> 35%N).
    { intros c H. unfold digit, name_start in H. split; [intros B; destruct B; lia|lia]. }
    intros [p|n Hn|n Hn|l' Hl Hf|l' b Hl Hb|body v Hb|body raw Hb].
    - destruct p; cbn; eexists _, _; (split; [reflexivity|]); (split; [intros B; inversion B|discriminate]).
    - destruct n as [|c n]; [destruct Hn|]. exists c, n. split; [reflexivity|]. apply K. right. right. apply Hn.
    - eexists _, _. split; [reflexivity|]. split; [intros B; inversion B|discriminate].
    - destruct (int_literal_head recover other_digit parse_f64 _ Hl) as (c & l'' & -> & Hc). eexists _, _. split; [reflexivity|]. apply K. tauto.
    - destruct (float_literal_head recover other_digit parse_f64 _ Hl) as (c & l'' & -> & Hc). eexists _, _. split; [reflexivity|]. apply K. tauto.
    - eexists _, _. split; [reflexivity|]. split; [intros B; inversion B|discriminate].
    - eexists _, _. split; [reflexivity|]. split; [intros B; inversion B|discriminate].
  Qed.
  Lemma lexs_complete ts s : source other_digit parse_f64 ts s -> forall pos, map fst (lexs pos s) = map inl ts.
  Proof.
    induction 1 as [w Hw|w t l ts s Hw Hl Ha H IH]; intros pos; rewrite lexs_eq.
    - rewrite skip_end by exact Hw. reflexivity.
    - rewrite skip_app by exact Hw. destruct (lexeme_head _ _ Hl) as (c & l' & -> & H1 & H2). cbn [app]. rewrite skip_stop by auto.
      cbn zeta. set (start := pos + _).
      destruct (lex_token_complete recover other_digit parse_f64 _ _ Hl start s Ha) as (c0 & l0 & E & Ht). injection E as <- <-.
      rewrite Ht. cbn [map fst]. rewrite IH. reflexivity.
  Qed.
  Hypothesis f64_ascii : forall l b, parse_f64 l = Some b -> Forall (fun c => c < 128)%N l.
  Lemma lexs_sound : forall n s, length s <= n -> forall pos ts, map fst (lexs pos s) = map inl ts -> source (fun _ => false) parse_f64 ts s.
  Proof.
    induction n as [|n IH]; intros s Hn pos ts H; rewrite lexs_eq in H.
    - destruct s; [|cbn in Hn; lia]. destruct ts; [|discriminate]. constructor. left. constructor.
    - pose proof (skip_sound (length s) s ltac:(auto)) as Hs. destruct (skip_ignored false s) as [|c s1].
      { destruct ts; [|discriminate]. constructor. exact Hs. }
      destruct Hs as (w & -> & Hw & _). cbn zeta in H. destruct (lex_token _ _ _ _ _ c s1) as (res & s2) eqn:E.
      pose proof (lex_token_eats _ _ _ _ _ _ _ _ _ E) as (He & _). apply eats_length in He.
      destruct ts as [|t ts]; [discriminate|]. cbn [map fst] in H. injection H as H1 H2. subst res.
      apply lex_token_sound in E; [|exact f64_ascii]. destruct E as (l & El & Hl & Ha). rewrite app_length in Hn. rewrite El. constructor; auto.
      eapply IH; [|exact H2]. lia.
  Qed.
End Tokens.

(** ** Adding ignored text *)
Lemma source_gap digits pf w ts s : ignored w -> source digits pf ts s -> source digits pf ts (w ++ s).
Proof.
  intros Hw [w' Hw' | w' t l ts' s' Hw' Hl Ha H]; [constructor; apply ignored_end_app; auto|].
  rewrite app_assoc. constructor; auto. apply ignored_app; auto.
Qed.
Lemma ignored_head c w : ignored (c :: w) -> blank c \/ c = 35%N.
Proof. intros H. inversion H; auto. Qed.
Lemma apart_blank digits t l c r : (digits 65279 = false)%N -> blank c \/ c = 35%N -> apart digits t l (c :: r).
Proof.
  intros Hd Hc. assert (K : (c = 65279 \/ c = 9 \/ c = 32 \/ c = 10 \/ c = 13 \/ c = 44 \/ c = 35)%N).
  { destruct Hc as [B | ->]; [destruct B; tauto|tauto]. }
  destruct t; cbn; auto; unfold name_continue, name_start, digit; try lia.
  - intros [A|[A|(A & B)]]; try lia. destruct K as [-> |K]; [congruence|lia].
  - intros [A|[A|(A & B)]]; try lia. destruct K as [-> |K]; [congruence|lia].
Qed.
Lemma apart_app digits t l s r : s <> [] -> apart digits t l s -> apart digits t l (s ++ r).
Proof. destruct s as [|c s]; [congruence|]. intros _. destruct t; cbn; auto. Qed.
Lemma source_insert digits pf ta a : (digits 65279 = false)%N -> source digits pf ta a -> forall tb b w,
  ignored w -> w <> [] -> (In 35%N a -> first_is line_end w) -> source digits pf tb b -> source digits pf (ta ++ tb) (a ++ w ++ b).
Proof.
  intros Hd H tb b w Hw Hn Hc Hb. induction H as [w' Hw'|w' t l ts s Hw' Hl Ha H IH].
  - cbn [app]. destruct Hw' as [Hw' | (w1 & body & H1 & H2 & ->)].
    + apply source_gap; auto. apply source_gap; auto.
    + destruct w as [|e w]; [congruence|]. cbn [first_is] in Hc.
      assert (He : line_end e). { apply Hc. apply in_or_app. right. left. reflexivity. }
      rewrite <- app_assoc. apply source_gap; auto.
      replace ((35%N :: body) ++ (e :: w) ++ b) with ((35%N :: body ++ e :: w) ++ b) by (cbn; rewrite <- app_assoc; reflexivity).
      apply source_gap; auto. apply ignored_comment; auto.
      inversion Hw; subst; auto. destruct He; discriminate.
  - cbn [app]. rewrite <- !app_assoc. constructor; auto.
    + destruct s as [|x s]; [|apply apart_app; [discriminate|auto]]. cbn [app]. destruct w as [|e w]; [congruence|]. cbn [app].
      apply apart_blank; auto. exact (ignored_head _ _ Hw).
    + apply IH. intros K. apply Hc. apply in_or_app. right. apply in_or_app. auto.
Qed.
