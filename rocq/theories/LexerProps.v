(** Properties C01, C04, C05, C06, C07, C08: from source text to tokens. *)
From Coq Require Import String Sorted.
From Verif Require Import Base Ast Decimal10 Lexer LexerSpec LexerProofs LexerBlockProofs LexerTokenProofs LexerStreamProofs Printer.
Local Open Scope string_scope.
Local Open Scope list_scope.

(** Throughout: [recover] is the length of error tokens, [other_digit] the non-ASCII characters that the pattern \d takes,
    [parse_f64] is [f64::from_str]; all are arbitrary. [lex ... false] is the lexer in its default mode. *)
Definition tokens_of (recover : text -> nat) (other_digit : N -> bool) (parse_f64 : text -> option N) (s : text) (ts : list token) : Prop :=
  map fst (lex recover other_digit parse_f64 false s) = map inl ts.

(** ** C04: spans *)
(** In any mode: the items' spans are non-empty, in order, do not overlap, lie inside the text, what lies between them is
    ignored text, every token's span is a way to write the token, and the recursion bound of the model is never met. *)
Theorem c04_spans_tile : forall recover other_digit parse_f64 compat s,
  (forall l b, parse_f64 l = Some b -> Forall (fun c => c < 128)%N l) ->
  tiles (fun r l => r <> inr OutOfFuel /\ (compat = false -> forall t, r = inl t -> lexeme parse_f64 t l)) 0 s
        (lex recover other_digit parse_f64 compat s).
Proof. intros recover other_digit parse_f64 compat s Hf. apply (lexs_tiles recover other_digit parse_f64 compat Hf (length s)); auto. Qed.
(** the same in numbers *)
Lemma bytes_pos l : l <> [] -> 0 < bytes l.
Proof. rewrite <- blen_bytes. destruct l as [|c l]; [congruence|]. intros _. unfold blen. cbn [fold_right]. unfold utf8_len. repeat destruct (_ <? _)%N; lia. Qed.
Lemma bytes_app a b : bytes (a ++ b) = bytes a + bytes b.
Proof. rewrite <- !blen_bytes. apply blen_app. Qed.
Lemma tiles_bounds ok pos s items : tiles ok pos s items ->
  StronglySorted (fun a b : item => snd (snd a) <= fst (snd b)) items /\
  Forall (fun i : item => pos <= fst (snd i) < snd (snd i) /\ snd (snd i) <= pos + bytes s) items.
Proof.
  induction 1 as [pos w H|pos w l s r items Hw Hl Hok H (IH1 & IH2)]; [split; constructor|].
  apply bytes_pos in Hl. rewrite !bytes_app. split.
  - constructor; [exact IH1|]. eapply Forall_impl; [|exact IH2]. cbn. intros i Hi. lia.
  - constructor; [cbn; lia|]. eapply Forall_impl; [|exact IH2]. cbn. intros i Hi. lia.
Qed.
Theorem c04_spans_ordered : forall recover other_digit parse_f64 compat s,
  (forall l b, parse_f64 l = Some b -> Forall (fun c => c < 128)%N l) ->
  let items := lex recover other_digit parse_f64 compat s in
  StronglySorted (fun a b : item => snd (snd a) <= fst (snd b)) items /\
  Forall (fun i : item => fst (snd i) < snd (snd i) <= bytes s) items.
Proof.
  intros recover other_digit parse_f64 compat s Hf items. destruct (tiles_bounds _ _ _ _ (c04_spans_tile recover other_digit parse_f64 compat s Hf)) as (H1 & H2).
  split; [exact H1|]. eapply Forall_impl; [|exact H2]. cbn. intros i Hi. lia.
Qed.

(** ** C05: layout *)
(** whatever ignored text stands around them, the tokens are the same *)
Theorem c05_layout : forall recover other_digit parse_f64 ts s, source other_digit parse_f64 ts s -> tokens_of recover other_digit parse_f64 s ts.
Proof. intros recover other_digit parse_f64 ts s H. apply (lexs_complete recover other_digit parse_f64 ts s H 0). Qed.
(** and a text that lexes without error is a layout of its tokens *)
Theorem c05_layout_only : forall recover other_digit parse_f64 ts s,
  (forall l b, parse_f64 l = Some b -> Forall (fun c => c < 128)%N l) ->
  tokens_of recover other_digit parse_f64 s ts -> source (fun _ => false) parse_f64 ts s.
Proof. intros recover other_digit parse_f64 ts s Hf H. eapply (lexs_sound recover other_digit parse_f64 Hf (length s)); [auto|exact H]. Qed.
(** Where a text is the tokens it was read as, no character after a number is another digit: what follows a number is
    ignored text or another token, and [other_digit] does not hold of the byte order mark. *)
Lemma lexeme_starts (recover : text -> nat) (other_digit : N -> bool) parse_f64 t l : lexeme parse_f64 t l -> exists c l', l = c :: l' /\ (c < 128)%N.
Proof.
  assert (K : forall c, digit c \/ c = 45%N \/ name_start c -> (c < 128)%N).
  { intros c H. unfold digit, name_start in H. lia. }
  intros [p|n Hn|n Hn|l' Hl Hf|l' b Hl Hb|body v Hb|body raw Hb].
  - destruct p; cbn; eexists _, _; (split; [reflexivity|]); reflexivity.
  - destruct n as [|c n]; [destruct Hn|]. exists c, n. split; [reflexivity|]. apply K. right. right. apply Hn.
  - eexists _, _. split; [reflexivity|]. reflexivity.
  - destruct (int_literal_head recover other_digit parse_f64 _ Hl) as (c & l'' & -> & Hc). eexists _, _. split; [reflexivity|]. apply K. tauto.
  - destruct (float_literal_head recover other_digit parse_f64 _ Hl) as (c & l'' & -> & Hc). eexists _, _. split; [reflexivity|]. apply K. tauto.
  - eexists _, _. split; [reflexivity|]. reflexivity.
  - eexists _, _. split; [reflexivity|]. reflexivity.
Qed.
Lemma source_any_digits (recover : text -> nat) other_digit parse_f64 ts s : other_digit 65279%N = false ->
  source (fun _ => false) parse_f64 ts s -> source other_digit parse_f64 ts s.
Proof.
  intros bom. induction 1 as [w Hw|w t l ts s Hw Hl Ha H IH]; constructor; auto.
  assert (N : forall c, first_is (fun x => x = c) s -> (128 <= c)%N -> other_digit c = false).
  { intros c Hc Hb. clear IH Ha. destruct H as [w' [Hw'|(w1 & body & Hw1 & Hb' & ->)]|w' t' l' ts' s' Hw' Hl' _ _].
    - destruct w' as [|x w']; [destruct Hc|]. cbn in Hc. subst x. apply ignored_head in Hw'. destruct Hw' as [B| ->]; [|lia]. destruct B; try lia. exact bom.
    - destruct w1 as [|x w1]; cbn in Hc; [lia|]. subst x. apply ignored_head in Hw1. destruct Hw1 as [B| ->]; [|lia]. destruct B; try lia. exact bom.
    - destruct w' as [|x w']; cbn in Hc.
      + destruct (lexeme_starts recover other_digit _ _ _ Hl') as (y & l'' & -> & Hy). cbn in Hc. lia.
      + subst x. apply ignored_head in Hw'. destruct Hw' as [B| ->]; [|lia]. destruct B; try lia. exact bom. }
  destruct t; cbn in *; auto; intros K; apply Ha; (destruct s as [|c s]; [exact K|]); cbn in *; destruct K as [K|[K|(K1 & K2)]]; auto; rewrite (N c eq_refl K1) in K2; discriminate.
Qed.
(** adding ignored text between two texts adds no token and loses none (a comment in the first text must be ended by the
    added text, or it would go on); the byte order mark U+FEFF is no digit *)
Theorem c05_insert_ignored : forall recover other_digit parse_f64 a b w ta tb,
  (forall l b, parse_f64 l = Some b -> Forall (fun c => c < 128)%N l) -> other_digit 65279%N = false ->
  ignored w -> w <> [] -> (In 35%N a -> first_is line_end w) ->
  tokens_of recover other_digit parse_f64 a ta -> tokens_of recover other_digit parse_f64 b tb ->
  tokens_of recover other_digit parse_f64 (a ++ w ++ b) (ta ++ tb).
Proof.
  intros recover other_digit parse_f64 a b w ta tb Hf Hd Hw Hn Hc Ha Hb.
  apply c05_layout. apply (source_any_digits recover _ _ _ _ Hd). apply source_insert; auto; eapply c05_layout_only; eauto.
Qed.
Example c05_case : tokens_of (fun _ => 0) (fun _ => false) (fun _ => None) (tx "{a# }" ++ 10%N :: tx ",  ...b}")
  [TkPunct POpenBrace; TkName (tx "a"); TkPunct PEllipse; TkName (tx "b"); TkPunct PCloseBrace].
Proof. reflexivity. Qed.

(** ** C06: integers *)
Definition first_item (recover : text -> nat) (other_digit : N -> bool) (parse_f64 : text -> option N) (s : text) : option (token + lex_error) :=
  option_map fst (hd_error (lex recover other_digit parse_f64 false s)).
Lemma first_item_token recover other_digit parse_f64 c s : ~ blank c -> c <> 35%N ->
  first_item recover other_digit parse_f64 (c :: s) = Some (fst (lex_token recover other_digit parse_f64 false 0 c s)).
Proof.
  intros H1 H2. unfold first_item. change (lex recover other_digit parse_f64 false (c :: s)) with (lexs recover other_digit parse_f64 false 0 (c :: s)).
  rewrite lexs_eq, skip_stop by auto. cbn zeta. rewrite Nat.sub_diag. cbn [Nat.add].
  destruct (lex_token recover other_digit parse_f64 false 0 c s). reflexivity.
Qed.
Lemma number_head c : digit c \/ c = 45%N -> ~ blank c /\ c <> 35%N.
Proof. unfold digit. intros H. split; [intros B; destruct B; lia|lia]. Qed.
Theorem c06_exact : forall recover other_digit parse_f64 l r, int_literal l ->
  ~ first_is (fun c => name_continue c \/ c = 46 \/ 128 <= c /\ other_digit c = true)%N r ->
  first_item recover other_digit parse_f64 (l ++ r) =
  Some (if (-2147483648 <=? int_value l)%Z && (int_value l <=? 2147483647)%Z then inl (TkInt (int_value l)) else inr IntegerValueTooLarge).
Proof.
  intros recover other_digit parse_f64 l r Hl Hr. destruct (int_literal_head recover other_digit parse_f64 _ Hl) as (c & l' & E & Hc).
  destruct (number_head _ Hc) as (H1 & H2). rewrite E at 1. cbn [app]. rewrite first_item_token by auto. rewrite lex_token_number by auto.
  change (c :: l' ++ r) with ((c :: l') ++ r). rewrite <- E, lex_int_complete by auto. cbn [fst]. f_equal.
  destruct (parse_i32_spec l Hl) as (P1 & P2). destruct (_ && _) eqn:B.
  - apply andb_true_iff in B. rewrite !Z.leb_le in B. rewrite P1; [reflexivity|exact B].
  - rewrite P2; [reflexivity|]. intros (F1 & F2). apply andb_false_iff in B. rewrite !Z.leb_gt in B. lia.
Qed.
(** directly followed by a letter, a digit, an underscore or a dot it is no integer token (it may be a float) *)
Theorem c06_no_trailing : forall recover other_digit parse_f64 l c r z,
  (forall l b, parse_f64 l = Some b -> Forall (fun c => c < 128)%N l) ->
  int_literal l -> name_start c \/ c = 46%N \/ digit c /\ (l = [48%N] \/ l = [45; 48]%N) ->
  first_item recover other_digit parse_f64 (l ++ c :: r) <> Some (inl (TkInt z)).
Proof.
  intros recover other_digit parse_f64 l c r z Hf Hl Hc E. destruct (int_literal_head recover other_digit parse_f64 _ Hl) as (x & l' & El & Hx).
  destruct (number_head _ Hx) as (H1 & H2). rewrite El in E at 1. cbn [app] in E. rewrite first_item_token in E by auto. injection E as E.
  destruct (lex_token recover other_digit parse_f64 false 0 x (l' ++ c :: r)) as (res & rest) eqn:Et. cbn in E. subst res.
  apply lex_token_sound in Et; [|exact Hf]. destruct Et as (k & Ek & Hk & Ha). inversion Hk as [| | |k' Hi Hfit| | |]; subst.
  change (x :: l' ++ c :: r) with ((x :: l') ++ c :: r) in Ek. set (l := x :: l') in *. cbn in Ha.
  (* compare the two integer literals l and k, both prefixes of the same text *)
  assert (U : forall l k, unsigned_int l -> unsigned_int k -> forall c r rest, l ++ c :: r = k ++ rest ->
             name_start c \/ c = 46%N \/ digit c /\ l = [48%N] -> first_is (fun c => name_continue c \/ c = 46%N) rest).
  { clear. intros l k Hl Hk c r rest E Hc.
    assert (Dl := unsigned_digits _ Hl). assert (Dk := unsigned_digits _ Hk).
    destruct (unsigned_head _ Hl) as (x & l' & -> & Hx). destruct (unsigned_head _ Hk) as (y & k' & -> & Hy).
    cbn [app] in E. injection E as <- E.
    destruct Hc as [Hc | [Hc | (Hc & E0)]].
    - assert (Nc : ~ digit c) by (unfold digit, name_start in *; lia).
      inversion Dl as [|? ? _ Dl']; subst. inversion Dk as [|? ? _ Dk']; subst. clear Hl Hk Dl Dk.
      revert k' Dk' E. induction Dl' as [|d l' Hd Dl' IH]; intros k' Dk' E; destruct Dk' as [|e k' He Dk']; cbn [app] in E.
      + subst rest. left. left. exact Hc.
      + injection E as -> E. tauto.
      + subst rest. left. right. exact Hd.
      + injection E as <- E. eapply IH; eauto.
    - assert (Nc : ~ digit c) by (unfold digit; lia).
      inversion Dl as [|? ? _ Dl']; subst. inversion Dk as [|? ? _ Dk']; subst. clear Hl Hk Dl Dk.
      revert k' Dk' E. induction Dl' as [|d l' Hd Dl' IH]; intros k' Dk' E; destruct Dk' as [|e k' He Dk']; cbn [app] in E.
      + subst rest. right. reflexivity.
      + injection E as <- E. tauto.
      + subst rest. left. right. exact Hd.
      + injection E as <- E. eapply IH; eauto.
    - injection E0 as -> ->. destruct Hk as [Hk | (d & k'' & Hk & Hd & _)]; injection Hk; intros; subst; [|lia].
      cbn [app] in E. subst rest. left. right. exact Hc. }
  assert (F : first_is (fun c => name_continue c \/ c = 46%N) rest).
  { destruct Hl as [Hl | (m & Em & Hl)]; destruct Hi as [Hi | (n & En & Hi)].
    - eapply (U l k); eauto. destruct Hc as [Hc | [Hc | (Hc & [E0 | E0])]]; auto. exfalso. rewrite E0 in Hl. destruct (unsigned_head _ Hl) as (y & k' & K & Hy). injection K as <- _. unfold digit in Hy. lia.
    - exfalso. rewrite En in Ek. destruct (unsigned_head _ Hl) as (y & l'' & K & Hy). rewrite K in Ek. injection Ek as -> _. unfold digit in Hy. lia.
    - exfalso. rewrite Em in Ek. destruct (unsigned_head _ Hi) as (y & l'' & K & Hy). rewrite K in Ek. injection Ek as <- _. unfold digit in Hy. lia.
    - rewrite Em, En in Ek. injection Ek as Ek. eapply (U m n); eauto. destruct Hc as [Hc | [Hc | (Hc & [E0 | E0])]]; auto.
      + rewrite Em in E0. discriminate E0.
      + rewrite Em in E0. injection E0 as ->. auto. }
  destruct rest as [|d rest]; [exact F|]. cbn in F, Ha. tauto.
Qed.
(** printing an integer and lexing the result *)
Lemma show_N_unsigned n : unsigned_int (show_N n).
Proof.
  destruct (show_N_shape n) as [-> | (c & l & E & Hc)]; [left; reflexivity|]. right. exists c, l. split; [exact E|]. split; [exact Hc|].
  pose proof (uint_text_digits (N.to_uint n)) as Ha. fold (show_N n) in Ha. rewrite E in Ha. inversion Ha; subst.
  eapply Forall_impl; [|eassumption]. intros x. apply is_digit_iff.
Qed.
Lemma show_Z_literal z : int_literal (show_Z z) /\ int_value (show_Z z) = z.
Proof.
  destruct z as [|p|p]; cbn [show_Z].
  - split; [left; apply show_N_unsigned|reflexivity].
  - split; [left; apply show_N_unsigned|]. unfold int_value. cbn [Z.to_N]. pose proof (digits_value_show (Npos p)) as E.
    destruct (show_N_shape (Npos p)) as [E2 | (c & l & E2 & Hc)]; rewrite E2 in *.
    + cbn. cbv in E. discriminate E.
    + rewrite (proj2 (N.eqb_neq c 45)) by lia. rewrite E. reflexivity.
  - split; [right; eexists; split; [reflexivity|apply show_N_unsigned]|]. cbn [int_value N.eqb Pos.eqb]. rewrite digits_value_show. reflexivity.
Qed.
Theorem c06_print_lex : forall recover other_digit parse_f64 z, (-2147483648 <= z <= 2147483647)%Z ->
  tokens_of recover other_digit parse_f64 (show_Z z) [TkInt z].
Proof.
  intros recover other_digit parse_f64 z Hz. apply c05_layout. destruct (show_Z_literal z) as (H1 & H2).
  rewrite <- (app_nil_l (show_Z z)), <- (app_nil_r (show_Z z)). constructor; [constructor| | |constructor; left; constructor].
  - pose proof (lx_int parse_f64 (show_Z z) H1) as K. rewrite H2 in K. exact (K Hz).
  - cbn. auto.
Qed.
Example c06_case : int_literal (tx "-2147483648") /\ int_literal (tx "2147483648") /\
  first_item (fun _ => 0) (fun _ => false) (fun _ => None) (tx "-2147483648)") = Some (inl (TkInt (-2147483648))) /\
  first_item (fun _ => 0) (fun _ => false) (fun _ => None) (tx "2147483648 ") = Some (inr IntegerValueTooLarge) /\
  first_item (fun _ => 0) (fun _ => false) (fun _ => None) (tx "00") = Some (inr UnrecognizedToken).
Proof.
  split; [right; exists (tx "2147483648"); split; [reflexivity|]; right; exists 50%N, (tx "147483648")|split; [left; right; exists 50%N, (tx "147483648")|]].
  1, 2: split; [reflexivity|]; split; [lia|]; apply Forall_forall; intros x Hx; vm_compute in Hx; unfold digit; intuition lia.
  repeat split; reflexivity.
Qed.

(** ** C07: string escapes *)
(** a string token that does not start a block string: its text is a string literal of the specification, with that value *)
Theorem c07_sound : forall recover other_digit parse_f64 s v,
  (forall l b, parse_f64 l = Some b -> Forall (fun c => c < 128)%N l) -> ~ starts_with quotes3 (34%N :: s) ->
  first_item recover other_digit parse_f64 (34%N :: s) = Some (inl (TkStr v)) ->
  exists body r, s = body ++ 34%N :: r /\ string_denotes body v.
Proof.
  intros recover other_digit parse_f64 s v Hf Hq H. rewrite first_item_token in H; [|intros B; inversion B|discriminate]. injection H as H.
  destruct (lex_token recover other_digit parse_f64 false 0 34 s) as (res & r) eqn:E. cbn in H. subst res.
  apply lex_token_sound in E; [|exact Hf]. destruct E as (l & El & Hl & _). inversion Hl as [| | | | |body v' Hb|body raw Hb]; subst.
  - cbn in El. injection El as El. rewrite <- app_assoc in El. exists body, r. split; [exact El|].
    destruct Hb as (ps & H1 & _ & _ & H2 & H3). exists ps. auto.
  - exfalso. apply Hq. rewrite El. exists ((body ++ quotes3) ++ r). rewrite <- !app_assoc. reflexivity.
Qed.
(** The literals of the specification that are taken: all but those where a surrogate pair follows an odd number of
    consecutive \uXXXX escapes, or where \u{...} has more than eight digits. What is missing for the full property is
    refuted below. *)
Theorem c07_accepts_partial : forall recover other_digit parse_f64 ps r,
  Forall piece_ok ps -> Forall short_braces ps -> even_runs ps ->
  let body := concat (map piece_text ps) in
  (ps = [] -> ~ first_is (fun c => c = 34%N) r) ->
  first_item recover other_digit parse_f64 (34%N :: body ++ 34%N :: r) = Some (inl (TkStr (map piece_value ps))).
Proof.
  intros recover other_digit parse_f64 ps r H1 H2 H3 body Hq.
  assert (Hb : string_taken body (map piece_value ps)) by (exists ps; auto).
  rewrite first_item_token; [|intros B; inversion B|discriminate]. f_equal.
  assert (Ha : apart other_digit (TkStr (map piece_value ps)) (34%N :: body ++ [34%N]) r).
  { cbn. intros E. injection E as E. apply Hq. destruct ps as [|p ps]; [reflexivity|]. exfalso. unfold body in E. cbn [map concat] in E.
    destruct p; cbn in E; try discriminate E. injection E as E _. inversion H1 as [|? ? K _]; subst. cbn in K. destruct K; congruence. }
  destruct (lex_token_complete recover other_digit parse_f64 _ _ (lx_string parse_f64 body _ Hb) 0 r Ha) as (c & l' & E & Ht).
  injection E as <- <-. rewrite <- app_assoc in Ht. cbn [app] in Ht. rewrite Ht. reflexivity.
Qed.
(** \u0041\uD83D\uDD25 is a string of the specification; the lexer pairs the first two escapes and fails *)
Lemma hexes h : forallb is_hex h = true -> Forall hex_digit h.
Proof. rewrite forallb_forall, Forall_forall. intros H x Hx. apply is_hex_iff. auto. Qed.
Theorem c07_surrogates_refuted : exists body v, string_denotes body v /\
  forall recover other_digit parse_f64, exists e, first_item recover other_digit parse_f64 (34%N :: body ++ [34%N]) = Some (inr e).
Proof.
  exists (92%N :: tx "u0041" ++ 92%N :: tx "uD83D" ++ 92%N :: tx "uDD25"), [65; 128293]%N. split.
  - exists [PcFixed (tx "0041"); PcPair (tx "D83D") (tx "DD25")]. split; [|split; reflexivity].
    constructor; [|constructor; [|constructor]].
    + split; [split; [reflexivity|apply hexes; reflexivity]|]. vm_compute. left. discriminate.
    + split; [split; [reflexivity|apply hexes; reflexivity]|]. split; [split; [reflexivity|apply hexes; reflexivity]|]. vm_compute. repeat split; discriminate.
  - intros. eexists. reflexivity.
Qed.
(** \u{000000041} (nine digits) is a string of the specification; the lexer fails *)
Theorem c07_braces_refuted : exists body v, string_denotes body v /\
  forall other_digit parse_f64, exists e, first_item (fun _ => 0) other_digit parse_f64 (34%N :: body ++ [34%N]) = Some (inr e).
Proof.
  exists (tx "\u{000000041}"), [65]%N. split.
  - exists [PcBraced (tx "000000041")]. split; [|split; reflexivity].
    constructor; [|constructor]. split; [discriminate|]. split; [apply hexes; reflexivity|]. vm_compute. left. discriminate.
  - intros. eexists. reflexivity.
Qed.
Example c07_case : first_item (fun _ => 0) (fun _ => false) (fun _ => None)
  (34%N :: tx "a\n" ++ 92%N :: tx "u00e9x" ++ 92%N :: tx "uD83D" ++ 92%N :: tx "uDD25" ++ 92%N :: tx "u{1F525}" ++ [92; 92; 34]%N ++ tx " ...") =
  Some (inl (TkStr [97; 10; 233; 120; 128293; 128293; 92]%N)).
Proof. reflexivity. Qed.

(** ** C08: block strings *)
Theorem c08_block_value : forall recover other_digit parse_f64 body raw r, block_body body raw ->
  first_item recover other_digit parse_f64 (quotes3 ++ body ++ quotes3 ++ r) = Some (inl (TkStr (spec_block_value raw))).
Proof.
  intros recover other_digit parse_f64 body raw r Hb. change (quotes3 ++ body ++ quotes3 ++ r) with (34%N :: [34; 34]%N ++ body ++ quotes3 ++ r).
  rewrite first_item_token; [|intros B; inversion B|discriminate]. f_equal.
  destruct (lex_token_complete recover other_digit parse_f64 _ _ (lx_block parse_f64 body raw Hb) 0 r) as (c & l' & E & Ht).
  - cbn. intros E. apply (f_equal (@length N)) in E. cbn in E. rewrite app_length in E. cbn in E. lia.
  - injection E as <- <-. cbn [app] in Ht. rewrite <- app_assoc in Ht. cbn [app]. rewrite Ht. reflexivity.
Qed.
(** and conversely every token that starts with three quotation marks is such a block string *)
Theorem c08_only : forall recover other_digit parse_f64 s v,
  (forall l b, parse_f64 l = Some b -> Forall (fun c => c < 128)%N l) ->
  first_item recover other_digit parse_f64 (quotes3 ++ s) = Some (inl (TkStr v)) ->
  exists body raw r, s = body ++ quotes3 ++ r /\ block_body body raw /\ v = spec_block_value raw.
Proof.
  intros recover other_digit parse_f64 s v Hf H. cbn [quotes3 app] in H. rewrite first_item_token in H; [|intros B; inversion B|discriminate]. injection H as H.
  destruct (lex_token recover other_digit parse_f64 false 0 34 (34%N :: 34%N :: s)) as (res & r) eqn:E. cbn in H. subst res.
  apply lex_token_sound in E; [|exact Hf]. destruct E as (l & El & Hl & Ha). inversion Hl as [| | | | |body v' Hb|body raw Hb]; subst.
  - exfalso. cbn in El, Ha. injection El as El. rewrite <- app_assoc in El. pose proof (string_head recover other_digit parse_f64 _ _ Hb) as Hh.
    destruct body as [|x body]; cbn in El, Hh; [injection El as E2|injection El as E1 E2; congruence].
    apply (Ha eq_refl). rewrite <- E2. reflexivity.
  - rewrite <- !app_assoc in El. cbn in El. injection El as El. exists body, raw, r. auto.
Qed.
Example c08_case : first_item (fun _ => 0) (fun _ => false) (fun _ => None)
    (quotes3 ++ 10%N :: tx "    Hello," ++ 10%N :: tx "      World!" ++ 10%N :: 10%N :: tx "    Yours \" ++ tx """""" ++ 34%N :: 13%N :: tx "  " ++ quotes3) =
  Some (inl (TkStr (tx "Hello," ++ 10%N :: tx "  World!" ++ 10%N :: 10%N :: tx "Yours " ++ quotes3))).
Proof. reflexivity. Qed.

(** ** C01: string literals survive print and parse *)
Definition char_piece (c : N) : piece :=
  if N.eqb c 34 || N.eqb c 92 then PcSimple c c
  else if N.eqb c 8 then PcSimple 98 8 else if N.eqb c 12 then PcSimple 102 12 else if N.eqb c 10 then PcSimple 110 10
  else if N.eqb c 13 then PcSimple 114 13 else if N.eqb c 9 then PcSimple 116 9 else PcChar c.
Lemma char_piece_spec c : let p := char_piece c in
  piece_ok p /\ piece_text p = print_char c /\ piece_value p = c /\ match p with PcChar _ | PcSimple _ _ => True | _ => False end.
Proof.
  unfold char_piece, print_char.
  destruct (N.eqb_spec c 34) as [->|N1]; [cbn; tauto|]. destruct (N.eqb_spec c 92) as [->|N2]; [cbn; tauto|]. cbn [orb].
  destruct (N.eqb_spec c 8) as [->|N3]; [cbn; tauto|]. destruct (N.eqb_spec c 12) as [->|N4]; [cbn; tauto|].
  destruct (N.eqb_spec c 10) as [->|N5]; [cbn; tauto|]. destruct (N.eqb_spec c 13) as [->|N6]; [cbn; tauto|].
  destruct (N.eqb_spec c 9) as [->|N7]; [cbn; tauto|]. cbn. unfold line_end. tauto.
Qed.
Lemma print_string_taken s : string_taken (concat (map print_char s)) s.
Proof.
  exists (map char_piece s). split; [|split; [|split; [|split]]].
  - apply Forall_map, Forall_forall. intros c _. apply char_piece_spec.
  - apply Forall_map, Forall_forall. intros c _. destruct (char_piece_spec c) as (_ & _ & _ & K). destruct (char_piece c); cbn in *; tauto.
  - induction s as [|c s IH]; [exact I|]. cbn [map]. destruct (char_piece_spec c) as (_ & _ & _ & K). destruct (char_piece c); cbn in *; tauto.
  - rewrite map_map. f_equal. apply map_ext. intros c. symmetry. apply (char_piece_spec c).
  - rewrite map_map. symmetry. rewrite <- map_id. apply map_ext. intros c. apply (char_piece_spec c).
Qed.
(** the printed literal is one token with the original value, and what follows is lexed as if it stood alone (the following
    text must not begin with a quotation mark: two quotation marks and a third begin a block string) *)
Theorem c01_string_roundtrip : forall recover other_digit parse_f64 s rest,
  ~ first_is (fun c => c = 34%N) rest ->
  map fst (lex recover other_digit parse_f64 false (print_string s ++ rest)) =
  inl (TkStr s) :: map fst (lexs recover other_digit parse_f64 false (blen (print_string s)) rest).
Proof.
  intros recover other_digit parse_f64 s rest Hr.
  change (lex recover other_digit parse_f64 false (print_string s ++ rest)) with (lexs recover other_digit parse_f64 false 0 (print_string s ++ rest)).
  destruct (lex_token_complete recover other_digit parse_f64 _ _ (lx_string parse_f64 _ _ (print_string_taken s)) 0 rest) as (c & l' & E & Ht).
  { cbn. intros _. exact Hr. }
  rewrite lexs_eq. injection E as <- <-. change (print_string s ++ rest) with (34%N :: (concat (map print_char s) ++ [34%N]) ++ rest).
  rewrite skip_stop; [|intros B; inversion B|discriminate]. cbn zeta. rewrite Nat.sub_diag. cbn [Nat.add]. rewrite Ht. cbn [map fst].
  do 3 f_equal. change (34%N :: (concat (map print_char s) ++ [34%N]) ++ rest) with (print_string s ++ rest). rewrite blen_app. lia.
Qed.
(** on its own *)
Theorem c01_alone : forall recover other_digit parse_f64 s, tokens_of recover other_digit parse_f64 (print_string s) [TkStr s].
Proof.
  intros. unfold tokens_of. rewrite <- (app_nil_r (print_string s)), c01_string_roundtrip by (cbn; auto). reflexivity.
Qed.
Example c01_case : tokens_of (fun _ => 0) (fun _ => false) (fun _ => None) (print_string [34; 92; 10; 128293; 0]%N) [TkStr [34; 92; 10; 128293; 0]%N].
Proof. reflexivity. Qed.

Print Assumptions c01_string_roundtrip. Print Assumptions c04_spans_tile. Print Assumptions c04_spans_ordered.
Print Assumptions c05_layout. Print Assumptions c05_layout_only. Print Assumptions c05_insert_ignored.
Print Assumptions c06_exact. Print Assumptions c06_no_trailing. Print Assumptions c06_print_lex.
Print Assumptions c07_sound. Print Assumptions c07_accepts_partial. Print Assumptions c07_surrogates_refuted. Print Assumptions c07_braces_refuted.
Print Assumptions c08_block_value. Print Assumptions c08_only.
