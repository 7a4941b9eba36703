(** One token at a time: the lexer returns a token exactly on the texts of [lexeme]. *)
From Verif Require Import Base Decimal10 Lexer LexerSpec LexerProofs LexerBlockProofs.

Lemma unsigned_head l : unsigned_int l -> exists c l', l = c :: l' /\ digit c.
Proof. unfold digit. intros [-> | (c & l' & -> & H & _)]; [exists 48%N, []|exists c, l']; (split; [reflexivity|lia]). Qed.
Lemma unsigned_digits l : unsigned_int l -> Forall digit l.
Proof. unfold digit. intros [-> | (c & l' & -> & H & Hl)]; repeat constructor; try lia. exact Hl. Qed.
Lemma all_digits l : Forall digit l -> forallb is_digit l = true.
Proof. intros H. apply forallb_forall. rewrite Forall_forall in H. intros x Hx. apply is_digit_iff. auto. Qed.

Lemma parse_i32_spec l : int_literal l -> (fits_i32 (int_value l) -> parse_i32 l = Some (int_value l)) /\ (~ fits_i32 (int_value l) -> parse_i32 l = None).
Proof.
  intros Hl. unfold parse_i32, int_value.
  assert (K : exists (neg : bool) ds c ds', l = (if neg then [45%N] else []) ++ ds /\ unsigned_int ds /\ ds = c :: ds' /\ digit c).
  { destruct Hl as [Hl | (l' & -> & Hl)]; destruct (unsigned_head _ Hl) as (c & ds' & E & Hc).
    - exists false, l, c, ds'. auto.
    - exists true, l', c, ds'. auto. }
  destruct K as (neg & ds & c & ds' & -> & Hds & E & Hc). clear Hl.
  assert (Nc : N.eqb c 45 = false). { unfold digit in Hc. apply N.eqb_neq. lia. }
  pose proof (all_digits _ (unsigned_digits _ Hds)) as Ha.
  destruct neg; cbn [app]; [cbn [N.eqb Pos.eqb]|rewrite E, Nc, <- E]; rewrite Ha; replace (match ds with [] => true | _ => false end) with false by (rewrite E; reflexivity); cbn [negb andb];
    unfold fits_i32; (split; intros K; [replace (_ && _) with true|replace (_ && _) with false]; auto; symmetry).
  - apply andb_true_iff. rewrite !Z.leb_le. lia.
  - apply andb_false_iff. rewrite !Z.leb_gt. lia.
  - apply andb_true_iff. rewrite !Z.leb_le. lia.
  - apply andb_false_iff. rewrite !Z.leb_gt. lia.
Qed.

Lemma punct_of_Some c p : punct_of c = Some p <-> p <> PEllipse /\ punct_text p = [c].
Proof.
  unfold punct_of.
  repeat match goal with |- context [N.eqb c ?k] => destruct (N.eqb_spec c k) as [->|] end.
  all: split; [intros H; first [discriminate H| (injection H as <-; split; [discriminate|reflexivity])] | intros (H1 & H2); destruct p; cbn in H2; try congruence].
Qed.
Lemma punct_of_None c : punct_of c = None -> forall p, p <> PEllipse -> punct_text p <> [c].
Proof. intros H p Hp E. assert (K : punct_of c = Some p) by (apply punct_of_Some; auto). congruence. Qed.
Lemma is_name_char_start c : is_name_start c = true -> is_name_char c = true.
Proof. rewrite is_name_start_iff, is_name_char_iff. unfold name_continue. auto. Qed.
Lemma punct_of_name c : name_start c -> punct_of c = None.
Proof. intros H. destruct (punct_of c) as [p|] eqn:E; [|reflexivity]. apply punct_of_Some in E. destruct E as (_ & E). unfold name_start in H. destruct p; cbn in E; injection E as <-; try discriminate; lia. Qed.
Lemma punct_of_number c : digit c \/ c = 45%N \/ c = 36%N \/ c = 34%N \/ c = 46%N -> punct_of c = None.
Proof. intros H. destruct (punct_of c) as [p|] eqn:E; [|reflexivity]. apply punct_of_Some in E. destruct E as (_ & E). unfold digit in H. destruct p; cbn in E; injection E as <-; try discriminate; lia. Qed.
Lemma name_taken n r : is_name n -> ~ first_is name_continue r -> take_while is_name_char (n ++ r) = n /\ drop_while is_name_char (n ++ r) = r.
Proof.
  intros Hn Hr. assert (A : Forall (fun c => is_name_char c = true) n).
  { destruct n as [|c n]; [destruct Hn|]. destruct Hn as (H1 & H2). constructor; [apply is_name_char_start, is_name_start_iff; exact H1|].
    eapply Forall_impl; [|exact H2]. intros x. apply is_name_char_iff. }
  assert (S1 : stops is_name_char r). { destruct r as [|c r]; [exact I|]. cbn in *. eapply false_of_not; [apply is_name_char_iff|exact Hr]. }
  split; [apply tw_app|apply dw_app]; auto.
Qed.
Lemma name_scanned c s : is_name_start c = true -> is_name (take_while is_name_char (c :: s)) /\ ~ first_is name_continue (drop_while is_name_char (c :: s)).
Proof.
  intros H. split.
  - cbn [take_while]. rewrite (is_name_char_start _ H). split; [apply is_name_start_iff; exact H|].
    eapply Forall_impl; [|apply tw_all]. intros x. apply is_name_char_iff.
  - pose proof (dw_stops is_name_char (c :: s)) as K. destruct (drop_while is_name_char (c :: s)) as [|d r]; [auto|]. cbn in *.
    eapply not_of_false; [apply is_name_char_iff|exact K].
Qed.

Section Scan.
  Variable other_digit : N -> bool.
  Set Default Proof Using "Type".
  Notation digit_class := (digit_class other_digit).

  Lemma digit_class_ascii l : Forall (fun c => digit_class c = true) l -> Forall (fun c => c < 128)%N l -> Forall digit l.
  Proof.
    intros H1 H2. rewrite Forall_forall in *. intros x Hx. specialize (H1 x Hx). specialize (H2 x Hx). unfold Lexer.digit_class in H1.
    apply orb_true_iff in H1. destruct H1 as [H1|H1]; [apply is_digit_iff; exact H1|].
    apply andb_true_iff in H1. rewrite N.leb_le in H1. lia.
  Qed.
  Lemma digits_class l : Forall digit l -> Forall (fun c => digit_class c = true) l.
  Proof. apply Forall_impl. intros x Hx. unfold Lexer.digit_class. rewrite (proj2 (is_digit_iff x) Hx). reflexivity. Qed.
  Definition no_digit (r : text) : Prop := stops digit_class r.
  Lemma no_digit_of r : ~ first_is (fun c => digit c \/ 128 <= c /\ other_digit c = true)%N r -> no_digit r.
  Proof.
    destruct r as [|c r]; [constructor|]. cbn. intros H. unfold Lexer.digit_class. apply orb_false_iff. split.
    - eapply false_of_not; [apply is_digit_iff|tauto].
    - destruct (N.leb_spec 128 c); [|reflexivity]. destruct (other_digit c); [|reflexivity]. exfalso. apply H. auto.
  Qed.

  (** *** complete *)
  Lemma scan_unsigned_complete l r : unsigned_int l -> no_digit r -> scan_unsigned other_digit (l ++ r) = Some (l, r).
  Proof.
    intros [-> | (c & l' & -> & Hc & Hl)] Hr; [reflexivity|]. cbn [app scan_unsigned].
    rewrite (proj2 (N.eqb_neq c 48)) by lia. rewrite (proj2 (between_iff 49 57 c)) by lia.
    rewrite (tw_app _ l' r), (dw_app _ l' r); auto using digits_class.
  Qed.
  Lemma scan_int_complete l r : int_literal l -> no_digit r -> scan_int other_digit (l ++ r) = Some (l, r).
  Proof.
    intros [Hl | (l' & -> & Hl)] Hr.
    - pose proof (scan_unsigned_complete _ _ Hl Hr) as E. destruct (unsigned_head _ Hl) as (c & l' & -> & Hc). unfold digit in Hc.
      cbn [app scan_int] in *. rewrite (proj2 (N.eqb_neq c 45)) by lia. exact E.
    - cbn [app scan_int N.eqb Pos.eqb]. rewrite (scan_unsigned_complete _ _ Hl Hr). reflexivity.
  Qed.
  Lemma scan_digits_complete d r : digits1 d -> no_digit r -> scan_digits other_digit (d ++ r) = Some (d, r).
  Proof.
    intros (Hd & Ha) Hr. unfold scan_digits. apply digits_class in Ha. rewrite (tw_app _ d r Ha Hr), (dw_app _ d r Ha Hr). destruct d; [congruence|reflexivity].
  Qed.
  Lemma digits1_head d : digits1 d -> exists c d', d = c :: d' /\ digit c.
  Proof. intros (H & Ha). destruct Ha; [congruence|]. eauto. Qed.
  Lemma scan_fraction f r : fraction f -> no_digit r -> scan_decimal other_digit (f ++ r) = (f, r).
  Proof.
    intros (d & -> & Hd) Hr. cbn [app scan_decimal N.eqb Pos.eqb]. rewrite (scan_digits_complete _ _ Hd Hr). reflexivity.
  Qed.
  Lemma scan_exponent_complete e r : exponent e -> no_digit r -> scan_exponent other_digit (e ++ r) = (e, r).
  Proof.
    intros (x & sign & d & -> & Hx & Hs & Hd) Hr. cbn [app scan_exponent].
    replace (N.eqb x 101 || N.eqb x 69) with true by (destruct Hx as [-> | ->]; reflexivity).
    rewrite <- app_assoc. destruct Hs as [-> | [-> | ->]]; cbn [app N.eqb Pos.eqb orb].
    - destruct (digits1_head _ Hd) as (c & d' & E & Hc). unfold digit in Hc. rewrite E at 1. cbn [app].
      rewrite (proj2 (N.eqb_neq c 43)), (proj2 (N.eqb_neq c 45)) by lia. cbn [orb].
      rewrite (scan_digits_complete _ _ Hd Hr). reflexivity.
    - rewrite (scan_digits_complete _ _ Hd Hr). reflexivity.
    - rewrite (scan_digits_complete _ _ Hd Hr). reflexivity.
  Qed.
  Lemma scan_decimal_none s : ~ first_is (fun c => c = 46%N) s -> scan_decimal other_digit s = ([], s).
  Proof. destruct s as [|c s]; [reflexivity|]. cbn. intros H. rewrite (proj2 (N.eqb_neq c 46)) by auto. reflexivity. Qed.
  Lemma scan_exponent_none s : ~ first_is (fun c => c = 101%N \/ c = 69%N) s -> scan_exponent other_digit s = ([], s).
  Proof. destruct s as [|c s]; [reflexivity|]. cbn. intros H. rewrite (proj2 (N.eqb_neq c 101)), (proj2 (N.eqb_neq c 69)) by auto. reflexivity. Qed.

  (** what may not come after a number *)
  Definition number_end (digits : N -> bool) (r : text) : Prop :=
    ~ first_is (fun c => name_continue c \/ c = 46 \/ 128 <= c /\ digits c = true)%N r.
  Lemma number_end_stop r : number_end other_digit r ->
    no_digit r /\ scan_decimal other_digit r = ([], r) /\ scan_exponent other_digit r = ([], r) /\ forall k, no_trailing false r k = (k, r).
  Proof.
    intros H. split; [|split; [|split]].
    - apply no_digit_of. intros K. apply H. destruct r; [destruct K|]. cbn in *. unfold name_continue. tauto.
    - apply scan_decimal_none. intros K. apply H. destruct r; [destruct K|]. cbn in *. tauto.
    - apply scan_exponent_none. intros K. apply H. destruct r; [destruct K|]. cbn in *. unfold name_continue, name_start. left. left. lia.
    - intros k. unfold no_trailing. destruct r as [|c r]; [reflexivity|]. cbn [take_while].
      replace (is_trailing c) with false; [reflexivity|]. symmetry. unfold is_trailing. apply orb_false_iff. split.
      + eapply false_of_not; [apply is_name_char_iff|]. intros K. apply H. left. exact K.
      + apply N.eqb_neq. intros K. apply H. right. left. exact K.
  Qed.
  Lemma head_stops p (c : N) (r : text) : p c = false -> stops p (c :: r). Proof. auto. Qed.
  Lemma class_false c : ~ digit c -> (c < 128)%N -> digit_class c = false.
  Proof.
    intros H1 H2. unfold Lexer.digit_class. apply orb_false_iff. split; [eapply false_of_not; [apply is_digit_iff|exact H1]|].
    rewrite (proj2 (N.leb_gt 128 c)) by lia. reflexivity.
  Qed.

  (** *** sound *)
  Lemma scan_unsigned_sound s l r : scan_unsigned other_digit s = Some (l, r) ->
    s = l ++ r /\ l <> [] /\ (Forall (fun c => c < 128)%N l -> unsigned_int l).
  Proof.
    destruct s as [|c s]; [discriminate|]. cbn [scan_unsigned]. destruct (N.eqb_spec c 48) as [->|N1].
    - intros H. injection H as <- <-. split; [reflexivity|]. split; [discriminate|]. intros _. left. reflexivity.
    - destruct (between 49 57 c) eqn:E; [|discriminate]. apply between_iff in E. intros H. injection H as <- <-.
      split; [cbn [app]; rewrite tw_dw; reflexivity|]. split; [discriminate|]. intros Ha. right.
      eexists c, _. split; [reflexivity|]. split; [exact E|]. inversion Ha; subst. apply digit_class_ascii; [apply tw_all|auto].
  Qed.
  Lemma scan_int_sound s l r : scan_int other_digit s = Some (l, r) ->
    s = l ++ r /\ l <> [] /\ (Forall (fun c => c < 128)%N l -> int_literal l).
  Proof.
    destruct s as [|c s]; [discriminate|]. cbn [scan_int]. destruct (N.eqb_spec c 45) as [->|N1].
    - destruct (scan_unsigned other_digit s) as [(l0 & r0)|] eqn:E; [|discriminate]. intros H. injection H as <- <-.
      apply scan_unsigned_sound in E. destruct E as (-> & E1 & E2). split; [reflexivity|]. split; [discriminate|].
      intros Ha. right. exists l0. split; [reflexivity|]. apply E2. inversion Ha; auto.
    - intros E. apply scan_unsigned_sound in E. destruct E as (E0 & E1 & E2). split; [exact E0|]. split; [exact E1|]. intros Ha. left. auto.
  Qed.
  Lemma scan_digits_sound s l r : scan_digits other_digit s = Some (l, r) -> s = l ++ r /\ (Forall (fun c => c < 128)%N l -> digits1 l).
  Proof.
    unfold scan_digits. pose proof (tw_dw digit_class s) as E. pose proof (tw_all digit_class s) as Ha. destruct (take_while digit_class s) as [|c l0] eqn:E0; [discriminate|].
    intros H. injection H as <- <-. split; [auto|]. intros Hs. split; [discriminate|]. apply digit_class_ascii; auto.
  Qed.
  Lemma scan_decimal_sound s l r : scan_decimal other_digit s = (l, r) -> s = l ++ r /\ (l = [] \/ (Forall (fun c => c < 128)%N l -> fraction l)).
  Proof.
    unfold scan_decimal. destruct s as [|c s]; [intros H; injection H as <- <-; auto|].
    destruct (N.eqb_spec c 46) as [->|]; [|intros H; injection H as <- <-; auto].
    destruct (scan_digits other_digit s) as [(l0 & r0)|] eqn:E; [|intros H; injection H as <- <-; auto].
    apply scan_digits_sound in E. destruct E as (-> & E). intros H. injection H as <- <-. split; [reflexivity|]. right.
    intros Ha. exists l0. split; [reflexivity|]. apply E. inversion Ha; auto.
  Qed.
  Lemma scan_exponent_sound s l r : scan_exponent other_digit s = (l, r) -> s = l ++ r /\ (l = [] \/ (Forall (fun c => c < 128)%N l -> exponent l)).
  Proof.
    unfold scan_exponent. destruct s as [|c s]; [intros H; injection H as <- <-; auto|].
    destruct (_ || _) eqn:Ec; [|intros H; injection H as <- <-; auto].
    apply orb_true_iff in Ec. rewrite !N.eqb_eq in Ec.
    destruct s as [|d s]; [intros H; injection H as <- <-; auto|].
    destruct (N.eqb d 43 || N.eqb d 45) eqn:Ed.
    - apply orb_true_iff in Ed. rewrite !N.eqb_eq in Ed.
      destruct (scan_digits other_digit s) as [(l0 & r0)|] eqn:E; [|intros H; injection H as <- <-; auto].
      apply scan_digits_sound in E. destruct E as (-> & E). intros H. injection H as <- <-. split; [reflexivity|]. right.
      intros Ha. exists c, [d], l0. split; [reflexivity|]. split; [exact Ec|]. split; [destruct Ed as [-> | ->]; auto|]. apply E. inversion Ha; subst. inversion H2; auto.
    - destruct (scan_digits other_digit (d :: s)) as [(l0 & r0)|] eqn:E; [|intros H; injection H as <- <-; auto].
      apply scan_digits_sound in E. destruct E as (E0 & E). intros H. injection H as <- <-. split; [rewrite E0; reflexivity|]. right.
      intros Ha. exists c, [], l0. split; [reflexivity|]. split; [exact Ec|]. split; [auto|]. apply E. inversion Ha; auto.
  Qed.
End Scan.
  Lemma no_trailing_sound r k t r' : no_trailing false r k = (inl t, r') -> k = inl t /\ r' = r /\ number_end (fun _ => false) r.
  Proof.
    unfold no_trailing. destruct r as [|c r].
    - cbn. intros H. injection H as -> <-. split; auto. split; [auto|]. intros [].
    - cbn [take_while]. destruct (is_trailing c) eqn:E; [discriminate|]. intros H. injection H as -> <-. split; [auto|]. split; [auto|].
      unfold is_trailing in E. apply orb_false_iff in E. destruct E as (E1 & E2). apply N.eqb_neq in E2.
      pose proof (not_of_false _ _ (is_name_char_iff c) E1) as E3. intros K. cbn in K. destruct K as [K|[K|(_ & K)]]; try tauto. discriminate K.
  Qed.
  Lemma parse_i32_ascii l z : l <> [] -> parse_i32 l = Some z -> Forall (fun c => c < 128)%N l.
  Proof.
    intros Hl H. unfold parse_i32 in H. destruct l as [|c l]; [congruence|].
    assert (K : forall ds, forallb is_digit ds = true -> Forall (fun c => c < 128)%N ds).
    { intros ds Hd. rewrite Forall_forall. rewrite forallb_forall in Hd. intros x Hx. specialize (Hd x Hx). apply is_digit_iff in Hd. unfold digit in Hd. lia. }
    destruct (N.eqb_spec c 45) as [->|N1].
    - destruct (forallb is_digit l) eqn:E; [|discriminate]. constructor; [lia|auto].
    - destruct (forallb is_digit (c :: l)) eqn:E; [|discriminate]. auto.
  Qed.
  Lemma parse_i32_inv l z : int_literal l -> parse_i32 l = Some z -> z = int_value l /\ fits_i32 (int_value l).
  Proof.
    intros Hl H. destruct (parse_i32_spec l Hl) as (H1 & H2).
    assert (D : fits_i32 (int_value l) \/ ~ fits_i32 (int_value l)) by (unfold fits_i32; lia).
    destruct D as [D|D]; [specialize (H1 D)|specialize (H2 D)]; split; congruence.
  Qed.


Section Tokens.
  Variables (recover : text -> nat) (other_digit : N -> bool) (parse_f64 : text -> option N).
  Set Default Proof Using "All".
  Lemma lex_int_complete l r : int_literal l -> number_end other_digit r ->
    lex_number recover other_digit parse_f64 false (l ++ r) = (match parse_i32 l with Some z => inl (TkInt z) | None => inr IntegerValueTooLarge end, r).
  Proof.
    intros Hl Hr. destruct (number_end_stop _ _ Hr) as (H1 & H2 & H3 & H4). unfold lex_number.
    rewrite (scan_int_complete _ _ _ Hl H1), H2, H3. cbn [app]. apply H4.
  Qed.
  Lemma lex_float_complete l r : float_literal l -> number_end other_digit r ->
    lex_number recover other_digit parse_f64 false (l ++ r) = (match parse_f64 l with Some b => inl (TkFloat b) | None => inr FloatValueTooLarge end, r).
  Proof.
    intros (i & f & e & -> & Hi & Hfe) Hr. destruct (number_end_stop _ _ Hr) as (H1 & H2 & H3 & H4).
    assert (Sf : fraction f -> forall r, no_digit other_digit (f ++ r)).
    { intros (d & -> & _) r0. apply head_stops, class_false; unfold digit; lia. }
    assert (Se : exponent e -> forall r, no_digit other_digit (e ++ r)).
    { intros (x & sg & d & -> & Hx & _) r0. apply head_stops, class_false; unfold digit; lia. }
    assert (Te : exponent e -> forall r, scan_decimal other_digit (e ++ r) = ([], e ++ r)).
    { intros (x & sg & d & -> & Hx & _) r0. apply scan_decimal_none. cbn. lia. }
    assert (Nf : fraction f -> f ++ e <> []). { intros (d & -> & _). discriminate. }
    assert (Ne : exponent e -> e <> []). { intros (x & sg & d & -> & _). discriminate. }
    rewrite <- !app_assoc. unfold lex_number.
    destruct Hfe as [(Hf & ->) | [(-> & He) | (Hf & He)]].
    - rewrite app_nil_r in *. cbn [app]. rewrite (scan_int_complete _ _ _ Hi (Sf Hf r)), (scan_fraction _ _ _ Hf H1), H3, app_nil_r.
      destruct f as [|x f]; [exfalso; apply (Nf Hf); reflexivity|]. apply H4.
    - cbn [app]. rewrite (scan_int_complete _ _ _ Hi (Se He r)), (Te He), (scan_exponent_complete _ _ _ He H1). cbn [app].
      destruct e as [|x e]; [exfalso; apply (Ne He); reflexivity|]. apply H4.
    - rewrite (scan_int_complete _ _ _ Hi (Sf Hf (e ++ r))), (scan_fraction _ _ _ Hf (Se He r)), (scan_exponent_complete _ _ _ He H1).
      destruct (f ++ e) as [|x y] eqn:E; [exfalso; apply (Nf Hf); reflexivity|]. apply H4.
  Qed.

  Notation lex_token := (lex_token recover other_digit parse_f64 false).
  Lemma lex_token_number pos c s : digit c \/ c = 45%N -> lex_token pos c s = lex_number recover other_digit parse_f64 false (c :: s).
  Proof.
    intros H. unfold Lexer.lex_token. rewrite punct_of_number by tauto.
    assert (K : (c < 58)%N /\ c <> 46%N /\ c <> 36%N) by (unfold digit in H; lia). destruct K as (K1 & K2 & K3).
    rewrite (proj2 (N.eqb_neq c 46) K2), (proj2 (N.eqb_neq c 36) K3).
    assert (E : is_name_start c = false). { eapply false_of_not; [apply is_name_start_iff|]. unfold name_start. lia. }
    rewrite E. replace (N.eqb c 45 || is_digit c) with true; [reflexivity|]. symmetry. apply orb_true_iff. rewrite N.eqb_eq, is_digit_iff. tauto.
  Qed.
  Lemma int_literal_head l : int_literal l -> exists c l', l = c :: l' /\ (digit c \/ c = 45%N).
  Proof. intros [H | (l' & -> & H)]; [|eauto]. destruct (unsigned_head _ H) as (c & l' & -> & Hc). eauto. Qed.
  Lemma float_literal_head l : float_literal l -> exists c l', l = c :: l' /\ (digit c \/ c = 45%N).
  Proof. intros (i & f & e & -> & Hi & _). destruct (int_literal_head _ Hi) as (c & l' & -> & Hc). exists c, (l' ++ f ++ e). auto. Qed.
  Lemma string_head body v : string_taken body v -> ~ first_is (fun c => c = 34%N) body.
  Proof.
    intros (ps & Hok & _ & _ & -> & _). destruct Hok as [|p ps Hp Hok]; [auto|]. cbn [map concat].
    destruct p; cbn in Hp |- *; try (intros K; discriminate K). tauto.
  Qed.

  Lemma lex_token_complete t l : lexeme parse_f64 t l -> forall pos r, apart other_digit t l r ->
    exists c l', l = c :: l' /\ lex_token pos c (l' ++ r) = (inl t, r).
  Proof.
    intros H pos r Ha. destruct H as [p|n Hn|n Hn|l Hl Hf|l b Hl Hb|body v Hb|body raw Hb].
    - unfold Lexer.lex_token. destruct p; cbn [punct_text]; eexists _, _; (split; [reflexivity|]); reflexivity.
    - destruct n as [|c n]; [destruct Hn|]. exists c, n. split; [reflexivity|]. pose proof Hn as (H1 & H2).
      unfold Lexer.lex_token. rewrite punct_of_name by exact H1.
      assert (K : c <> 46%N /\ c <> 36%N) by (unfold name_start in H1; lia). destruct K as (K1 & K2).
      rewrite (proj2 (N.eqb_neq c 46) K1), (proj2 (N.eqb_neq c 36) K2), (proj2 (is_name_start_iff c) H1).
      destruct (name_taken (c :: n) r Hn Ha) as (E1 & E2). cbn [app] in E1, E2. rewrite E1, E2. reflexivity.
    - exists 36%N, n. split; [reflexivity|]. unfold Lexer.lex_token. cbn [punct_of N.eqb Pos.eqb].
      destruct (name_taken n r Hn Ha) as (E1 & E2). rewrite E1, E2.
      destruct n as [|c n]; [destruct Hn|]. cbn [app]. rewrite (proj2 (is_name_start_iff c) (proj1 Hn)). reflexivity.
    - destruct (int_literal_head _ Hl) as (c & l' & E & Hc). exists c, l'. split; [exact E|]. rewrite lex_token_number by exact Hc.
      change (c :: l' ++ r) with ((c :: l') ++ r). rewrite <- E, lex_int_complete by auto.
      rewrite (proj1 (parse_i32_spec _ Hl) Hf). reflexivity.
    - destruct (float_literal_head _ Hl) as (c & l' & E & Hc). exists c, l'. split; [exact E|]. rewrite lex_token_number by exact Hc.
      change (c :: l' ++ r) with ((c :: l') ++ r). rewrite <- E, lex_float_complete by auto. rewrite Hb. reflexivity.
    - exists 34%N, (body ++ [34%N]). split; [reflexivity|]. rewrite <- app_assoc. cbn [app]. unfold Lexer.lex_token. cbn [punct_of N.eqb Pos.eqb].
      unfold c_quote. change (N.eqb 34 34) with true. cbn iota.
      change (is_name_start 34) with false. change (false || is_digit 34) with false. cbn iota.
      assert (E : strip_prefix [34; 34; 34]%N (34%N :: body ++ 34%N :: r) = None).
      { apply strip_prefix_None. intros (q & K). cbn in K. injection K as K. pose proof (string_head _ _ Hb) as Hh.
        destruct body as [|x body]; cbn [app] in K.
        - injection K as K1. cbn in Ha. specialize (Ha eq_refl). rewrite K1 in Ha. apply Ha. reflexivity.
        - injection K as K1 K2. apply Hh. exact K1. }
      rewrite E. apply lex_string_iff. exists body. auto.
    - exists 34%N, ([34; 34]%N ++ body ++ quotes3). split; [reflexivity|].
      rewrite <- !app_assoc. unfold Lexer.lex_token. cbn [punct_of N.eqb Pos.eqb].
      change (is_name_start 34) with false. change (false || is_digit 34) with false. cbn iota.
      change (N.eqb 34 c_quote) with true. cbn iota.
      assert (E : strip_prefix [c_quote; c_quote; c_quote] (34%N :: [34; 34]%N ++ body ++ quotes3 ++ r) = Some (body ++ quotes3 ++ r)) by reflexivity.
      rewrite E. destruct (proj2 (lex_block_iff (body ++ quotes3 ++ r) (spec_block_value raw) r)) as (ls & E1 & E2); [eauto|].
      rewrite E1, E2. reflexivity.
  Qed.

  (** [f64::from_str] takes no text with non-ASCII characters *)
  Hypothesis f64_ascii : forall l b, parse_f64 l = Some b -> Forall (fun c => c < 128)%N l.

  Lemma lex_number_sound s t r : lex_number recover other_digit parse_f64 false s = (inl t, r) ->
    exists l, s = l ++ r /\ lexeme parse_f64 t l /\ number_end (fun _ => false) r /\ ((exists z, t = TkInt z) \/ (exists b, t = TkFloat b)).
  Proof.
    unfold lex_number. destruct (scan_int other_digit s) as [(ip & r1)|] eqn:E1; [|discriminate].
    apply scan_int_sound in E1. destruct E1 as (-> & Hip & Hi).
    destruct (scan_decimal other_digit r1) as (dp & r2) eqn:E2. apply scan_decimal_sound in E2. destruct E2 as (-> & Hd).
    destruct (scan_exponent other_digit r2) as (ep & r3) eqn:E3. apply scan_exponent_sound in E3. destruct E3 as (-> & He).
    destruct (dp ++ ep) as [|x y] eqn:E4; intros H; apply no_trailing_sound in H; destruct H as (H & -> & Hr).
    - apply app_eq_nil in E4. destruct E4 as (-> & ->). destruct (parse_i32 ip) as [z|] eqn:Ez; [|discriminate]. injection H as <-.
      pose proof (Hi (parse_i32_ascii _ _ Hip Ez)) as Hl. destruct (parse_i32_inv _ _ Hl Ez) as (-> & Hf).
      exists ip. split; [reflexivity|]. split; [constructor; auto|]. split; [exact Hr|eauto].
    - rewrite <- E4 in H. destruct (parse_f64 (ip ++ dp ++ ep)) as [b|] eqn:Eb; [|discriminate]. injection H as <-.
      pose proof (f64_ascii _ _ Eb) as Ha. rewrite !Forall_app in Ha. destruct Ha as (A1 & A2 & A3).
      exists (ip ++ dp ++ ep). split; [rewrite <- !app_assoc; reflexivity|]. split; [|split; [exact Hr|eauto]].
      constructor; [|exact Eb]. exists ip, dp, ep. split; [reflexivity|]. split; [auto|].
      destruct Hd as [-> |Hd]; destruct He as [-> |He]; try discriminate E4; auto.
  Qed.

  Lemma lstr_is_string : forall n s, length s <= n -> forall pos acc errs t r, lex_string recover false (length s) pos s acc errs = (inl t, r) -> exists v, t = TkStr v.
  Proof.
    induction n as [|n IH]; intros s Hn pos acc errs t r H; destruct s as [|c s]; cbn [length] in Hn; try lia; try discriminate.
    cbn [length lex_string] in H. 
    destruct (scan_string recover c s) as (it & r0) eqn:E. pose proof (scan_string_eats _ _ _ _ _ E) as Hl. apply eats_length in Hl. cbn [length] in Hl.
    cbn zeta in H.
    destruct it; try discriminate H;
      try (rewrite (lex_string_fuel recover false (length s) (length r0)) in H by lia; eapply (IH r0); [lia|exact H]).
    destruct errs; [injection H as <- _; eauto|discriminate].
  Qed.

  Lemma lex_token_sound pos c s t r : lex_token pos c s = (inl t, r) ->
    exists l, c :: s = l ++ r /\ lexeme parse_f64 t l /\ apart (fun _ => false) t l r.
  Proof.
    unfold Lexer.lex_token. destruct (punct_of c) as [p|] eqn:E.
    { intros H. injection H as <- <-. apply punct_of_Some in E. destruct E as (_ & E). exists (punct_text p). rewrite E. split; [reflexivity|]. split; [rewrite <- E; constructor|exact I]. }
    destruct (N.eqb_spec c 46) as [->|N1].
    { destruct (strip_prefix _ _) as [r0|] eqn:E1; [|discriminate]. intros H. injection H as <- <-. apply strip_prefix_Some in E1.
      exists (punct_text PEllipse). split; [exact E1|]. split; [constructor|exact I]. }
    destruct (N.eqb_spec c 36) as [->|N2].
    { destruct s as [|d s]; [discriminate|]. destruct (is_name_start d) eqn:Ed; [|discriminate]. intros H. injection H as <- <-.
      destruct (name_scanned d s Ed) as (H1 & H2). exists (36%N :: take_while is_name_char (d :: s)). split; [exact (f_equal (cons 36%N) (eq_sym (tw_dw is_name_char (d :: s))))|].
      split; [constructor; exact H1|exact H2]. }
    destruct (is_name_start c) eqn:Ec.
    { intros H. injection H as <- <-. destruct (name_scanned c s Ec) as (H1 & H2). eexists. split; [symmetry; apply (tw_dw is_name_char (c :: s))|].
      split; [constructor; exact H1|exact H2]. }
    destruct (_ || _).
    { intros H. apply lex_number_sound in H. destruct H as (l & E1 & E2 & E3 & E4). exists l. split; [exact E1|]. split; [exact E2|].
      destruct E4 as [(z & ->) | (b & ->)]; exact E3. }
    destruct (N.eqb_spec c c_quote) as [->|N3]; [|discriminate].
    destruct (strip_prefix [c_quote; c_quote; c_quote] (c_quote :: s)) as [r0|] eqn:E1.
    - apply strip_prefix_Some in E1. destruct (lex_block (length r0) r0 [] []) as [ls r1| |] eqn:E2; try discriminate.
      intros H. injection H as <- <-.
      destruct (proj1 (lex_block_iff r0 (block_string_value ls) r1)) as (body & raw & Hb & -> & Ev); [eauto|].
      exists (quotes3 ++ body ++ quotes3). split; [rewrite E1, <- !app_assoc; reflexivity|]. rewrite Ev. split; [constructor; exact Hb|].
      cbn. intros K. apply (f_equal (@length N)) in K. cbn in K. rewrite app_length in K. cbn in K. lia.
    - intros H. destruct (lstr_is_string (length s) s ltac:(auto) _ _ _ _ _ H) as (v & ->).
      apply lex_string_iff in H. destruct H as (body & Hb & ->).
      exists (34%N :: body ++ [34%N]). split; [cbn; rewrite <- app_assoc; reflexivity|]. split; [constructor; exact Hb|].
      cbn. intros K. injection K as K. destruct body as [|x [|y body]]; [|discriminate K|discriminate K].
      apply strip_prefix_None in E1. intros F. apply E1. destruct r as [|y r]; [destruct F|]. cbn in F. subst y. exists r. reflexivity.
  Qed.
End Tokens.
