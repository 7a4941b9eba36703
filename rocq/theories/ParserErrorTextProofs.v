(** From tokens to text: the text before a token, and how it can go on ([ParserErrorProps.v]). *)
From Coq Require Import String Lia.
From Verif Require Import Base Ast Lexer LexerSpec LexerProofs LexerTokenProofs LexerStreamProofs LexerProps Parser Location LocationSpec LocationProofs LocationProps ParserAt ParserSpec
  ParserAtSpec ParserProps ParserAtProofs SpanProofs ParserErrorProofs ParserErrorAtProofs.

Section Text.
  Variables (recover : text -> nat) (other_digit : N -> bool) (parse_f64 : text -> option N).
  Hypothesis bom : other_digit 65279%N = false.
  Notation placed := (placed parse_f64).
  Notation source := (source other_digit parse_f64).
  Lemma apart_blank t l c r : blank c -> apart other_digit t l (c :: r).
  Proof.
    intros B. destruct t; cbn; auto; unfold name_continue, name_start, digit; intros K; destruct B; rewrite ?bom in K; cbn in K;
      try intros K'; try discriminate K'; intuition (try lia; try discriminate).
  Qed.
  Lemma apart_first t l c r r' : apart other_digit t l (c :: r) -> apart other_digit t l (c :: r').
  Proof. destruct t; auto. Qed.
  (** the first token, whatever comes after it *)
  Lemma lexs_first w t l s pos : ignored w -> lexeme parse_f64 t l -> apart other_digit t l s ->
    exists pos', lexs recover other_digit parse_f64 false pos (w ++ l ++ s) = (inl t, (pos + bytes w, pos + bytes w + bytes l)) :: lexs recover other_digit parse_f64 false pos' s.
  Proof.
    intros Hw Hl Ha. rewrite lexs_eq, skip_app by exact Hw. destruct (lexeme_head recover other_digit parse_f64 _ _ Hl) as (c & l' & -> & H1 & H2). cbn [app]. rewrite skip_stop by auto.
    cbn zeta. set (start := pos + _). destruct (lex_token_complete recover other_digit parse_f64 _ _ Hl start s Ha) as (c0 & l0 & E & Ht). injection E as <- <-.
    rewrite Ht. subst start. change (c :: l' ++ s) with ((c :: l') ++ s) in *. rewrite !blen_app.
    replace (pos + (blen w + (blen (c :: l') + blen s) - (blen (c :: l') + blen s))) with (pos + bytes w) by (rewrite <- blen_bytes; lia).
    replace (pos + bytes w + (blen (c :: l') + blen s - blen s)) with (pos + bytes w + bytes (c :: l')) by (rewrite <- !blen_bytes; lia).
    eexists. reflexivity.
  Qed.
  Lemma placed_head pos ts c s : placed pos ts (c :: s) -> (c < 128)%N \/ c = 65279%N.
  Proof.
    assert (B : forall x, blank x \/ x = 35%N -> (x < 128)%N \/ x = 65279%N) by (intros x [[]| ->]; lia).
    intros H. inversion H as [pos0 w Hw E0 E1 E|pos' w t' l ts' s' Hw Hl Ha Hp E0 E1 E]; subst.
    - destruct Hw as [Hw|(w1 & body & Hw1 & Hb' & E)].
      + apply B, (ignored_head c s Hw).
      + destruct w1 as [|x w1]; injection E as -> ->; [left; lia|]. apply B, (ignored_head x w1 Hw1).
    - destruct w as [|x w].
      + destruct (lexeme_ascii recover other_digit parse_f64 _ _ Hl) as (y & l'' & -> & Hy). cbn in E. injection E as <- _. left. exact Hy.
      + injection E as <- _. apply B, (ignored_head x w Hw).
  Qed.
  Lemma apart_digits t l c r : (c < 128)%N \/ c = 65279%N -> apart (fun _ => false) t l (c :: r) -> apart other_digit t l (c :: r).
  Proof.
    intros Hc. destruct t; cbn; auto; intros H [K|[K|(K1 & K2)]]; apply H; auto; right; right; (destruct Hc as [Hc| ->]; [lia|rewrite bom in K2; discriminate K2]).
  Qed.
  (** the tokens [pre] of a text, then something else that begins with a blank, or as before *)
  Lemma placed_prefix pre : forall pos ts s, placed pos (pre ++ ts) s -> exists p s', s = p ++ s' /\ placed (pos + bytes p) ts s' /\
    (forall x r, blank x \/ first_is (fun c => c = x) s' ->
     forall pos, exists items pos', lexs recover other_digit parse_f64 false pos (p ++ x :: r) = items ++ lexs recover other_digit parse_f64 false pos' (x :: r) /\ map fst items = map inl (map fst pre)).
  Proof.
    induction pre as [|t pre IH]; intros pos ts s H.
    - exists [], s. change (bytes []) with 0. rewrite Nat.add_0_r. split; [reflexivity|]. split; [exact H|]. intros x r _ pos1. exists [], pos1. split; reflexivity.
    - cbn in H. inversion H as [|pos' w t' l ts' s' Hw Hl Ha Hp]; subst. pose proof Hp as Hp'. apply IH in Hp. destruct Hp as (p & s'' & -> & Hp & K).
      exists (w ++ l ++ p), s''. rewrite <- !app_assoc. split; [reflexivity|]. split.
      { rewrite !bytes_app. replace (pos + (bytes w + (bytes l + bytes p))) with (pos + bytes w + bytes l + bytes p) by lia. exact Hp. }
      intros x r Hx pos1. rewrite <- !app_assoc.
      assert (Ha' : apart other_digit t' l (p ++ x :: r)).
      { destruct p as [|c p]; cbn [app] in *.
        - destruct Hx as [Hx|Hx]; [apply apart_blank, Hx|]. destruct s'' as [|c s'']; [destruct Hx|]. cbn in Hx. subst c.
          apply placed_head in Hp'. apply (apart_digits _ _ _ _ Hp') in Ha. exact (apart_first _ _ _ _ _ Ha).
        - apply placed_head in Hp'. apply (apart_digits _ _ _ _ Hp') in Ha. exact (apart_first _ _ _ _ _ Ha). }
      destruct (lexs_first w t' l (p ++ x :: r) pos1 Hw Hl Ha') as (pos2 & ->). destruct (K x r Hx pos2) as (items & pos3 & -> & E).
      eexists (_ :: items), pos3. split; [reflexivity|]. cbn. rewrite E. reflexivity.
  Qed.
  (** a text for simple tokens *)
  Definition write (ts : list token) : text :=
    flat_map (fun t => (match t with TkPunct p => punct_text p | TkName n => n | TkVar n => 36%N :: n | _ => [] end) ++ [32%N]) ts.
  Lemma write_cons t ts : write (t :: ts) = (match t with TkPunct p => punct_text p | TkName n => n | TkVar n => 36%N :: n | _ => [] end) ++ 32%N :: write ts.
  Proof. unfold write. cbn [flat_map]. rewrite <- app_assoc. reflexivity. Qed.
  Lemma simple_name n : nonempty n && forallb (fun c => (97 <=? c) && (c <=? 122) || (65 <=? c) && (c <=? 90))%N n = true -> is_name n.
  Proof.
    destruct n as [|c n]; [discriminate|]. cbn [nonempty forallb andb]. intros H. apply andb_prop in H. destruct H as (Hc & Hn).
    assert (A : forall x, ((97 <=? x) && (x <=? 122) || (65 <=? x) && (x <=? 90))%N = true -> name_start x).
    { intros x Hx. apply orb_prop in Hx. unfold name_start. destruct Hx as [Hx|Hx]; apply andb_prop in Hx; destruct Hx as (X1 & X2); apply N.leb_le in X1, X2; lia. }
    split; [auto|]. apply Forall_forall. intros x Hx. left. apply A. exact (proj1 (forallb_forall _ _) Hn x Hx).
  Qed.
  Lemma write_source ts : forallb simple ts = true -> source ts (write ts).
  Proof.
    induction ts as [|t ts IH]; intros H; [constructor; left; constructor|]. cbn [forallb] in H. apply andb_prop in H. destruct H as (H1 & H2). unfold write. cbn [flat_map]. rewrite <- app_assoc.
    apply (source_token _ _ []); [constructor| | |].
    - destruct t; try discriminate H1; constructor; apply simple_name, H1.
    - apply apart_blank. constructor.
    - apply (source_gap _ _ [32%N]); [repeat constructor|]. exact (IH H2).
  Qed.
  (** the token lists of the documents of a language, and the texts accepted as such *)
  Variables (lang : list token -> Prop) (taken : text -> Prop).
  Hypothesis taken_iff : forall s, taken s <-> exists ts, lang ts /\ tokens_of recover other_digit parse_f64 s ts.
  Definition begins_in (ts : list token) : Prop := exists post, lang (ts ++ post).
  Definition goes_on_in (e : perr) (ts : list token) : Prop :=
    exists post, (forallb simple post = true /\ meets e post = true) /\ lang (ts ++ post).
  (** how the text can go on after an error: as its message says *)
  Definition as_asked_in (e : perr) (p : text) : Prop :=
    match e with
    | PEName _ => exists n q, is_name n /\ taken (p ++ 10%N :: n ++ 32%N :: q)
    | PEIdent _ v => exists q, taken (p ++ 10%N :: v ++ q)
    | PEOneOf _ vs => exists v q, In v vs /\ taken (p ++ 10%N :: v ++ q)
    | PEEnum n => reserved n = true /\ exists v q, is_name v /\ reserved v = false /\ taken (p ++ 10%N :: v ++ 32%N :: q)
    | _ => exists q, taken (p ++ q)
    end.
  Lemma display_text p : punct_display p = punct_text p.
  Proof. destruct p; reflexivity. Qed.
  Lemma goes_on_in_text e pre p s' w : goes_on_in e pre ->
    (forall x r, blank x \/ first_is (fun c => c = x) s' ->
     forall pos, exists items pos', lexs recover other_digit parse_f64 false pos (p ++ x :: r) = items ++ lexs recover other_digit parse_f64 false pos' (x :: r) /\ map fst items = map inl pre) ->
    (exists s2, s' = w ++ s2) -> ignored (w ++ [10%N]) -> as_asked_in e (p ++ w).
  Proof.
    intros (post & (W & M0) & E) K (s2 & ->) Hw.
    assert (A : taken ((p ++ w) ++ 10%N :: write post)).
    { apply taken_iff. exists (pre ++ post). split; [exact E|].
      assert (X : exists x r, w ++ 10%N :: write post = x :: r /\ (blank x \/ first_is (fun c => c = x) (w ++ s2))).
      { destruct w as [|x w]; [exists 10%N, (write post); split; [reflexivity|]; left; constructor|]. exists x, (w ++ 10%N :: write post). split; [reflexivity|]. right. reflexivity. }
      destruct X as (x & r & X & Hx). rewrite <- app_assoc, X. destruct (K x r Hx 0) as (items & pos' & L & M). unfold tokens_of, lex. change (Lexer.lex_items recover other_digit parse_f64 false (length (p ++ x :: r)) 0 (p ++ x :: r)) with (lexs recover other_digit parse_f64 false 0 (p ++ x :: r)).
      rewrite L, !map_app. f_equal; [exact M|]. rewrite <- X. apply lexs_complete. change (10%N :: write post) with ([10%N] ++ write post). rewrite app_assoc. apply source_gap; [exact Hw|]. apply write_source, W. }
    destruct e as [t|t v|t vs|t|t| | | |]; try (exists (10%N :: write post); exact A).
    - cbn [meets] in M0. destruct post as [|[p'|n|n|z|b|x] post]; try discriminate M0. cbn [forallb] in W. apply andb_prop in W. destruct W as (W & _).
      exists n, (write post). split; [apply simple_name, W|]. rewrite write_cons in A. exact A.
    - cbn [meets] in M0. cbn [as_asked_in]. destruct post as [|[p'|n|n|z|b|x] post]; try discriminate M0; apply teqb_eq in M0; subst v; rewrite write_cons in A.
      + rewrite display_text. eexists. exact A.
      + eexists. exact A.
      + eexists. exact A.
    - cbn [meets] in M0. cbn [as_asked_in]. destruct post as [|[p'|n|n|z|b|x] post]; try discriminate M0. apply tmem_In in M0. rewrite write_cons in A. eauto.
    - cbn [meets] in M0. cbn [as_asked_in]. apply andb_prop in M0. destruct M0 as (M0 & M1). split; [exact M0|]. destruct post as [|[p'|n|n|z|b|x] post]; try discriminate M1.
      cbn [forallb] in W. apply andb_prop in W. destruct W as (W & _). rewrite write_cons in A. exists n, (write post). split; [apply simple_name, W|]. split; [|exact A]. destruct (reserved n); [discriminate M1|reflexivity].
  Qed.
  Hypothesis f64_ascii : forall l b, parse_f64 l = Some b -> Forall (fun c => c < 128)%N l.
  (** the text before a token that no document goes on with, and that token *)
  Lemma error_text_in e s pre t r : lexing_errors (lex recover other_digit parse_f64 false s) = [] -> items_at (lex recover other_digit parse_f64 false s) = pre ++ t :: r ->
    goes_on_in e (map fst pre) -> ~ begins_in (map fst (pre ++ [t])) ->
    exists p m q, s = p ++ m ++ q /\ snd t = (bytes p, bytes (p ++ m)) /\ m <> [] /\ tokens_of recover other_digit parse_f64 m [fst t] /\
      as_asked_in e p /\ (forall c q', blank c -> ~ taken (p ++ m ++ c :: q')).
  Proof.
    intros L E G B. pose proof (lexs_placed recover other_digit parse_f64 f64_ascii (length s) s (le_n _) 0 L) as P.
    change (lexs recover other_digit parse_f64 false 0 s) with (lex recover other_digit parse_f64 false s) in P. rewrite E in P.
    apply placed_prefix in P. destruct P as (p & s' & -> & P & K). inversion P as [|pos' w t' l ts' s2 Hw Hl Ha Hp]; subst. exists (p ++ w), l, s2.
    split; [rewrite <- !app_assoc; reflexivity|]. split; [cbn [snd]; f_equal; rewrite !bytes_app; lia|]. split; [exact (lexeme_nonempty _ _ _ Hl)|].
    split; [|split].
    - apply c05_layout. rewrite <- (app_nil_r l). apply (source_token _ _ [] t' l []); auto using apart_nil; [constructor|]. constructor. left. constructor.
    - apply (goes_on_in_text e _ p (w ++ l ++ s2) w G K); [eauto|]. apply ignored_app; [exact Hw|repeat constructor].
    - intros c q' Hc A. apply taken_iff in A. destruct A as (ds & F & T). apply B. unfold tokens_of in T. rewrite <- !app_assoc in T.
      assert (X : exists x r', w ++ l ++ c :: q' = x :: r' /\ (blank x \/ first_is (fun c => c = x) (w ++ l ++ s2))).
      { destruct w as [|x w]; [|exists x, (w ++ l ++ c :: q'); split; [reflexivity|]; right; reflexivity]. pose proof (lexeme_nonempty _ _ _ Hl) as N. destruct l as [|x l]; [congruence|].
        exists x, (l ++ c :: q'). split; [reflexivity|]. right. reflexivity. }
      destruct X as (x & r' & X & Hx). rewrite X in T. destruct (K x r' Hx 0) as (items & pos' & L' & M). change (lex recover other_digit parse_f64 false (p ++ x :: r')) with (lexs recover other_digit parse_f64 false 0 (p ++ x :: r')) in T.
      rewrite L', <- X in T. destruct (lexs_first w t' l (c :: q') pos' Hw Hl (apart_blank _ _ _ _ Hc)) as (pos2 & L2). rewrite L2, map_app in T. cbn [map fst] in T. unfold item in *. rewrite M in T.
      assert (Z : exists post, map fst (lexs recover other_digit parse_f64 false pos2 (c :: q')) = map inl post).
      { assert (Y : forall (a : list token) (b : list (token + lex_error)) x, map inl a ++ x :: b = map inl ds -> exists post, b = map inl post).
        { intros a b y. generalize ds as z. induction a as [|u a IHa]; intros [|v z] Ez; try discriminate Ez; [injection Ez as _ ->; eauto|]. injection Ez as _ Ez. eauto. }
        exact (Y _ _ _ T). }
      destruct Z as (post & Z). rewrite Z in T. exists post. rewrite map_app. cbn [map fst].
      change (inl t' :: map inl post) with (map (@inl token lex_error) (t' :: post)) in T. rewrite <- map_app in T. rewrite <- app_assoc. cbn [app].
      apply (f_equal (map (fun i : token + lex_error => match i with inl u => u | inr _ => t' end))) in T. rewrite !map_map, !map_id in T. exact (eq_rect ds lang F _ (eq_sym T)).
  Qed.
  Lemma end_text_in s : lexing_errors (lex recover other_digit parse_f64 false s) = [] -> goes_on_in PEEof (map fst (items_at (lex recover other_digit parse_f64 false s))) ->
    exists q, taken (s ++ q).
  Proof.
    intros L G. pose proof (lexs_placed recover other_digit parse_f64 f64_ascii (length s) s (le_n _) 0 L) as P.
    change (lexs recover other_digit parse_f64 false 0 s) with (lex recover other_digit parse_f64 false s) in P. rewrite <- (app_nil_r (items_at _)) in P.
    apply placed_prefix in P. destruct P as (p & s' & Es & P & K). inversion P as [pos w Hw|]; subst pos w. rewrite Es. apply (goes_on_in_text PEEof _ p s' s' G K); [exists []; now rewrite app_nil_r|].
    destruct Hw as [Hw|(w1 & body & Hw1 & Hb & ->)]; [apply ignored_app; [exact Hw|repeat constructor]|]. rewrite <- app_assoc. apply ignored_app; [exact Hw1|].
    cbn [app]. apply ignored_comment; [exact Hb|left; reflexivity|constructor].
  Qed.
End Text.

(** ** Executable documents *)
Definition document_tokens (ts : list token) : Prop := exists ds, ds <> [] /\ Forall definition_ok ds /\ concat (map tk_definition ds) = ts.
Definition accepted (recover : text -> nat) (other_digit : N -> bool) (parse_f64 : text -> option N) (s : text) : Prop :=
  exists d, parse_text recover other_digit parse_f64 s = inl d.
Lemma accepted_iff recover other_digit parse_f64 s : accepted recover other_digit parse_f64 s <->
  exists ds, ds <> [] /\ Forall definition_ok ds /\ tokens_of recover other_digit parse_f64 s (concat (map tk_definition ds)).
Proof.
  unfold accepted, tokens_of. split.
  - intros (d & H). apply c10_whole_documents in H. destruct H as (ds & H1 & H2 & H3 & _). exists ds. auto.
  - intros (ds & H1 & H2 & H3). exists (document_of ds). apply c10_whole_documents. exists ds. auto.
Qed.
Lemma accepted_tokens recover other_digit parse_f64 s : accepted recover other_digit parse_f64 s <->
  exists ts, document_tokens ts /\ tokens_of recover other_digit parse_f64 s ts.
Proof.
  rewrite accepted_iff. split; [intros (ds & H1 & H2 & H3); exists (concat (map tk_definition ds)); split; [exists ds; auto|exact H3]|].
  intros (ts & (ds & H1 & H2 & <-) & H3). exists ds. auto.
Qed.
Definition as_asked recover other_digit parse_f64 : perr -> text -> Prop := as_asked_in (accepted recover other_digit parse_f64).
Lemma begins_document ts : begins_in document_tokens ts <-> begins ts.
Proof. split; [intros (post & ds & H); exists ds, post; tauto|intros (ds & post & H); exists post, ds; tauto]. Qed.
Lemma goes_on_document e ts : goes_on e ts -> goes_on_in document_tokens e ts.
Proof. intros (ds & post & H1 & H2 & H3 & H4). exists post. split; [exact H3|]. exists ds. auto. Qed.
Lemma error_text recover other_digit parse_f64 (bom : other_digit 65279%N = false) (f64_ascii : forall l b, parse_f64 l = Some b -> Forall (fun c => c < 128)%N l) e s pre t r :
  lexing_errors (lex recover other_digit parse_f64 false s) = [] -> items_at (lex recover other_digit parse_f64 false s) = pre ++ t :: r ->
  goes_on e (map fst pre) -> ~ begins (map fst (pre ++ [t])) ->
  exists p m q, s = p ++ m ++ q /\ snd t = (bytes p, bytes (p ++ m)) /\ m <> [] /\ tokens_of recover other_digit parse_f64 m [fst t] /\
    as_asked recover other_digit parse_f64 e p /\ (forall c q', blank c -> ~ accepted recover other_digit parse_f64 (p ++ m ++ c :: q')).
Proof.
  intros L E G B. rewrite <- begins_document in B. apply goes_on_document in G.
  exact (error_text_in recover other_digit parse_f64 bom _ _ (accepted_tokens _ _ _) f64_ascii e s pre t r L E G B).
Qed.
Lemma end_text recover other_digit parse_f64 (bom : other_digit 65279%N = false) (f64_ascii : forall l b, parse_f64 l = Some b -> Forall (fun c => c < 128)%N l) s :
  lexing_errors (lex recover other_digit parse_f64 false s) = [] -> goes_on PEEof (map fst (items_at (lex recover other_digit parse_f64 false s))) ->
  exists q, accepted recover other_digit parse_f64 (s ++ q).
Proof. intros L G. apply goes_on_document in G. exact (end_text_in recover other_digit parse_f64 bom _ _ (accepted_tokens _ _ _) f64_ascii s L G). Qed.
