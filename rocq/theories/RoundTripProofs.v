(** What the printer writes is the tree's tokens, laid out. *)
From Coq Require Import String.
From Verif Require Import Base Ast Decimal10 Lexer LexerSpec LexerProofs LexerTokenProofs LexerStreamProofs LexerProps Printer Parser ParserSpec ParserProofs ParserDocProofs RoundTripSpec.
From Coq Require Import Lia.
Local Open Scope string_scope.
Local Open Scope list_scope.

Section Writes.
  Variable digits : N -> bool.
  Variable parse_f64 : text -> option N.
  Variable print_float : N -> text.

  (** characters that end every token *)
  Definition sep (r : text) : Prop := match r with [] => True | c :: _ => (c < 128 /\ ~ name_continue c /\ c <> 46 /\ c <> 34)%N end.
  Lemma sep_apart t l r : sep r -> apart digits t l r.
  Proof.
    destruct r as [|c r]; [intros _; destruct t; cbn; auto|]. intros (H1 & H2 & H3 & H4).
    destruct t; cbn; auto; intros [A|[A|(A & _)]]; try lia; tauto.
  Qed.
  Definition writes (ts : list token) (l : text) : Prop :=
    forall ts' r, sep r -> source digits parse_f64 ts' r -> source digits parse_f64 (ts ++ ts') (l ++ r).
  Definition starts_sep (l : text) : Prop := match l with [] => False | _ => sep l end.
  Lemma sep_app l r : starts_sep l -> sep (l ++ r).
  Proof. destruct l; [easy|]. auto. Qed.
  Lemma writes_nil : writes [] [].
  Proof. intros ts r _ H. exact H. Qed.
  Lemma writes_app a la b lb : writes a la -> writes b lb -> (lb <> [] -> starts_sep lb) -> writes (a ++ b) (la ++ lb).
  Proof.
    intros Ha Hb S ts r Hr H. rewrite <- !app_assoc. apply Ha; [|apply Hb; auto].
    destruct lb as [|c lb]; [exact Hr|]. apply sep_app, S. congruence.
  Qed.
  Lemma writes_token t l : lexeme parse_f64 t l -> writes [t] l.
  Proof. intros L ts r Hr H. rewrite <- (app_nil_l (l ++ r)). constructor; auto using sep_apart. constructor. Qed.
  (** punctuators never run into what follows *)
  Lemma writes_punct p b lb : writes b lb -> writes (P p :: b) (punct_text p ++ lb).
  Proof.
    intros Hb ts r Hr H. rewrite <- app_assoc, <- (app_nil_l (punct_text p ++ _)). cbn [app]. apply (source_token digits parse_f64 []); [constructor | constructor | exact I | apply Hb; auto].
  Qed.
  Lemma writes_gap w b lb : ignored w -> writes b lb -> writes b (w ++ lb).
  Proof. intros Hw Hb ts r Hr H. rewrite <- app_assoc. apply source_gap; auto. Qed.
  Lemma writes_gap_after w b lb : ignored w -> starts_sep w -> writes b lb -> writes b (lb ++ w).
  Proof. intros Hw S Hb ts r Hr H. rewrite <- app_assoc. apply Hb; [now apply sep_app|]. apply source_gap; auto. Qed.
  Lemma ignored_1 c : blank c -> ignored [c].
  Proof. intros. now apply ignored_blank; [|apply ignored_nil]. Qed.
  Lemma ignored_indent n : ignored (write_indent n).
  Proof. induction n; [constructor|]. apply ignored_blank; [constructor | exact IHn]. Qed.
  Ltac sepn := cbn; unfold name_continue, name_start, digit; lia.

  Lemma writes_join {A} (tk : A -> list token) (pr : A -> text) l : Forall (fun x => writes (tk x) (pr x)) l ->
    writes (concat (map tk l)) (join comma (map pr l)).
  Proof.
    induction 1 as [|x l H F IH]; [apply writes_nil|]. cbn [map concat].
    destruct l as [|y l]; [cbn [map concat join]; rewrite app_nil_r; exact H|].
    change (join comma (map pr (x :: y :: l))) with (pr x ++ comma ++ join comma (map pr (y :: l))).
    apply writes_app; [exact H | | intros _; unfold comma; cbn; unfold name_continue, name_start, digit; lia].
    apply writes_gap; [apply ignored_blank; [constructor|]; apply ignored_blank; constructor | exact IH].
  Qed.

  Notation writable := (writable parse_f64 print_float).
  Lemma writes_name n : writable (TkName n) -> writes [TkName n] n.
  Proof. intros H. apply writes_token. now constructor. Qed.

  Lemma Forall_concat_map {A} (tk : A -> list token) (Q : token -> Prop) l : Forall Q (concat (map tk l)) -> Forall (fun x => Forall Q (tk x)) l.
  Proof. induction l as [|x l IH]; cbn [map concat]; intros H; constructor; apply Forall_app in H; [tauto|apply IH; tauto]. Qed.
  Lemma writes_pair k v : writable (TkName k) -> writes (tk_value v) (print_value print_float v) ->
    writes (TkName k :: P PColon :: tk_value v) (k ++ [58; 32]%N ++ print_value print_float v).
  Proof.
    intros Hk Hv. apply (writes_app [TkName k] k); [now apply writes_name | | intros _; sepn].
    apply (writes_punct PColon _ ([32%N] ++ print_value print_float v)). apply writes_gap; [apply ignored_1; constructor | exact Hv].
  Qed.
  Lemma writes_value v : Forall writable (tk_value v) -> writes (tk_value v) (print_value print_float v).
  Proof.
    induction v as [n|z|b|s|b| |n|vs IH|es IH] using value_ind'; cbn [tk_value print_value]; intros W.
    - inversion_clear W as [|? ? W1 _]. apply writes_token. now constructor.
    - inversion_clear W as [|? ? W1 _]. apply writes_token. destruct (show_Z_literal z) as (H1 & H2).
      pose proof (lx_int parse_f64 (show_Z z) H1) as K. rewrite H2 in K. exact (K W1).
    - inversion_clear W as [|? ? W1 _]. apply writes_token. destruct W1. now constructor.
    - apply writes_token. unfold print_string. cbn [app]. constructor. apply print_string_taken.
    - destruct b; inversion_clear W as [|? ? W1 _]; now apply writes_name.
    - inversion_clear W as [|? ? W1 _]; now apply writes_name.
    - inversion_clear W as [|? ? W1 _]; now apply writes_name.
    - inversion_clear W as [|? ? _ W1]. apply Forall_app in W1. destruct W1 as (W1 & _). apply Forall_concat_map in W1.
      apply (writes_punct POpenSquare). apply writes_app; [|apply (writes_punct PCloseSquare), writes_nil | intros _; sepn].
      apply writes_join. rewrite Forall_forall in *. auto.
    - inversion_clear W as [|? ? _ W1]. apply Forall_app in W1. destruct W1 as (W1 & _). apply Forall_concat_map in W1.
      change ([123; 32]%N ++ join comma (map (fun kv => fst kv ++ [58; 32]%N ++ print_value print_float (snd kv)) es) ++ [32; 125]%N)
        with (punct_text POpenBrace ++ [32%N] ++ join comma (map (fun kv => fst kv ++ [58; 32]%N ++ print_value print_float (snd kv)) es) ++ [32%N] ++ punct_text PCloseBrace).
      apply (writes_punct POpenBrace), writes_gap; [apply ignored_1; constructor|].
      apply writes_app; [| |intros _; sepn].
      + apply (writes_join (fun kv => TkName (fst kv) :: P PColon :: tk_value (snd kv))). rewrite Forall_forall in *. intros kv I. specialize (W1 kv I). inversion_clear W1 as [|? ? W2 W3].
        inversion_clear W3 as [|? ? _ W4]. apply writes_pair; auto.
      + apply writes_gap; [apply ignored_1; constructor|]. rewrite <- (app_nil_r (punct_text PCloseBrace)). apply (writes_punct PCloseBrace), writes_nil.
  Qed.
  Lemma writes_arguments args : Forall writable (tk_arguments args) -> writes (tk_arguments args) (print_arguments print_float args).
  Proof.
    destruct args as [|a args]; [intros _; apply writes_nil|]. unfold tk_arguments, print_arguments. set (l := a :: args).
    intros W. apply Forall_inv_tail in W as W1. apply Forall_app in W1. destruct W1 as (W1 & _). apply Forall_concat_map in W1.
    apply (writes_punct POpenRound). apply writes_app; [|apply (writes_punct PCloseRound), writes_nil | intros _; sepn].
    apply writes_join. rewrite Forall_forall in *. intros x I. specialize (W1 x I). inversion_clear W1 as [|? ? W2 W3].
    inversion_clear W3 as [|? ? _ W4]. apply writes_pair; auto. now apply writes_value.
  Qed.
  Lemma starts_arguments args : print_arguments print_float args <> [] -> starts_sep (print_arguments print_float args).
  Proof. destruct args; cbn [print_arguments]; [congruence|]. intros _. sepn. Qed.
  Lemma writes_directive d : Forall writable (tk_directive d) -> writes (tk_directive d) (print_directive print_float d).
  Proof.
    unfold tk_directive, print_directive. intros W. inversion_clear W as [|? ? _ W1]. inversion_clear W1 as [|? ? W2 W3].
    apply (writes_punct PAt), (writes_app [TkName _]); [now apply writes_name | now apply writes_arguments | apply starts_arguments].
  Qed.
  Lemma starts_directives ds : print_directives print_float ds <> [] -> starts_sep (print_directives print_float ds).
  Proof. destruct ds; cbn; [congruence|]. intros _. sepn. Qed.
  Lemma writes_directives ds : Forall writable (tk_directives ds) -> writes (tk_directives ds) (print_directives print_float ds).
  Proof.
    induction ds as [|d ds IH]; [intros _; apply writes_nil|]. unfold tk_directives, print_directives in *. cbn [map concat]. intros W. apply Forall_app in W.
    apply writes_app; [|apply IH; tauto|apply starts_directives].
    apply (writes_gap [32%N]); [apply ignored_1; constructor|]. now apply writes_directive.
  Qed.

  (** ** Types and variable definitions *)
  Lemma writes_tref t : Forall writable (tk_tref t) -> writes (tk_tref t) (tref_display t).
  Proof.
    assert (B : forall req, writes (tk_bang req) (if req then [33%N] else [])).
    { intros [|]; [apply (writes_punct PBang), writes_nil | apply writes_nil]. }
    induction t as [n req|t IH req]; cbn [tk_tref tref_display]; intros W; inversion_clear W as [|? ? W1 W2].
    - apply (writes_app [TkName n]); [now apply writes_name | apply B | destruct req; [intros _; sepn | congruence]].
    - apply Forall_app in W2. apply (writes_punct POpenSquare), writes_app; [apply IH; tauto | | intros _; sepn].
      apply (writes_punct PCloseSquare), B.
  Qed.
  Lemma writes_vardef v : Forall writable (tk_vardef v) -> writes (tk_vardef v) (print_vardef print_float v).
  Proof.
    destruct v as [n t d ds]. unfold tk_vardef, print_vardef. cbn [vd_name vd_type vd_default vd_dirs]. intros W.
    inversion_clear W as [|? ? W1 W2]. inversion_clear W2 as [|? ? _ W3]. apply Forall_app in W3. destruct W3 as (W3 & W4). apply Forall_app in W4. destruct W4 as (W4 & W5).
    apply (writes_app [TkVar n] (36%N :: n)); [apply writes_token; now constructor | | intros _; sepn].
    apply (writes_punct PColon _ ([32%N] ++ _)), writes_gap; [apply ignored_1; constructor|].
    apply writes_app; [now apply writes_tref | |].
    - apply writes_app; [|now apply writes_directives|apply starts_directives]. destruct d as [d|]; [|apply writes_nil].
      apply (writes_gap [32%N]); [apply ignored_1; constructor|]. apply (writes_punct PEquals _ ([32%N] ++ _)), writes_gap; [apply ignored_1; constructor|].
      inversion_clear W4 as [|? ? _ W6]. now apply writes_value.
    - destruct d; [intros _; sepn|]. apply starts_directives.
  Qed.
  Lemma writes_vardefs vs : Forall writable (tk_vardefs vs) -> writes (tk_vardefs vs) (print_vardefs print_float vs).
  Proof.
    destruct vs as [|a args]; [intros _; apply writes_nil|]. unfold tk_vardefs, print_vardefs. set (l := a :: args).
    intros W. apply Forall_inv_tail in W as W1. apply Forall_app in W1. destruct W1 as (W1 & _). apply Forall_concat_map in W1.
    apply (writes_punct POpenRound). apply writes_app; [|apply (writes_punct PCloseRound), writes_nil | intros _; sepn].
    apply writes_join. rewrite Forall_forall in *. intros x I. now apply writes_vardef, W1.
  Qed.

  (** ** Selections *)
  Lemma writes_lines {A} (tk : A -> list token) (pr : A -> text) l : Forall (fun x => writes (tk x) (pr x)) l ->
    forall b lb, writes b lb -> writes (concat (map tk l) ++ b) (concat (map (fun x => pr x ++ newline) l) ++ lb).
  Proof.
    induction 1 as [|x l H F IH]; intros b lb Hb; cbn [map concat app]; [exact Hb|]. rewrite <- !app_assoc.
    apply writes_app; [exact H | | intros _; sepn]. apply writes_gap; [apply ignored_1; constructor|]. now apply IH.
  Qed.
  Definition braces (indent : nat) (lines : text) : text := [123%N] ++ newline ++ lines ++ write_indent indent ++ [125%N].
  Lemma writes_braces indent sub (pr : selection -> text) : Forall (fun x => writes (tk_selection x) (pr x)) sub ->
    writes (tk_set sub) (braces indent (concat (map (fun x => pr x ++ newline) sub))).
  Proof.
    intros F. unfold tk_set, braces. apply (writes_punct POpenBrace), writes_gap; [apply ignored_1; constructor|].
    apply writes_lines; [exact F|]. apply writes_gap; [apply ignored_indent|]. apply (writes_punct PCloseBrace), writes_nil.
  Qed.
  Lemma writes_selection s : forall indent, Forall writable (tk_selection s) -> writes (tk_selection s) (print_selection print_float indent s).
  Proof.
    induction s as [al n args ds sub IH|n ds|c ds sub IH] using selection_ind'; intros indent W; cbn [tk_selection print_selection]; cbn zeta;
      (apply writes_gap; [apply ignored_indent|]).
    - cbn [tk_selection] in W. apply Forall_app in W. destruct W as (Wa & W). inversion_clear W as [|? ? Wn W'].
      apply Forall_app in W'. destruct W' as (Wg & W'). apply Forall_app in W'. destruct W' as (Wd & Ws).
      assert (H : writes (TkName n :: tk_arguments args ++ tk_directives ds ++
          (match sub with [] => [] | _ => P POpenBrace :: concat (map tk_selection sub) ++ [P PCloseBrace] end))
        (n ++ print_arguments print_float args ++ print_directives print_float ds ++
          (match sub with [] => [] | _ => [32%N] ++ braces indent (concat (map (fun x => print_selection print_float (indent + indentation_size) x ++ newline) sub)) end))).
      { assert (S1 : forall A B : text, (A <> [] -> starts_sep A) -> (B <> [] -> starts_sep B) -> A ++ B <> [] -> starts_sep (A ++ B)).
        { intros A B HA HB. destruct A; [exact HB|]. cbn [app]. intros _. apply HA. congruence. }
        assert (S2 : (match sub with [] => [] | _ => [32%N] ++ braces indent (concat (map (fun x => print_selection print_float (indent + indentation_size) x ++ newline) sub)) end) <> [] ->
                     starts_sep (match sub with [] => [] | _ => [32%N] ++ braces indent (concat (map (fun x => print_selection print_float (indent + indentation_size) x ++ newline) sub)) end)).
        { destruct sub; [congruence|]. intros _. sepn. }
        apply (writes_app [TkName n]); [now apply writes_name | |].
        - apply writes_app; [now apply writes_arguments | |].
          + apply writes_app; [now apply writes_directives | | exact S2].
            destruct sub as [|s sub]; [apply writes_nil|]. apply writes_gap; [apply ignored_1; constructor|].
            apply (writes_braces indent (s :: sub)). apply Forall_inv_tail in Ws as Ws'. apply Forall_app in Ws'. destruct Ws' as (Ws' & _). apply Forall_concat_map in Ws'.
            rewrite Forall_forall in *. auto.
          + apply S1; [apply starts_directives | exact S2].
        - apply S1; [apply starts_arguments|]. apply S1; [apply starts_directives | exact S2]. }
      destruct al as [a|]; cbn [app]; [|exact H]. inversion_clear Wa as [|? ? Wa' _].
      rewrite <- !app_assoc. apply (writes_app [TkName a] a); [now apply writes_name | | intros _; sepn].
      apply (writes_punct PColon _ ([32%N] ++ _)), writes_gap; [apply ignored_1; constructor|]. exact H.
    - cbn [tk_selection] in W. inversion_clear W as [|? ? _ W']. inversion_clear W' as [|? ? Wn Wd].
      apply (writes_punct PEllipse), (writes_app [TkName n]); [now apply writes_name | now apply writes_directives | apply starts_directives].
    - cbn [tk_selection] in W. inversion_clear W as [|? ? _ W']. apply Forall_app in W'. destruct W' as (Wc & W'). apply Forall_app in W'. destruct W' as (Wd & Ws).
      apply Forall_inv_tail in Ws as Ws'. apply Forall_app in Ws'. destruct Ws' as (Ws' & _). apply Forall_concat_map in Ws'.
      apply (writes_punct PEllipse).
      assert (H : writes (tk_directives ds ++ tk_set sub) (print_directives print_float ds ++ [32%N] ++
          braces indent (concat (map (fun x => print_selection print_float (indent + indentation_size) x ++ newline) sub)))).
      { apply writes_app; [now apply writes_directives | | intros _; sepn]. apply writes_gap; [apply ignored_1; constructor|].
        apply writes_braces. rewrite Forall_forall in *. auto. }
      destruct c as [t|]; [|exact H].
      assert (Wt : writable (TkName (tx "on")) /\ writable (TkName t)) by (inversion_clear Wc as [|? ? W1 W2]; inversion_clear W2; auto).
      change (tx " on " ++ t) with ([32%N] ++ tx "on" ++ [32%N] ++ t). rewrite <- !app_assoc.
      apply writes_gap; [apply ignored_1; constructor|].
      apply (writes_app [TkName (tx "on")]); [now apply writes_name | | intros _; sepn]. apply writes_gap; [apply ignored_1; constructor|].
      apply (writes_app [TkName t]); [now apply writes_name | exact H |].
      intros _. destruct ds; sepn.
  Qed.
  Lemma writes_set sub : Forall writable (tk_set sub) -> writes (tk_set sub) (print_selection_set print_float 0 sub).
  Proof.
    intros W. apply (writes_braces 0 sub). inversion_clear W as [|? ? _ Ws']. apply Forall_app in Ws'. destruct Ws' as (Ws' & _). apply Forall_concat_map in Ws'.
    rewrite Forall_forall in *. intros. apply writes_selection. auto.
  Qed.

  (** ** Documents *)
  Lemma optype_is_name t : is_name (optype_word t).
  Proof. destruct t; cbn; unfold name_continue, name_start, digit; (split; [lia|]); repeat (apply Forall_cons; [lia|]); apply Forall_nil. Qed.
  Lemma writes_operation o : operation_ok o -> Forall writable (tk_operation o) -> writes (tk_operation (as_printed o)) (print_operation print_float o).
  Proof.
    destruct o as [ex ty nm vs ds sub]. unfold operation_ok, as_printed, print_operation, tk_operation. cbn [op_explicit op_type op_name op_vars op_dirs op_sel].
    intros (_ & _ & _ & O4) W.
    assert (HS : Forall writable (tk_set sub) -> writes (tk_set sub) ([32%N] ++ print_selection_set print_float 0 sub)).
    { intros W'. apply writes_gap; [apply ignored_1; constructor|]. now apply writes_set. }
    change (optype_text (if ex then ty else OQuery)) with (optype_word (if ex then ty else OQuery)).
    apply (writes_app [TkName (optype_word (if ex then ty else OQuery))]) with (la := optype_word (if ex then ty else OQuery)); [apply writes_name, optype_is_name | |].
    - destruct ex.
      + inversion_clear W as [|? ? _ W']. apply Forall_app in W'. destruct W' as (Wn & W'). apply Forall_app in W'. destruct W' as (Wv & W'). apply Forall_app in W'. destruct W' as (Wd & Ws).
        rewrite <- !app_assoc. 
        assert (H : writes (tk_vardefs vs ++ tk_directives ds ++ tk_set sub) (print_vardefs print_float vs ++ print_directives print_float ds ++ [32%N] ++ print_selection_set print_float 0 sub)).
        { apply writes_app; [now apply writes_vardefs | |].
          - apply writes_app; [now apply writes_directives | auto | intros _; sepn].
          - intros _. destruct ds; sepn. }
        destruct nm as [n|]; [|exact H]. inversion_clear Wn as [|? ? Wn' _].
        apply (writes_gap [32%N]); [apply ignored_1; constructor|]. apply (writes_app [TkName n]); [now apply writes_name | exact H |].
        intros _. destruct vs; [destruct ds|]; sepn.
      + destruct (O4 eq_refl) as (-> & -> & -> & ->). cbn [app]. auto.
    - intros _. destruct ex; [|sepn]. destruct nm as [n|]; [sepn|]. destruct vs; [destruct ds|]; sepn.
  Qed.
  Lemma writes_fragment f : Forall writable (tk_fragment f) -> writes (tk_fragment (fragment_as_printed f)) (print_fragment print_float f).
  Proof.
    destruct f as [n c ds sub]. unfold fragment_as_printed, print_fragment, tk_fragment. cbn [fr_name fr_cond fr_dirs fr_sel]. intros W.
    inversion_clear W as [|? ? W0 W']. inversion_clear W' as [|? ? W1 W'']. inversion_clear W'' as [|? ? W2 W3]. inversion_clear W3 as [|? ? W4 Ws]. apply Forall_app in Ws. destruct Ws as (_ & Ws). cbn [tk_directives map concat app].
    change (tx "fragment " ++ ?x) with (tx "fragment" ++ [32%N] ++ x).
    apply (writes_app [TkName (tx "fragment")]); [now apply writes_name | | intros _; sepn]. apply (writes_gap [32%N]); [apply ignored_1; constructor|].
    apply (writes_app [TkName n]); [now apply writes_name | | intros _; sepn].
    change (tx " on " ++ ?x) with ([32%N] ++ tx "on" ++ [32%N] ++ x). apply (writes_gap [32%N]); [apply ignored_1; constructor|].
    apply (writes_app [TkName (tx "on")]); [now apply writes_name | | intros _; sepn]. apply (writes_gap [32%N]); [apply ignored_1; constructor|].
    apply (writes_app [TkName c]); [now apply writes_name | | intros _; sepn]. apply (writes_gap [32%N]); [apply ignored_1; constructor|]. now apply writes_set.
  Qed.
  Lemma writes_document d : Forall operation_ok (doc_ops d) ->
    Forall writable (tk_document d) -> writes (tk_document (document_as_printed d)) (print_document print_float d).
  Proof.
    intros O W. unfold tk_document in *. apply Forall_app in W. destruct W as (Wo & Wf). unfold print_document, document_as_printed. cbn [doc_ops doc_frags].
    apply writes_app.
    - clear Wf. induction (doc_ops d) as [|o l IH]; [apply writes_nil|]. inversion_clear O as [|? ? O1 O2]. cbn [map concat] in *. apply Forall_app in Wo. destruct Wo as (W1 & W2).
      specialize (IH O2 W2). destruct l as [|o' l].
      + cbn [map concat join]. rewrite app_nil_r. apply writes_gap_after; [apply ignored_1; constructor | sepn | now apply writes_operation].
      + change (join newline (map (fun o => print_operation print_float o ++ newline) (o :: o' :: l)))
          with ((print_operation print_float o ++ newline) ++ newline ++ join newline (map (fun o => print_operation print_float o ++ newline) (o' :: l))).
        apply writes_app; [| |intros _; sepn].
        * apply writes_gap_after; [apply ignored_1; constructor | sepn | now apply writes_operation].
        * apply writes_gap; [apply ignored_1; constructor|]. exact IH.
    - clear Wo O. induction (doc_frags d) as [|f l IH]; [apply writes_nil|]. cbn [map concat] in *. apply Forall_app in Wf. destruct Wf as (W1 & W2).
      apply writes_app; [| apply IH; auto |].
      + apply writes_gap; [apply ignored_1; constructor|]. apply writes_gap_after; [apply ignored_1; constructor | sepn | now apply writes_fragment].
      + destruct l; cbn [map concat]; [congruence|]. intros _. sepn.
    - destruct (doc_frags d); cbn [map concat]; [congruence|]. intros _. sepn.
  Qed.
  Lemma writes_source ts l : writes ts l -> source digits parse_f64 ts l.
  Proof. intros H. rewrite <- (app_nil_r ts), <- (app_nil_r l). apply H; [exact I|]. constructor. left. constructor. Qed.
End Writes.

(** ** What the lexer yields can be written *)
Lemma lexeme_writable parse_f64 print_float t l :
  (forall b, t = TkFloat b -> float_literal (print_float b) /\ parse_f64 (print_float b) = Some b) ->
  lexeme parse_f64 t l -> writable parse_f64 print_float t.
Proof. intros HF H. destruct H; cbn; eauto. Qed.
Lemma source_writable digits parse_f64 print_float ts s :
  (forall b, In (TkFloat b) ts -> float_literal (print_float b) /\ parse_f64 (print_float b) = Some b) ->
  source digits parse_f64 ts s -> Forall (writable parse_f64 print_float) ts.
Proof. intros HF H. induction H; constructor; eauto 6 using lexeme_writable, in_eq, in_cons. eapply lexeme_writable; [|eassumption]. intros b ->. apply HF. now left. Qed.
Lemma source_writable_at digits parse_f64 print_float ts s t :
  source digits parse_f64 ts s -> In t ts -> (forall b, t = TkFloat b -> float_literal (print_float b) /\ parse_f64 (print_float b) = Some b) -> writable parse_f64 print_float t.
Proof. intros H I HF. induction H; cbn [In] in I; try destruct I as [<-|I]; try contradiction; eauto using lexeme_writable. Qed.
