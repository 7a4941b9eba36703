(** What the schema printer writes is the schema's tokens, laid out. *)
From Coq Require Import String.
From Verif Require Import Base Ast Lexer LexerSpec LexerStreamProofs LexerProps Printer Parser ParserSpec RoundTripSpec RoundTripProofs BlockPrintProofs.
From Verif Require Import DefParser DefParserSpec DefParserProofs DefPrinter DefPrinterSpec.
From Coq Require Import Lia.
Local Open Scope string_scope.
Local Open Scope list_scope.

Section Writes.
  Variable digits : N -> bool.
  Variable parse_f64 : text -> option N.
  Variable print_float : N -> text.
  Notation writes := (writes digits parse_f64).
  Notation source := (source digits parse_f64).
  Notation writable := (writable parse_f64 print_float).
  Ltac sepn := cbn; unfold name_continue, name_start, digit; lia.

  (** text that anything may follow *)
  Definition closed (ts : list token) (l : text) : Prop := forall ts' r, source ts' r -> source (ts ++ ts') (l ++ r).
  Lemma closed_writes ts l : closed ts l -> writes ts l.
  Proof. intros H ts' r _. apply H. Qed.
  Lemma closed_nil : closed [] [].
  Proof. intros ts r H. exact H. Qed.
  Lemma closed_app a la b lb : closed a la -> closed b lb -> closed (a ++ b) (la ++ lb).
  Proof. intros Ha Hb ts r H. rewrite <- !app_assoc. auto. Qed.
  Lemma closed_then_writes a la b lb : closed a la -> writes b lb -> writes (a ++ b) (la ++ lb).
  Proof. intros Ha Hb ts r Hr H. rewrite <- !app_assoc. apply Ha, Hb; auto. Qed.
  Lemma writes_then_closed a la b lb : writes a la -> closed b lb -> starts_sep lb -> closed (a ++ b) (la ++ lb).
  Proof. intros Ha Hb S ts r H. rewrite <- !app_assoc. apply Ha; [now apply sep_app | auto]. Qed.
  Lemma closed_gap w b lb : ignored w -> closed b lb -> closed b (w ++ lb).
  Proof. intros Hw Hb ts r H. rewrite <- app_assoc. apply source_gap; auto. Qed.
  Lemma closed_ignored w : ignored w -> closed [] w.
  Proof. intros H ts r S. now apply source_gap. Qed.
  Lemma closed_punct p b lb : closed b lb -> closed (P p :: b) (punct_text p ++ lb).
  Proof.
    intros Hb ts r H. rewrite <- app_assoc, <- (app_nil_l (punct_text p ++ _)). cbn [app]. apply (source_token digits parse_f64 []); [constructor | constructor | exact I | auto].
  Qed.
  Lemma ignored_newline : ignored newline.
  Proof. apply ignored_1. constructor. Qed.
  Lemma closed_newline : closed [] newline.
  Proof. apply closed_ignored, ignored_newline. Qed.
  Lemma closed_line a la : writes a la -> closed a (la ++ newline).
  Proof. intros H. rewrite <- (app_nil_r a). apply writes_then_closed; [exact H | apply closed_newline | sepn]. Qed.
  Lemma writes_word n b lb : writable (TkName n) -> writes b lb -> writes (TkName n :: b) (n ++ 32%N :: lb).
  Proof.
    intros H Hb. apply (writes_app _ _ [TkName n] n); [eapply writes_name; exact H | | intros _; sepn]. apply (writes_gap _ _ [32%N]); [apply ignored_1; constructor | exact Hb].
  Qed.
  Lemma closed_word n b lb : writable (TkName n) -> closed b lb -> closed (TkName n :: b) (n ++ 32%N :: lb).
  Proof.
    intros H Hb. apply (writes_then_closed [TkName n] n); [eapply writes_name; exact H | | sepn]. apply (closed_gap [32%N]); [apply ignored_1; constructor | exact Hb].
  Qed.
  Lemma closed_description n d : closed (tk_desc (shown n d)) (print_description n d).
  Proof.
    destruct d as [s|]; [|apply closed_nil]. cbn [tk_desc shown option_map print_description]. destruct (print_block_any parse_f64 n s) as (l & -> & L).
    apply closed_gap; [apply ignored_indent|]. apply closed_line. apply (writes_token _ _ print_float). exact L.
  Qed.
  Lemma closed_join {A} (tk : A -> list token) (pr : A -> text) l : Forall (fun x => closed (tk x) (pr x)) l -> closed (concat (map tk l)) (join newline (map pr l)).
  Proof.
    induction 1 as [|x l H F IH]; [apply closed_nil|]. cbn [map concat]. destruct l as [|y l]; [cbn [map concat join]; rewrite app_nil_r; exact H|].
    change (join newline (map pr (x :: y :: l))) with (pr x ++ newline ++ join newline (map pr (y :: l))).
    apply closed_app; [exact H|]. apply closed_gap; [apply ignored_newline | exact IH].
  Qed.
  (** names with punctuators between them *)
  Lemma writes_names {A} p (tk : A -> list token) (pr : A -> text) l : Forall (fun x => writes (tk x) (pr x)) l ->
    writes (tk_sep_list false p tk l) (join ([32%N] ++ punct_text p ++ [32%N]) (map pr l)).
  Proof.
    intros F. destruct l as [|x l]; [apply writes_nil|]. cbn [tk_sep_list app]. inversion_clear F as [|? ? H F']. revert x H. induction F' as [|y l Hy F IH]; intros x H.
    - cbn [map concat join]. now rewrite app_nil_r.
    - change (join ?s (map pr (x :: y :: l))) with (pr x ++ s ++ join s (map pr (y :: l))). cbn [map concat].
      apply writes_app; [exact H | | intros _; sepn]. set (j := join _ (pr y :: map pr l)).
      replace ((32%N :: punct_text p ++ [32%N]) ++ j) with ([32%N] ++ punct_text p ++ [32%N] ++ j) by (cbn [app]; now rewrite <- app_assoc).
      apply (writes_gap _ _ [32%N]); [apply ignored_1; constructor|]. cbn [app].
      apply (writes_punct _ _ p), (writes_gap _ _ [32%N]); [apply ignored_1; constructor|]. cbn [tk_sep_list app] in IH. apply IH. exact Hy.
  Qed.
  Lemma W_app a b : Forall writable (a ++ b) -> Forall writable a /\ Forall writable b.
  Proof. apply Forall_app. Qed.
  Lemma W_cons a b : Forall writable (a :: b) -> writable a /\ Forall writable b.
  Proof. intros H. inversion_clear H. auto. Qed.
  Lemma starts_dirs ds r : starts_sep r -> starts_sep (print_directives print_float ds ++ r).
  Proof. destruct ds; [auto|]. intros _. cbn [print_directives map concat app]. sepn. Qed.

  Lemma writes_default d : Forall writable (tk_default d) -> writes (tk_default d) (match d with Some v => [32; 61; 32]%N ++ print_value print_float v | None => [] end).
  Proof.
    destruct d as [v|]; [|intros _; apply writes_nil]. intros W. apply W_cons in W. destruct W as (_ & W). cbn [tk_default].
    apply (writes_gap _ _ [32%N]); [apply ignored_1; constructor|]. apply (writes_punct _ _ PEquals _ ([32%N] ++ _)), writes_gap; [apply ignored_1; constructor|]. now apply writes_value.
  Qed.
  Lemma closed_ivd n i : Forall writable (tk_ivd i) -> closed (tk_ivd (shown_ivd n i)) (print_ivd print_float n i).
  Proof.
    destruct i as [nm d t df ds]. unfold tk_ivd, print_ivd, shown_ivd. cbn [iv_name iv_desc iv_type iv_default iv_dirs]. intros W. apply W_app in W. destruct W as (_ & W).
    apply W_cons in W. destruct W as (Wn & W). apply W_cons in W. destruct W as (_ & W). apply W_app in W. destruct W as (Wt & W). apply W_app in W. destruct W as (Wd & Ws).
    apply closed_app; [apply closed_description|]. apply closed_gap; [apply ignored_indent|].
    rewrite !app_assoc. apply closed_line. rewrite <- !app_assoc.
    apply (writes_app _ _ [TkName nm]); [eapply writes_name; exact Wn | | intros _; sepn].
    apply (writes_punct _ _ PColon _ ([32%N] ++ _)), writes_gap; [apply ignored_1; constructor|].
    apply writes_app; [eapply writes_tref; exact Wt | |].
    - apply writes_app; [now apply writes_default | now apply writes_directives | apply starts_directives].
    - destruct df; [intros _; sepn|]. apply starts_directives.
  Qed.
  Lemma concat_shown {A} (tk : A -> list token) (sh : A -> A) (pr : A -> text) l : (forall x, Forall writable (tk x) -> closed (tk (sh x)) (pr x)) ->
    Forall writable (concat (map tk l)) -> closed (concat (map tk (map sh l))) (join newline (map pr l)).
  Proof.
    intros H W. rewrite map_map. apply (closed_join (fun x => tk (sh x))). apply Forall_concat_map in W. eapply Forall_impl; [|exact W]. auto.
  Qed.
  Lemma writes_args_def n l : Forall writable (tk_args_def l) -> writes (tk_args_def (map (shown_ivd (n + 2)) l)) (print_args_def print_float n l).
  Proof.
    destruct l as [|a l]; [intros _; apply writes_nil|]. unfold tk_args_def, print_args_def. set (l' := a :: l). intros W. apply W_cons in W. destruct W as (_ & W). apply W_app in W. destruct W as (W & _).
    replace (match map (shown_ivd (n + 2)) l' with [] => [] | _ => P POpenRound :: concat (map tk_ivd (map (shown_ivd (n + 2)) l')) ++ [P PCloseRound] end)
      with (P POpenRound :: concat (map tk_ivd (map (shown_ivd (n + 2)) l')) ++ [P PCloseRound]) by reflexivity.
    apply (writes_punct _ _ POpenRound), writes_gap; [apply ignored_newline|].
    apply closed_then_writes; [apply concat_shown; [intros; now apply closed_ivd | exact W]|]. apply writes_gap; [apply ignored_indent|]. apply (writes_punct _ _ PCloseRound), writes_nil.
  Qed.
  Lemma closed_fdef f : Forall writable (tk_fdef f) -> closed (tk_fdef (shown_fdef f)) (print_fdef print_float 2 f).
  Proof.
    destruct f as [nm d args t ds b]. unfold tk_fdef, print_fdef, shown_fdef. cbn [fd_name fd_desc fd_args fd_type fd_dirs]. intros W. apply W_app in W. destruct W as (_ & W).
    apply W_cons in W. destruct W as (Wn & W). apply W_app in W. destruct W as (Wa & W). apply W_cons in W. destruct W as (_ & W). apply W_app in W. destruct W as (Wt & Wd).
    apply closed_app; [apply closed_description|]. apply closed_gap; [apply ignored_indent|].
    rewrite !app_assoc. apply closed_line. rewrite <- !app_assoc.
    apply (writes_app _ _ [TkName nm]); [eapply writes_name; exact Wn | |].
    - apply writes_app; [now apply (writes_args_def 2) | | intros _; sepn]. apply (writes_punct _ _ PColon _ ([32%N] ++ _)), writes_gap; [apply ignored_1; constructor|].
      apply writes_app; [eapply writes_tref; exact Wt | now apply writes_directives | apply starts_directives].
    - intros _. destruct args; sepn.
  Qed.
  Lemma written_shown fs : written_fields (map shown_fdef fs) = map shown_fdef (written_fields fs).
  Proof. unfold written_fields. induction fs as [|f fs IH]; [reflexivity|]. cbn [map filter shown_fdef fd_builtin]. destruct (negb (fd_builtin f)); cbn [map]; now rewrite IH. Qed.
  Lemma closed_braced {A} (tk : A -> list token) (sh : A -> A) (pr : A -> text) l : (forall x, Forall writable (tk x) -> closed (tk (sh x)) (pr x)) ->
    Forall writable (braced tk l) -> closed (braced tk (map sh l)) ([123%N] ++ newline ++ join newline (map pr l) ++ [125%N] ++ newline).
  Proof.
    intros H W. unfold braced in *. apply W_cons in W. destruct W as (_ & W). apply W_app in W. destruct W as (W & _).
    apply (closed_punct POpenBrace), closed_gap; [apply ignored_newline|]. apply closed_app; [now apply concat_shown|]. apply (closed_punct PCloseBrace), closed_newline.
  Qed.
  Lemma closed_fields fs : Forall writable (braced tk_fdef (written_fields fs)) -> closed (braced tk_fdef (written_fields (map shown_fdef fs))) (print_fields print_float 0 fs).
  Proof. intros W. rewrite written_shown. unfold print_fields. cbn [write_indent repeat app]. exact (closed_braced tk_fdef shown_fdef _ _ closed_fdef W). Qed.
  Lemma closed_evd v : Forall writable (tk_evd v) -> closed (tk_evd (shown_evd v)) (print_evd print_float v).
  Proof.
    destruct v as [nm d ds]. unfold tk_evd, print_evd, shown_evd. cbn [ev_name ev_desc ev_dirs]. intros W. apply W_app in W. destruct W as (_ & W). apply W_cons in W. destruct W as (Wn & Wd).
    apply closed_app; [apply closed_description|]. apply closed_gap; [apply ignored_indent|].
    rewrite !app_assoc. apply closed_line. apply (writes_app _ _ [TkName nm]); [eapply writes_name; exact Wn | now apply writes_directives | apply starts_directives].
  Qed.
  Lemma wname n : is_name n -> writable (TkName n).
  Proof. auto. Qed.
  Ltac wn := cbn; unfold name_continue, name_start, digit; split; [lia|]; repeat (apply Forall_cons; [lia|]); apply Forall_nil.
  Lemma writes_implements l lead : Forall writable (tk_implements lead l) -> writes (tk_implements false l) (print_implements l).
  Proof.
    destruct l as [|a l]; [intros _; apply writes_nil|]. unfold tk_implements, print_implements. set (l' := a :: l). intros W. apply W_cons in W. destruct W as (_ & W).
    change (tx " implements " ++ join (tx " & ") l') with ([32%N] ++ tx "implements" ++ 32%N :: join (tx " & ") l').
    apply writes_gap; [apply ignored_1; constructor|]. apply writes_word; [wn|]. rewrite <- (map_id l') at 2. apply (writes_names PAmpersand tk_name (fun x => x)).
    apply Forall_forall. intros x I. assert (In (TkName x) (tk_sep_list lead PAmpersand tk_name l')).
    { unfold l' in *. destruct I as [->|I]; cbn [tk_sep_list]; apply in_or_app; right; [now left|]. right. apply in_concat. exists [P PAmpersand; TkName x]. split; [|right; now left]. apply in_map_iff. exists x. auto. }
    eapply writes_name. rewrite Forall_forall in W. exact (W _ H).
  Qed.
  Lemma starts_implements l r : starts_sep r -> starts_sep (print_implements l ++ r).
  Proof. destruct l; [auto|]. intros _. cbn [print_implements]. cbn. unfold name_continue, name_start, digit. lia. Qed.
  Lemma writes_member_names lead p l : Forall writable (tk_sep_list lead p tk_name l) -> writes (tk_sep_list false p tk_name l) (join ([32%N] ++ punct_text p ++ [32%N]) l).
  Proof.
    intros W. rewrite <- (map_id l) at 2. apply writes_names. apply Forall_forall. intros x I. assert (In (TkName x) (tk_sep_list lead p tk_name l)).
    { destruct l as [|a l]; [destruct I|]. destruct I as [->|I]; cbn [tk_sep_list]; apply in_or_app; right; [now left|]. right. apply in_concat. exists [P p; TkName x]. split; [|right; now left]. apply in_map_iff. exists x. auto. }
    eapply writes_name. rewrite Forall_forall in W. exact (W _ H).
  Qed.
  Lemma location_is_name l : is_name (tx (location_word l)).
  Proof. destruct l; wn. Qed.

  Lemma closed_tdef lead t : Forall writable (tk_tdef lead t) -> closed (tk_tdef false (shown_tdef t)) (print_tdef print_float t).
  Proof.
    destruct t as [b|[n d ds]|[n d is_ ds fs b]|[n d ds fs]|[n d ds vs b]|[n d ds ms ufs]|[n d is_ ds fs]]; cbn [tk_tdef print_tdef shown_tdef];
      cbn [sc_name sc_desc sc_dirs ob_name ob_desc ob_ifaces ob_dirs ob_fields io_name io_desc io_dirs io_fields en_name en_desc en_dirs en_values un_name un_desc un_dirs un_members if_name if_desc if_ifaces if_dirs if_fields];
      [intros _; apply closed_nil | | | | | |]; intros W; apply W_app in W; destruct W as (_ & W); apply W_cons in W; destruct W as (_ & W); apply W_cons in W; destruct W as (Wn & W); (apply closed_app; [apply closed_description|]).
    - change (tx "scalar " ++ ?x) with (tx "scalar" ++ 32%N :: x). apply closed_word; [wn|]. rewrite !app_assoc. apply closed_line.
      apply (writes_app _ _ [TkName n]); [eapply writes_name; exact Wn | now apply writes_directives | apply starts_directives].
    - apply W_app in W. destruct W as (Wi & W). apply W_app in W. destruct W as (Wd & Wf). change (tx "type " ++ ?x) with (tx "type" ++ 32%N :: x). apply closed_word; [wn|].
      apply (writes_then_closed [TkName n]); [eapply writes_name; exact Wn | | apply starts_implements, starts_dirs; sepn].
      apply writes_then_closed; [eapply writes_implements; exact Wi | | apply starts_dirs; sepn].
      apply writes_then_closed; [now apply writes_directives | | sepn]. apply closed_gap; [apply ignored_1; constructor|]. now apply closed_fields.
    - apply W_app in W. destruct W as (Wd & Wf). change (tx "input " ++ ?x) with (tx "input" ++ 32%N :: x). apply closed_word; [wn|].
      apply (writes_then_closed [TkName n]); [eapply writes_name; exact Wn | | apply starts_dirs; sepn].
      apply writes_then_closed; [now apply writes_directives | | sepn]. change ([32; 123]%N ++ ?x) with ([32%N] ++ [123%N] ++ x). apply closed_gap; [apply ignored_1; constructor|].
      apply (closed_braced tk_ivd (shown_ivd 2) (print_ivd print_float 2)); [intros; now apply closed_ivd | exact Wf].
    - apply W_app in W. destruct W as (Wd & Wf). change (tx "enum " ++ ?x) with (tx "enum" ++ 32%N :: x). apply closed_word; [wn|].
      apply (writes_then_closed [TkName n]); [eapply writes_name; exact Wn | | apply starts_dirs; sepn].
      apply writes_then_closed; [now apply writes_directives | | sepn]. change ([32; 123]%N ++ ?x) with ([32%N] ++ [123%N] ++ x). apply closed_gap; [apply ignored_1; constructor|].
      apply (closed_braced tk_evd shown_evd (print_evd print_float)); [intros; now apply closed_evd | exact Wf].
    - apply W_app in W. destruct W as (Wd & Wm). apply W_cons in Wm. destruct Wm as (_ & Wm). change (tx "union " ++ ?x) with (tx "union" ++ 32%N :: x). apply closed_word; [wn|].
      change (tx " = " ++ ?x) with ([32; 61; 32]%N ++ x). rewrite !app_assoc. apply closed_line. rewrite <- !app_assoc.
      apply (writes_app _ _ [TkName n]); [eapply writes_name; exact Wn | | intros _; apply starts_dirs; sepn].
      apply writes_app; [now apply writes_directives | | intros _; sepn]. apply (writes_gap _ _ [32%N]); [apply ignored_1; constructor|].
      apply (writes_punct _ _ PEquals _ ([32%N] ++ _)), writes_gap; [apply ignored_1; constructor|]. eapply (writes_member_names lead PPipe). exact Wm.
    - apply W_app in W. destruct W as (Wi & W). apply W_app in W. destruct W as (Wd & Wf). change (tx "interface " ++ ?x) with (tx "interface" ++ 32%N :: x). apply closed_word; [wn|].
      apply (writes_then_closed [TkName n]); [eapply writes_name; exact Wn | | apply starts_implements, starts_dirs; sepn].
      apply writes_then_closed; [eapply writes_implements; exact Wi | | apply starts_dirs; sepn].
      apply writes_then_closed; [now apply writes_directives | | sepn]. apply closed_gap; [apply ignored_1; constructor|]. now apply closed_fields.
  Qed.
  Lemma closed_ddef lead d : Forall writable (tk_ddef lead d) -> closed (tk_ddef false (shown_ddef d)) (print_ddef print_float d).
  Proof.
    destruct d as [n ds args rep locs b]. unfold tk_ddef, print_ddef, shown_ddef. cbn [dd_name dd_desc dd_args dd_repeatable dd_locs]. intros W. apply W_app in W. destruct W as (_ & W).
    apply W_cons in W. destruct W as (_ & W). apply W_cons in W. destruct W as (_ & W). apply W_cons in W. destruct W as (Wn & W). apply W_app in W. destruct W as (Wa & _).
    apply closed_app; [apply closed_description|]. change (tx "directive @" ++ ?x) with (tx "directive" ++ 32%N :: punct_text PAt ++ x). apply closed_word; [wn|]. apply closed_punct.
    change (tx " on " ++ ?x) with ([32%N] ++ tx "on" ++ [32%N] ++ x). rewrite !app_assoc. apply closed_line. rewrite <- !app_assoc.
    assert (R : writes (TkName (tx "on") :: tk_sep_list false PPipe tk_location locs) (tx "on" ++ [32%N] ++ join (tx " | ") (map dloc_text locs))).
    { apply writes_word; [wn|]. apply (writes_names PPipe tk_location dloc_text). apply Forall_forall. intros l _. unfold tk_location. rewrite dloc_word. eapply writes_name, wname, location_is_name. }
    apply (writes_app _ _ [TkName n]); [eapply writes_name; exact Wn | |].
    - apply writes_app; [now apply (writes_args_def 0) | | intros _; destruct rep; sepn].
      destruct rep; cbn [app].
      + change (tx " repeatable" ++ ?x) with ([32%N] ++ tx "repeatable" ++ x). apply (writes_gap _ _ [32%N]); [apply ignored_1; constructor|]. apply writes_word; [wn|]. exact R.
      + apply (writes_gap _ _ [32%N]); [apply ignored_1; constructor|]. exact R.
    - intros _. destruct args; destruct rep; sepn.
  Qed.

  (** *** The schema definition *)
  Definition schema_definition_of (s : schema) : esdef :=
    {| es_desc := s_desc s; es_dirs := s_dirs s;
       es_roots := (OQuery, s_query s) :: (match s_mutation s with Some n => [(OMutation, n)] | None => [] end) ++ (match s_subscription s with Some n => [(OSubscription, n)] | None => [] end) |}.
  Lemma closed_root word n : is_name word -> is_name n -> closed [TkName word; P PColon; TkName n] (print_root word n).
  Proof.
    intros Hw Hn. unfold print_root. apply closed_gap; [apply ignored_blank; [constructor|]; apply ignored_1; constructor|]. rewrite !app_assoc. apply closed_line. rewrite <- !app_assoc.
    apply (writes_app _ _ [TkName word]); [eapply writes_name, wname; exact Hw | | intros _; sepn].
    apply (writes_punct _ _ PColon _ ([32%N] ++ _)), writes_gap; [apply ignored_1; constructor|]. eapply writes_name, wname; exact Hn.
  Qed.
  Lemma closed_esdef s : Forall writable (tk_directives (s_dirs s)) -> is_name (s_query s) -> (forall n, s_mutation s = Some n -> is_name n) -> (forall n, s_subscription s = Some n -> is_name n) ->
    closed (tk_esdef (schema_definition_of (shown_schema s))) (print_esdef print_float s).
  Proof.
    intros Wd Hq Hm Hs. unfold tk_esdef, print_esdef, schema_definition_of. cbn [es_desc es_dirs es_roots shown_schema s_desc s_dirs s_query s_mutation s_subscription].
    apply closed_app; [apply closed_description|].
    apply (writes_then_closed [TkName (tx "schema")]); [eapply writes_name, wname; wn | | apply starts_dirs; sepn].
    apply writes_then_closed; [now apply writes_directives | | sepn]. change ([32; 123]%N ++ ?x) with ([32%N] ++ [123%N] ++ x). apply closed_gap; [apply ignored_1; constructor|].
    apply (closed_punct POpenBrace), closed_gap; [apply ignored_newline|]. cbn [map concat]. rewrite map_app, concat_app, <- !app_assoc.
    apply closed_app; [apply closed_root; [wn | exact Hq]|].
    apply closed_app; [destruct (s_mutation s); [cbn [map concat app]; apply closed_root; [wn | auto] | apply closed_nil]|].
    apply closed_app; [destruct (s_subscription s); [cbn [map concat app]; apply closed_root; [wn | auto] | apply closed_nil]|].
    apply (closed_punct PCloseBrace), closed_newline.
  Qed.
  (** *** The whole *)
  Definition shown_definitions (s : schema) : list sysdef :=
    map (fun d => SysDirective (shown_ddef d)) (own_ddefs s) ++ map (fun t => SysType (shown_tdef t)) (own_types s) ++
    (if is_implicit s then [] else [SysSchema (schema_definition_of (shown_schema s))]).
  Lemma closed_schema s :
    Forall (fun d => exists lead, Forall writable (tk_ddef lead d)) (own_ddefs s) -> Forall (fun t => exists lead, Forall writable (tk_tdef lead t)) (own_types s) ->
    Forall writable (tk_directives (s_dirs s)) -> is_name (s_query s) -> (forall n, s_mutation s = Some n -> is_name n) -> (forall n, s_subscription s = Some n -> is_name n) ->
    closed (concat (map (tk_sysdef false) (shown_definitions s))) (print_schema print_float s).
  Proof.
    intros Hd Ht H1 H2 H3 H4. unfold shown_definitions, print_schema. rewrite !map_app, !map_map, !concat_app. cbn [tk_sysdef].
    apply closed_app; [apply (closed_join (fun d => tk_ddef false (shown_ddef d))); eapply Forall_impl; [|exact Hd]; intros d (lead & W); now apply (closed_ddef lead)|].
    assert (N : forall (b : bool) ts l, closed ts l -> closed ts ((if b then newline else []) ++ l)).
    { intros [] ts l H; [apply closed_gap; [apply ignored_newline | exact H] | exact H]. }
    apply N. apply closed_app; [apply (closed_join (fun d => tk_tdef false (shown_tdef d))); eapply Forall_impl; [|exact Ht]; intros d (lead & W); now apply (closed_tdef lead)|].
    destruct (is_implicit s); [apply closed_nil|]. apply N. cbn [map concat tk_sysdef]. rewrite app_nil_r. now apply closed_esdef.
  Qed.
  Lemma closed_source ts l : closed ts l -> source ts l.
  Proof. intros H. apply writes_source, closed_writes, H. Qed.
End Writes.
