(** Properties C02, C03, C10, C11: documents and text. *)
From Coq Require Import String.
From Verif Require Import Base Ast Decimal10 Lexer LexerSpec LexerProps Printer Parser ParserSpec ParserProofs ParserDocProofs RoundTripSpec RoundTripProofs.
From Coq Require Import Lia.
Local Open Scope string_scope.
Local Open Scope list_scope.

(** ** C10: only whole documents parse *)
Lemma item_errors_nil items : item_errors items = [] -> items = map inl (item_tokens items).
Proof.
  induction items as [|[t|e] items IH]; cbn; [reflexivity | | discriminate]. intros H. f_equal. exact (IH H).
Qed.
Lemma item_tokens_map ts : item_tokens (map inl ts) = ts.
Proof. induction ts; cbn; [reflexivity|]. now f_equal. Qed.
Lemma item_errors_map ts : item_errors (map inl ts) = [].
Proof. induction ts; cbn; auto. Qed.
Lemma document_of_nil ds : doc_ops (document_of ds) = [] -> doc_frags (document_of ds) = [] -> ds = [].
Proof. destruct ds as [|[o|f] ds]; cbn; [reflexivity | discriminate | discriminate]. Qed.
Lemma doc_app_empty d : doc_app {| doc_ops := []; doc_frags := [] |} d = d.
Proof. destruct d. reflexivity. Qed.
(** Parsing gives the document [d] exactly when there are no lexing errors, the tokens are one or more definitions, one after
    the other and nothing else, and [d] has those definitions, in order. *)
Theorem c10_whole_documents : forall items d,
  parse_document items = inl d <->
  exists ds, ds <> [] /\ Forall definition_ok ds /\ items = map inl (concat (map tk_definition ds)) /\ d = document_of ds.
Proof.
  intros items d. split.
  - unfold parse_document. destruct (document_loop _ _ _ _ _) as [d' errs] eqn:E.
    destruct (item_errors items) as [|e es] eqn:EE; [|discriminate].
    intros H. assert (K : errs = [] /\ d = d' /\ (doc_ops d' <> [] \/ doc_frags d' <> [])).
    { destruct errs as [|e errs]; [|discriminate]. destruct (doc_ops d'); [destruct (doc_frags d')|]; cbn in H; try discriminate; injection H as <-; repeat split; auto; [right|left]; congruence. }
    destruct K as (-> & -> & NE). apply document_loop_sound in E; [|reflexivity]. destruct E as (ds & Ht & F & ->). rewrite doc_app_empty in *.
    exists ds. repeat split; auto.
    + intros ->. cbn in NE. tauto.
    + rewrite <- Ht. now apply item_errors_nil.
  - intros (ds & NE & F & -> & ->). unfold parse_document. rewrite item_tokens_map, item_errors_map, document_loop_complete; [|exact F|].
    + rewrite doc_app_empty. destruct ds as [|[o|f] ds]; [congruence| |].
      * reflexivity.
      * unfold document_of. cbn [doc_ops doc_frags flat_map app]. match goal with |- context [flat_map ?g ds] => destruct (flat_map g ds) end; reflexivity.
    + assert (length ds <= length (concat (map tk_definition ds))); [|lia]. apply concat_length_all. intros. apply tk_definition_nonempty.
Qed.
(** the definitions are determined by the tokens *)
Theorem c10_unambiguous : forall ds ds', Forall definition_ok ds -> Forall definition_ok ds' ->
  concat (map tk_definition ds) = concat (map tk_definition ds') -> ds = ds'.
Proof.
  induction ds as [|d ds IH]; intros [|d' ds'] F F' E; [reflexivity | | |].
  - cbn [map concat] in E. symmetry in E. apply app_eq_nil in E. destruct (tk_definition_nonempty d'). tauto.
  - cbn [map concat] in E. apply app_eq_nil in E. destruct (tk_definition_nonempty d). tauto.
  - cbn [map concat] in E. inversion_clear F as [|? ? O F1]. inversion_clear F' as [|? ? O' F1'].
    pose proof (try_definition_complete d (concat (map tk_definition ds)) O) as K. pose proof (try_definition_complete d' (concat (map tk_definition ds')) O') as K'.
    rewrite E in K. rewrite K' in K. injection K as -> K. f_equal. apply IH; auto.
Qed.
Definition no_floats : text -> option N := fun _ => None.
Notation read := (parse_text (fun _ => 1) (fun _ => false) no_floats).
Example c10_case :
  (exists o f, read (tx "query Q($a: [Int!]! = [1] @d) { x: f(a: $a, b: {c: E}) @skip(if: true) { ...F ... on T { g } } } fragment F on T { h }") = inl {| doc_ops := [o]; doc_frags := [f] |}) /\
  read (tx "{ a } }") = inr [EParse (PEToken (TkPunct PCloseBrace))] /\
  read (tx "{ a } b") = inr [EParse (PEToken (TkName (tx "b")))] /\
  read (tx "") = inr [EParse PEEmpty] /\
  read (tx "fragment on on T { a }") = inr [EParse (PEToken (TkName (tx "on")))] /\
  read (tx "query ($a: Int = $b) { a }") = inr [EParse (PEToken (TkVar (tx "b")))].
Proof. repeat split; try (vm_compute; eauto); vm_compute; reflexivity. Qed.

(** ** C11: a document or errors *)
Definition genuine (e : error) : Prop := match e with ELex _ => True | EParse p => p <> PEFuel /\ p <> PEPanic end.
Theorem c11_document_or_errors : forall items,
  (exists d, parse_document items = inl d) \/ (exists e es, parse_document items = inr (e :: es) /\ Forall genuine (e :: es)).
Proof.
  intros items. unfold parse_document. destruct (document_loop _ _ _ _ _) as [d errs] eqn:E.
  apply document_loop_real in E; [|lia|constructor].
  assert (G : Forall genuine (map EParse errs)).
  { apply Forall_map. eapply Forall_impl; [|exact E]. intros e (H1 & H2 & H3). now split. }
  assert (F : forall l, Forall genuine l -> (exists d', match l with [] => inl d | _ :: _ => inr l end = inl d') \/
    (exists e es, match l with [] => inl d | _ :: _ => inr l end = (inr (e :: es) : document + list error) /\ Forall genuine (e :: es))).
  { intros [|e l] H; [left; eauto | right; eauto]. }
  destruct (item_errors items) as [|e es].
  - apply F. destruct errs; [|exact G]. destruct (doc_ops d); [destruct (doc_frags d)|]; auto. constructor; [split; discriminate | constructor].
  - apply F. apply Forall_forall. intros x I. apply in_map_iff in I. destruct I as (y & <- & _). exact I.
Qed.
(** lexing errors are what is reported, whatever the tokens *)
Theorem c11_lexing_errors : forall items, item_errors items <> [] -> parse_document items = inr (map ELex (item_errors items)).
Proof.
  intros items H. unfold parse_document. destruct (document_loop _ _ _ _ _) as [d errs]. destruct (item_errors items); [congruence|]. reflexivity.
Qed.
(** an input of lexing errors only is an error as well; an empty input is reported as empty, and nothing else is *)
Theorem c11_empty : forall items, parse_document items = inr [EParse PEEmpty] <-> items = [].
Proof.
  intros items. split; [|intros ->; reflexivity]. unfold parse_document. destruct (document_loop _ _ _ _ _) as [d errs] eqn:E.
  destruct (item_errors items) as [|e es] eqn:EE; [|discriminate].
  destruct errs as [|e errs].
  - intros H. apply document_loop_sound in E; [|reflexivity]. destruct E as (ds & Ht & F & ->). rewrite doc_app_empty in *.
    assert (K : doc_ops (document_of ds) = [] /\ doc_frags (document_of ds) = []).
    { destruct (doc_ops (document_of ds)); [destruct (doc_frags (document_of ds))|]; [auto|discriminate|discriminate]. }
    destruct K as (K1 & K2). rewrite (document_of_nil _ K1 K2) in Ht. rewrite (item_errors_nil _ EE). now rewrite Ht.
  - apply document_loop_real in E; [|lia|constructor]. apply Forall_inv in E. destruct E as (_ & _ & N). cbn [map]. intros [= H _]. congruence.
Qed.
Example c11_case :
  read (tx "{ a ? }") <> inl {| doc_ops := []; doc_frags := [] |} /\ (exists e, read (tx "{ a ? }") = inr [ELex e]) /\
  read (tx "query query query {") = inr [EParse (PEIdent (TkName (tx "query")) (tx "{"))].
Proof. split; [vm_compute; discriminate|]. split; [eexists; vm_compute; reflexivity|]. vm_compute. reflexivity. Qed.

(** ** C02: values *)
(** [parse_f64] and [print_float] are the conversions of floats, [writable] asks that they fit together on the floats of the value;
    C77 says for which floats they do. *)
Theorem c02_value_roundtrip : forall recover other_digit parse_f64 print_float v const,
  value_ok const v = true -> Forall (writable parse_f64 print_float) (tk_value v) ->
  exists ts, tokens_of recover other_digit parse_f64 (print_value print_float v) ts /\ parse_value_tokens const ts = POk v [].
Proof.
  intros recover other_digit parse_f64 print_float v const O W. exists (tk_value v). split.
  - apply c05_layout, writes_source, writes_value. exact W.
  - unfold parse_value_tokens. rewrite <- (app_nil_r (tk_value v)) at 2. apply parse_value_complete; [exact O | lia].
Qed.
(** also in front of anything that does not continue it *)
Theorem c02_value_in_context : forall recover other_digit parse_f64 print_float v const ts r,
  value_ok const v = true -> Forall (writable parse_f64 print_float) (tk_value v) ->
  sep r -> source other_digit parse_f64 ts r ->
  exists ts', tokens_of recover other_digit parse_f64 (print_value print_float v ++ r) ts' /\ parse_value_tokens const ts' = POk v ts.
Proof.
  intros recover other_digit parse_f64 print_float v const ts r O W Hr H. exists (tk_value v ++ ts). split.
  - apply c05_layout. now apply writes_value.
  - unfold parse_value_tokens. apply parse_value_complete; [exact O | rewrite app_length; lia].
Qed.
Example c02_case :
  let v := VObj [(tx "a", VList [VInt (-2147483648)%Z; VStr [34; 10; 92]%N; VVar (tx "x"); VList []]); (tx "a", VObj [(tx "b", VEnum (tx "E"))]); (tx "c", VNull); (tx "d", VBool true)] in
  value_ok false v = true /\ Forall (writable no_floats (fun _ => [])) (tk_value v).
Proof.
  split; [reflexivity|]. apply Forall_forall. intros t I. vm_compute in I.
  repeat (destruct I as [<-|I]; [cbn; unfold fits_i32, name_continue, name_start, digit; first [exact Logic.I | lia | split; [lia|]; repeat (apply Forall_cons; [lia|]); apply Forall_nil]|]). destruct I.
Qed.
(** why enum names are restricted *)
Theorem c02_reserved_enums_excluded : exists v, Forall (writable no_floats (fun _ => [])) (tk_value v) /\
  exists ts v', tokens_of (fun _ => 1) (fun _ => false) no_floats (print_value (fun _ => []) v) ts /\ parse_value_tokens false ts = POk v' [] /\ v' <> v.
Proof.
  exists (VEnum (tx "true")). split.
  - constructor; [|constructor]. cbn. unfold name_continue, name_start, digit. split; [lia|]. repeat (apply Forall_cons; [lia|]). apply Forall_nil.
  - exists [TkName (tx "true")], (VBool true). repeat split. discriminate.
Qed.

(** ** C03: executable documents *)
Definition definitions_of (d : document) : list definition := map inl (doc_ops d) ++ map inr (doc_frags d).
Lemma definitions_of_document d : document_of (definitions_of d) = d.
Proof.
  destruct d as [ops frags]. unfold document_of, definitions_of. cbn [doc_ops doc_frags]. f_equal.
  - rewrite flat_map_app. rewrite <- (app_nil_r ops) at 2. f_equal; [induction ops; cbn; [reflexivity|now f_equal] | induction frags; auto].
  - rewrite flat_map_app. rewrite <- (app_nil_l frags) at 2. f_equal; [induction ops; auto | induction frags; cbn; [reflexivity|now f_equal]].
Qed.
Lemma tk_definitions_of d : concat (map tk_definition (definitions_of d)) = tk_document d.
Proof. unfold definitions_of, tk_document. now rewrite map_app, concat_app, !map_map. Qed.
(** What every well-formed document prints to is read back as that document with the query shorthand spelled out and without
    the directives of the fragment definitions. *)
Theorem c03_print_parse : forall recover other_digit parse_f64 print_float d,
  definitions_of d <> [] -> Forall operation_ok (doc_ops d) -> Forall fragment_ok (doc_frags d) ->
  Forall (writable parse_f64 print_float) (tk_document d) ->
  parse_text recover other_digit parse_f64 (print_document print_float d) = inl (document_as_printed d).
Proof.
  intros recover other_digit parse_f64 print_float d NE O F W. apply c10_whole_documents.
  exists (definitions_of (document_as_printed d)). rewrite definitions_of_document, tk_definitions_of. repeat split.
  - unfold definitions_of in *. cbn [document_as_printed doc_ops doc_frags]. destruct (doc_ops d); [destruct (doc_frags d)|]; cbn in *; congruence.
  - unfold definitions_of, document_as_printed. cbn [doc_ops doc_frags]. rewrite !map_map. apply Forall_app. split; apply Forall_map.
    + eapply Forall_impl; [|exact O]. intros o (H1 & H2 & H3 & H4). cbn. unfold operation_ok. cbn. repeat split; auto; discriminate.
    + eapply Forall_impl; [|exact F]. intros f (H1 & H2 & H3). cbn. unfold fragment_ok. cbn. auto.
  - apply c05_layout, writes_source, writes_document; auto.
Qed.
(** Hence the property for documents without directives on fragment definitions. *)
Theorem c03_roundtrip_partial : forall recover other_digit parse_f64 print_float d,
  definitions_of d <> [] -> Forall operation_ok (doc_ops d) -> Forall fragment_ok (doc_frags d) ->
  Forall (writable parse_f64 print_float) (tk_document d) -> Forall (fun f => fr_dirs f = []) (doc_frags d) ->
  exists d', parse_text recover other_digit parse_f64 (print_document print_float d) = inl d' /\ same_document d' d.
Proof.
  intros recover other_digit parse_f64 print_float d NE O F W N. exists (document_as_printed d). split; [now apply c03_print_parse|].
  split; cbn [document_as_printed doc_ops doc_frags].
  - clear - O. induction O as [|o l (H1 & H2 & H3 & H4) _ IH]; constructor; [|exact IH]. unfold same_operation, as_printed. cbn. repeat split; auto.
    destruct (op_explicit o); [reflexivity|]. symmetry. now apply H4.
  - clear - N. induction N as [|f l H _ IH]; [reflexivity|]. cbn [map]. rewrite IH. f_equal. destruct f. cbn in *. now subst.
Qed.
(** The same from the point of view of a user who has parsed some text; only the floats need an assumption: that those in the
    document are written as float literals with the same value (C77 says which are). *)
Lemma definition_ok_ops ds : Forall definition_ok ds -> Forall operation_ok (doc_ops (document_of ds)) /\ Forall fragment_ok (doc_frags (document_of ds)).
Proof. induction 1 as [|[o|f] ds O F (IH1 & IH2)]; cbn in *; split; auto; constructor; auto. Qed.
Lemma tk_document_in ds t : In t (tk_document (document_of ds)) -> In t (concat (map tk_definition ds)).
Proof.
  unfold tk_document. intros I. apply in_app_iff in I. revert I.
  induction ds as [|[o|f] ds IH]; cbn; [tauto| |]; rewrite !in_app_iff; tauto.
Qed.
Theorem c03_parsed_text_partial : forall recover other_digit parse_f64 print_float s d,
  (forall l b, parse_f64 l = Some b -> Forall (fun c => c < 128)%N l) ->
  parse_text recover other_digit parse_f64 s = inl d -> Forall (fun f => fr_dirs f = []) (doc_frags d) ->
  (forall b, In (TkFloat b) (tk_document d) -> float_literal (print_float b) /\ parse_f64 (print_float b) = Some b) ->
  exists d', parse_text recover other_digit parse_f64 (print_document print_float d) = inl d' /\ same_document d' d.
Proof.
  intros recover other_digit parse_f64 print_float s d HA H N HF. apply c10_whole_documents in H. destruct H as (ds & NE & F & Hi & ->).
  apply (c05_layout_only recover other_digit) in Hi; [|exact HA].
  destruct (definition_ok_ops _ F) as (O1 & O2). apply c03_roundtrip_partial; auto.
  - destruct ds as [|[o|f] ds]; [congruence | |]; cbn; [congruence|]. unfold definitions_of. cbn. destruct (map inl _); cbn; congruence.
  - apply Forall_forall. intros t I. eapply source_writable_at; [exact Hi|now apply tk_document_in|]. intros b ->. now apply HF.
Qed.
Theorem c03_fragment_directives_refuted : exists s d d',
  read s = inl d /\ read (print_document (fun _ => []) d) = inl d' /\ ~ same_document d' d.
Proof.
  pose (s := tx "{ ...F } fragment F on T @d { h }").
  assert (E : exists d, read s = inl d) by (eexists; vm_compute; reflexivity). destruct E as (d & E).
  assert (E' : exists d', read (print_document (fun _ => []) d) = inl d') by (vm_compute in E; injection E as <-; eexists; vm_compute; reflexivity). destruct E' as (d' & E').
  exists s, d, d'. repeat split; auto. vm_compute in E. injection E as <-. vm_compute in E'. injection E' as <-. intros (_ & H). discriminate.
Qed.
Example c03_case : exists d,
  read (tx "query Q($a: [Int!]! = [1] @d) { x: f(a: $a, b: {c: E}) @skip(if: true) { ...F ... on T @a @b { g } ... { i } } } { z } fragment F on T { h(s: """") }") = inl d /\
  Forall (fun f => fr_dirs f = []) (doc_frags d) /\ length (doc_ops d) = 2 /\ length (doc_frags d) = 1 /\
  read (print_document (fun _ => []) d) = inl (document_as_printed d).
Proof. eexists. split; [vm_compute; reflexivity|]. split; [|split; [reflexivity|split; [reflexivity|]]]. { repeat constructor. } vm_compute. reflexivity. Qed.

Print Assumptions c02_value_roundtrip. Print Assumptions c02_value_in_context. Print Assumptions c03_print_parse.
Print Assumptions c03_roundtrip_partial. Print Assumptions c03_parsed_text_partial. Print Assumptions c03_fragment_directives_refuted.
Print Assumptions c10_whole_documents. Print Assumptions c10_unambiguous. Print Assumptions c11_document_or_errors. Print Assumptions c11_lexing_errors. Print Assumptions c11_empty.
