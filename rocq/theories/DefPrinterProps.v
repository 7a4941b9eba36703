(** Property C15: printing a schema and reading the output again. *)
From Coq Require Import String Sorted Permutation.
From Verif Require Import Base Ast Maps Lexer LexerSpec LexerStreamProofs LexerProps Printer Parser ParserSpec ParserProps RoundTripSpec RoundTripProofs BlockPrintProofs.
From Verif Require Import DefParser DefParserSpec DefParserProofs DefParserProps Resolve ResolveSpec ResolveProofs ResolveProps DefPrinter DefPrinterSpec DefPrinterProofs DefPrinterReadProofs.
From Coq Require Import Lia.
Local Open Scope string_scope.
Local Open Scope list_scope.

Lemma split_lines_one s : Forall one_line (split_lines s).
Proof.
  induction s as [s IH] using (induction_ltof1 _ (@length N)); unfold ltof in IH. destruct s as [|c s]; [repeat constructor|]. cbn [split_lines].
  assert (Z : one_line []) by constructor.
  destruct (N.eqb_spec c 13) as [->|N1].
  - destruct s as [|d s]; [constructor; [exact Z | repeat constructor]|]. destruct (N.eqb d 10); constructor; auto; apply IH; cbn; lia.
  - assert (F : Forall one_line (split_lines s)) by (apply IH; cbn; lia). destruct (N.eqb_spec c 10) as [->|N2]; [now constructor|].
    destruct (split_lines s) as [|l ls]; [repeat constructor; auto|]. inversion_clear F. constructor; [|assumption]. constructor; auto.
Qed.
Lemma block_shows_stable n s : block_shows n (block_shows n s) = block_shows n s.
Proof.
  unfold block_shows at 2 3. set (raw := concat _ ++ repeat 32%N n). rewrite (spec_block_value_lines _ (split_lines raw) (split_lines_break raw)).
  destruct (value_stable _ (split_lines_one raw)) as (ls & L & E). cbn zeta in E. set (v := join_lines (trim (deindent (split_lines raw)))) in *.
  change (block_shows n v) with (spec_block_value (printed_raw n (str_lines v))). now rewrite (printed_value n v ls L).
Qed.
Lemma shown_stable n d : shown n (shown n d) = shown n d.
Proof. destruct d as [d|]; [|reflexivity]. cbn. now rewrite block_shows_stable. Qed.
Lemma map_stable {A} (f : A -> A) l : (forall a, f (f a) = f a) -> map f (map f l) = map f l.
Proof. intros H. rewrite map_map. now apply map_ext. Qed.
Lemma shown_ivd_stable n i : shown_ivd n (shown_ivd n i) = shown_ivd n i.
Proof. unfold shown_ivd. cbn. now rewrite shown_stable. Qed.
Lemma shown_fdef_stable f : shown_fdef (shown_fdef f) = shown_fdef f.
Proof. unfold shown_fdef. cbn [fd_name fd_desc fd_args fd_type fd_dirs fd_builtin]. now rewrite shown_stable, (map_stable _ _ (shown_ivd_stable 4)). Qed.
Lemma shown_evd_stable v : shown_evd (shown_evd v) = shown_evd v.
Proof. unfold shown_evd. cbn [ev_name ev_desc ev_dirs]. now rewrite shown_stable. Qed.
Lemma shown_ddef_stable d : shown_ddef (shown_ddef d) = shown_ddef d.
Proof. unfold shown_ddef. cbn [dd_name dd_desc dd_args dd_repeatable dd_locs dd_builtin]. now rewrite shown_stable, (map_stable _ _ (shown_ivd_stable 2)). Qed.
Lemma shown_tdef_stable t : shown_tdef (shown_tdef t) = shown_tdef t.
Proof.
  destruct t; cbn [shown_tdef];
    cbn [sc_name sc_desc sc_dirs ob_name ob_desc ob_ifaces ob_dirs ob_fields ob_builtin io_name io_desc io_dirs io_fields en_name en_desc en_dirs en_values en_builtin un_name un_desc un_dirs un_members un_fields if_name if_desc if_ifaces if_dirs if_fields];
    rewrite ?shown_stable, ?(map_stable _ _ shown_fdef_stable), ?(map_stable _ _ (shown_ivd_stable 2)), ?(map_stable _ _ shown_evd_stable); reflexivity.
Qed.
Lemma shown_schema_stable s : shown_schema (shown_schema s) = shown_schema s.
Proof.
  unfold shown_schema. cbn [s_desc s_types s_ddefs s_query s_mutation s_subscription s_dirs].
  now rewrite shown_stable, (map_stable _ _ shown_tdef_stable), (map_stable _ _ shown_ddef_stable).
Qed.

Section C15.
  (** the platform: the order of the hash maps, the lexer's parameters, reading and writing floats *)
  Variable so : list builtin.
  Variable dor : list ddef.
  Variable recover : text -> nat.
  Variable other_digit : N -> bool.
  Variable parse_f64 : text -> option N.
  Variable print_float : N -> text.
  Hypothesis scalars : Permutation so all_builtins.
  Hypothesis directives : Permutation dor all_builtin_directives.
  Hypothesis HA : forall l b, parse_f64 l = Some b -> Forall (fun c => c < 128)%N l.
  (** the floats in the text are written as float literals that are read as the same float; C77 says which are *)
  Definition floats_kept (t : text) : Prop := forall ts b, tokens_of recover other_digit parse_f64 t ts -> In (TkFloat b) ts ->
    float_literal (print_float b) /\ parse_f64 (print_float b) = Some b.
  Notation read := (read_schema_with so dor recover other_digit parse_f64).

  Lemma written_leads (xs : list (bool * sysdef)) : Forall (writable parse_f64 print_float) (concat (map (fun p => tk_sysdef (fst p) (snd p)) xs)) ->
    Forall2 (fun lead x => Forall (writable parse_f64 print_float) (tk_sysdef lead x)) (map fst xs) (map snd xs).
  Proof using. induction xs as [|[l x] xs IH]; cbn [map concat fst snd]; [constructor|]. intros W. apply Forall_app in W. destruct W as (W1 & W2). constructor; auto. Qed.
  (** the definitions of the text that was read, and those of the printed text *)
  Lemma printed_read t s : read t = inl (inl s) -> floats_kept t -> exists xs us, Forall sysdef_ok xs /\ resolve (completed so dor xs) = inl s /\
    Permutation us (sys_types xs) /\ own_types s = map (rooted (s_query s)) us /\
    read (print_schema print_float s) = match resolve (completed so dor (printed_definitions s us)) with inl s' => inl (inl s') | inr es => inr es end.
  Proof using scalars directives HA.
    unfold read_schema_with. unfold parse_schema_text. destruct (parse_sysdoc so dor (map fst (lex recover other_digit parse_f64 false t))) as [d|es] eqn:E; [|discriminate].
    destruct (resolve d) as [s0|es] eqn:R; [|discriminate]. intros [= ->] HF. apply parse_sysdoc_ok in E. destruct E as (xs & NE & F & Hi & ->).
    pose proof Hi as Ht. apply (c05_layout_only recover other_digit) in Hi; [|exact HA]. apply (source_writable _ _ print_float) in Hi; [|intros b; apply HF; exact Ht]. apply written_leads in Hi.
    destruct (unrooted so dor (map snd xs) F s R) as (us & U & OU). exists (map snd xs), us. repeat split; auto.
    pose proof (printed_source so dor directives (map snd xs) F s R parse_f64 print_float (map fst xs) Hi other_digit us U OU) as P.
    apply (c05_layout recover) in P. unfold tokens_of in P. rewrite P.
    replace (parse_sysdoc so dor _) with (inl (completed so dor (printed_definitions s us)) : defdoc + list error); [reflexivity|]. symmetry. apply parse_sysdoc_ok.
    exists (map (fun x => (false, x)) (printed_definitions s us)). rewrite map_map. cbn [snd]. rewrite map_id. repeat split; auto.
    - apply map_neq_nil. exact (ys_some so dor (map snd xs) s R us U).
    - exact (ys_ok so dor directives (map snd xs) F s R us U).
  Qed.

  (** If the printed text is one that can tell the roots, the schema comes back: the same definitions with the same names, types, arguments,
      default values, directives and roots; only descriptions come back as block strings show them. *)
  Theorem c15_schema_partial : forall t s, read t = inl (inl s) -> floats_kept t -> roots_recognisable s -> read (print_schema print_float s) = inl (inl (shown_schema s)).
  Proof using scalars directives HA.
    intros t s H HF RR. destruct (printed_read t s H HF) as (xs & us & F & R & U & OU & ->). now rewrite (printed_resolves so dor directives xs F s R us U RR).
  Qed.
  (** and these are exactly the schemas that come back with the same roots *)
  Theorem c15_same_roots_iff : forall t s, read t = inl (inl s) -> floats_kept t ->
    (exists s', read (print_schema print_float s) = inl (inl s') /\ same_roots s' s) <-> roots_recognisable s.
  Proof using scalars directives HA.
    intros t s H HF. split.
    - intros (s' & H' & SR). destruct (printed_read t s H HF) as (xs & us & F & R & U & OU & E). rewrite E in H'.
      destruct (resolve (completed so dor (printed_definitions s us))) as [s0|] eqn:R'; [|discriminate]. injection H' as ->. exact (printed_roots so dor xs s R us U s' R' SR).
    - intros RR. exists (shown_schema s). split; [exact (c15_schema_partial t s H HF RR) | repeat split].
  Qed.
  (** documents without a schema definition give such schemas, *)
  Theorem c15_without_schema_definition : forall t d s, parse_schema_text so dor recover other_digit parse_f64 t = inl d -> df_schemas d = [] -> resolve d = inl s -> roots_recognisable s.
  Proof using.
    intros t d s _ E H _. apply c14_roots in H. destruct H as (_ & _ & H). destruct (H E) as (_ & M & S). unfold has_type. split; intros T N.
    - assert (s_mutation s = Some (tx "Mutation")) by (apply M; auto). congruence.
    - assert (s_subscription s = Some (tx "Subscription")) by (apply S; auto). congruence.
  Qed.
  (** and so do printed schemas: from the first printing on, nothing changes *)
  Theorem c15_stable : forall t s, read t = inl (inl s) -> floats_kept t -> floats_kept (print_schema print_float s) -> roots_recognisable s -> read (print_schema print_float (shown_schema s)) = inl (inl (shown_schema s)).
  Proof using scalars directives HA.
    intros t s H HF HF' RR. pose proof (c15_schema_partial t s H HF RR) as H'. rewrite <- (shown_schema_stable s) at 2. apply (c15_schema_partial _ _ H' HF'). intros C.
    assert (C' : conventional_names s).
    { destruct C as (C1 & C2). split; [|exact C2]. cbn [shown_schema s_desc] in C1. now destruct (s_desc s). }
    unfold has_type. cbn [shown_schema s_types s_mutation s_subscription]. rewrite shown_names. now apply RR.
  Qed.
End C15.
(** descriptions that block strings can show come back as they are *)
Theorem c15_exact : forall s, (forall d, In d (descriptions s) -> ~ In 13%N d /\ spec_block_value (10%N :: d) = d) -> shown_schema s = s.
Proof.
  intros s H.
  assert (B : forall n d, In d (descriptions s) -> block_shows n d = d).
  { intros n d I. destruct (H d I) as (N & E). change (block_shows n d) with (read_back n d). now rewrite (read_back_plain n d N). }
  assert (O : forall n o, incl (some_text o) (descriptions s) -> shown n o = o).
  { intros n [d|] I; [|reflexivity]. unfold shown. cbn [option_map]. f_equal. apply B, I. now left. }
  assert (M : forall {A} (f : A -> A) (ds : A -> list text) l, (forall a, incl (ds a) (descriptions s) -> f a = a) -> incl (flat_map ds l) (descriptions s) -> map f l = l).
  { intros A f ds l HF HI. rewrite <- (map_id l) at 2. apply map_ext_in. intros a Ia. apply HF. intros x Ix. apply HI, in_flat_map. eauto. }
  assert (IV : forall n i, incl (some_text (iv_desc i)) (descriptions s) -> shown_ivd n i = i).
  { intros n [a b c d e] I. unfold shown_ivd. cbn [iv_name iv_desc iv_type iv_default iv_dirs] in *. now rewrite O. }
  assert (FD : forall f, incl (fdef_descriptions f) (descriptions s) -> shown_fdef f = f).
  { intros [a b c d e g] I. unfold shown_fdef, fdef_descriptions in *. cbn [fd_name fd_desc fd_args fd_type fd_dirs fd_builtin] in *. apply incl_app_inv in I. destruct I as (I1 & I2).
    rewrite O by exact I1. rewrite (M _ (shown_ivd 4) (fun i => some_text (iv_desc i))); auto. }
  assert (EV : forall v, incl (some_text (ev_desc v)) (descriptions s) -> shown_evd v = v).
  { intros [a b c] I. unfold shown_evd. cbn [ev_name ev_desc ev_dirs] in *. now rewrite O. }
  assert (TD : forall t, incl (tdef_descriptions t) (descriptions s) -> shown_tdef t = t).
  { intros [b|[a b c]|[a b c d e g]|[a b c d]|[a b c d e]|[a b c d e]|[a b c d e]] I; cbn [shown_tdef tdef_descriptions] in *;
      cbn [sc_name sc_desc sc_dirs ob_name ob_desc ob_ifaces ob_dirs ob_fields ob_builtin io_name io_desc io_dirs io_fields en_name en_desc en_dirs en_values en_builtin un_name un_desc un_dirs un_members un_fields if_name if_desc if_ifaces if_dirs if_fields] in *;
      try reflexivity; try (apply incl_app_inv in I; destruct I as (I1 & I2)).
    - now rewrite O.
    - rewrite O by exact I1. rewrite (M _ shown_fdef fdef_descriptions); auto.
    - rewrite O by exact I1. rewrite (M _ (shown_ivd 2) (fun i => some_text (iv_desc i))); auto.
    - rewrite O by exact I1. rewrite (M _ shown_evd (fun i => some_text (ev_desc i))); auto.
    - now rewrite O.
    - rewrite O by exact I1. rewrite (M _ shown_fdef fdef_descriptions); auto. }
  assert (DD : forall d, incl (ddef_descriptions d) (descriptions s) -> shown_ddef d = d).
  { intros [a b c d e g] I. unfold shown_ddef, ddef_descriptions in *. cbn [dd_name dd_desc dd_args dd_repeatable dd_locs dd_builtin] in *. apply incl_app_inv in I. destruct I as (I1 & I2).
    rewrite O by exact I1. rewrite (M _ (shown_ivd 2) (fun i => some_text (iv_desc i))); auto. }
  assert (E1 : shown 0 (s_desc s) = s_desc s) by (apply O; unfold descriptions; intros x Ix; rewrite in_app_iff; auto).
  assert (E2 : map shown_tdef (s_types s) = s_types s) by (apply (M _ shown_tdef tdef_descriptions); auto; unfold descriptions; intros x Ix; rewrite !in_app_iff; auto).
  assert (E3 : map shown_ddef (s_ddefs s) = s_ddefs s) by (apply (M _ shown_ddef ddef_descriptions); auto; unfold descriptions; intros x Ix; rewrite !in_app_iff; auto).
  unfold shown_schema. rewrite E1, E2, E3. now destruct s.
Qed.

(** ** A schema that does not come back with its roots *)
(** An explicit schema definition without a mutation root is left out by the printer, although there is a type named Mutation. *)
Definition show (s : string) : option text := match run s with inl (inl sc) => Some (print_schema (fun _ => []) sc) | _ => None end.
Definition rerun (s : string) : schema + list error + list derror := match show s with Some t => read_schema_with all_builtins all_builtin_directives (fun _ => 1) (fun _ => false) no_floats t | None => run s end.
Theorem c15_roots_refuted : exists t s s', run t = inl (inl s) /\
  read_schema_with all_builtins all_builtin_directives (fun _ => 1) (fun _ => false) no_floats (print_schema (fun _ => []) s) = inl (inl s') /\
  s_mutation s = None /\ s_mutation s' = Some (tx "Mutation").
Proof.
  pose (t := "schema { query: Query } type Query { x: Mutation } type Mutation { y: Int }").
  assert (E : exists s, run t = inl (inl s)) by (eexists; vm_compute; reflexivity). destruct E as (s & E). exists t, s.
  assert (E' : exists s', read_schema_with all_builtins all_builtin_directives (fun _ => 1) (fun _ => false) no_floats (print_schema (fun _ => []) s) = inl (inl s'))
    by (vm_compute in E; injection E as <-; eexists; vm_compute; reflexivity). destruct E' as (s' & E'). exists s'. repeat split; auto.
  - vm_compute in E. injection E as <-. reflexivity.
  - vm_compute in E. injection E as <-. vm_compute in E'. injection E' as <-. reflexivity.
Qed.
(** and if that type is not an object type, the printed text is not even accepted *)
Theorem c15_rejected_refuted : exists t s es, run t = inl (inl s) /\
  read_schema_with all_builtins all_builtin_directives (fun _ => 1) (fun _ => false) no_floats (print_schema (fun _ => []) s) = inr es.
Proof.
  pose (t := "schema { query: Query } type Query { x: Subscription } scalar Subscription").
  assert (E : exists s, run t = inl (inl s)) by (eexists; vm_compute; reflexivity). destruct E as (s & E). exists t, s. eexists. split; [exact E|].
  vm_compute in E. injection E as <-. vm_compute. reflexivity.
Qed.
(** ** Examples *)
Definition sample : string :=
  "schema @d { query: Q mutation: M } directive @d(""why"" a: [I!] = [{x: 1}]) repeatable on SCHEMA | FIELD_DEFINITION
   """"""The
      root"""""" type Q implements N & O { ""f"" f(a: I = {x: 1, y: [A, B]} @d, b: String = ""z""): U! id: ID! } interface N { id: ID! } interface O implements N @d { id: ID! }
   union U = Q | M type M { g: [S!] } scalar S @d(a: []) enum E { A ""b"" B @deprecated(reason: ""no"") } input I @oneOf { x: Int y: [E] }".
Example c15_case : exists s, run sample = inl (inl s) /\ roots_recognisable s /\ ~ conventional_names s /\ rerun sample = inl (inl s) /\ length (own_types s) = 8.
Proof.
  eexists. split; [vm_compute; reflexivity|].
  assert (N : forall s, s_query s = tx "Q" -> ~ conventional_names s) by (intros s E (_ & _ & C & _); rewrite E in C; discriminate).
  split; [intros C; exfalso; revert C; now apply N|]. split; [now apply N|]. split; vm_compute; reflexivity.
Qed.
Example c15_case_text : show "type Query { ""a"" a(x: Int = 1): [Int!] @deprecated } ""u"" union U = Query" =
  Some (tx "type Query {" ++ newline ++ tx "  """"""" ++ newline ++ tx "  a" ++ newline ++ tx "  """"""" ++ newline ++ tx "  a(" ++ newline ++ tx "    x: Int = 1" ++ newline ++
        tx "  ): [Int!] @deprecated" ++ newline ++ tx "}" ++ newline ++ newline ++ tx """""""" ++ newline ++ tx "u" ++ newline ++ tx """""""" ++ newline ++ tx "union U = Query" ++ newline).
Proof. vm_compute. reflexivity. Qed.
Print Assumptions c15_schema_partial. Print Assumptions c15_same_roots_iff. Print Assumptions c15_without_schema_definition. Print Assumptions c15_stable. Print Assumptions c15_exact.
Print Assumptions c15_roots_refuted. Print Assumptions c15_rejected_refuted.
