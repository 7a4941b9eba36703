(** Property C80: definitions can be spread over texts that are put one after the other, and those of a schema in any order. *)
From Coq Require Import String Sorted Permutation.
From Verif Require Import Base Ast Maps Lexer LexerSpec LexerStreamProofs LexerProps Parser ParserSpec ParserDocProofs ParserProps SpanProofs DefParser DefParserSpec DefParserProofs DefParserProps
  Resolve ResolveSpec ResolveProofs ResolveProps FilesSpec.
Local Open Scope string_scope.
Local Open Scope list_scope.

Section Platform.
  Variable recover : text -> nat.
  Variable other_digit : N -> bool.
  Variable parse_f64 : text -> option N.
  Hypothesis f64_ascii : forall l b, parse_f64 l = Some b -> Forall (fun c => c < 128)%N l.
  Hypothesis bom : other_digit 65279%N = false.
  Notation tokens := (tokens_of recover other_digit parse_f64).

  Lemma tokens_line a b ta tb : tokens a ta -> tokens b tb -> tokens (a ++ 10%N :: b) (ta ++ tb).
  Proof.
    intros Ha Hb. apply c05_layout. apply (source_insert other_digit parse_f64 ta a bom) with (w := [10%N]).
    - eapply source_digits; [exact recover|exact bom|]. eapply c05_layout_only; eauto.
    - apply ignored_blank; [constructor|constructor].
    - discriminate.
    - intros _. cbn. now constructor.
    - eapply source_digits; [exact recover|exact bom|]. eapply c05_layout_only; eauto.
  Qed.
  Lemma tokens_joined files tss : files <> [] -> Forall2 tokens files tss -> tokens (joined files) (concat tss).
  Proof.
    intros NE F. induction F as [|f ts files tss H F IH]; [congruence|]. destruct F as [|f' ts' files tss H' F].
    - cbn. now rewrite app_nil_r.
    - change (joined (f :: f' :: files)) with (f ++ 10%N :: joined (f' :: files)). cbn [concat]. apply tokens_line; [exact H|]. apply IH. discriminate.
  Qed.
  Lemma no_error_tokens s ts : map fst (lex recover other_digit parse_f64 false s) = map inl ts <-> tokens s ts.
  Proof. reflexivity. Qed.

  (** Documents: the operations and fragments of the texts, in order. *)
  Lemma joined_documents files ds : files <> [] -> Forall2 (fun f d => parse_text recover other_digit parse_f64 f = inl d) files ds ->
    parse_text recover other_digit parse_f64 (joined files) = inl {| doc_ops := concat (map doc_ops ds); doc_frags := concat (map doc_frags ds) |}.
  Proof.
    intros NE F. assert (K : exists xss, Forall2 (fun f xs => tokens f (concat (map tk_definition xs))) files xss /\ Forall (Forall definition_ok) xss /\ ds = map document_of xss /\ Forall (fun xs => xs <> []) xss).
    { clear NE. induction F as [|f d files ds H F IH]; [exists []; repeat split; constructor|]. destruct IH as (xss & H1 & H2 & -> & H4). apply c10_whole_documents in H as (xs & N & O & T & ->).
      exists (xs :: xss). repeat split; constructor; auto. }
    destruct K as (xss & T & O & -> & N). apply c10_whole_documents. exists (concat xss). repeat split.
    - destruct T as [|f xs files xss]; [congruence|]. inversion_clear N. destruct xs; [congruence|discriminate].
    - clear - O. induction O; cbn; [constructor|]. now apply Forall_app.
    - assert (T' : Forall2 tokens files (map (fun xs => concat (map tk_definition xs)) xss)) by (clear - T; induction T; constructor; auto).
      apply tokens_joined in T'; [|exact NE]. unfold tokens_of in T'. rewrite T'. f_equal. clear. induction xss as [|xs xss IH]; cbn; [reflexivity|]. now rewrite map_app, concat_app, IH.
    - unfold document_of. rewrite !map_map. f_equal; cbn [doc_ops doc_frags]; clear; induction xss as [|xs xss IH]; cbn; auto; now rewrite flat_map_app, IH.
  Qed.

  Section Orders.
    Variable scalar_order : list builtin.
    Variable directive_order : list ddef.
    Lemma parsed_definitions f d : parse_schema_text scalar_order directive_order recover other_digit parse_f64 f = inl d <->
      exists xs, xs <> [] /\ Forall sysdef_ok (map snd xs) /\ tokens f (concat (map (fun p => tk_sysdef (fst p) (snd p)) xs)) /\ d = completed scalar_order directive_order (map snd xs).
    Proof. apply parse_sysdoc_ok. Qed.
    Definition writes (f : text) (ys : list (bool * sysdef)) : Prop :=
      ys <> [] /\ Forall sysdef_ok (map snd ys) /\ tokens f (concat (map (fun p => tk_sysdef (fst p) (snd p)) ys)).
    Lemma written_all files : (forall f, In f files -> exists d, parse_schema_text scalar_order directive_order recover other_digit parse_f64 f = inl d) ->
      exists xss, Forall2 writes files xss.
    Proof.
      induction files as [|f files IH]; intros H; [exists []; constructor|]. destruct IH as (xss & F); [intros; apply H; now right|].
      destruct (H f (or_introl eq_refl)) as (d & P). apply parsed_definitions in P as (xs & N & O & T & _). exists (xs :: xss). constructor; [|exact F]. repeat split; auto.
    Qed.
    Lemma joined_definitions files xss : files <> [] -> Forall2 writes files xss ->
      parse_schema_text scalar_order directive_order recover other_digit parse_f64 (joined files) = inl (completed scalar_order directive_order (map snd (concat xss))).
    Proof.
      intros NE F. apply parsed_definitions. exists (concat xss). repeat split.
      - destruct F as [|f xs files xss (N & _)]; [congruence|]. destruct xs; [congruence|discriminate].
      - clear NE. induction F as [|f xs files xss (_ & O & _) F IH]; cbn; [constructor|]. rewrite map_app. now apply Forall_app.
      - assert (T : Forall2 tokens files (map (fun xs => concat (map (fun p => tk_sysdef (fst p) (snd p)) xs)) xss)) by (clear - F; induction F as [|f xs files xss (_ & _ & T) F IH]; constructor; auto).
        apply tokens_joined in T; [|exact NE]. clear - T. unfold tokens_of in *. rewrite T. f_equal. clear. induction xss as [|xs xss IH]; cbn; [reflexivity|]. now rewrite map_app, concat_app, IH.
    Qed.
  End Orders.
End Platform.

Lemma Forall2_permuted {A B} (R : A -> B -> Prop) l l' : Permutation l l' -> forall m, Forall2 R l m -> exists m', Permutation m m' /\ Forall2 R l' m'.
Proof.
  induction 1 as [|x l l' P IH|x y l|l l' l'' P IH P' IH']; intros m F.
  - exists m. auto.
  - inversion F as [|? b ? n H1 H2]; subst. destruct (IH n H2) as (n' & Q & G). exists (b :: n'). auto.
  - inversion F as [|? b ? n H1 H2]; subst. inversion H2 as [|? c ? n' H3 H4]; subst. exists (c :: b :: n'). split; [apply perm_swap|]. auto.
  - destruct (IH m F) as (m' & Q & G). destruct (IH' m' G) as (m'' & Q' & G'). exists m''. split; [now transitivity m'|exact G'].
Qed.
Lemma Permutation_concat {A} (l l' : list (list A)) : Permutation l l' -> Permutation (concat l) (concat l').
Proof. induction 1; cbn; auto; [now apply Permutation_app_head|rewrite !app_assoc; apply Permutation_app_tail, Permutation_app_comm|now transitivity (concat l')]. Qed.

(** ** The order of definitions *)
Lemma perm_filter_ext {A} (f g : A -> bool) l l' : (forall x, f x = g x) -> Permutation l l' -> Permutation (filter f l) (filter g l').
Proof. intros E P. rewrite (filter_ext f g E). now apply perm_filter. Qed.
Lemma tmem_ext n l l' : (forall x, In x l <-> In x l') -> tmem n l = tmem n l'.
Proof. intros H. apply eq_iff_eq_true. rewrite !tmem_In. apply H. Qed.
Lemma perm_tmem n l l' : Permutation l l' -> tmem n l = tmem n l'.
Proof. intros P. apply tmem_ext. intros x. split; apply Permutation_in; [exact P|now symmetry]. Qed.
Lemma perm_schemas xs ys : Permutation xs ys -> Permutation (sys_schemas xs) (sys_schemas ys) /\ Permutation (sys_types xs) (sys_types ys) /\ Permutation (sys_ddefs xs) (sys_ddefs ys).
Proof. intros P. repeat split; now apply Permutation_flat_map. Qed.
Lemma with_root_fields_ext l l' t : (forall x, In x l <-> In x l') -> with_root_fields l t = with_root_fields l' t.
Proof. intros H. destruct t; cbn [with_root_fields]; auto. now rewrite (tmem_ext _ l l' H). Qed.
Lemma completed_permuted so dor xs ys : Permutation xs ys ->
  Permutation (df_schemas (completed so dor xs)) (df_schemas (completed so dor ys)) /\
  Permutation (df_types (completed so dor xs)) (df_types (completed so dor ys)) /\
  Permutation (df_ddefs (completed so dor xs)) (df_ddefs (completed so dor ys)).
Proof.
  intros P. destruct (perm_schemas _ _ P) as (P1 & P2 & P3).
  assert (R : forall n, In n (query_roots (extend new_document xs)) <-> In n (query_roots (extend new_document ys))).
  { intros n. unfold query_roots, extend. cbn [df_schemas new_document app]. split; apply Permutation_in, Permutation_flat_map; [exact P1|now symmetry]. }
  unfold completed, add_root_fields, insert_directives, insert_scalars. cbn [df_schemas df_types df_ddefs]. split; [|split].
  - unfold extend. cbn [df_schemas new_document app]. exact P1.
  - assert (Q : Permutation (df_types (extend new_document xs)) (df_types (extend new_document ys))) by (unfold extend; cbn [df_types new_document]; now apply Permutation_app_head).
    rewrite (map_ext (with_root_fields _) (with_root_fields (query_roots (extend new_document ys)))) by (intros t; apply with_root_fields_ext, R).
    apply Permutation_map, Permutation_app; [exact Q|]. apply Permutation_map, perm_filter_ext; [|apply Permutation_refl]. intros b. f_equal. apply perm_tmem, Permutation_map, Q.
  - assert (Q : Permutation (df_ddefs (extend new_document xs)) (df_ddefs (extend new_document ys))) by (unfold extend; cbn [df_ddefs new_document app]; exact P3).
    apply Permutation_app; [exact Q|]. apply perm_filter_ext; [|apply Permutation_refl]. intros b. f_equal. apply perm_tmem, Permutation_map, Q.
Qed.

Section SameDefinitions.
  Variables d d' : defdoc.
  Hypothesis PS : Permutation (df_schemas d) (df_schemas d').
  Hypothesis PT : Permutation (df_types d) (df_types d').
  Hypothesis PD : Permutation (df_ddefs d) (df_ddefs d').
  Lemma value_defined_permuted v : value_defined (df_types d') (df_ddefs d') v -> value_defined (df_types d) (df_ddefs d) v.
  Proof.
    intros [i w H I|t f w H I J|x w H I].
    - eapply vd_input_field; [|exact I]. now apply (Permutation_in _ (Permutation_sym PT)).
    - eapply vd_argument; [|exact I|exact J]. now apply (Permutation_in _ (Permutation_sym PT)).
    - eapply vd_directive_argument; [|exact I]. now apply (Permutation_in _ (Permutation_sym PD)).
  Qed.
  Lemma directive_used_permuted x : directive_used (df_types d') (df_ddefs d') x -> directive_used (df_types d) (df_ddefs d) x.
  Proof.
    intros [t x' H I|t f x' H I J|v x' H I|e v x' H I J].
    - eapply du_type; [|exact I]. now apply (Permutation_in _ (Permutation_sym PT)).
    - eapply du_field; [|exact I|exact J]. now apply (Permutation_in _ (Permutation_sym PT)).
    - eapply du_value; [|exact I]. now apply value_defined_permuted.
    - eapply du_enum_value; [|exact I|exact J]. now apply (Permutation_in _ (Permutation_sym PT)).
  Qed.
  Lemma schema_of_permuted s : schema_of d s -> schema_of d' s.
  Proof.
    intros [H1 H2 H3 H4 H5 H6 H7]. assert (back : forall t, In t (df_types d') -> In t (df_types d)) by (intros t; apply Permutation_in; now symmetry).
    assert (forth : forall t, In t (df_types d) -> In t (df_types d')) by (intros t; now apply Permutation_in).
    assert (forthd : forall t, In t (df_ddefs d) -> In t (df_ddefs d')) by (intros t; now apply Permutation_in).
    assert (OB : forall n, object_named (df_types d) n -> object_named (df_types d') n) by (intros n (o & A & B); exists o; auto).
    split; auto.
    - now rewrite <- PT.
    - now rewrite <- PD.
    - destruct H5 as [A1 A2 A3 A4 A5]. split.
      + intros t f I J. destruct (A1 t f (back _ I) J) as (u & U & V). exists u. auto.
      + intros v I. destruct (A2 v (value_defined_permuted v I)) as (u & U & V). exists u. auto.
      + intros t n I J. destruct (A3 t n (back _ I) J) as (u & U & V). exists u. auto.
      + intros t n I J. destruct (A4 t n (back _ I) J) as (u & U & V). exists u. auto.
      + intros x I. destruct (A5 x (directive_used_permuted x I)) as (u & U & V). exists u. auto.
    - destruct H6 as [(e & E & R)|(E & A1 & A2 & A3 & A4 & A5)].
      + left. exists e. split; [|exact R]. rewrite E in PS. now apply Permutation_length_1_inv in PS.
      + right. rewrite E in PS. apply Permutation_nil in PS. repeat split; auto.
        * destruct (s_mutation s); cbn in *; auto. intros t I. apply A4. auto.
        * destruct (s_subscription s); cbn in *; auto. intros t I. apply A5. auto.
    - destruct H7 as (A1 & A2 & A3). repeat split; auto.
  Qed.
End SameDefinitions.

(** * C80 *)
(** a document spread over texts that are documents by themselves has their operations and their fragments, in order *)
Theorem c80_documents : forall recover other_digit parse_f64,
  (forall l b, parse_f64 l = Some b -> Forall (fun c => c < 128)%N l) -> other_digit 65279%N = false ->
  forall files ds, files <> [] -> Forall2 (fun f d => parse_text recover other_digit parse_f64 f = inl d) files ds ->
  parse_text recover other_digit parse_f64 (joined files) = inl {| doc_ops := concat (map doc_ops ds); doc_frags := concat (map doc_frags ds) |}.
Proof. intros recover other_digit parse_f64 A B files ds. apply joined_documents; assumption. Qed.

(** a schema document spread over texts that are schema documents by themselves: the definitions of each text, one text after
    the other, with the built-in definitions once for all of them *)
Theorem c80_schema_documents : forall so dor recover other_digit parse_f64,
  Permutation so all_builtins -> Permutation dor all_builtin_directives ->
  (forall l b, parse_f64 l = Some b -> Forall (fun c => c < 128)%N l) -> other_digit 65279%N = false ->
  forall files ds, files <> [] -> Forall2 (fun f d => parse_schema_text so dor recover other_digit parse_f64 f = inl d) files ds ->
  exists xss d sc di, Forall2 (fun xs e => exists sc di, document_of_definitions xs e sc di) xss ds /\
    parse_schema_text so dor recover other_digit parse_f64 (joined files) = inl d /\ document_of_definitions (concat xss) d sc di.
Proof.
  intros so dor recover other_digit parse_f64 PS PD A B files ds NE F.
  assert (K : exists xss, Forall2 (writes recover other_digit parse_f64) files xss /\ Forall2 (fun xs e => exists sc di, document_of_definitions xs e sc di) (map (map snd) xss) ds).
  { clear NE. induction F as [|f d files ds H F IH]; [exists []; repeat split; constructor|]. destruct IH as (xss & H1 & H2). apply parsed_definitions in H as (xs & N & O & T & ->).
    exists (xs :: xss). split; [constructor; [repeat split; auto|exact H1]|]. cbn [map]. constructor; [|exact H2]. now apply completed_ok. }
  destruct K as (xss & H1 & H2). exists (map (map snd) xss). eexists. destruct (completed_ok so dor PS PD (map snd (concat xss))) as (sc & di & K). exists sc, di.
  split; [exact H2|]. rewrite concat_map in K. split; [|exact K]. rewrite <- concat_map. apply joined_definitions; assumption.
Qed.

(** the order in which the texts are put does not matter for the schema: one order gives a schema exactly when the other does,
    and it is the same schema; neither does the order in which the built-in definitions are added *)
Theorem c80_schema_files : forall so so' dor dor' recover other_digit parse_f64,
  Permutation so all_builtins -> Permutation so' all_builtins -> Permutation dor all_builtin_directives -> Permutation dor' all_builtin_directives ->
  (forall l b, parse_f64 l = Some b -> Forall (fun c => c < 128)%N l) -> other_digit 65279%N = false ->
  forall files files', (forall f, In f files -> exists d, parse_schema_text so dor recover other_digit parse_f64 f = inl d) -> Permutation files files' ->
  forall S, read_schema_with so dor recover other_digit parse_f64 (joined files) = inl (inl S) <->
            read_schema_with so' dor' recover other_digit parse_f64 (joined files') = inl (inl S).
Proof.
  intros so so' dor dor' recover other_digit parse_f64 PS PS' PD PD' A B files files' H P S. rewrite (c12_order_independent so' so dor' dor recover other_digit parse_f64 (joined files')) by assumption.
  destruct files as [|f0 files0] eqn:E0; [apply Permutation_nil in P as ->; reflexivity|]. rewrite <- E0 in *. assert (NE : files <> []) by (rewrite E0; discriminate). clear E0 f0 files0.
  assert (NE' : files' <> []) by (intros ->; apply Permutation_sym, Permutation_nil in P; contradiction).
  destruct (written_all recover other_digit parse_f64 so dor files H) as (xss & W). destruct (Forall2_permuted _ _ _ P _ W) as (yss & Q & W').
  unfold read_schema_with. rewrite (joined_definitions recover other_digit parse_f64 A B so dor files xss NE W), (joined_definitions recover other_digit parse_f64 A B so dor files' yss NE' W').
  assert (R : Permutation (map snd (concat xss)) (map snd (concat yss))) by now apply Permutation_map, Permutation_concat.
  destruct (completed_permuted so dor _ _ R) as (R1 & R2 & R3).
  set (d := completed so dor (map snd (concat xss))) in *. set (d' := completed so dor (map snd (concat yss))) in *.
  assert (K : forall s, resolve d = inl s <-> resolve d' = inl s).
  { intros s. rewrite !c14_schemas. split; apply schema_of_permuted; auto; now symmetry. }
  clearbody d d'. clear - K. specialize (K S). destruct (resolve d) as [s|es], (resolve d') as [s'|es']; split; intros E; try discriminate E.
  - injection E as ->. pose proof (proj1 K eq_refl) as X. now injection X as ->.
  - injection E as ->. pose proof (proj2 K eq_refl) as X. now injection X as ->.
  - injection E as ->. discriminate (proj1 K eq_refl).
  - injection E as ->. discriminate (proj2 K eq_refl).
Qed.

(** ** Examples *)
(** two texts, the first ending with a comment and using what the second defines *)
Definition types_text : text := tx "type Query { cat: Cat } # cats".
Definition cats_text : text := tx "interface Pet { name: String! } type Cat implements Pet { name: String! } schema { query: Query }".
Definition reads (s : text) : schema + list error + list derror := read_schema_with all_builtins all_builtin_directives (fun _ => 1) (fun _ => false) no_floats s.
Example c80_schema_case :
  (exists d, parse_schema_text all_builtins all_builtin_directives (fun _ => 1) (fun _ => false) no_floats types_text = inl d) /\
  (exists d, parse_schema_text all_builtins all_builtin_directives (fun _ => 1) (fun _ => false) no_floats cats_text = inl d) /\
  summary (reads types_text) = None /\
  summary (reads (joined [types_text; cats_text])) = Some (tx "Query", None, None, 16, 5) /\
  reads (joined [cats_text; types_text]) = reads (joined [types_text; cats_text]).
Proof.
  split; [|split; [|split; [|split]]].
  - eexists. vm_compute. reflexivity.
  - eexists. vm_compute. reflexivity.
  - vm_compute. reflexivity.
  - vm_compute. reflexivity.
  - vm_compute. reflexivity.
Qed.
(** without the line feed the comment swallows the second text *)
Example c80_line_feed_needed : summary (reads (types_text ++ cats_text)) = None.
Proof. vm_compute. reflexivity. Qed.
Example c80_documents_case :
  match parse_text (fun _ => 1) (fun _ => false) no_floats (joined [tx "query A { ...f } # one"; tx "fragment f on Query { a } query B { b }"]) with
  | inl d => map op_name (doc_ops d) = [Some (tx "A"); Some (tx "B")] /\ map fr_name (doc_frags d) = [tx "f"]
  | inr _ => False
  end.
Proof. vm_compute. split; reflexivity. Qed.
Print Assumptions c80_documents. Print Assumptions c80_schema_documents. Print Assumptions c80_schema_files.
