(** What reading a text guarantees: of schemas, and of executable documents. *)
From Verif Require Import Base Ast Graph Maps Doc DocSpec DocRulesSpec FragmentsSpec ValueEqSpec MergingSpec Lexer LexerSpec LexerProps Parser ParserSpec ParserProofs ParserProps
  DefParser Resolve ResolveSpec ResolveProofs ResolveProps RoundTripSpec RoundTripProofs TypegenSpec.

(** * Schemas *)
Lemma resolved_schema d s : Resolve.resolve d = inl s -> resolved s.
Proof.
  intros H. pose proof (c13_references _ _ H) as R. pose proof (c14_roots _ _ H) as ((Rq & Rm & Rs) & _). apply resolve_schema in H. pose proof (so_types_sorted _ _ H) as Sd.
  assert (G : forall n, object_named (s_types s) n -> exists o, get_type s n = Some (DObject o)).
  { intros n (o & I & E). exists o. rewrite <- E. change (ob_name o) with (td_name (DObject o)). apply get_type_sorted; auto. }
  assert (W : wf_schema s).
  { constructor.
    - destruct (G _ Rq) as (o & E). eauto.
    - intros n E. destruct (G n (Rm n E)) as (o & E'). eauto.
    - intros n E. destruct (G n (Rs n E)) as (o & E'). eauto.
    - intros t f Ht Hf. destruct (ro_fields _ _ R t f Ht Hf) as (u & I & E & K). exists u. rewrite <- E. split; auto. apply get_type_sorted; auto. }
  constructor; auto.
  - intros ty t Ht. destruct ty; cbn in Ht.
    + destruct (G _ Rq) as (o & E). rewrite E in Ht. injection Ht as <-. auto.
    + destruct Ht as (n & En & Ht). destruct (G _ (Rm _ En)) as (o & E). rewrite E in Ht. injection Ht as <-. auto.
    + destruct Ht as (n & En & Ht). destruct (G _ (Rs _ En)) as (o & E). rewrite E in Ht. injection Ht as <-. auto.
  - apply Maps.sorted_NoDup; auto.
  - intros u n Hu Hn. apply G. destruct (ro_members _ _ R u n Hu Hn) as (o & I & E). exists o. auto.
Qed.
Lemma read_schema_resolved so dor recover other_digit parse_f64 st S :
  read_schema_with so dor recover other_digit parse_f64 st = inl (inl S) -> resolved S.
Proof.
  unfold read_schema_with. destruct (parse_schema_text _ _ _ _ _ _) as [d|]; [|discriminate]. destruct (Resolve.resolve d) as [y|] eqn:E; [|discriminate].
  intros [= <-]. eapply resolved_schema; eauto.
Qed.

(** * Documents *)
Lemma set_ok_nonempty l : set_ok l = true -> l <> [].
Proof. destruct l; [discriminate|congruence]. Qed.
Lemma parsed_document recover other_digit parse_f64 qt d : parse_text recover other_digit parse_f64 qt = inl d -> well_parsed d.
Proof.
  intros H. apply c10_whole_documents in H as (ds & _ & F & _ & ->). destruct (definition_ok_ops _ F) as (O1 & O2). rewrite Forall_forall in O1, O2. constructor.
  - intros o Ho E. destruct (O1 o Ho) as (_ & _ & _ & K). destruct (K E) as (K1 & K2 & _). auto.
  - intros o Ho. destruct (O1 o Ho) as (_ & _ & K & _). now apply set_ok_nonempty.
  - intros f Hf. destruct (O2 f Hf) as (_ & _ & K). now apply set_ok_nonempty.
Qed.

(** the floats of the document are those of its tokens *)
Lemma value_floats (P : N -> Prop) v : (forall b, In (TkFloat b) (tk_value v) -> P b) -> every_float P v.
Proof.
  induction v as [y|z|b|s|b| |e|vs IH|es IH] using value_ind'; intros H; try (constructor; fail).
  - constructor. apply H. left; auto.
  - constructor. rewrite Forall_forall in *. intros v Hv. apply IH; auto. intros b Hb. apply H. cbn. right. apply in_or_app. left. apply in_concat. exists (tk_value v). split; auto. now apply in_map.
  - constructor. rewrite Forall_forall in *. intros kv Hv. apply IH; auto. intros b Hb. apply H. cbn. right. apply in_or_app. left. apply in_concat.
    eexists. split; [apply in_map; exact Hv|]. cbn. auto.
Qed.
Lemma sel_tokens s sels t : In s sels -> In t (tk_selection s) -> In t (concat (map tk_selection sels)).
Proof. intros H1 H2. apply in_concat. exists (tk_selection s). split; auto. now apply in_map. Qed.
Lemma occurs_tokens s sels t : occurs s sels -> In t (tk_selection s) -> In t (concat (map tk_selection sels)).
Proof.
  induction 1 as [sels Hin|sels al n args ds sub Hin Ho IH|sels c ds sub Hin Ho IH]; intros Ht; [eapply sel_tokens; eauto| |]; eapply sel_tokens; eauto; cbn [tk_selection].
  - apply in_or_app. right. right. apply in_or_app. right. apply in_or_app. right. specialize (IH Ht). destruct sub as [|x sub]; [destruct IH|].
    right. apply in_or_app. left. exact IH.
  - right. apply in_or_app. right. apply in_or_app. right. right. apply in_or_app. left. exact (IH Ht).
Qed.
Lemma occurs_in_tokens d s r t : occurs_in d s r -> In t (tk_selection s) -> In t (tk_document d).
Proof.
  assert (K : forall l, In t (concat (map tk_selection l)) -> In t (tk_set l)) by (intros l H; right; apply in_or_app; left; exact H).
  intros [i o Ho H|i f Hf H] Ht; unfold tk_document; apply in_or_app; [left|right]; apply in_concat.
  - exists (tk_operation o). split; [apply in_map; eapply nth_error_In; eauto|]. pose proof (K _ (occurs_tokens _ _ _ H Ht)) as J. unfold tk_operation.
    destruct (op_explicit o); auto. right. apply in_or_app. right. apply in_or_app. right. apply in_or_app. right. auto.
  - exists (tk_fragment f). split; [apply in_map; eapply nth_error_In; eauto|]. pose proof (K _ (occurs_tokens _ _ _ H Ht)) as J. unfold tk_fragment.
    do 4 right. apply in_or_app. right. auto.
Qed.
Lemma argument_tokens args t : In t (tk_arguments args) <-> args <> [] /\ (t = P POpenRound \/ t = P PCloseRound \/ exists a, In a args /\ In t (tk_argument a)).
Proof.
  destruct args as [|a args]; [cbn; tauto|]. unfold tk_arguments. cbn [In]. rewrite in_app_iff, in_concat. split.
  - intros [<-|[(x & Hx & Ht)|[<-|[]]]]; (split; [congruence|]); auto. apply in_map_iff in Hx as (b & <- & Hb). eauto.
  - intros (_ & [->|[->|(b & Hb & Ht)]]); auto. + right. right. left; auto. + right. left. exists (tk_argument b). split; auto. now apply in_map.
Qed.
Lemma source_floats digits parse_f64 ts s (Q : N -> Prop) : (forall l b, float_literal l -> parse_f64 l = Some b -> Q b) ->
  source digits parse_f64 ts s -> forall b, In (TkFloat b) ts -> Q b.
Proof. intros HQ. induction 1 as [|w t l ts s Hw Hl Ha Hs IH]; intros b Hb; [destruct Hb|]. destruct Hb as [->|Hb]; auto. inversion Hl; subst. eauto. Qed.
(** Float literals are read as numbers. *)
Definition reads_numbers (parse_f64 : text -> option N) : Prop :=
  forall l b, parse_f64 l = Some b -> Forall (fun c => c < 128)%N l /\ (float_literal l -> f64 b /\ f64_number b <> NaN).
Lemma parsed_numbers recover other_digit parse_f64 qt d :
  reads_numbers parse_f64 -> parse_text recover other_digit parse_f64 qt = inl d -> plain_numbers d.
Proof.
  intros HP H r al n args ds sub Ho. apply c10_whole_documents in H as (defs & _ & F & Hi & ->).
  apply (c05_layout_only recover other_digit) in Hi; [|intros l b Hl; apply (HP l b Hl)].
  assert (K : forall b, In (TkFloat b) (tk_arguments args) -> f64 b /\ f64_number b <> NaN).
  { intros b Hb. apply (source_floats _ _ _ _ (fun b => f64 b /\ f64_number b <> NaN)) with (b := b) in Hi; auto.
    - intros l c Hl Hc. apply (HP l c Hc). auto.
    - apply tk_document_in. eapply occurs_in_tokens; [exact Ho|]. cbn. apply in_or_app. right. right. apply in_or_app. left. exact Hb. }
  assert (J : forall a, In a args -> forall b, In (TkFloat b) (tk_value (snd a)) -> f64 b /\ f64_number b <> NaN).
  { intros a Ha b Hb. apply K. apply argument_tokens. split; [intros ->; destruct Ha|]. right. right. exists a. split; auto. right. right. auto. }
  split; constructor; apply Forall_forall; intros a Ha; apply value_floats; intros b Hb; apply (J a Ha b Hb).
Qed.
