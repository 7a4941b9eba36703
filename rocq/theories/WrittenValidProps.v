(** Values written in the query, for valid queries (C91): the types of the variables used as conditions and sizes follow. *)
From Verif Require Import Base Ast Examples Maps Graph Doc DocSpec DocRules DocRulesSpec DocTypingProofs DocVariables DocVariablesSpec DocVariablesProofs ValiditySpec
  Operation OperationProofs OperationProps Complexity ValidatorCases ValidAnalysisProps WrittenOutSpec WrittenOutProps.
Local Open Scope string_scope.
Local Open Scope list_scope.

(** The condition of [@skip] and [@include] is a Boolean. *)
Definition standard_conditions (S : schema) : Prop :=
  forall n dd i, n = tx "skip" \/ n = tx "include" -> get_ddef S n = Some dd -> get_ivd (dd_args dd) (tx "if") = Some i ->
    exists r, iv_type i = TBase (tx "Boolean") r.
(** Arguments called [first] and [last] of fields are integers. *)
Definition standard_sizes (S : schema) : Prop :=
  forall t n fd k i, In t (s_types S) -> has_field t n fd -> k = tx "first" \/ k = tx "last" -> get_ivd (fd_args fd) k = Some i ->
    exists r, iv_type i = TBase (tx "Int") r.

Section Valid.
  Variable S : schema.
  Variable d : document.
  Hypothesis ok : document_ok S d.

  Lemma within_type t sels t' sels' : In t (s_types S) -> within S t sels t' sels' -> In t' (s_types S).
  Proof using.
    intros Ht. assert (G : forall n td, get_type S n = Some td -> In td (s_types S)) by (intros n td H; unfold get_type in H; apply find_some in H; tauto).
    induction 1; eauto.
  Qed.
  Lemma sel_type r t s : sel_at S d r t s -> In t (s_types S).
  Proof using.
    assert (G : forall n td, get_type S n = Some td -> In td (s_types S)) by (intros n td H; unfold get_type in H; apply find_some in H; tauto).
    intros (sels & (t0 & sels0 & T & W) & _). eapply within_type; [|exact W]. inversion T as [i o t1 Hn R|i f t1 Hn R]; subst; eauto.
    unfold root_type in R. destruct (op_type o); try (destruct R as (? & R & ?)); eauto.
  Qed.

  Lemma occurs_sub_field s sels al n args ds sub : occurs (SField al n args ds sub) sels -> In s sub -> occurs s sels.
  Proof using.
    remember (SField al n args ds sub) as f eqn:E. intros H Hs. induction H; subst; [eapply occ_field; [eassumption|apply occ_here; auto]|eapply occ_field; eauto|eapply occ_inline; eauto].
  Qed.
  Lemma occurs_sub_inline s sels c ds sub : occurs (SInline c ds sub) sels -> In s sub -> occurs s sels.
  Proof using.
    remember (SInline c ds sub) as f eqn:E. intros H Hs. induction H; subst; [eapply occ_inline; [eassumption|apply occ_here; auto]|eapply occ_field; eauto|eapply occ_inline; eauto].
  Qed.
  Lemma cached_denotes n f : NoDup (map fr_name (doc_frags d)) -> assoc_last n (map (fun f => (fr_name f, f)) (doc_frags d)) = Some f ->
    exists j, nth_error (doc_frags d) j = Some f /\ denotes d n j.
  Proof using.
    intros ND H. apply assoc_last_In in H. apply in_map_iff in H as (g & [= <- <-] & Hg). apply In_nth_error in Hg as (j & Hj). exists j. split; auto.
    exists g. split; auto. split; auto. intros k h Hk E. assert (k = j); [|subst; auto].
    apply (proj1 (NoDup_nth_error (map fr_name (doc_frags d))) ND).
    - apply nth_error_Some. rewrite nth_error_map, Hk. discriminate.
    - rewrite !nth_error_map, Hk, Hj. cbn. congruence.
  Qed.
  Lemma reached_at i o : NoDup (map fr_name (doc_frags d)) -> nth_error (doc_ops d) i = Some o -> forall s, reached d o s ->
    exists r, star (refers S d) (ROp i) r /\ star (spreads_text d) (ROp i) r /\ occurs_in d s r.
  Proof using ok.
    intros ND Hi s H. induction H as [s Hs|al n args ds sub s H (r & S1 & S2 & Ho) Hs|c ds sub s H (r & S1 & S2 & Ho) Hs|n ds f s H (r & S1 & S2 & Ho) Hf Hs].
    - exists (ROp i). split; [constructor|]. split; [constructor|]. econstructor; eauto. constructor; auto.
    - exists r. split; auto. split; auto. inversion Ho; subst; econstructor; eauto using occurs_sub_field.
    - exists r. split; auto. split; auto. inversion Ho; subst; econstructor; eauto using occurs_sub_inline.
    - destruct (cached_denotes n f ND Hf) as (j & Hj & Hd). exists (RFrag j). split; [|split].
      + eapply star_trans; [exact S1|]. pose proof Ho as Ho'. apply (occurs_sel_at S d ok) in Ho' as (t & Ht). eapply star_step; [|constructor]. econstructor; eauto.
      + eapply star_trans; [exact S2|]. eapply star_step; [|constructor]. econstructor; eauto.
      + econstructor; eauto. constructor; auto.
  Qed.
End Valid.

Section Types.
  Variable S : schema.
  Variable accepts : name -> value -> Prop.
  Variable str_enum one_of : bool.
  Variable d : document.
  Hypothesis V : valid_document S accepts str_enum one_of d.
  Lemma named_type ty vt df r lf : usage_ok vt df (TBase ty r) lf -> exists r', vt = TBase ty r'.
  Proof using. intros [H|(_ & _ & H)]; inversion H; eauto. Qed.
  (** a variable given to an argument that is of a named type is declared of that type *)
  Lemma variable_declared i o r x a iv ty b :
    nth_error (doc_ops d) i = Some o -> star (refers S d) (ROp i) r -> star (spreads_text d) (ROp i) r ->
    argument_at S d r a iv -> snd a = VVar x -> iv_type iv = TBase ty b -> written_in d x r -> declared_as o ty x.
  Proof using V.
    intros Hi S1 S2 Ha Ex Et Hw. assert (D : In x (map vd_name (op_vars o))) by (apply (vd_variable_defined _ _ _ _ _ V i); auto; exists r; auto).
    apply in_map_iff in D as (v & En & Hv).
    assert (U : usage_ok (vd_type v) (vd_default v) (iv_type iv) (iv_default iv)).
    { apply (vd_variable_usages _ _ _ _ _ V i o r v); auto. exists a, iv. split; auto. rewrite Ex, En. constructor. }
    rewrite Et in U. apply named_type in U as (r' & U). exists v, r'. auto.
  Qed.
  Lemma argument_defined w args defs a : args_at S d w args defs -> In a args -> exists i, get_ivd defs (fst a) = Some i.
  Proof using V.
    intros H Hin. destruct (get_ivd defs (fst a)) as [i|] eqn:E; eauto. destruct (vd_argument_names _ _ _ _ _ V _ _ _ H a Hin) as (i & Hi & En).
    destruct (proj1 (get_ivd_None _ _) E i Hi En).
  Qed.
  Lemma valid_conditions o vals : In o (doc_ops d) -> standard_conditions S -> conditions_typed d o vals.
  Proof using V.
    intros Ho St s x dr b Hs Hdr Hn Ha _. pose proof (vd_selections _ _ _ _ _ V) as ok. apply In_nth_error in Ho as (i & Hi).
    destruct (reached_at S d ok i o (vd_fragment_names _ _ _ _ _ V) Hi s Hs) as (r & S1 & S2 & Hocc).
    pose proof Hocc as Hat. apply (occurs_sel_at S d ok) in Hat as (t & Hat). pose proof (doc_ok_sel S d ok _ _ _ Hat) as Hsok.
    assert (Hw : written_in d x r).
    { eapply wr_sel; [exact Hocc|]. assert (W : var_in_dirs x (directives_of s)) by (exists dr; split; auto; eexists; split; [exact Ha|constructor]).
      destruct s; cbn in *; auto. }
    assert (Hds : exists loc, directives_at S d r (directives_of s) loc).
    { assert (N : directives_of s <> []) by (intros E; rewrite E in Hdr; destruct Hdr). destruct s as [al n args ds sub|n ds|c ds sub]; cbn in N |- *.
      - assert (Hfd : exists fd, has_field t n fd) by (inversion Hsok; subst; unfold has_field; eauto). destruct Hfd as (fd & Hfd). eexists. eapply dirs_field; eauto.
      - eexists. eapply dirs_spread; eauto.
      - eexists. eapply dirs_inline; eauto. }
    destruct Hds as (loc & Hds). destruct (get_ddef S (dir_name dr)) as [dd|] eqn:E.
    - destruct (argument_defined (OwnDirective dd) (dir_args dr) (dd_args dd) _ ltac:(econstructor 2; eauto) Ha) as (iv & Hiv). cbn in Hiv.
      destruct (St _ _ _ Hn E Hiv) as (q & Et). eapply variable_declared; eauto; [eapply arg_directive; eauto|reflexivity].
    - exfalso. destruct (vd_directive_defined _ _ _ _ _ V dr loc ltac:(econstructor 1; eauto)) as (dd & Hdd & En).
      unfold get_ddef in E. eapply find_none in E; eauto. cbn in E. rewrite En, teqb_refl in E. discriminate.
  Qed.
  Lemma valid_sizes o vals : In o (doc_ops d) -> standard_sizes S -> sizes_typed d o vals.
  Proof using V.
    intros Ho St al n args ds sub x k z Hs Hk Ha _. pose proof (vd_selections _ _ _ _ _ V) as ok. apply In_nth_error in Ho as (i & Hi).
    destruct (reached_at S d ok i o (vd_fragment_names _ _ _ _ _ V) Hi _ Hs) as (r & S1 & S2 & Hocc).
    pose proof Hocc as Hat. apply (occurs_sel_at S d ok) in Hat as (t & Hat). pose proof (doc_ok_sel S d ok _ _ _ Hat) as Hsok.
    assert (Hw : written_in d x r) by (eapply wr_sel; [exact Hocc|]; left; eexists; split; [exact Ha|constructor]).
    assert (Hfd : exists fd, has_field t n fd) by (inversion Hsok; subst; unfold has_field; eauto). destruct Hfd as (fd & Hfd).
    destruct (argument_defined (OwnField fd) args (fd_args fd) _ ltac:(econstructor 1; eauto) Ha) as (iv & Hiv). cbn in Hiv.
    destruct (St t n fd k iv (sel_type S d _ _ _ Hat) Hfd Hk Hiv) as (q & Et). eapply variable_declared; eauto; [eapply arg_field; eauto|reflexivity].
  Qed.
End Types.

(** * C91 *)
(** Nothing is asked of how variables are used when the query is valid, conditions are Booleans and sizes are integers. *)
Theorem c91_valid :
  forall (S : schema) accepts str_enum one_of (d : document) (o : operation) (vals : list (name * value)),
    valid_document S accepts str_enum one_of d -> In o (doc_ops d) -> standard_conditions S ->
    (forall x w y, value_of o vals x = Some w -> ~ var_in y w) ->
    let calls := ovisit_operation S d o vals in
    let calls' := ovisit_operation S (written_document o vals d) (written_operation o vals o) vals in
    query_depth calls' = query_depth calls /\
    default_complexity S calls' = default_complexity S calls /\
    (forall hook str_enum one_of, variable_value_errors S hook str_enum one_of vals calls' = variable_value_errors S hook str_enum one_of vals calls) /\
    (standard_sizes S -> forall parse_weight twice_ln,
       relay_complexity S (written_operation o vals o) vals parse_weight twice_ln calls' = relay_complexity S o vals parse_weight twice_ln calls) /\
    ((forall v, In v (op_vars o) -> vd_default v <> None -> assoc (vd_name v) vals <> None) ->
     forall mx, input_size_offenders mx vals (op_vars o) calls' = input_size_offenders mx vals (op_vars o) calls).
Proof.
  intros S accepts str_enum one_of d o vals V Ho St P calls calls'.
  assert (P' : plain_values o vals) by (split; [apply (vd_variable_names _ _ _ _ _ V); auto|exact P]).
  assert (C : conditions_typed d o vals) by (eapply valid_conditions; eauto).
  destruct (c91_analyses S d o vals P' C) as (A1 & A2 & A3 & A4 & _).
  split; [exact A1|]. split; [exact A2|]. split; [exact A3|]. split; [intros Z; apply A4; eapply valid_sizes; eauto|].
  intros H. apply c91_input_sizes_partial; auto.
Qed.
Print Assumptions c91_valid.

(** ** A concrete case: the first operation of [pets_query] *)
Example c91_valid_case :
  valid_document pets (fun n x => any_value n x = None) false true pets_doc /\ In pets_op (doc_ops pets_doc) /\ standard_conditions pets /\ standard_sizes pets /\
  (forall x w y, value_of pets_op pets_values x = Some w -> ~ var_in y w) /\
  (forall v, In v (op_vars pets_op) -> vd_default v <> None -> assoc (vd_name v) pets_values <> None) /\
  written_document pets_op pets_values pets_doc <> pets_doc /\
  (exists dd i, get_ddef pets (tx "include") = Some dd /\ get_ivd (dd_args dd) (tx "if") = Some i) /\
  (exists t n fd i, In t (s_types pets) /\ has_field t n fd /\ get_ivd (fd_args fd) (tx "first") = Some i).
Proof.
  destruct c91_case as (C1 & (_ & C2) & _ & _ & C3 & C4 & _).
  split; [exact ex_pets_valid|]. split; [exact C1|]. split; [|split; [|split; [exact C2|split; [exact C3|split; [exact C4|split]]]]].
  - intros n dd i [-> | ->] H; vm_compute in H; injection H as <-; intros K; vm_compute in K; injection K as <-; eexists; reflexivity.
  - assert (A : forallb (fun t => forallb (fun fd => forallb (fun i => negb (teqb (iv_name i) (tx "first") || teqb (iv_name i) (tx "last")) ||
                  match iv_type i with TBase n _ => teqb n (tx "Int") | _ => false end) (fd_args fd)) (td_fields t)) (s_types pets) = true) by (vm_compute; reflexivity).
    intros t n fd k i Ht Hf Hk Hi. rewrite forallb_forall in A. specialize (A t Ht). rewrite forallb_forall in A.
    unfold has_field, get_field in Hf. apply find_some in Hf as (Hf & _). specialize (A fd Hf). rewrite forallb_forall in A.
    apply get_ivd_Some in Hi as (Hi & En). specialize (A i Hi). rewrite En in A.
    assert (E : teqb k (tx "first") || teqb k (tx "last") = true) by (destruct Hk as [-> | ->]; vm_compute; reflexivity). rewrite E in A. cbn in A.
    destruct (iv_type i) as [m r|]; [|discriminate]. apply teqb_eq in A. subst. eauto.
  - eexists. eexists. split; [vm_compute; reflexivity|vm_compute; reflexivity].
  - destruct (get_type pets (tx "Query")) as [t|] eqn:E; [|vm_compute in E; discriminate E]. exists t, (tx "pets").
    destruct (get_field (td_fields t) (tx "pets")) as [fd|] eqn:F; [|vm_compute in E; injection E as <-; vm_compute in F; discriminate F].
    exists fd. destruct (get_ivd (fd_args fd) (tx "first")) as [i|] eqn:G; [|vm_compute in E; injection E as <-; vm_compute in F; injection F as <-; vm_compute in G; discriminate G].
    exists i. split; [apply get_type_Some in E; tauto|]. auto.
Qed.
