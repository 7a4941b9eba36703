(** The analyses of an operation depend only on the operation and the fragments it needs (C88). *)
From Verif Require Import Base Ast Examples Graph Maps Doc DocSpec DocRules DocRulesSpec DocVariablesSpec FragmentsSpec FragmentCyclesProofs Operation OperationSpec OperationProofs
  Complexity ValiditySpec ValidatorCases TrimSpec TrimProofs AloneSpec AloneProofs AloneProps.
Local Open Scope string_scope.
Local Open Scope list_scope.

Section Same.
  Variable S : schema.
  Variables d d1 : document.
  Variable o : operation.
  Variable vals : list (name * value).
  Hypothesis A : alone d o d1.
  Hypothesis Ho : In o (doc_ops d).
  Hypothesis ND : NoDup (map fr_name (doc_frags d)).
  Lemma cached_alone n : needs d (op_sel o) n -> cached_fragment d1 n = cached_fragment d n.
  Proof using A Ho ND.
    intros Hn. destruct (cached_fragment d n) as [f|] eqn:E.
    - apply cached_defines, (alone_defines d d1 o A Ho ND). split; auto. apply cached_defines. auto.
    - destruct (cached_fragment d1 n) as [f|] eqn:E1; auto. apply cached_defines, (alone_defines d d1 o A Ho ND) in E1 as (E1 & _). apply cached_defines in E1. congruence.
  Qed.
  Notation cov := (covered d o).
  Definition alike (fuel fuel1 : nat) (s : selection) : Prop := forall act t b, cov [s] ->
    ~ In OFuel (ovisit S d o vals fuel act t b s) -> ~ In OFuel (ovisit S d1 o vals fuel1 act t b s) ->
    ovisit S d1 o vals fuel1 act t b s = ovisit S d o vals fuel act t b s.
  Lemma covered_one sels s : cov sels -> In s sels -> cov [s].
  Proof using.
    intros C Hi n ds O. apply (C n ds). inversion O as [? H|? al m args ds' sub H O'|? c ds' sub H O']; subst; (destruct H as [H|H]; [subst|destruct H]); [constructor; auto|eapply occ_field|eapply occ_inline]; eauto.
  Qed.
  Lemma alike_set fuel fuel1 act t b sub : (forall s, In s sub -> alike fuel fuel1 s) -> cov sub ->
    ~ In OFuel (ovisit_set S d o vals fuel act t b sub) -> ~ In OFuel (ovisit_set S d1 o vals fuel1 act t b sub) ->
    ovisit_set S d1 o vals fuel1 act t b sub = ovisit_set S d o vals fuel act t b sub.
  Proof using.
    unfold ovisit_set. intros H C N N1. assert (K : forall s, In s sub -> cov [s]) by (intros; eapply covered_one; eauto). clear C.
    induction sub as [|s sub IH]; auto. cbn [flat_map] in *. f_equal.
    - apply H; [left; auto|apply K; left; auto| |]; intros Hin; [apply N|apply N1]; apply in_or_app; auto.
    - apply IH; auto using in_cons; intros Hin; [apply N|apply N1]; apply in_or_app; auto.
  Qed.
  Lemma visits_alike fuel1 : forall s fuel, alike fuel fuel1 s.
  Proof using A Ho ND.
    induction fuel1 as [fuel1 IHf] using lt_wf_ind.
    induction s as [al n args ds sub IH|n ds|c ds sub IH] using selection_ind'; intros fuel act t b C N N1.
    - rewrite !ovisit_field in *. destruct (get_field (td_fields t) n) as [fd|]; auto. destruct sub as [|x sub]; auto.
      destruct (get_type S (tref_base (fd_type fd))) as [t'|]; auto. rewrite Forall_forall in IH. f_equal. f_equal. f_equal. f_equal. apply alike_set.
      + intros s Hs. apply IH. auto.
      + eapply covered_field; [exact C|left; reflexivity].
      + intros Hin. apply N. apply in_or_app. right. right. apply in_or_app. right. apply in_or_app. auto.
      + intros Hin. apply N1. apply in_or_app. right. right. apply in_or_app. right. apply in_or_app. auto.
    - rewrite !ovisit_spread in *. assert (Hn : needs d (op_sel o) n) by (eapply C; constructor; left; reflexivity). rewrite (cached_alone n Hn) in *.
      destruct (tmem n act); auto. destruct (cached_fragment d n) as [f|] eqn:E; auto. destruct (get_type S (fr_cond f)) as [t'|]; auto.
      destruct fuel as [|fuel]; [exfalso; apply N; apply in_or_app; right; left; auto|]. destruct fuel1 as [|fuel1]; [exfalso; apply N1; apply in_or_app; right; left; auto|].
      f_equal. apply alike_set.
      + intros s Hs. apply IHf. lia.
      + eapply covered_frag; eauto. apply cached_defines. auto.
      + intros Hin. apply N. apply in_or_app. auto.
      + intros Hin. apply N1. apply in_or_app. auto.
    - rewrite !ovisit_inline in *. destruct (match c with Some c => get_type S c | None => Some t end) as [t'|]; auto. rewrite Forall_forall in IH. f_equal. apply alike_set.
      + intros s Hs. apply IH. auto.
      + eapply covered_inline; [exact C|left; reflexivity].
      + intros Hin. apply N. apply in_or_app. auto.
      + intros Hin. apply N1. apply in_or_app. auto.
  Qed.
  Lemma calls_alone : ovisit_operation S d1 o vals = ovisit_operation S d o vals.
  Proof using A Ho ND.
    pose proof (no_fuel S d o vals) as N. pose proof (no_fuel S d1 o vals) as N1. unfold ovisit_operation in *.
    destruct (op_root_name S (op_type o)) as [m|]; auto. destruct (get_type S m) as [t|]; auto. f_equal. f_equal. apply alike_set.
    - intros s _. apply visits_alike.
    - apply covered_op.
    - intros Hin. apply N. apply in_or_app. right. apply in_or_app. auto.
    - intros Hin. apply N1. apply in_or_app. right. apply in_or_app. auto.
  Qed.
End Same.

(** Valid or not: the analyses of an operation taken out of a document are those of the operation in the document. *)
Theorem c88_analyses :
  forall (S : schema) (d : document) (o : operation) (d1 : document) (vals : list (name * value)) (requested : option name),
    NoDup (map fr_name (doc_frags d)) -> alone d o d1 -> resolve_operation d requested = inl o ->
    exists calls, analyze S d requested vals = inl calls /\ analyze S d1 requested vals = inl calls /\ analyze S d1 None vals = inl calls.
Proof.
  intros S d o d1 vals requested ND A R. assert (Ho : In o (doc_ops d)).
  { unfold resolve_operation in R. destruct requested as [n|].
    - destruct (find _ (doc_ops d)) as [o1|] eqn:E; [|discriminate]. injection R as <-. apply find_some in E. tauto.
    - destruct (doc_ops d) as [|o1 [|? ?]]; try discriminate. injection R as <-. left; auto. }
  assert (R1 : resolve_operation d1 requested = inl o).
  { unfold resolve_operation in *. rewrite (an_op _ _ _ A). destruct requested as [n|]; auto. cbn [find].
    destruct (find _ (doc_ops d)) as [o1|] eqn:E; [|discriminate]. injection R as <-. apply find_some in E as (_ & E). rewrite E. reflexivity. }
  exists (ovisit_operation S d o vals). unfold analyze. rewrite R, R1. rewrite (calls_alone S d d1 o vals A Ho ND). repeat split; auto.
  unfold resolve_operation. rewrite (an_op _ _ _ A). rewrite (calls_alone S d d1 o vals A Ho ND). reflexivity.
Qed.
Print Assumptions c88_analyses.

(** the documents of [c88_case] *)
Example c88_analyses_case :
  NoDup (map fr_name (doc_frags both_doc)) /\ alone both_doc first_op first_doc /\ resolve_operation both_doc (Some (tx "A")) = inl first_op /\
  (exists calls, analyze pets both_doc (Some (tx "A")) [] = inl calls /\ analyze pets first_doc None [] = inl calls /\ query_depth calls = 2) /\
  analyze pets both_doc None [] = inr AnonymousNotEligible.
Proof.
  split; [exact (vd_fragment_names _ _ _ _ _ both_valid)|]. split; [exact first_alone|]. split; [vm_compute; reflexivity|]. split; [|reflexivity].
  eexists. split; [vm_compute; reflexivity|]. split; [vm_compute; reflexivity|]. vm_compute. reflexivity.
Qed.
