(** C53, C54, and C56 for operations and fragments. *)
From Verif Require Import Base Ast Maps Graph Doc DocSpec DocRulesSpec FragmentsSpec DocProofs DocRules DocTypingProofs DocRulesProofs DocRulesProps
                          FragmentCycles FragmentCyclesProofs CyclesProps OperationProofs Json Typegen TypegenDe TypegenSpec TypegenProofs TypegenBorrow TypegenShapes.
Local Open Scope string_scope.
Local Open Scope list_scope.

(** * What validation gives *)
Section Validated.
  Variable S : schema.
  Variable d : document.
  Hypothesis HR : resolved S.
  Hypothesis HW : well_parsed d.
  Hypothesis HV : validated S d.
  Lemma validated_ok : document_ok S d.
  Proof.
    apply (selections_match_schema S d (rs_wf S HR) (rs_roots S HR)).
    - intros o Ho E. apply (wp_implicit d HW o Ho E).
    - destruct HV. auto.
  Qed.
  Lemma validated_sets r t sels : set_at S d r t sels -> set_errors d sels t = [].
  Proof.
    intros Hset. pose proof (va_typegen S d HV) as H. unfold typegen_errors in H. apply app_eq_nil in H as [H _].
    rewrite flat_map_nil in H. apply (H (ESelSet sels t)). apply visit_ESelSet. eauto.
  Qed.
  Lemma validated_spreads r t n ds : sel_at S d r t (SSpread n ds) -> exists f, defines d n f.
  Proof.
    intros Hs. assert (Hex : exists f, In f (doc_frags d) /\ fr_name f = n).
    { destruct (in_dec text_dec n (map fr_name (doc_frags d))) as [Hin|Hin].
      - apply in_map_iff in Hin as (f & E & Hf). eauto.
      - exfalso. assert (HE : In n (spread_target_errors d (visit S d))).
        { apply undefined_spreads_reported_exactly. split; [eauto|]. intros f Hf E. apply Hin. rewrite <- E. apply in_map; auto. }
        rewrite (va_targets S d HV) in HE. destruct HE. }
    destruct Hex as (f & Hf & E). destruct (cached_fragment d n) as [g|] eqn:Ec; [exists g; apply cached_defines; auto|].
    exfalso. unfold cached_fragment in Ec. eapply assoc_last_None in Ec. apply Ec. rewrite map_map. cbn. rewrite <- E. apply in_map; auto.
  Qed.
  Lemma validated_fragments : NoDup (map fr_name (doc_frags d)).
  Proof.
    apply duplicates_nil. destruct (duplicates fr_name (doc_frags d)) as [|[n fs] l] eqn:E; auto. exfalso.
    assert (H : In (n, fs) (fragment_name_errors (visit S d))).
    { apply repeated_fragment_names_reported_exactly. apply duplicates_In. rewrite E. left; auto. }
    rewrite (va_names S d HV) in H. destruct H.
  Qed.
  Lemma unique_defines f : In f (doc_frags d) -> defines d (fr_name f) f.
  Proof.
    intros Hf. apply in_split in Hf as (b & a & E). exists b, a. split; auto. split; auto.
    pose proof validated_fragments as H. rewrite E, map_app in H. cbn in H. apply NoDup_remove_2 in H.
    intros Hin. apply H. apply in_or_app. auto.
  Qed.
End Validated.

(** * C53: no panic *)
(** The generator's own rule does not panic once the standard rules have passed. *)
Theorem generator_rule_never_panics : forall S d,
  spread_target_errors d (visit S d) = [] -> ~ In TPanic (typegen_errors d (visit S d)).
Proof.
  intros S d Ht H. unfold typegen_errors in H. apply in_app_iff in H as [H|H]; apply in_flat_map in H as (ev & Hev & H); destruct ev; try destruct H.
  - assert (Hno : forall A (f : A -> tgerr) l, (forall a, f a <> TPanic) -> ~ In TPanic (map f l)).
    { intros A f l Hf Hin. apply in_map_iff in Hin as (a & E & _). apply (Hf a E). }
    destruct t; cbn in H; try destruct H.
    + unfold object_set_errors in H. apply in_app_iff in H as [H|H].
      * destruct (isolated sels); [destruct H|destruct H|destruct H as [E|[]]; discriminate].
      * revert H. apply Hno. discriminate.
    + unfold union_set_errors in H. destruct (typename_first sels) as [ht others].
      assert (Hrest : forall a b c e, ~ In TPanic ((if ht then [] else [TNoTypename]) ++
                map (fun f : option name * name => TFieldOnUnion (fst f) (snd f)) a ++ map (fun x => TInlineNotMember x b) c ++
                map (fun g : name * list (option name) => TRepeatedCondition (fst g) (length (snd g))) e)).
      { intros a b c e Hin. rewrite !in_app_iff in Hin. destruct Hin as [Hin|[Hin|[Hin|Hin]]]; try (revert Hin; apply Hno; discriminate).
        destruct ht; [destruct Hin|destruct Hin as [E|[]]; discriminate]. }
      destruct (isolated sels); [eapply Hrest; exact H|destruct H|]. destruct H as [E|H]; [discriminate|eapply Hrest; exact H].
    + unfold interface_set_errors in H. apply in_app_iff in H as [H|H]; [|revert H; apply Hno; discriminate].
      destruct (isolated sels) as [|n|n] eqn:Ei; [destruct H| |destruct H as [E|[]]; discriminate].
      apply isolated_spread in Ei as (ds & ->). apply visit_ESelSet in Hev as (r & Hset).
      destruct (cached_fragment d n) as [f|] eqn:Ec; [destruct (tmem _ _); [destruct H|destruct H as [E|[]]; discriminate]|].
      apply assoc_last_None in Ec. rewrite map_map in Ec. cbn in Ec.
      assert (HE : In n (spread_target_errors d (visit S d))).
      { apply undefined_spreads_reported_exactly. split; [exists r, (DInterface d0), ds; exists [SSpread n ds]; split; [auto|left; auto]|].
        intros f Hf E. apply Ec. rewrite <- E. apply in_map. auto. }
      rewrite Ht in HE. destruct HE.
  - unfold clash_errors in H. destruct (cached_fragment d _); [destruct H as [E|[]]; discriminate|destruct H].
Qed.
Print Assumptions generator_rule_never_panics.

(** Conversion of an accepted document succeeds. Missing from the full claim: a fragment spread inside an inline fragment on a
    union, see [generation_never_panics_refuted]. (That custom scalars have an alias is checked before, lib.rs:197-213.) *)
Theorem generation_never_panics_partial : forall S d borrow scalar_borrows,
  resolved S -> well_parsed d -> validated S d ->
  (forall x, In (DScalar x) (s_types S) -> scalar_borrows (sc_name x) <> None) ->
  no_spread_in_variants S d ->
  exists types, convert S borrow scalar_borrows d = Built types.
Proof.
  intros S d borrow sb HR HW HV Hsc Hnv.
  pose proof (validated_ok S d HR HW HV) as Hok. pose proof (validated_sets S d HV) as Hsets. pose proof (validated_spreads S d HV) as Hspr.
  assert (Hset : forall p r t sels, set_at S d r t sels -> td_composite t = true -> sels <> [] -> exists e, build_set S borrow sb p t sels = Built e).
  { intros p r t sels Hs Hc Hne. apply (build_set_built S borrow sb d HR Hsets Hnv p r t sels); auto.
    - eapply set_at_In; eauto.
    - apply Forall_forall. intros s _. apply all_convert; auto. }
  assert (Hfr : forall f, In f (doc_frags d) -> exists e, build_fragment S borrow sb f = Built e).
  { intros f Hf. destruct (proj2 Hok f Hf) as (t & Ht & Hc & _). unfold build_fragment. rewrite Ht.
    pose proof (wp_frags d HW f Hf). apply In_nth_error in Hf as (i & Hi). eapply (Hset _ (RFrag i)); eauto.
    exists t, (fr_sel f). split; [constructor; auto|constructor]. }
  unfold convert.
  destruct (bseq_built (fun f => bmap (fun e => (fr_name f, e)) (build_fragment S borrow sb f)) (doc_frags d)) as (named & HN).
  { intros f Hf. destruct (Hfr f Hf) as (e & ->). cbn. eauto. }
  rewrite HN. cbn [bbind]. cbv zeta. destruct (named_frags S borrow sb d named HN) as [Hfrags Hall].
  match goal with |- context [bseq (map ?f (tmap_of named))] => destruct (bseq_built f (tmap_of named)) as (flags & HF) end.
  { intros [n e] Hin. apply assoc_NoDup in Hin; [|apply tmap_of_NoDup].
    destruct (type_borrows_exact (tmap_of named) (frags_closed S borrow sb d Hok Hspr _ Hfrags Hall) (atoms e)
                (frags_closed S borrow sb d Hok Hspr _ Hfrags Hall n e Hin)) as (b & vs & E & _).
    cbn [snd fst]. rewrite E. cbn. eauto. }
  rewrite HF. cbn [bbind].
  destruct (bseq_built (build_operation S borrow sb) (doc_ops d)) as (ops & HO).
  { intros o Ho. destruct (proj1 Hok o Ho) as (t & Ht & _). unfold build_operation.
    destruct (proj2 (op_root_name_type S (op_type o) t) Ht) as (n & -> & ->).
    pose proof (wp_ops d HW o Ho). pose proof Ho as Ho'. apply In_nth_error in Ho' as (i & Hi). eapply (Hset _ (ROp i)); eauto.
    - exists t, (op_sel o). split; [constructor; auto|constructor].
    - eapply (rs_roots S HR); eauto. }
  rewrite HO. cbn. eauto.
Qed.
Print Assumptions generation_never_panics_partial.
