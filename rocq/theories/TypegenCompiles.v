(** The generated code compiles: proofs of the parts of [compiles]. *)
From Verif Require Import Base Ast Maps Graph Doc DocSpec DocRulesSpec FragmentsSpec DocProofs DocRules DocTypingProofs DocRulesProofs DocRulesProps
                          FragmentCycles FragmentCyclesProofs CyclesProps OperationProofs Json Typegen TypegenDe TypegenSpec TypegenProofs TypegenBorrow
                          TypegenShapes TypegenProps.
Local Open Scope string_scope.
Local Open Scope list_scope.

Lemma items_In types p e : In (p, e) (items types) <-> In e types /\ ((exists fs, e = EStruct p fs) \/ exists vs, e = EEnum p vs).
Proof.
  unfold items. rewrite filter_map_In. split.
  - intros (e' & Hin & E). destruct e'; try discriminate; injection E as <- <-; split; eauto.
  - intros (Hin & [(fs & ->)|(vs & ->)]); eexists; split; eauto; reflexivity.
Qed.
Lemma NoDup_map_inj {A B} (f : A -> B) l : (forall a b, In a l -> In b l -> f a = f b -> a = b) -> NoDup l -> NoDup (map f l).
Proof.
  intros Hi. induction 1 as [|x l Hx Hl IH]; cbn; constructor.
  - rewrite in_map_iff. intros (y & E & Hy). apply Hx. rewrite (Hi x y); auto; [left; auto|right; auto].
  - apply IH. intros a b Ha Hb. apply Hi; right; auto.
Qed.
Lemma NoDup_app_intro {A} (l l' : list A) : NoDup l -> NoDup l' -> (forall x, In x l -> ~ In x l') -> NoDup (l ++ l').
Proof.
  induction 1 as [|x l Hx Hl IH]; cbn; intros Hl' H; auto. constructor.
  - rewrite in_app_iff. intros [Hin|Hin]; [auto|]. apply (H x); auto.
  - apply IH; auto.
Qed.
Lemma winside_base w e : inside (wbase w) e -> winside w e.
Proof. induction w; cbn; intros H; constructor; auto. Qed.
Lemma field_refs_inside e n : In n (field_refs e) -> exists b, inside e (ERef n b).
Proof.
  assert (H : forall fs, In n (filter_map (fun f : name * wtype => match wbase (snd f) with ERef n _ => Some n | _ => None end) fs) ->
                         exists k w b, In (k, w) fs /\ winside w (ERef n b)).
  { intros fs Hn. apply filter_map_In in Hn as ([k w] & Hin & E). cbn in E. destruct (wbase w) as [| |m b| |] eqn:Eb; try discriminate.
    injection E as ->. exists k, w, b. split; auto. apply winside_base. rewrite Eb. constructor. }
  destruct e as [p fs|p vs| | |]; cbn; try tauto.
  - intros Hn. apply H in Hn as (k & w & b & Hin & Hw). exists b. eapply in_struct; eauto.
  - intros Hn. apply in_flat_map in Hn as ([m fs] & Hv & Hn). apply H in Hn as (k & w & b & Hin & Hw). exists b. eapply in_enum; eauto.
Qed.

Section Compiles.
  Variable S : schema.
  Variable d : document.
  Variable borrow : bool.
  Variable scalar_borrows : name -> option bool.
  Hypothesis HR : resolved S.
  Hypothesis HW : well_parsed d.
  Hypothesis HV : validated S d.
  Variables (types : list etype) (frags : list (name * etype)) (flags : list (name * bool)) (ops : list etype).
  Hypothesis HP : parts S borrow scalar_borrows d types frags flags ops.
  Notation build_set := (build_set S borrow scalar_borrows).
  Notation build_operation := (build_operation S borrow scalar_borrows).
  Notation build_fragment := (build_fragment S borrow scalar_borrows).
  Let Hok := validated_ok S d HR HW HV.
  Let Hspr := validated_spreads S d HV.

  (** the items have the names of the operations and fragments *)
  Definition named (p : name) (e : etype) : Prop :=
    match e with EStruct q _ | EEnum q _ => q = p | _ => True end.
  Lemma build_set_named p t sels e : build_set p t sels = Built e -> named p e.
  Proof. intros H. apply build_set_result in H. destruct H; cbn; auto. destruct e; cbn in *; auto; contradiction. Qed.
  Lemma update_named p e : named p e -> named p (update flags e).
  Proof. destruct e; cbn; auto. Qed.
  Lemma build_operation_named o e : build_operation o = Built e -> named (operation_item_name o) e.
  Proof.
    unfold Typegen.build_operation. destruct (op_root_name S (op_type o)); [|discriminate]. destruct (get_type S _); [|discriminate].
    apply build_set_named.
  Qed.
  Lemma build_fragment_named f e : build_fragment f = Built e -> named (fr_name f) e.
  Proof. unfold Typegen.build_fragment. destruct (get_type S _); [|discriminate]. apply build_set_named. Qed.
  Definition keys : list name := map operation_item_name (doc_ops d) ++ map fst frags.
  Lemma types_named : Forall2 named keys types.
  Proof.
    rewrite (pt_types _ _ _ _ _ _ _ _ HP). unfold keys. rewrite map_app. apply Forall2_app.
    - generalize (pt_ops _ _ _ _ _ _ _ _ HP). generalize (doc_ops d). clear. intros l.
      induction 1 as [|o e l l' H HF IH]; cbn; constructor; auto. apply update_named. apply build_operation_named; auto.
    - assert (H : forall n e, In (n, e) frags -> named n e).
      { intros n e Hin. apply assoc_NoDup in Hin; [|apply (pt_sorted _ _ _ _ _ _ _ _ HP)].
        apply (pt_frags _ _ _ _ _ _ _ _ HP) in Hin as (f & Hd & HB). rewrite <- (defines_name _ _ _ Hd). apply build_fragment_named; auto. }
      clear HP. induction frags as [|[n e] l IH]; cbn; constructor.
      + apply update_named. apply H. left; auto.
      + apply IH. intros; apply H; right; auto.
  Qed.
  Lemma key_fragment n : In n (map fst frags) <-> exists f, defines d n f.
  Proof.
    split.
    - rewrite in_map_iff. intros ([m e] & E & Hin). cbn in E. subst m. apply assoc_NoDup in Hin; [|apply (pt_sorted _ _ _ _ _ _ _ _ HP)].
      apply (pt_frags _ _ _ _ _ _ _ _ HP) in Hin as (f & Hd & _). eauto.
    - intros (f & Hd). destruct (pt_built _ _ _ _ _ _ _ _ HP f) as (e & He); [eapply defines_In_frags; eauto|].
      assert (Ha : assoc n frags = Some e) by (apply (pt_frags _ _ _ _ _ _ _ _ HP); eauto).
      apply assoc_In in Ha. apply (in_map fst) in Ha. exact Ha.
  Qed.
  Lemma no_clash o : In o (doc_ops d) -> ~ exists f, defines d (operation_item_name o) f.
  Proof.
    intros Ho (f & Hd). apply cached_defines in Hd. pose proof (va_typegen S d HV) as H. unfold typegen_errors in H.
    apply app_eq_nil in H as [_ H]. rewrite flat_map_nil in H. specialize (H (EOp o)). cbn in H.
    unfold clash_errors in H. rewrite Hd in H. discriminate H. apply visit_EOp. auto.
  Qed.
  Lemma keys_distinct : NoDup keys.
  Proof.
    apply NoDup_app_intro.
    - destruct (accepted_operations_distinct S d) as [H1 H2].
      + intros o Ho E. apply (wp_implicit d HW o Ho E).
      + apply (va_anonymous S d HV).
      + apply (va_operations S d HV).
      + destruct (doc_ops d) as [|o [|o' l]]; [constructor|cbn; constructor; [intros []|constructor]|].
        specialize (H2 ltac:(cbn; lia)). revert H1 H2. generalize (o :: o' :: l). clear. intros l H1 H2.
        induction l as [|o l IH]; [constructor|]. cbn in *. inversion H1 as [|? ? Hx Hl]; subst. constructor.
        * rewrite in_map_iff. intros (o2 & E & Ho2). apply Hx. apply in_map_iff. exists o2. split; auto.
          unfold operation_item_name in E. pose proof (H2 o (or_introl eq_refl)). pose proof (H2 o2 (or_intror Ho2)).
          destruct (op_name o), (op_name o2); congruence.
        * apply IH; auto.
    - apply (pt_sorted _ _ _ _ _ _ _ _ HP).
    - intros n Hn Hf. apply in_map_iff in Hn as (o & <- & Ho). apply key_fragment in Hf. apply (no_clash o Ho Hf).
  Qed.
  Lemma keys_items n : In n keys -> In n (item_names d).
  Proof.
    unfold keys, item_names. rewrite !in_app_iff. intros [H|H]; [left; auto|right].
    apply key_fragment in H as (f & Hd). rewrite <- (defines_name _ _ _ Hd). apply in_map. eapply defines_In_frags; eauto.
  Qed.
  (** the items are a part of the keys, in order *)
  Lemma items_keys ks es : Forall2 named ks es -> forall p e, In (p, e) (items es) -> In p ks.
  Proof.
    induction 1 as [|k e ks es H HF IH]; intros p e' Hi; [destruct Hi|].
    unfold items in Hi. cbn in Hi. destruct e; cbn in H; try (right; eapply IH; exact Hi);
      (destruct Hi as [[= <- <-]|Hi]; [left; auto|right; eapply IH; exact Hi]).
  Qed.
  Lemma items_distinct (g : name -> name) ks es : Forall2 named ks es -> NoDup (map g ks) ->
    NoDup (map (fun it => g (fst it)) (items es)).
  Proof.
    induction 1 as [|k e ks es H HF IH]; intros Hnd; [constructor|].
    cbn in Hnd. inversion Hnd as [|? ? Hx Hl]; subst. unfold items. cbn.
    assert (Hk : ~ In (g k) (map (fun it : name * etype => g (fst it)) (items es))).
    { rewrite in_map_iff. intros ([p e'] & E & Hi). apply Hx. cbn in E. rewrite <- E. apply in_map. eapply items_keys; eauto. }
    specialize (IH Hl). destruct e; cbn in H; try exact IH; subst; cbn; constructor; auto.
  Qed.
  Lemma item_key p e : In (p, e) (items types) -> In p keys.
  Proof. eapply items_keys. apply types_named. Qed.

  (** the parts of types, before the flags are filled in *)
  Lemma part_source e e' : In e types -> inside e e' ->
    exists r e0, e' = update flags e0 /\ source S borrow scalar_borrows d r e0.
  Proof.
    intros He Hi. destruct (type_set S borrow scalar_borrows d HR Hok types frags flags ops HP e He) as (r & p & t & sels & e0 & Hset & Hc & _ & HB & ->).
    apply (proj1 (inside_update flags)) in Hi as (e1 & Hi & ->). exists r, e1. split; auto.
    eapply inside_source; eauto.
  Qed.
  Lemma struct_source e p fs : In e types -> inside e (EStruct p fs) ->
    exists r t sels, set_at S d r t sels /\ map fst fs = field_names sels.
  Proof.
    intros He Hi. destruct (part_source e _ He Hi) as (r & e0 & E & [Hl|(q & t & sels & Hset & HB)]); destruct e0 as [q0 fs0|q0 vs0| | |]; try discriminate; try destruct Hl.
    cbn in E. injection E as -> ->. apply build_set_result in HB. inversion HB as [|t' fs' Hc Hu HF Hne| |t' e' Hc Hl]; subst; [|destruct Hl].
    exists r, t, sels. split; auto. rewrite map_map. cbn. eapply fields_names; eauto.
  Qed.
  Lemma enum_source e p vs : In e types -> inside e (EEnum p vs) ->
    exists r u args ds sub inl, set_at S d r (DUnion u) (SField None (tx "__typename") args ds sub :: inl) /\
      map fst vs = map (fun s => match s with SInline (Some c) _ _ => c | _ => [] end) inl /\
      NoDup (map fst vs) /\
      forall n fs, In (n, fs) vs -> exists ds' sub' o, In (SInline (Some n) ds' sub') inl /\ In n (un_members u) /\
        get_type S n = Some (DObject o) /\ map fst fs = field_names sub'.
  Proof.
    intros He Hi. destruct (part_source e _ He Hi) as (r & e0 & E & [Hl|(q & t & sels & Hset & HB)]); destruct e0 as [q0 fs0|q0 vs0| | |]; try discriminate; try destruct Hl.
    cbn in E. injection E as -> ->. apply build_set_result in HB. inversion HB as [| |u vs' HB' Hns Hne|t' e' Hc Hl]; subst; [|destruct Hl].
    destruct (build_variants_In _ _ _ _ _ _ HB') as [H1 H2].
    pose proof (validated_sets S d HV _ _ _ Hset) as Hse. cbn in Hse.
    apply union_shape in Hse as [(n & ds & ->)|(args & ds & sub & inl & -> & Hm & Hnd)].
    { exfalso. apply (Hns (SSpread n ds)); [left; auto|exact I]. }
    exists r, u, args, ds, sub, inl. split; auto. rewrite !map_map. cbn [fst].
    assert (E : map fst vs0 = map (fun s => match s with SInline (Some c) _ _ => c | _ => [] end) inl).
    { rewrite H2. cbn. clear - Hm. induction inl as [|s inl IH]; cbn; [reflexivity|].
      destruct (Hm s (or_introl eq_refl)) as (c & _ & Hs). destruct s as [| |[c'|]]; cbn in *; try contradiction. f_equal. apply IH. intros; apply Hm; auto. }
    split; [rewrite <- E; reflexivity|]. split; [change (NoDup (map fst vs0)); rewrite E; auto|].
    intros n fs Hin. apply in_map_iff in Hin as ([n' fs'] & [= <- <-] & Hin). destruct (H1 n' fs' Hin) as (ds' & sub' & o & Hs & Hmem & Hg & HF).
    exists ds', sub', o. split; [destruct Hs as [Hs|Hs]; [discriminate|auto]|]. split; auto. split; auto.
    rewrite map_map. cbn. eapply fields_names; eauto.
  Qed.

  (** a fragment that is not just a spread has an item *)
  Lemma fragment_item n f : no_renamed_fragments d -> defines d n f ->
    exists e, In (n, e) (items types) /\ exists e0, build_fragment f = Built e0 /\ e = update flags e0.
  Proof.
    intros Hnr Hd. pose proof (defines_In_frags d n f Hd) as Hf. destruct (pt_built _ _ _ _ _ _ _ _ HP f Hf) as (e & He).
    exists (update flags e). split; [|eauto]. apply items_In. split.
    - rewrite (pt_types _ _ _ _ _ _ _ _ HP). apply in_map. apply in_or_app. right. apply in_map_iff. exists (n, e). split; auto.
      apply assoc_In. apply (pt_frags _ _ _ _ _ _ _ _ HP). eauto.
    - pose proof He as HB. unfold Typegen.build_fragment in HB. destruct (get_type S (fr_cond f)) as [t|] eqn:Et; [|discriminate].
      destruct (fragment_set S d Hok n f t Hd Et) as (r & _ & Hc & _). rewrite (defines_name _ _ _ Hd) in HB.
      apply build_set_result in HB. inversion HB as [t' m ds b Hc' E|t' fs Hc' Hu HF Hne|u vs HB' Hns Hne|t' e' Hc' Hl]; subst; cbn; eauto.
      + exfalso. eapply Hnr; eauto.
      + congruence.
  Qed.

  Lemma within_spread t sels t' sels' n ds : within S t sels t' sels' -> In (SSpread n ds) sels' -> spreads n sels.
  Proof.
    induction 1 as [t sels|t sels al m args ds' sub fd t1 t' sels' Hin Hne Hf Hg HW' IH|t sels ds' sub t' sels' Hin HW' IH|t sels c ds' sub t1 t' sels' Hin Hg HW' IH];
      intros H.
    - exists (SSpread n ds). split; auto. constructor.
    - destruct (IH H) as (s & Hs & Hsp). eexists. split; [exact Hin|]. econstructor; eauto.
    - destruct (IH H) as (s & Hs & Hsp). eexists. split; [exact Hin|]. econstructor; eauto.
    - destruct (IH H) as (s & Hs & Hsp). eexists. split; [exact Hin|]. econstructor; eauto.
  Qed.
  (** the item of a fragment refers to the fragments that it spreads *)
  Lemma reference_use a f e n b : defines d a f -> build_fragment f = Built e -> inside (update flags e) (ERef n b) -> fragment_uses d a n.
  Proof.
    intros Hd HB Hi. apply (proj1 (inside_update flags)) in Hi as (e1 & Hi & E). destruct e1 as [| |m b'| |]; try discriminate.
    cbn in E. injection E as -> _. apply (proj1 inside_ref_atom) in Hi.
    unfold Typegen.build_fragment in HB. destruct (get_type S (fr_cond f)) as [t|] eqn:Et; [|discriminate].
    destruct (fragment_set S d Hok a f t Hd Et) as (r & _ & Hc & Hs).
    apply (atoms_of_set S borrow scalar_borrows _ t (fr_sel f) e Hs Hc HB) in Hi.
    apply atom_at_spread in Hi as (t' & sels' & ds & HWi & Hin). exists f. split; auto. eapply within_spread; eauto.
  Qed.
  Lemma item_fragment a f e : defines d a f -> In (a, e) (items types) -> exists e0, build_fragment f = Built e0 /\ e = update flags e0.
  Proof.
    intros Hd Hi. apply items_In in Hi as (Hin & Hshape). 
    destruct (types_source S borrow scalar_borrows d types frags flags ops HP e Hin) as [(i & o & e0 & Ho & _ & HB & ->)|(m & g & e0 & Hg & HB & ->)].
    - exfalso. apply build_operation_named in HB. apply (no_clash o (nth_error_In _ _ Ho)). exists f.
      replace (operation_item_name o) with a; auto.
      destruct Hshape as [(fs & E)|(vs & E)]; destruct e0; try discriminate; cbn in E, HB; congruence.
    - exists e0. split; auto. replace f with g; auto. pose proof HB as HN. apply build_fragment_named in HN. rewrite (defines_name _ _ _ Hg) in HN.
      assert (m = a) by (destruct Hshape as [(fs & E)|(vs & E)]; destruct e0; try discriminate; cbn in E, HN; congruence).
      subst m. eapply defines_fun; eauto.
  Qed.

  Section Names.
    Variables pascal snake : name -> name.
    Hypothesis HN : names_fit S d pascal snake.
    Hypothesis Hnr : no_renamed_fragments d.
    Lemma refers_use a b c : refers pascal types a b -> refers pascal types b c ->
      (exists f, defines d b f) /\ ((exists f, defines d a f) -> fragment_uses d a b).
    Proof.
      intros (e & n & bo & Hi & Hin & E) (e' & _ & _ & Hi' & _).
      destruct (refs_exact S borrow scalar_borrows d HR Hok Hspr types frags flags ops HP e n bo) as (f & t & Hd & _);
        [apply items_In in Hi; tauto|auto|].
      assert (n = b).
      { apply (nf_items S d pascal snake HN); auto.
        - apply keys_items. unfold keys. apply in_or_app. right. apply key_fragment. eauto.
        - apply keys_items. eapply item_key; eauto. }
      subst n. split; [eauto|]. intros (g & Hg). destruct (item_fragment a g e Hg Hi) as (e0 & HB & ->).
      eapply reference_use; eauto.
    Qed.
    Lemma refers_chain a c : plus (refers pascal types) a c -> forall z, refers pascal types c z ->
      (exists f, defines d c f) /\ ((exists f, defines d a f) -> plus (fragment_uses d) a c).
    Proof.
      induction 1 as [a b H|a b c H HP' IH]; intros z Hz.
      - destruct (refers_use a b z H Hz) as [H1 H2]. split; auto. intros Ha. apply plus_one. auto.
      - destruct (IH z Hz) as [H1 H2]. split; auto. intros Ha.
        assert (Hb : exists y, refers pascal types b y) by (inversion HP'; eauto). destruct Hb as (y & Hy).
        destruct (refers_use a b y H Hy) as [H3 H4]. eapply plus_step; eauto.
    Qed.
    Lemma no_reference_cycle a : ~ plus (refers pascal types) a a.
    Proof.
      intros H. assert (Ha : exists y, refers pascal types a y) by (inversion H; eauto). destruct Ha as (y & Hy).
      destruct (refers_chain a a H y Hy) as [(f & Hf) H2]. specialize (H2 (ex_intro _ f Hf)).
      destruct (fragment_cycles_detected_exactly d) as (errs & E & Herr & _). rewrite (va_cycles S d HV) in E. injection E as <-.
      apply (Herr f). rewrite (defines_name _ _ _ Hf). auto.
    Qed.

    Lemma code_compiles cod : (cod = Serde -> no_typename_in_variants S d) -> (cod = Miniserde -> names_fit_miniserde S d pascal snake) ->
      compiles pascal snake cod types.
    Proof.
      intros Hty Hmi. constructor.
      - eapply items_distinct; [apply types_named|]. apply NoDup_map_inj; [|apply keys_distinct].
        intros a b Ha Hb. apply (nf_items S d pascal snake HN); apply keys_items; auto.
      - intros e p fs He Hi. destruct (struct_source e p fs He Hi) as (r & t & sels & Hset & E).
        pose proof (nf_fields S d pascal snake HN r t sels Hset) as H. rewrite <- E, map_map in H. split; [exact H|].
        intros Hc. destruct (nm_fields S d pascal snake (Hmi Hc) r t sels Hset) as [H1 _]. rewrite <- E, map_map in H1. exact H1.
      - intros e p vs He Hi. destruct (enum_source e p vs He Hi) as (r & u & args & ds & sub & inl & Hset & E & Hnd & Hvs).
        assert (Hu : In (DUnion u) (s_types S)) by (eapply set_at_In; eauto).
        split.
        + apply NoDup_app_intro.
          * rewrite <- (map_map fst pascal). apply NoDup_map_inj; auto. intros a b Ha Hb.
            apply in_map_iff in Ha as ([a' fa] & <- & Ha). apply in_map_iff in Hb as ([b' fb] & <- & Hb).
            destruct (Hvs _ _ Ha) as (_ & _ & _ & _ & Ha' & _). destruct (Hvs _ _ Hb) as (_ & _ & _ & _ & Hb' & _).
            apply (nf_members S d pascal snake HN u); auto.
          * constructor; [intros []|constructor].
          * intros x Hx [<-|[]]. apply in_map_iff in Hx as ([n fs] & Ex & Hin). cbn in Ex.
            destruct (Hvs _ _ Hin) as (ds' & sub' & o & Hs & _). apply (nf_other S d pascal snake HN r u n ds' sub'); auto.
            eexists. split; [exact Hset|]. right; auto.
        + intros n fs Hin. destruct (Hvs _ _ Hin) as (ds' & sub' & o & Hs & Hm & Hg & En).
          assert (Hset' : set_at S d r (DObject o) sub').
          { eapply set_at_within; eauto. eapply within_inline_on; [right; exact Hs|exact Hg|constructor]. }
          split; [|split].
          * pose proof (nf_fields S d pascal snake HN r _ _ Hset') as H. rewrite <- En, map_map in H. exact H.
          * intros Hc Ht. rewrite En in Ht. apply filter_map_In in Ht as (s & Hs' & Es). destruct s as [al m args' ds2 sub2| |]; try discriminate.
            injection Es as Es. eapply (Hty Hc r u); [eexists; split; [exact Hset|right; exact Hs]|exact Hs'|exact Es].
          * intros Hc. destruct (nm_fields S d pascal snake (Hmi Hc) r _ _ Hset') as [_ H1]. rewrite <- En, map_map in H1. exact H1.
      - intros e n b He Hi. destruct (refs_exact S borrow scalar_borrows d HR Hok Hspr types frags flags ops HP e n b He Hi) as (f & t & Hd & _).
        destruct (fragment_item n f Hnr Hd) as (e' & Hi' & _). exists (n, e'). auto.
      - intros Hc p e n Hi Hn. apply (nm_builders S d pascal snake (Hmi Hc)); apply keys_items; [eapply item_key; eauto|].
        apply field_refs_inside in Hn as (b & Hn). unfold keys. apply in_or_app. right. apply key_fragment.
        destruct (refs_exact S borrow scalar_borrows d HR Hok Hspr types frags flags ops HP e n b) as (f & t & Hd & _); [apply items_In in Hi; tauto|auto|eauto].
      - apply no_reference_cycle.
    Qed.
  End Names.
End Compiles.
