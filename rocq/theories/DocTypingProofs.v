(** Order of operations and fragments among the visitor calls; documents whose selections all make sense. *)
From Verif Require Import Base Ast Graph Maps Doc DocSpec DocProofs CoercionTypes Coercion CoercionSpec CoercionProofs DocRules FragmentsSpec DocRulesSpec DocRulesProofs.

Section P.
  Variable S : schema.
  Variable d : document.

  Lemma flat_map_app' {A B} (g : A -> list B) l1 l2 : flat_map g (l1 ++ l2) = flat_map g l1 ++ flat_map g l2.
  Proof. induction l1; cbn; auto. rewrite IHl1, app_assoc. auto. Qed.
  Lemma flat_map_nil' {A B} (g : A -> list B) l : (forall x, In x l -> g x = []) -> flat_map g l = [].
  Proof. induction l; cbn; intros H; auto. rewrite H, IHl; auto. Qed.
  Lemma visit_proj_ops {B} (g : operation -> list B) (g' : event -> list B) :
    (forall o, g' (EOp o) = g o) -> (forall ev, (forall o, ev <> EOp o) -> g' ev = []) ->
    flat_map g' (visit S d) = flat_map g (doc_ops d).
  Proof.
    intros H1 H2. unfold visit. rewrite flat_map_app'.
    replace (flat_map g' (concat (mapi (visit_fragment S) (doc_frags d)))) with (@nil B).
    2:{ symmetry. apply flat_map_nil'. intros ev Hev. apply H2. intros o ->. apply in_concat in Hev as (l & Hl & Hin).
        unfold mapi in Hl; apply mapi_from_In in Hl as (i & x & Hn & ->). unfold visit_fragment in Hin.
        rewrite !in_app_iff in Hin. destruct Hin as [Hin|[Hin|[E|[]]]]; [| |discriminate].
        - destruct (get_type S (fr_cond x)); [|destruct Hin]. apply visit_selection_set_In in Hin as (t' & s' & _ & [E|(s & _ & E)]); [discriminate|].
          apply own_In in E. decompose [or ex and] E; try discriminate;
            match goal with K : In _ (var_directives _ _ _ _) |- _ => apply var_directives_In in K; decompose [or ex and] K; discriminate end.
        - apply var_directives_In in Hin. decompose [or ex and] Hin; discriminate. }
    rewrite app_nil_r. unfold mapi. generalize 0. induction (doc_ops d) as [|o l IH]; intros k; cbn; auto.
    rewrite H1. f_equal. rewrite flat_map_app', IH.
    rewrite flat_map_nil'; auto. intros ev Hin. apply H2. intros o' ->. rewrite !in_app_iff in Hin.
    destruct Hin as [Hin|[Hin|Hin]].
    - apply var_directives_In in Hin. decompose [or ex and] Hin; discriminate.
    - apply visit_variable_definitions_In in Hin as [[_ E]|(v & _ & [E|E])]; try discriminate.
      apply const_directives_In in E. decompose [or ex and] E; discriminate.
    - destruct (op_root_name S (op_type o)) as [n|]; [|destruct Hin].
      destruct (get_type S n) as [t|]; [|destruct Hin as [E|[]]; discriminate].
      apply visit_selection_set_In in Hin as (t' & s' & _ & [E|(s & _ & E)]); [discriminate|].
      apply own_In in E. decompose [or ex and] E; try discriminate;
        match goal with K : In _ (var_directives _ _ _ _) |- _ => apply var_directives_In in K; decompose [or ex and] K; discriminate end.
  Qed.
  Lemma visit_proj_frags : flat_map (fun ev => match ev with EFrag f => [f] | _ => [] end) (visit S d) = doc_frags d.
  Proof.
    set (g' := fun ev => match ev with EFrag f => [f] | _ => [] end).
    assert (H2 : forall ev, (forall o, ev <> EFrag o) -> g' ev = []) by (intros []; cbn; auto; intros H; exfalso; eapply H; eauto).
    assert (Hdirs : forall r ds loc, flat_map g' (var_directives S r ds loc) = []).
    { intros. apply flat_map_nil'. intros ev Hev. apply H2. intros o ->. apply var_directives_In in Hev. decompose [or ex and] Hev; discriminate. }
    assert (Hsel : forall r t sels, flat_map g' (visit_selection_set S r t sels) = []).
    { intros. apply flat_map_nil'. intros ev Hev. apply H2. intros o ->. apply visit_selection_set_In in Hev as (t' & s' & _ & [E|(s & _ & E)]); [discriminate|].
      apply own_In in E. decompose [or ex and] E; try discriminate;
        match goal with K : In _ (var_directives _ _ _ _) |- _ => apply var_directives_In in K; decompose [or ex and] K; discriminate end. }
    unfold visit. rewrite flat_map_app'.
    replace (flat_map g' (concat (mapi (visit_operation S) (doc_ops d)))) with (@nil fragment).
    - cbn [app]. unfold mapi. generalize 0. induction (doc_frags d) as [|f l IH]; intros k; cbn [mapi_from concat]; auto.
      rewrite flat_map_app', IH. unfold visit_fragment at 1. rewrite !flat_map_app', Hdirs.
      destruct (get_type S (fr_cond f)); rewrite ?Hsel; reflexivity.
    - symmetry. unfold mapi. generalize 0. induction (doc_ops d) as [|o l IH]; intros k; cbn [mapi_from concat]; auto.
      rewrite flat_map_app', IH, app_nil_r. unfold visit_operation. cbn [flat_map]. cbn [g'].
      change (flat_map g' (EOp o :: ?x)) with (flat_map g' x).
      cbn [flat_map]. rewrite !flat_map_app', Hdirs. cbn [app].
      assert (Hv : flat_map g' (visit_variable_definitions S (op_vars o)) = []).
      { apply flat_map_nil'. intros ev Hev. apply H2. intros o' ->. apply visit_variable_definitions_In in Hev as [[_ E]|(v & _ & [E|E])]; try discriminate.
        apply const_directives_In in E. decompose [or ex and] E; discriminate. }
      rewrite Hv. destruct (op_root_name S (op_type o)) as [n|]; auto. destruct (get_type S n); auto. rewrite Hsel. auto.
  Qed.

  Lemma fragment_names_iff n fs :
    In (n, fs) (fragment_name_errors (visit S d)) <->
    fs = filter (fun f => teqb (fr_name f) n) (doc_frags d) /\ 2 <= length fs.
  Proof. unfold fragment_name_errors. rewrite visit_proj_frags. apply duplicates_In. Qed.
  Lemma lone_anonymous_iff ops :
    lone_anonymous_errors d (visit S d) = Some ops <->
    ops = filter (fun o => match op_name o with None => true | Some _ => false end) (doc_ops d) /\ ops <> [] /\ length (doc_ops d) <> 1.
  Proof.
    unfold lone_anonymous_errors.
    rewrite (visit_proj_ops (fun o => match op_name o with None => [o] | Some _ => [] end)).
    2: reflexivity. 2: intros []; auto; intros H; exfalso; eapply H; eauto.
    assert (E : flat_map (fun o => match op_name o with None => [o] | Some _ => [] end) (doc_ops d)
                = filter (fun o => match op_name o with None => true | Some _ => false end) (doc_ops d)).
    { induction (doc_ops d) as [|o l IH]; cbn; auto. destruct (op_name o); cbn; rewrite IH; auto. }
    rewrite E. clear E. destruct (Nat.eqb_spec (length (doc_ops d)) 1) as [H|H]; cbn [negb andb].
    - split; [discriminate|]. intros (_ & _ & H'). contradiction.
    - destruct (filter _ _) as [|o l] eqn:E; cbn [negb].
      + split; [discriminate|]. intros (-> & H' & _). contradiction.
      + split; [intros [= <-]|intros (-> & _)]; auto. split; auto. split; auto. discriminate.
  Qed.
  Definition explicit_named (n : name) (o : operation) : bool :=
    op_explicit o && match op_name o with Some m => teqb m n | None => false end.
  Lemma operation_names_iff n xs :
    In (n, xs) (operation_name_errors (visit S d)) <->
    xs = map (fun o => (n, o)) (filter (explicit_named n) (doc_ops d)) /\ 2 <= length xs.
  Proof.
    unfold operation_name_errors.
    rewrite (visit_proj_ops (fun o => if op_explicit o then match op_name o with Some n => [(n, o)] | None => [] end else [])).
    2: reflexivity. 2: intros []; auto; intros H; exfalso; eapply H; eauto.
    rewrite duplicates_In. apply and_iff_compat_r.
    match goal with |- xs = ?a <-> xs = ?b => replace a with b; [tauto|] end.
    induction (doc_ops d) as [|o l IH]; cbn; auto. unfold with_key in *. unfold explicit_named at 1.
    destruct (op_explicit o); cbn [andb]; [|exact IH]. destruct (op_name o) as [m|]; cbn; [|exact IH].
    destruct (teqb m n) eqn:E; cbn; rewrite IH; auto. apply teqb_eq in E. subst; auto.
  Qed.
  Lemma operation_types_iff o :
    In o (operation_type_errors S (visit S d)) <->
    In o (doc_ops d) /\ op_explicit o = true /\
    ((op_type o = OMutation /\ s_mutation S = None) \/ (op_type o = OSubscription /\ s_subscription S = None)).
  Proof.
    unfold operation_type_errors. rewrite in_flat_map. split.
    - intros (ev & Hev & H). destruct ev; try destruct H. apply visit_EOp in Hev.
      destruct (op_explicit o0) eqn:E; [|destruct H]. destruct (op_type o0) eqn:Et; try destruct H.
      + destruct (s_mutation S) eqn:Es; try contradiction. destruct H as [<-|[]]. auto.
      + destruct (s_subscription S) eqn:Es; try contradiction. destruct H as [<-|[]]. auto.
    - intros (Ho & E & H). exists (EOp o). split; [apply visit_EOp; auto|]. rewrite E.
      destruct H as [[-> ->]|[-> ->]]; left; auto.
  Qed.

  (** ** documents that make sense *)
  Definition no_selection_errors : Prop :=
    field_selection_errors (visit S d) = [] /\ leaf_selection_errors S (visit S d) = [] /\
    fragment_type_errors S (visit S d) = [] /\ fragment_composite_errors S (visit S d) = [] /\
    operation_type_errors S (visit S d) = [].

  Lemma within_trans t sels t1 sels1 t2 sels2 : within S t sels t1 sels1 -> within S t1 sels1 t2 sels2 -> within S t sels t2 sels2.
  Proof. induction 1; intros; auto; [eapply within_field|eapply within_inline|eapply within_inline_on]; eauto. Qed.
  Lemma set_at_within r t sels t' sels' : set_at S d r t sels -> within S t sels t' sels' -> set_at S d r t' sels'.
  Proof. intros (t0 & s0 & H & Hw) Hw'. exists t0, s0. split; auto. eapply within_trans; eauto. Qed.

  Lemma no_nil {A} (l : list A) : l = [] <-> forall x, ~ In x l.
  Proof. split; [intros -> x []|]. destruct l; auto. intros H. exfalso. eapply H. left; eauto. Qed.

  Lemma no_errors_ok : no_selection_errors -> wf_schema S ->
    forall s r t sels, set_at S d r t sels -> td_composite t = true -> In t (s_types S) -> In s sels -> sel_ok S t s.
  Proof.
    intros (E1 & E2 & E3 & E4 & E5) Hwf. rewrite no_nil in E1; rewrite no_nil in E2; rewrite no_nil in E3; rewrite no_nil in E4.
    induction s as [al n args ds sub IH|n ds|c ds sub IH] using selection_ind'; intros r t sels Hset Hc Ht Hs.
    - rewrite Forall_forall in IH.
      destruct (get_field (td_fields t) n) as [fd|] eqn:Ef.
      2:{ exfalso. apply (E1 (n, t)). apply field_selection_iff. split; auto. split; [exists r, al, args, ds, sub, sels; auto|]. apply get_field_None; auto. }
      destruct (wf_fields S Hwf t fd Ht) as (ft & Hft & Hout); [apply get_field_Some in Ef; tauto|].
      assert (Hsel : sel_at S d r t (SField al n args ds sub)) by (exists sels; auto).
      assert (Hdec : is_leaf ft \/ ~ is_leaf ft) by (destruct ft; cbn; tauto). destruct Hdec as [Hl|Hl].
      + destruct sub as [|s0 sub0]; [econstructor; eauto|]. exfalso. apply (E2 (LeafNotEmpty n fd)). apply leaf_selection_iff.
        exists r, t, al, n, args, ds, (s0 :: sub0), fd. split; auto. split; [exact Ef|]. left. split; auto. split; [|discriminate]. exists ft; auto.
      + destruct sub as [|s0 sub0].
        * exfalso. apply (E2 (NonLeafEmpty n fd)). apply leaf_selection_iff.
          exists r, t, al, n, args, ds, [], fd. split; auto. split; [exact Ef|]. right. split; auto. split; auto.
          intros (td & Hd & Hl'). rewrite Hft in Hd. injection Hd as ->. contradiction.
        * eapply ok_composite; eauto; [discriminate|]. intros s Hin. eapply IH; eauto.
          -- eapply set_at_within; eauto. eapply within_field; eauto; [discriminate|constructor].
          -- destruct ft; cbn in *; try discriminate; tauto.
          -- apply get_type_Some in Hft. tauto.
    - constructor.
    - rewrite Forall_forall in IH.
      assert (Hsel : sel_at S d r t (SInline c ds sub)) by (exists sels; auto).
      destruct c as [c|].
      + destruct (get_type S c) as [ft|] eqn:Eg.
        2:{ exfalso. apply (E3 c). apply fragment_type_iff. split; auto. right. eauto 10. }
        assert (Hcf : td_composite ft = true).
        { destruct (td_composite ft) eqn:Ec; auto. exfalso. apply (E4 c). apply fragment_composite_iff. split; eauto. right. eauto 10. }
        eapply ok_inline_on; eauto. intros s Hin. eapply IH; eauto.
        * eapply set_at_within; eauto. eapply within_inline_on; eauto. constructor.
        * apply get_type_Some in Eg. tauto.
      + constructor. intros s Hin. apply (IH s Hin r t sub); auto. eapply set_at_within; eauto. eapply within_inline; eauto. constructor.
  Qed.

  Lemma within_ok t sels t' sels' : within S t sels t' sels' -> (forall s, In s sels -> sel_ok S t s) ->
    (forall s, In s sels' -> sel_ok S t' s).
  Proof.
    induction 1 as [|t sels al n args ds sub fd t1 t' sels' Hin Hne Hf Hg Hw IH|t sels ds sub t' sels' Hin Hw IH|t sels c ds sub t1 t' sels' Hin Hg Hw IH];
      intros H; auto; apply IH.
    - intros s Hs. specialize (H _ Hin). inversion H; subst; [contradiction|]. unfold has_field in Hf.
      match goal with K : get_field _ _ = Some ?x, K' : get_field _ _ = Some ?y |- _ => rewrite K in K'; injection K' as -> end.
      match goal with K : get_type _ _ = Some ?x, K' : get_type _ _ = Some ?y |- _ => rewrite K in K'; injection K' as -> end. auto.
    - intros s Hs. specialize (H _ Hin). inversion H; subst; auto.
    - intros s Hs. specialize (H _ Hin). inversion H; subst; auto.
      match goal with K : get_type _ _ = Some ?x, K' : get_type _ _ = Some ?y |- _ => rewrite K in K'; injection K' as -> end. auto.
  Qed.
  Lemma root_type_fun ty t t' : root_type S ty t -> root_type S ty t' -> t = t'.
  Proof. destruct ty; cbn; [congruence|intros (n & E1 & E2) (m & E3 & E4); congruence..]. Qed.
  Lemma doc_ok_sel : document_ok S d -> forall r t s, sel_at S d r t s -> sel_ok S t s.
  Proof.
    intros [Ho Hf] r t s (sels & (t0 & s0 & Htop & Hw) & Hin).
    revert Hin. apply (within_ok _ _ _ _ Hw).
    inversion Htop as [i o t0' Hn Hr E1 E2|i f t0' Hn Hr E1 E2]; subst.
    - apply nth_error_In in Hn. destruct (Ho _ Hn) as (t1 & Hr' & Hok). rewrite (root_type_fun _ _ _ Hr Hr'). auto.
    - apply nth_error_In in Hn. destruct (Hf _ Hn) as (t1 & Hr' & _ & Hok). rewrite Hr in Hr'. injection Hr' as ->. auto.
  Qed.

  Definition roots_composite : Prop := forall ty t, root_type S ty t -> td_composite t = true.

  Lemma no_selection_errors_iff : wf_schema S -> roots_composite ->
    (forall o, In o (doc_ops d) -> op_explicit o = false -> op_type o = OQuery) ->
    (no_selection_errors <-> document_ok S d).
  Proof.
    intros Hwf Hrc Himp. split.
    - intros HE. assert (HE' := HE). destruct HE' as (E1 & E2 & E3 & E4 & E5). rewrite no_nil in E3; rewrite no_nil in E4; rewrite no_nil in E5. split.
      + intros o Ho. assert (Hr : exists t, root_type S (op_type o) t).
        { destruct (op_type o) eqn:Et; cbn.
          - apply (wf_query S Hwf).
          - destruct (s_mutation S) as [n|] eqn:Es; [destruct (wf_mutation S Hwf n Es) as (t & Ht); eauto|].
            exfalso. apply (E5 o). apply operation_types_iff. split; auto. split; auto.
            destruct (op_explicit o) eqn:Ex; auto. rewrite Himp in Et; auto; discriminate.
          - destruct (s_subscription S) as [n|] eqn:Es; [destruct (wf_subscription S Hwf n Es) as (t & Ht); eauto|].
            exfalso. apply (E5 o). apply operation_types_iff. split; auto. split; auto.
            destruct (op_explicit o) eqn:Ex; auto. rewrite Himp in Et; auto; discriminate. }
        destruct Hr as (t & Hr). exists t. split; auto. apply In_nth_error in Ho as (i & Hi). intros s Hs.
        eapply (no_errors_ok HE Hwf s (ROp i) t (op_sel o)); eauto.
        * exists t, (op_sel o). split; [constructor; auto|constructor].
        * destruct (op_type o); cbn in Hr; [|destruct Hr as (n & _ & Hr)..]; apply get_type_Some in Hr; tauto.
      + intros f Hf. destruct (get_type S (fr_cond f)) as [t|] eqn:Eg.
        2:{ exfalso. apply (E3 (fr_cond f)). apply fragment_type_iff. eauto 10. }
        assert (Hc : td_composite t = true).
        { destruct (td_composite t) eqn:Ec; auto. exfalso. apply (E4 (fr_cond f)). apply fragment_composite_iff. eauto 10. }
        exists t. split; auto. split; auto. intros s Hs. apply In_nth_error in Hf as (i & Hi).
        eapply (no_errors_ok HE Hwf s (RFrag i) t (fr_sel f)); eauto.
        * exists t, (fr_sel f). split; [constructor; auto|constructor].
        * apply get_type_Some in Eg. tauto.
    - intros Hok. assert (Hsel := doc_ok_sel Hok). destruct Hok as [Ho Hf]. repeat split; apply no_nil.
      + intros [n t] H. apply field_selection_iff in H as (Hc & (r & al & args & ds & sub & Hs) & Hno). apply Hsel in Hs.
        apply get_field_None in Hno. inversion Hs; congruence.
      + intros e H. apply leaf_selection_iff in H as (r & t & al & n & args & ds & sub & fd & Hs & Hfd & H). apply Hsel in Hs.
        unfold has_field in Hfd. inversion Hs; subst;
          match goal with K : get_field _ _ = Some ?x, K' : get_field _ _ = Some ?y |- _ => rewrite K in K'; injection K' as -> end;
          unfold leaf_tref in H.
        * destruct H as [(_ & _ & H)|(_ & H & _)]; [contradiction|]. apply H. eauto.
        * destruct H as [(_ & (td & H & Hl) & _)|(_ & H & E)]; [|contradiction].
          match goal with K : get_type _ _ = Some ?x, K' : get_type _ _ = Some ?y |- _ => rewrite K in K'; injection K' as -> end. contradiction.
      + intros c H. apply fragment_type_iff in H as ([(f & Hin & <-)|(r & t & ds & sub & Hs)] & E).
        * destruct (Hf _ Hin) as (t & Ht & _). congruence.
        * apply Hsel in Hs. inversion Hs; congruence.
      + intros c H. apply fragment_composite_iff in H as ([(f & Hin & <-)|(r & t & ds & sub & Hs)] & t' & E & Ec).
        * destruct (Hf _ Hin) as (t & Ht & Hc & _). congruence.
        * apply Hsel in Hs. inversion Hs; congruence.
      + intros o H. apply operation_types_iff in H as (Hin & _ & H). destruct (Ho _ Hin) as (t & Hr & _).
        destruct H as [[E1 E2]|[E1 E2]]; rewrite E1 in Hr; cbn in Hr; destruct Hr as (n & Hr & _); congruence.
  Qed.

  (** in such a document everything that is written is looked at *)
  Lemma occurs_within s sels : occurs s sels -> forall t, (forall s, In s sels -> sel_ok S t s) ->
    exists t' sels', within S t sels t' sels' /\ In s sels'.
  Proof.
    induction 1 as [sels H|sels al n args ds sub Hin Hocc IH|sels c ds sub Hin Hocc IH]; intros t Hok.
    - exists t, sels. split; auto. constructor.
    - assert (H := Hok _ Hin). inversion H; subst.
      + exfalso. clear -Hocc. inversion Hocc; subst; match goal with K : In _ [] |- _ => destruct K end.
      + destruct (IH ft) as (t' & sels' & Hw & Hs); auto. exists t', sels'. split; auto. eapply within_field; eauto.
    - assert (H := Hok _ Hin). inversion H; subst.
      + destruct (IH t) as (t' & sels' & Hw & Hs); auto. exists t', sels'. split; auto. eapply within_inline; eauto.
      + destruct (IH ft) as (t' & sels' & Hw & Hs); auto. exists t', sels'. split; auto. eapply within_inline_on; eauto.
  Qed.
  Lemma within_occurs t sels t' sels' s : within S t sels t' sels' -> In s sels' -> occurs s sels.
  Proof. induction 1; intros Hs; [constructor 1|econstructor 2|econstructor 3|econstructor 3]; eauto. Qed.
  Lemma occurs_sel_at : document_ok S d -> forall r s, occurs_in d s r <-> exists t, sel_at S d r t s.
  Proof.
    intros [Ho Hf] r s. split.
    - intros H. inversion H as [i o Hn Hocc|i f Hn Hocc]; subst.
      + destruct (Ho o) as (t & Hr & Hok); [eapply nth_error_In; eauto|].
        destruct (occurs_within _ _ Hocc t Hok) as (t' & sels' & Hw & Hs). exists t', sels'. split; auto.
        exists t, (op_sel o). split; auto. constructor; auto.
      + destruct (Hf f) as (t & Hr & _ & Hok); [eapply nth_error_In; eauto|].
        destruct (occurs_within _ _ Hocc t Hok) as (t' & sels' & Hw & Hs). exists t', sels'. split; auto.
        exists t, (fr_sel f). split; auto. constructor; auto.
    - intros (t & sels & (t0 & s0 & Htop & Hw) & Hin). inversion Htop; subst; econstructor; eauto; eapply within_occurs; eauto.
  Qed.

  (** ** values *)
  Section Values.
    Variable hook : name -> value -> option text.
    Variable str_enum one_of : bool.
    Notation conf := (conforms (fun n x => hook n x = None) str_enum one_of S).
    Lemma values_iff :
      value_errors S hook str_enum one_of (visit S d) = [] <->
      (forall r a i, argument_at S d r a i -> conf (iv_type i) (snd a)) /\
      (forall a i, const_argument_at S d a i -> conf (iv_type i) (snd a)) /\
      (forall o v x td, In o (doc_ops d) -> In v (op_vars o) -> vd_default v = Some x ->
         get_type S (tref_base (vd_type v)) = Some td -> td_is_input td = true -> conf (vd_type v) x).
    Proof.
      assert (Hc : forall t v, coerce_value hook str_enum one_of S t v [] = [] <-> conf t v).
      { intros t v. unfold coerce_value. rewrite coerce_iff. split; [tauto|]. intros H; split; [exact H|discriminate]. }
      unfold value_errors. split.
      - intros H.
        assert (He : forall ev, In ev (visit S d) -> (fun ev => match ev with
                        | EVarDef v =>
                            match vd_default v with
                            | Some x => if match get_type S (tref_base (vd_type v)) with Some t => td_is_input t | None => false end
                                        then coerce_value hook str_enum one_of S (vd_type v) x [] else []
                            | None => []
                            end
                        | EConstArg a i => coerce_value hook str_enum one_of S (iv_type i) (snd a) []
                        | EVarArg _ a i => coerce_value hook str_enum one_of S (iv_type i) (snd a) []
                        | _ => []
                        end) ev = []) by (intros ev Hev; revert ev Hev; apply flat_map_nil; exact H).
        split; [|split].
        + intros r a i Ha. apply Hc. apply visit_EVarArg in Ha. exact (He _ Ha).
        + intros a i Ha. apply Hc. apply visit_EConstArg in Ha. exact (He _ Ha).
        + intros o v x td Ho Hv Hd Ht Hi. apply Hc.
          assert (Hev : In (EVarDef v) (visit S d)) by (apply visit_EVarDef; eauto).
          specialize (He _ Hev). cbn beta iota in He. rewrite Hd, Ht, Hi in He. exact He.
      - intros (H1 & H2 & H3). apply flat_map_nil'. intros ev Hev. destruct ev; auto.
        + apply Hc. apply H2. apply visit_EConstArg; auto.
        + apply Hc. eapply H1. apply visit_EVarArg; eauto.
        + destruct (vd_default v) as [x|] eqn:Ed; auto. apply visit_EVarDef in Hev as (o & Ho & Hv).
          destruct (get_type S (tref_base (vd_type v))) as [td|] eqn:Et; auto. destruct (td_is_input td) eqn:Ei; auto.
          apply Hc. eapply H3; eauto.
    Qed.
  End Values.

  (** ** variable definitions *)
  Lemma variable_uniqueness_iff n vs :
    In (n, vs) (variable_uniqueness_errors (visit S d)) <->
    exists o, In o (doc_ops d) /\ vs = filter (fun v => teqb (vd_name v) n) (op_vars o) /\ 2 <= length vs.
  Proof.
    unfold variable_uniqueness_errors. rewrite in_flat_map. split.
    - intros (ev & Hev & H). destruct ev; try destruct H. apply visit_EVarDefs in Hev as (_ & o & Ho & <-).
      apply duplicates_In in H. exists o; auto.
    - intros (o & Ho & Hv & Hl). exists (EVarDefs (op_vars o)). split; [|apply duplicates_In; auto].
      apply visit_EVarDefs. split; eauto. intros E. rewrite E in Hv. cbn in Hv. subst. cbn in Hl. lia.
  Qed.
  Lemma variable_input_iff v :
    In v (variable_input_errors S (visit S d)) <->
    (exists o, In o (doc_ops d) /\ In v (op_vars o)) /\
    ~ exists td, get_type S (tref_base (vd_type v)) = Some td /\ td_is_input td = true.
  Proof.
    unfold variable_input_errors. rewrite in_flat_map. split.
    - intros (ev & Hev & H). destruct ev; try destruct H. apply visit_EVarDef in Hev.
      destruct (get_type S (tref_base (vd_type v0))) as [td|] eqn:E.
      + destruct (td_is_input td) eqn:Ei; [destruct H|]. destruct H as [<-|[]]. split; auto. intros (td' & E1 & E2). congruence.
      + destruct H as [<-|[]]. split; auto. intros (td' & E1 & E2). congruence.
    - intros (H & Hn). exists (EVarDef v). split; [apply visit_EVarDef; auto|].
      destruct (get_type S (tref_base (vd_type v))) as [td|] eqn:E; [|left; auto].
      destruct (td_is_input td) eqn:Ei; [|left; auto]. exfalso. eauto.
  Qed.
  Lemma subscription_iff o : In o (subscription_errors d (visit S d)) <-> In o (doc_ops d) /\ subscription_root_invalid d o = true.
  Proof.
    unfold subscription_errors. rewrite in_flat_map. split.
    - intros (ev & Hev & H). destruct ev; try destruct H. apply visit_EOp in Hev.
      destruct (subscription_root_invalid d o0) eqn:E; [|destruct H]. destruct H as [<-|[]]; auto.
    - intros [Ho E]. exists (EOp o). split; [apply visit_EOp; auto|]. rewrite E. left; auto.
  Qed.
End P.
