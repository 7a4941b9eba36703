(** Lemmas about the coercion model. *)
From Verif Require Import Base Ast Coercion CoercionSpec.

Section Proofs.
  Variable scalar_hook : name -> value -> option text.
  Variable str_enum one_of : bool.
  Variable S : schema.
  Notation coerce := (Coercion.coerce scalar_hook str_enum one_of S).
  Notation accepts := (fun n v => scalar_hook n v = None).
  Notation conforms := (CoercionSpec.conforms accepts str_enum one_of S).

  Definition plain (v : value) : Prop :=
    match v with VNull | VVar _ | VList _ => False | _ => True end.

  Lemma coerce_promote v t r p : plain v -> coerce v (TList t r) p true = coerce v t p true.
  Proof. destruct v; cbn; tauto. Qed.
  Lemma coerce_nopromote v t r p : plain v ->
    coerce v (TList t r) p false = [ENoImplicit v (tref_display (TList t r)) p].
  Proof. destruct v; cbn; tauto. Qed.

  Lemma coerce_builtin_nil t b v p : coerce_builtin t b v p = [] <-> builtin_accepts b v.
  Proof.
    destruct b, v; cbn; (split; [ try discriminate; intros _; eauto | intros H; auto;
      repeat match goal with
             | H : _ \/ _ |- _ => destruct H
             | H : exists _, _ |- _ => destruct H
             end; congruence ]).
  Qed.
  Lemma coerce_enum_name_nil d v n p :
    coerce_enum_name d v n p = [] <-> exists e, In e (en_values d) /\ ev_name e = n.
  Proof.
    unfold coerce_enum_name. destruct (existsb _ _) eqn:E.
    - split; auto. intros _. apply existsb_exists in E as (e & He & Hn). apply teqb_eq in Hn. eauto.
    - split; [discriminate|]. intros (e & He & Hn). exfalso.
      rewrite existsb_false in E. specialize (E e He). cbn in E. apply teqb_neq in E. auto.
  Qed.
  Lemma coerce_enum_nil t d v p : coerce_enum str_enum t d v p = [] <-> enum_accepts str_enum d v.
  Proof.
    unfold coerce_enum, enum_accepts. destruct v;
      try (split; [discriminate|]; intros (e & _ & [H|[_ H]]); discriminate).
    - destruct str_enum eqn:Es.
      + rewrite coerce_enum_name_nil. split; intros (e & He & H); exists e; split; auto.
        * right. split; auto. congruence.
        * destruct H as [H|[_ H]]; congruence.
      + split; [discriminate|]. intros (e & _ & [H|[H _]]); discriminate.
    - rewrite coerce_enum_name_nil. split; intros (e & He & H); exists e; split; auto.
      + left; congruence.
      + destruct H as [H|[_ H]]; congruence.
  Qed.
  Lemma has_directive_iff n ds : has_directive n ds = true <-> exists x, In x ds /\ dir_name x = n.
  Proof.
    unfold has_directive. rewrite existsb_exists. split; intros (x & Hx & E); exists x; split; auto.
    - apply teqb_eq; auto.
    - apply teqb_eq; auto.
  Qed.
  Lemma one_of_errors_nil d v es p :
    one_of_errors one_of d v es p = [] <->
    (marked_one_of one_of d -> exists k x, es = [(k, x)] /\ x <> VNull).
  Proof.
    unfold one_of_errors, marked_one_of.
    destruct (one_of && has_directive (tx "oneOf") (io_dirs d)) eqn:E.
    - apply andb_true_iff in E as [E1 E2]. apply has_directive_iff in E2.
      split.
      + intros H _. apply app_eq_nil in H as [H1 H2].
        destruct (Nat.eqb_spec (length (filter (fun e => is_null (snd e)) es)) 0) as [H3|]; [|discriminate].
        destruct (Nat.eqb_spec (length (filter (fun e => negb (is_null (snd e))) es)) 1) as [H4|]; [|discriminate].
        apply length_zero_iff_nil in H3.
        assert (Hall : filter (fun e => negb (is_null (snd e))) es = es).
        { rewrite filter_nil in H3. clear -H3. induction es as [|e es IH]; cbn; auto.
          rewrite (H3 e) by (left; auto). cbn. f_equal. apply IH. intros x Hx. apply H3. right; auto. }
        rewrite Hall in H4. destruct es as [|[k x] [|? ?]]; cbn in H4; try lia.
        exists k, x. split; auto. intros ->. cbn in H3. discriminate.
      + intros H. destruct H as (k & x & -> & Hx); [auto|].
        cbn. destruct x; cbn; congruence || reflexivity.
    - split; auto. intros _ [H1 H2]. apply has_directive_iff in H2. rewrite H1, H2 in E. discriminate.
  Qed.

  Lemma assoc_map_coerce k (es : list (name * value)) :
    assoc k (map (fun kv => (fst kv, coerce (snd kv))) es) = option_map coerce (assoc k es).
  Proof.
    induction es as [|[k' x] es IH]; cbn; auto. destruct (teqb k k'); auto.
  Qed.

  Definition sub_of (es : list (name * value)) (k : name) := option_map coerce (assoc k es).

  Lemma coerce_object_ext d v es p f g :
    (forall k, f k = g k) -> coerce_object one_of d v es f p = coerce_object one_of d v es g p.
  Proof.
    intros H. unfold coerce_object. f_equal. f_equal. f_equal; [|f_equal].
    - apply flat_map_ext. intros i. rewrite H. reflexivity.
    - assert (E : forall l, filter (fun i => match f (iv_name i), iv_default i with
                                    | None, None => tref_required (iv_type i)
                                    | _, _ => false end) l =
                            filter (fun i => match g (iv_name i), iv_default i with
                                    | None, None => tref_required (iv_type i)
                                    | _, _ => false end) l).
      { induction l as [|i l IH]; cbn; auto. rewrite H, IH. reflexivity. }
      rewrite E. reflexivity.
  Qed.

  (** the computation rule on input objects *)
  Lemma coerce_obj_eq es n r d p allow :
    get_type S n = Some (DInput d) ->
    coerce (VObj es) (TBase n r) p allow = coerce_object one_of d (VObj es) es (sub_of es) p.
  Proof.
    intros H. cbn. rewrite H. apply coerce_object_ext. intros k. apply assoc_map_coerce.
  Qed.

  Lemma coerce_object_nil d es p :
    Forall (fun kv => forall t p allow, coerce (snd kv) t p allow = [] <->
                      conforms t (snd kv) /\ (allow = false -> no_promotion t (snd kv))) es ->
    coerce_object one_of d (VObj es) es (sub_of es) p = [] <->
    NoDup (map fst es) /\
    (forall k v, In (k, v) es -> exists i, In i (io_fields d) /\ iv_name i = k) /\
    (forall i v, In i (io_fields d) -> In (iv_name i, v) es -> conforms (iv_type i) v) /\
    (forall i, In i (io_fields d) -> tref_required (iv_type i) = true -> iv_default i = None ->
               exists v, In (iv_name i, v) es) /\
    (marked_one_of one_of d -> exists k v, es = [(k, v)] /\ v <> VNull).
  Proof.
    intros IH. unfold coerce_object.
    set (missing := filter _ (io_fields d)).
    rewrite Forall_forall in IH.
    split.
    - intros H. apply app_eq_nil in H as [H1 H]. apply app_eq_nil in H as [H2 H].
      apply app_eq_nil in H as [H3 H]. apply app_eq_nil in H as [H4 H5].
      assert (Hnd : NoDup (map fst es)).
      { apply map_eq_nil in H1. apply duplicates_nil in H1. exact H1. }
      split; [exact Hnd|]. split; [|split; [|split]].
      + intros k v Hin. apply map_eq_nil in H2. rewrite filter_nil in H2.
        specialize (H2 _ Hin). cbn in H2. destruct (get_ivd (io_fields d) k) as [i|] eqn:E; [|discriminate].
        apply get_ivd_Some in E as [E1 E2]. eauto.
      + intros i v Hi Hin. rewrite flat_map_nil in H3. specialize (H3 i Hi).
        unfold sub_of in H3. rewrite (assoc_NoDup _ _ v Hnd Hin) in H3. cbn in H3.
        apply (IH _ Hin) in H3. apply H3.
      + intros i Hi Hr Hd.
        assert (Hm : missing = []) by (destruct missing; [auto|discriminate]).
        unfold missing in Hm. rewrite filter_nil in Hm. specialize (Hm i Hi). cbn in Hm.
        unfold sub_of in Hm. destruct (assoc (iv_name i) es) as [v|] eqn:E.
        * apply assoc_In in E. eauto.
        * cbn in Hm. rewrite Hd in Hm. congruence.
      + exact (proj1 (one_of_errors_nil _ _ _ _) H4).
    - intros (Hnd & Hk & Hc & Hr & Ho).
      assert (H1 : duplicates fst es = []) by (apply duplicates_nil; exact Hnd).
      assert (H2 : filter (fun e => match get_ivd (io_fields d) (fst e) with None => true | Some _ => false end) es = []).
      { apply filter_nil. intros [k v] Hin. destruct (Hk k v Hin) as (i & Hi & Hn). cbn.
        destruct (get_ivd (io_fields d) k) eqn:E; auto. rewrite get_ivd_None in E. exfalso. eapply E; eauto. }
      assert (H3 : flat_map (fun i => match sub_of es (iv_name i) with
                                      | Some f => f (iv_type i) (ppush p (PKey (iv_name i))) true
                                      | None => [] end) (io_fields d) = []).
      { apply flat_map_nil. intros i Hi. unfold sub_of.
        destruct (assoc (iv_name i) es) as [v|] eqn:E; cbn; auto. apply assoc_In in E.
        apply (IH _ E). split; [|discriminate]. cbn. eapply Hc; eauto. }
      assert (H4 : one_of_errors one_of d (VObj es) es p = []) by (apply one_of_errors_nil; exact Ho).
      assert (H5 : missing = []).
      { apply filter_nil. intros i Hi. unfold sub_of.
        destruct (assoc (iv_name i) es) as [v|] eqn:E; cbn; auto.
        destruct (iv_default i) eqn:Ed; auto. destruct (tref_required (iv_type i)) eqn:Er; auto.
        destruct (Hr i Hi Er Ed) as (v & Hv). apply assoc_None in E. exfalso. apply E.
        apply (in_map fst) in Hv. exact Hv. }
      rewrite H1, H2, H3, H4, H5. reflexivity.
  Qed.

  Lemma promote_step v : plain v ->
    (forall n r p allow, coerce v (TBase n r) p allow = [] <-> conforms (TBase n r) v) ->
    forall t p allow, coerce v t p allow = [] <-> conforms t v /\ (allow = false -> no_promotion t v).
  Proof.
    intros Hp Hb. induction t as [n r|t IH r]; intros p allow.
    - rewrite Hb. split; [intros H; split; auto; intros _; exact I|tauto].
    - destruct allow.
      + rewrite coerce_promote, IH by auto. split.
        * intros [H _]. split; [|discriminate]. apply c_promote; auto; intros; intros ->; exact Hp.
        * intros [H _]. split; [|discriminate].
          inversion H; subst; auto; exfalso; exact Hp.
      + rewrite coerce_nopromote by auto. split; [discriminate|].
        intros [_ H]. specialize (H eq_refl). destruct v; cbn in H, Hp; tauto.
  Qed.

  Definition concrete (v : value) : Prop := match v with VNull | VVar _ => False | _ => True end.

  Lemma base_step v : concrete v -> (forall es, v <> VObj es) ->
    forall n r p allow, coerce v (TBase n r) p allow = [] <-> conforms (TBase n r) v.
  Proof.
    intros Hp Ho n r p allow.
    assert (E : coerce v (TBase n r) p allow =
      match get_type S n with
      | Some (DBuiltin b) => coerce_builtin (TBase n r) b v p
      | Some (DScalar d) => coerce_custom scalar_hook (sc_name d) v p
      | Some (DEnum d) => coerce_enum str_enum (TBase n r) d v p
      | Some (DInput d) => [ENoImplicit v (tref_display (TBase n r)) p]
      | _ => [EUnresolved v n p]
      end).
    { destruct v; cbn in Hp; try tauto; try reflexivity. exfalso. eapply Ho. reflexivity. }
    rewrite E. clear E.
    destruct (get_type S n) as [[b|d|d|d|d|d|d]|] eqn:Eg.
    - rewrite coerce_builtin_nil. split; intros H; [eapply c_builtin; eauto|].
      inversion H; subst; try congruence; cbn in Hp; try tauto.
    - unfold coerce_custom. destruct (scalar_hook (sc_name d) v) eqn:Eh.
      + split; [discriminate|]. intros H. inversion H; subst; try congruence; cbn in Hp; tauto.
      + split; auto. intros _. eapply c_scalar; eauto; intros; intros ->; exact Hp.
    - split; [discriminate|]. intros H. inversion H; subst; try congruence; cbn in Hp; tauto.
    - split; [discriminate|]. intros H. inversion H; subst; try congruence; try (cbn in Hp; tauto).
    - rewrite coerce_enum_nil. split; intros H; [eapply c_enum; eauto|].
      inversion H; subst; try congruence; cbn in Hp; try tauto.
    - split; [discriminate|]. intros H. inversion H; subst; try congruence; cbn in Hp; tauto.
    - split; [discriminate|]. intros H. inversion H; subst; try congruence; cbn in Hp; tauto.
    - split; [discriminate|]. intros H. inversion H; subst; try congruence; cbn in Hp; tauto.
  Qed.

  Lemma coerce_iff v : forall t p allow,
    coerce v t p allow = [] <-> conforms t v /\ (allow = false -> no_promotion t v).
  Proof.
    induction v as [x|z|f|s|b| |e|vs IH|es IH] using value_ind';
      try (apply promote_step; [exact I|]; apply base_step; [exact I|]; intros; discriminate).
    - intros t p allow. split; [intros _|destruct t; reflexivity].
      split; [constructor|]. intros _. destruct t; exact I.
    - intros t p allow. assert (E : coerce VNull t p allow =
        if tref_required t then [ENullForRequired VNull (tref_display t) p] else []) by (destruct t; reflexivity).
      rewrite E. destruct (tref_required t) eqn:Er.
      + split; [discriminate|]. intros [H _]. inversion H; subst; try congruence.
        * destruct b; cbn in *; repeat match goal with
             | H : _ \/ _ |- _ => destruct H
             | H : exists _, _ |- _ => destruct H
             end; discriminate.
        * match goal with H : enum_accepts _ _ _ |- _ => destruct H as (? & _ & [?|[_ ?]]); discriminate end.
      + split; auto. intros _. split; [constructor; auto|]. intros _. destruct t; exact I.
    - (* lists *)
      intros t p allow. destruct t as [n r|t r].
      + rewrite base_step by (exact I || (intros; discriminate)).
        split; [intros H; split; auto; intros _; exact I|tauto].
      + change (coerce (VList vs) (TList t r) p allow) with
          (concat (mapi (fun i x => coerce x t (ppush p (PIndex i)) false) vs)).
        assert (E : concat (mapi (fun i x => coerce x t (ppush p (PIndex i)) false) vs) = [] <->
                    forall x, In x vs -> conforms t x /\ no_promotion t x).
        { unfold mapi. generalize 0. clear r allow. induction IH as [|x vs Hx IHf IHv]; intros i; cbn.
          - split; auto. intros _ x [].
          - split.
            + intros H. apply app_eq_nil in H as [H1 H2]. apply Hx in H1.
              intros y [<-|Hy]; [split; [apply H1|apply H1; auto]|].
              rewrite IHv in H2. auto.
            + intros H. rewrite (proj2 (Hx t (ppush p (PIndex i)) false)); cbn.
              * apply IHv. auto.
              * destruct (H x (or_introl eq_refl)). auto. }
        rewrite E. split.
        * intros H. split; [constructor; auto|]. intros _; exact I.
        * intros [H _]. inversion H; subst; auto. congruence.
    - (* objects *)
      apply promote_step; [exact I|]. intros n r p allow.
      destruct (get_type S n) as [[b|d|d|d|d|d|d]|] eqn:Eg.
      + cbn; rewrite Eg; rewrite coerce_builtin_nil.
        split; intros H; [eapply c_builtin; eauto|]. inversion H; subst; congruence.
      + cbn; rewrite Eg; unfold coerce_custom. destruct (scalar_hook (sc_name d) (VObj es)) eqn:Eh.
        * split; [discriminate|]. intros H. inversion H; subst; try congruence.
        * split; auto. intros _. eapply c_scalar; eauto; intros; discriminate.
      + cbn; rewrite Eg. split; [discriminate|]. intros H. inversion H; subst; congruence.
      + rewrite (coerce_obj_eq es n r d) by auto. rewrite coerce_object_nil by auto. split.
        * intros (H1 & H2 & H3 & H4 & H5). eapply c_object; eauto.
        * intros H. inversion H; subst; try congruence.
          match goal with E : get_type S n = Some (DInput ?d') |- _ => assert (d' = d) by congruence; subst d' end.
          auto 10.
      + cbn; rewrite Eg. split; [discriminate|]. intros H. inversion H; subst; try congruence.
        match goal with H : enum_accepts _ _ _ |- _ => destruct H as (? & _ & [?|[_ ?]]); discriminate end.
      + cbn; rewrite Eg. split; [discriminate|]. intros H. inversion H; subst; congruence.
      + cbn; rewrite Eg. split; [discriminate|]. intros H. inversion H; subst; congruence.
      + cbn; rewrite Eg. split; [discriminate|]. intros H. inversion H; subst; congruence.
  Qed.
End Proofs.
