(** The coercion errors are exactly the offending places. *)
From Verif Require Import Base Ast Coercion CoercionSpec CoercionProofs.

Section Errors.
  Variable scalar_hook : name -> value -> option text.
  Variable str_enum one_of : bool.
  Variable S : schema.
  Notation coerce := (Coercion.coerce scalar_hook str_enum one_of S).
  Notation visits := (CoercionSpec.visits S).
  Notation offence := (CoercionSpec.offence scalar_hook str_enum one_of S).

  Lemma ppush_app p e q : ppush p e ++ q = p ++ e :: q.
  Proof. unfold ppush. rewrite <- app_assoc. reflexivity. Qed.

  Lemma In_single {A} (x y : A) : In x [y] <-> x = y.
  Proof. cbn. intuition. Qed.

  Lemma builtin_In t b v p e :
    In e (coerce_builtin t b v p) <-> ~ builtin_accepts b v /\ e = ENoImplicit v (tref_display t) p.
  Proof.
    destruct (coerce_builtin t b v p) as [|x l] eqn:E.
    - apply coerce_builtin_nil in E. cbn. tauto.
    - assert (H : ~ builtin_accepts b v).
      { intros H. rewrite <- (coerce_builtin_nil t b v p) in H. congruence. }
      assert (Hs : x :: l = [ENoImplicit v (tref_display t) p]).
      { rewrite <- E. destruct b, v; cbn in *; try reflexivity; discriminate. }
      rewrite Hs, In_single. tauto.
  Qed.

  Lemma enum_name_In d v n p e :
    In e (coerce_enum_name d v n p) <-> ~ In n (map ev_name (en_values d)) /\ e = ENoEnumMember n v (en_name d) p.
  Proof.
    unfold coerce_enum_name. destruct (existsb _ _) eqn:E.
    - split; [intros []|]. intros [H _]. exfalso. apply H.
      apply existsb_exists in E as (x & Hx & Hn). apply teqb_eq in Hn. subst. apply in_map; auto.
    - rewrite In_single. split; [|tauto]. intros ->. split; auto. intros H.
      apply in_map_iff in H as (x & Hx & Hin). rewrite existsb_false in E. specialize (E x Hin). cbn in E.
      apply teqb_neq in E. auto.
  Qed.

  Lemma visits_base_inv a n r v q a' t' w :
    (forall es, v <> VObj es) -> visits a (TBase n r) v q a' t' w -> q = [] /\ a' = a /\ t' = TBase n r /\ w = v.
  Proof. intros H Hv. inversion Hv; subst; auto. exfalso. eapply H. reflexivity. Qed.

  Lemma base_errors v : is_concrete v -> (forall es, v <> VObj es) ->
    forall n r p a e, In e (coerce v (TBase n r) p a) <-> offence a (TBase n r) v p e.
  Proof.
    intros Hc Ho n r p a e.
    assert (E : coerce v (TBase n r) p a =
      match get_type S n with
      | Some (DBuiltin b) => coerce_builtin (TBase n r) b v p
      | Some (DScalar d) => coerce_custom scalar_hook (sc_name d) v p
      | Some (DEnum d) => coerce_enum str_enum (TBase n r) d v p
      | Some (DInput d) => [ENoImplicit v (tref_display (TBase n r)) p]
      | _ => [EUnresolved v n p]
      end).
    { destruct v; cbn in Hc; try tauto; try reflexivity. exfalso. eapply Ho. reflexivity. }
    rewrite E. clear E.
    destruct (get_type S n) as [[b|d|d|d|d|d|d]|] eqn:Eg.
    - rewrite builtin_In. split.
      + intros [H ->]. eapply o_builtin; eauto.
      + intros H. inversion H; subst; try congruence; try (exfalso; exact Hc);
          try (exfalso; eapply Ho; reflexivity);
          try (match goal with H : forall t, get_type S n = Some t -> _ |- _ =>
                 specialize (H _ Eg); discriminate end).
        split; congruence.
    - unfold coerce_custom. destruct (scalar_hook (sc_name d) v) eqn:Eh.
      + rewrite In_single. split.
        * intros ->. eapply o_scalar; eauto.
        * intros H. inversion H; subst; try congruence; try (exfalso; exact Hc);
          try (exfalso; eapply Ho; reflexivity);
          try (match goal with H : forall t, get_type S n = Some t -> _ |- _ =>
                 specialize (H _ Eg); discriminate end).
      + split; [intros []|].
        intros H. inversion H; subst; try congruence; try (exfalso; exact Hc);
          try (exfalso; eapply Ho; reflexivity);
          try (match goal with H : forall t, get_type S n = Some t -> _ |- _ =>
                 specialize (H _ Eg); discriminate end).
    - rewrite In_single. split.
      + intros ->. apply o_unresolved; auto. intros t Ht. rewrite Eg in Ht. injection Ht as <-. reflexivity.
      + intros H. inversion H; subst; try congruence; try (exfalso; exact Hc);
          try (exfalso; eapply Ho; reflexivity).
    - rewrite In_single. split.
      + intros ->. eapply o_object_kind; eauto.
      + intros H. inversion H; subst; try congruence; try (exfalso; exact Hc);
          try (exfalso; eapply Ho; reflexivity);
          try (match goal with H : forall t, get_type S n = Some t -> _ |- _ =>
                 specialize (H _ Eg); discriminate end).
    - split.
      + unfold coerce_enum. intros H.
        assert (Hk : In e [ENoImplicit v (tref_display (TBase n r)) p] -> (forall x, v <> VEnum x) ->
                     (str_enum = true -> forall x, v <> VStr x) -> offence a (TBase n r) v p e).
        { intros Hi H1 H2. apply In_single in Hi. subst. eapply o_enum_kind; eauto. }
        destruct v; try (apply Hk; [exact H|intros; discriminate|intros _; discriminate]).
        * destruct str_enum eqn:Es.
          -- apply enum_name_In in H as [H1 ->]. eapply o_enum_member; eauto.
          -- apply Hk; [exact H|intros; discriminate|intros; discriminate].
        * apply enum_name_In in H as [H1 ->]. eapply o_enum_member; eauto.
      + intros H. inversion H; subst; try congruence; try (exfalso; exact Hc);
          try (exfalso; eapply Ho; reflexivity);
          try (match goal with H : forall t, get_type S n = Some t -> _ |- _ =>
                 specialize (H _ Eg); discriminate end).
        * unfold coerce_enum. destruct v; try (left; reflexivity).
          -- destruct str_enum eqn:Es; [|left; reflexivity].
             match goal with H : true = true -> _ |- _ => exfalso; eapply H; eauto end.
          -- match goal with H : forall x, VEnum _ <> _ |- _ => exfalso; eapply H; eauto end.
        * assert (d0 = d) by congruence; subst d0.
          match goal with H : _ \/ _ |- _ => destruct H as [->|[Hs ->]] end; unfold coerce_enum.
          -- apply enum_name_In. auto.
          -- rewrite Hs. apply enum_name_In. auto.
    - rewrite In_single. split.
      + intros ->. apply o_unresolved; auto. intros t Ht. rewrite Eg in Ht. injection Ht as <-. reflexivity.
      + intros H. inversion H; subst; try congruence; try (exfalso; exact Hc);
          try (exfalso; eapply Ho; reflexivity).
    - rewrite In_single. split.
      + intros ->. apply o_unresolved; auto. intros t Ht. rewrite Eg in Ht. injection Ht as <-. reflexivity.
      + intros H. inversion H; subst; try congruence; try (exfalso; exact Hc);
          try (exfalso; eapply Ho; reflexivity).
    - rewrite In_single. split.
      + intros ->. apply o_unresolved; auto. intros t Ht. rewrite Eg in Ht. discriminate.
      + intros H. inversion H; subst; try congruence; try (exfalso; exact Hc);
          try (exfalso; eapply Ho; reflexivity).
  Qed.

  Definition exact_at (v : value) : Prop := forall t p a e,
    In e (coerce v t p a) <-> exists q a' t' w, visits a t v q a' t' w /\ offence a' t' w (p ++ q) e.

  Lemma promote_errors v : is_plain v ->
    (forall n r p a e, In e (coerce v (TBase n r) p a) <->
        exists q a' t' w, visits a (TBase n r) v q a' t' w /\ offence a' t' w (p ++ q) e) ->
    exact_at v.
  Proof.
    intros Hp Hb. unfold exact_at. induction t as [n r|t IH r]; intros p a e; [apply Hb|].
    destruct a.
    - rewrite coerce_promote by exact Hp. rewrite IH. split.
      + intros (q & a' & t' & w & Hv & Ho). exists q, a', t', w. split; auto. constructor; auto.
      + intros (q & a' & t' & w & Hv & Ho). inversion Hv; subst.
        * exfalso. inversion Ho; subst; cbn in Hp; tauto.
        * exists q, a', t', w. auto.
        * cbn in Hp; tauto.
    - rewrite coerce_nopromote by exact Hp. rewrite In_single. split.
      + intros ->. exists [], false, (TList t r), v. split; [constructor|].
        rewrite app_nil_r. constructor; auto.
      + intros (q & a' & t' & w & Hv & Ho). inversion Hv; subst.
        * rewrite app_nil_r in Ho. inversion Ho; subst; auto; cbn in Hp; tauto.
        * cbn in Hp; tauto.
  Qed.

  Lemma one_of_In d es p e :
    In e (one_of_errors one_of d (VObj es) es p) <->
    marked_one_of one_of d /\
    (((exists k, In (k, VNull) es) /\
       e = EOneOfNull (VObj es) (io_name d) (map fst (filter (fun e => match snd e with VNull => true | _ => false end) es)) p) \/
     (length (filter (fun e => match snd e with VNull => false | _ => true end) es) <> 1 /\
       e = EOneOfNotSingle (VObj es) (io_name d) (map fst (filter (fun e => match snd e with VNull => false | _ => true end) es)) p)).
  Proof.
    unfold one_of_errors, marked_one_of.
    assert (E1 : forall l : list (name * value), filter (fun e => is_null (snd e)) l =
                 filter (fun e => match snd e with VNull => true | _ => false end) l).
    { intros l. apply filter_ext. intros [k []]; reflexivity. }
    assert (E2 : forall l : list (name * value), filter (fun e => negb (is_null (snd e))) l =
                 filter (fun e => match snd e with VNull => false | _ => true end) l).
    { intros l. apply filter_ext. intros [k []]; reflexivity. }
    rewrite E1, E2.
    destruct (one_of && has_directive (tx "oneOf") (io_dirs d)) eqn:E.
    - apply andb_true_iff in E as [Ea Eb]. apply has_directive_iff in Eb.
      rewrite in_app_iff. cbn zeta.
      set (nl := filter (fun e0 : name * value => match snd e0 with VNull => true | _ => false end) es).
      set (nn := filter (fun e0 : name * value => match snd e0 with VNull => false | _ => true end) es).
      assert (Hnl : (exists k, In (k, VNull) es) <-> length nl <> 0).
      { split.
        - intros (k & Hk) Hl. apply length_zero_iff_nil in Hl.
          assert (In (k, VNull) nl) by (apply filter_In; split; auto). rewrite Hl in H. destruct H.
        - intros Hl. destruct nl as [|[k x] nl'] eqn:En; [cbn in Hl; lia|].
          assert (Hx : In (k, x) nl) by (rewrite En; left; auto).
          unfold nl in Hx. apply filter_In in Hx as [Hx1 Hx2]. cbn in Hx2. destruct x; try discriminate.
          exists k; auto. }
      destruct (Nat.eqb_spec (length nl) 0) as [H0|H0]; destruct (Nat.eqb_spec (length nn) 1) as [H1|H1];
        cbn [In]; split.
      + intros [[]|[]].
      + intros (_ & [[H _]|[H _]]); [apply Hnl in H|]; lia.
      + intros [[]|[<-|[]]]. split; auto.
      + intros (_ & [[H _]|[H ->]]); [apply Hnl in H; lia|auto].
      + intros [[<-|[]]|[]]. split; auto. left. rewrite Hnl. auto.
      + intros (_ & [[H ->]|[H _]]); [auto|lia].
      + intros [[<-|[]]|[<-|[]]]; split; auto. left. rewrite Hnl. auto.
      + intros (_ & [[H ->]|[H ->]]); auto.
    - split; [intros []|]. intros [[H1 H2] _]. apply has_directive_iff in H2. rewrite H1, H2 in E. discriminate.
  Qed.

  Lemma missing_eq d es :
    map iv_name (filter (fun i => match sub_of scalar_hook str_enum one_of S es (iv_name i), iv_default i with
                                    | None, None => tref_required (iv_type i)
                                    | _, _ => false end) (io_fields d)) = missing_required d es.
  Proof.
    unfold missing_required. f_equal. apply filter_ext. intros i. unfold sub_of, iv_required.
    destruct (assoc (iv_name i) es) as [x|] eqn:E; cbn [option_map].
    - apply assoc_In in E. apply (in_map fst) in E. cbn [fst] in E. apply tmem_In in E. rewrite E. cbn [negb].
      rewrite andb_false_r. reflexivity.
    - apply assoc_None in E. apply tmem_false in E. rewrite E. cbn [negb]. rewrite andb_true_r. reflexivity.
  Qed.

  Lemma object_errors es : Forall (fun kv => exact_at (snd kv)) es ->
    forall n r p a e, In e (coerce (VObj es) (TBase n r) p a) <->
        exists q a' t' w, visits a (TBase n r) (VObj es) q a' t' w /\ offence a' t' w (p ++ q) e.
  Proof.
    intros IH n r p a e. rewrite Forall_forall in IH.
    destruct (get_type S n) as [[b|d|d|d|d|d|d]|] eqn:Eg.
    4: {
      rewrite (coerce_obj_eq _ _ _ _ es n r d) by auto. unfold coerce_object.
      set (missing := filter _ (io_fields d)).
      assert (Hm : map iv_name missing = missing_required d es) by apply missing_eq.
      rewrite !in_app_iff. split.
      - intros [H|[H|[H|[H|H]]]].
        + apply in_map_iff in H as ([k xs] & <- & H). apply duplicates_In in H as [-> H].
          exists [], a, (TBase n r), (VObj es). split; [constructor|]. rewrite app_nil_r.
          eapply o_duplicate; eauto.
        + apply in_map_iff in H as ([k x] & <- & H). apply filter_In in H as [H1 H2].
          cbn [fst] in *. exists [], a, (TBase n r), (VObj es). split; [constructor|]. rewrite app_nil_r.
          eapply o_unknown; eauto. { apply (in_map fst) in H1. exact H1. }
          destruct (get_ivd (io_fields d) k) eqn:E; [discriminate|]. rewrite get_ivd_None in E.
          intros Hi. apply in_map_iff in Hi as (i & Hi & Hin). eapply E; eauto.
        + apply in_flat_map in H as (i & Hi & H). unfold sub_of in H.
          destruct (assoc (iv_name i) es) as [x|] eqn:E; [|destruct H]. cbn [option_map] in H.
          assert (Hx : In (iv_name i, x) es) by (apply assoc_In; auto).
          apply (IH _ Hx) in H. destruct H as (q & a' & t' & w & Hv & Ho). cbn [snd] in *.
          exists (PKey (iv_name i) :: q), a', t', w. split.
          * eapply vis_field; eauto.
          * rewrite ppush_app in Ho. exact Ho.
        + apply one_of_In in H as [Hmk [[H1 ->]|[H1 ->]]]; exists [], a, (TBase n r), (VObj es);
            (split; [constructor|]); rewrite app_nil_r.
          * eapply o_one_of_null; eauto.
          * eapply o_one_of_count; eauto.
        + destruct missing as [|m0 ms] eqn:Ems; [destruct H|]. rewrite <- Ems in *. apply In_single in H. subst e.
          exists [], a, (TBase n r), (VObj es). split; [constructor|]. rewrite app_nil_r.
          rewrite Hm. eapply o_missing; eauto. rewrite <- Hm, Ems. discriminate.
      - intros (q & a' & t' & w & Hv & Ho). inversion Hv; subst.
        + rewrite app_nil_r in Ho.
          inversion Ho; subst; try congruence;
            try (match goal with H : get_type S n = Some (DInput ?d') |- _ =>
                   assert (d' = d) by congruence; subst d' end).
          * left. apply in_map_iff. exists (k, with_key fst k es). split; auto.
            apply duplicates_In. split; auto.
          * right; left. match goal with H : In k (map fst es) |- _ => apply in_map_iff in H as ([k' x] & Hk & Hin) end.
            cbn in Hk; subst k'. apply in_map_iff. exists (k, x). split; auto. apply filter_In. split; auto.
            cbn. destruct (get_ivd (io_fields d) k) as [i|] eqn:E; auto. exfalso.
            apply get_ivd_Some in E as [E1 E2].
            match goal with H : ~ In k _ |- _ => apply H end. subst k. apply in_map; auto.
          * do 4 right. destruct missing as [|m0 ms] eqn:Ems; [cbn in Hm; congruence|].
            rewrite <- Ems in *. left. rewrite Hm. reflexivity.
          * do 3 right. left. apply one_of_In. split; auto.
          * do 3 right. left. apply one_of_In. split; auto.
          * match goal with H : forall t, get_type S n = Some t -> _ |- _ => specialize (H _ Eg); discriminate end.
        + match goal with H : get_type S n = Some (DInput ?d') |- _ => assert (d' = d) by congruence; subst d' end.
          right; right; left. apply in_flat_map. exists f. split; auto. unfold sub_of.
          match goal with H : assoc _ es = Some x |- _ => rewrite H end. cbn [option_map].
          assert (Hx : In (iv_name f, x) es) by (apply assoc_In; auto).
          apply (IH _ Hx). exists q0, a', t', w. split; auto. rewrite ppush_app. exact Ho. }
    all: assert (Hin : forall q a' t' w, visits a (TBase n r) (VObj es) q a' t' w ->
           q = [] /\ a' = a /\ t' = TBase n r /\ w = VObj es)
         by (intros q a' t' w Hv; inversion Hv; subst; auto; congruence).
    all: match goal with |- ?L <-> _ => assert (Hl : L <-> offence a (TBase n r) (VObj es) p e) end;
      [ | rewrite Hl; split;
          [ intros Ho; exists [], a, (TBase n r), (VObj es); split; [constructor|rewrite app_nil_r; exact Ho]
          | intros (q & a' & t' & w & Hv & Ho); apply Hin in Hv as (-> & -> & -> & ->);
            rewrite app_nil_r in Ho; exact Ho ] ].
    all: cbn; rewrite Eg.
    - rewrite builtin_In. split.
      + intros [H ->]. eapply o_builtin; eauto. exact I.
      + intros H. inversion H; subst; try congruence.
        * split; congruence.
        * match goal with H : forall t, get_type S n = Some t -> _ |- _ => specialize (H _ Eg); discriminate end.
    - unfold coerce_custom. destruct (scalar_hook (sc_name d) (VObj es)) eqn:Eh.
      + rewrite In_single. split.
        * intros ->. eapply o_scalar; eauto. exact I.
        * intros H. inversion H; subst; try congruence.
          match goal with H : forall t, get_type S n = Some t -> _ |- _ => specialize (H _ Eg); discriminate end.
      + split; [intros []|]. intros H. inversion H; subst; try congruence.
        match goal with H : forall t, get_type S n = Some t -> _ |- _ => specialize (H _ Eg); discriminate end.
    - rewrite In_single. split.
      + intros ->. apply o_unresolved; [exact I|]. intros t Ht. rewrite Eg in Ht. injection Ht as <-. reflexivity.
      + intros H. inversion H; subst; congruence.
    - rewrite In_single. split.
      + intros ->. eapply o_enum_kind; eauto; [exact I|discriminate|discriminate].
      + intros H. inversion H; subst;
          first [ congruence | reflexivity
                | match goal with H : _ \/ _ |- _ => destruct H as [H|[_ H]]; discriminate end
                | match goal with H : forall t, get_type S n = Some t -> _ |- _ => specialize (H _ Eg); discriminate end ].
    - rewrite In_single. split.
      + intros ->. apply o_unresolved; [exact I|]. intros t Ht. rewrite Eg in Ht. injection Ht as <-. reflexivity.
      + intros H. inversion H; subst; congruence.
    - rewrite In_single. split.
      + intros ->. apply o_unresolved; [exact I|]. intros t Ht. rewrite Eg in Ht. injection Ht as <-. reflexivity.
      + intros H. inversion H; subst; congruence.
    - rewrite In_single. split.
      + intros ->. apply o_unresolved; [exact I|]. intros t Ht. rewrite Eg in Ht. discriminate.
      + intros H. inversion H; subst; congruence.
  Qed.

  Lemma simple_errors v : is_plain v -> (forall es, v <> VObj es) -> exact_at v.
  Proof.
    intros Hp Ho. apply promote_errors; auto. intros n r p a e.
    rewrite base_errors; auto; [|destruct v; cbn in *; tauto]. split.
    - intros H. exists [], a, (TBase n r), v. split; [constructor|rewrite app_nil_r; exact H].
    - intros (q & a' & t' & w & Hv & H). apply visits_base_inv in Hv as (-> & -> & -> & ->); auto.
      rewrite app_nil_r in H. exact H.
  Qed.

  Lemma coerce_exact v : exact_at v.
  Proof.
    induction v as [x|z|f|s|b| |e|vs IH|es IH] using value_ind';
      try (apply simple_errors; [exact I|intros; discriminate]).
    - intros t p a e. split; [destruct t; intros []|].
      intros (q & a' & t' & w & Hv & Ho). exfalso.
      assert (w = VVar x) by (inversion Hv; subst; auto; cbn in *; tauto). subst w.
      inversion Ho; subst; cbn in *; try tauto.
      match goal with H : _ \/ _ |- _ => destruct H as [H|[_ H]]; discriminate end.
    - intros t p a e. assert (E : coerce VNull t p a =
        if tref_required t then [ENullForRequired VNull (tref_display t) p] else []) by (destruct t; reflexivity).
      rewrite E.
      assert (Hinv : forall q a' t' w, visits a t VNull q a' t' w -> q = [] /\ a' = a /\ t' = t /\ w = VNull)
        by (intros q a' t' w Hv; inversion Hv; subst; auto; cbn in *; tauto).
      split.
      + destruct (tref_required t) eqn:Er; [|intros []]. rewrite In_single. intros ->.
        exists [], a, t, VNull. split; [constructor|]. rewrite app_nil_r. constructor; auto.
      + intros (q & a' & t' & w & Hv & Ho). apply Hinv in Hv as (-> & -> & -> & ->).
        rewrite app_nil_r in Ho. inversion Ho; subst; cbn in *; try tauto.
        * match goal with H : tref_required t = true |- _ => rewrite H end. left; auto.
        * match goal with H : _ \/ _ |- _ => destruct H as [H|[_ H]]; discriminate end.
    - intros t p a e. destruct t as [n r|t r].
      + rewrite base_errors; [|exact I|intros; discriminate]. split.
        * intros H. exists [], a, (TBase n r), (VList vs). split; [constructor|rewrite app_nil_r; exact H].
        * intros (q & a' & t' & w & Hv & H). apply visits_base_inv in Hv as (-> & -> & -> & ->);
            [|intros; discriminate]. rewrite app_nil_r in H. exact H.
      + change (coerce (VList vs) (TList t r) p a) with
          (concat (mapi (fun i x => coerce x t (ppush p (PIndex i)) false) vs)).
        rewrite Forall_forall in IH. rewrite in_concat. split.
        * intros (l & Hl & He). unfold mapi in Hl. apply mapi_from_In in Hl as (i & x & Hi & ->).
          apply IH in He; [|eapply nth_error_In; eauto]. destruct He as (q & a' & t' & w & Hv & Ho).
          exists (PIndex i :: q), a', t', w. split; [eapply vis_item; eauto|].
          rewrite ppush_app in Ho. exact Ho.
        * intros (q & a' & t' & w & Hv & Ho). inversion Hv; subst.
          -- exfalso. inversion Ho; subst; cbn in *; tauto.
          -- cbn in *; tauto.
          -- exists (coerce x t (ppush p (PIndex i)) false). split.
             ++ unfold mapi. apply mapi_from_In. exists i, x. auto.
             ++ apply IH; [eapply nth_error_In; eauto|]. exists q0, a', t', w. split; auto.
                rewrite ppush_app. exact Ho.
    - apply promote_errors; [exact I|]. apply object_errors. exact IH.
  Qed.
End Errors.
