(** Values of the generated types hold nothing that is not in the JSON they were read from (C94). *)
From Verif Require Import Base Ast Json Graph Typegen TypegenDe TypegenReadSpec TypegenCases TypegenResponseProps.
Local Open Scope string_scope.
Local Open Scope list_scope.

Lemma oseq_Forall2 {A} (l : list (option A)) r : oseq l = Some r -> Forall2 (fun x a => x = Some a) l r.
Proof.
  revert r. induction l as [|x l IH]; cbn; intros r E; [injection E as <-; constructor|].
  destruct x as [a|]; [|discriminate]. destruct (oseq l); [|discriminate]. injection E as <-. constructor; auto.
Qed.
Lemma oseq_in {A B} (f : B -> option A) l r a : oseq (map f l) = Some r -> In a r -> exists x, In x l /\ f x = Some a.
Proof.
  intros E. apply oseq_Forall2 in E. revert r E. induction l as [|x l IH]; cbn; intros r E Ha; inversion E; subst; [destruct Ha|].
  destruct Ha as [<-|Ha]; [eauto|]. match goal with F : Forall2 _ _ _ |- _ => destruct (IH _ F Ha) as (z & Hz & G) end. eauto.
Qed.
Lemma oseq_keys {A B} (f : name * B -> option (name * A)) l r :
  (forall x a, f x = Some a -> fst a = fst x) -> oseq (map f l) = Some r -> map fst r = map fst l.
Proof.
  intros K E. apply oseq_Forall2 in E. revert r E. induction l as [|x l IH]; cbn; intros r E; inversion E; subst; auto. cbn. f_equal; auto.
Qed.

Section Read.
  Variables (cod : codec) (S : schema) (scalar_de : name -> json -> bool) (pascal : name -> name) (root_items : list (name * etype)).
  Notation DE := (de cod S scalar_de pascal root_items).
  Notation RF := (read_from cod S scalar_de).
  Definition ent (kvs : list (text * json)) : entries := map (fun kv => (fst kv, (snd kv, DE (snd kv)))) kvs.
  Lemma ent_assoc kvs k : assoc k (ent kvs) = option_map (fun j => (j, DE j)) (assoc k kvs).
  Proof. induction kvs as [|[k' j] kvs IH]; cbn; auto. destruct (teqb k k'); auto. Qed.
  Lemma fields_read kvs fs r :
    Forall (fun kv => forall w v, DE (snd kv) w = Some v -> RF v (snd kv)) kvs -> de_fields cod fs (ent kvs) = Some r ->
    map fst r = map fst fs /\
    forall k v, In (k, v) r -> (exists j, assoc k kvs = Some j /\ RF v j) \/ (cod = Serde /\ v = RNone /\ ~ In k (map fst kvs)).
  Proof.
    intros IH E. unfold de_fields in E. split.
    - eapply oseq_keys; [|exact E]. intros x a F. cbn beta in F. destruct (assoc (fst x) (ent kvs)) as [[? g]|].
      + destruct (g (snd x)); inversion F; reflexivity.
      + destruct cod; [|discriminate]. destruct (snd x); inversion F; reflexivity.
    - intros k v Hkv. destruct (oseq_in _ _ _ _ E Hkv) as ((k', w) & _ & F). cbn in F. rewrite ent_assoc in F.
      destruct (assoc k' kvs) as [j|] eqn:A; cbn in F.
      + destruct (DE j w) eqn:D; [|discriminate]. injection F as <- <-. left. exists j. split; auto.
        rewrite Forall_forall in IH. apply (IH _ (assoc_In _ _ _ A) w). exact D.
      + right. destruct cod; [|discriminate]. destruct w; try discriminate. injection F as <- <-. apply assoc_None in A. auto.
  Qed.
  Lemma ent_filter p kvs : filter (fun kv => p (fst kv)) (ent kvs) = ent (filter (fun kv => p (fst kv)) kvs).
  Proof. induction kvs as [|[k j] kvs IH]; cbn; auto. destruct (p k); cbn; f_equal; auto. Qed.
  Lemma assoc_untagged (kvs : list (text * json)) k :
    assoc k (filter (fun kv => negb (teqb (fst kv) tag)) kvs) = if teqb k tag then None else assoc k kvs.
  Proof.
    induction kvs as [|[k' j] kvs IH]; cbn [assoc filter fst].
    { destruct (teqb k tag); auto. }
    destruct (teqb_spec k' tag); cbn [negb assoc]; rewrite ?IH; destruct (teqb_spec k tag); destruct (teqb_spec k k'); subst; auto; congruence.
  Qed.
  Lemma untagged_in (kvs : list (text * json)) k : In k (map fst kvs) -> k <> tag -> In k (map fst (filter (fun kv => negb (teqb (fst kv) tag)) kvs)).
  Proof.
    intros H N. apply in_map_iff in H as ((k', j) & <- & H). apply in_map_iff. exists (k', j). split; auto. apply filter_In. split; auto.
    cbn [fst] in *. destruct (teqb_spec k' tag); [contradiction|reflexivity].
  Qed.
End Read.
Lemma item_read cod S sd pas ri e kvs v :
    Forall (fun kv => forall w v, de cod S sd pas ri (snd kv) w = Some v -> read_from cod S sd v (snd kv)) kvs ->
    de_item cod e (JObj kvs) (ent cod S sd pas ri kvs) = Some v -> read_from cod S sd v (JObj kvs).
  Proof.
    intros IH E. destruct e as [p fs|p vs| | |]; cbn -[tag] in E; try discriminate.
    - destruct (de_fields cod fs (ent cod S sd pas ri kvs)) as [r|] eqn:D; [|discriminate]. injection E as <-. constructor. apply (fields_read _ _ _ _ _ kvs fs r IH D).
    - destruct cod.
      + rewrite ent_assoc in E. destruct (assoc tag kvs) as [[]|] eqn:A; try discriminate E. cbn in E.
        destruct (assoc s vs) as [fs|]; [|injection E as <-; eapply rf_other_serde; eauto].
        rewrite (ent_filter _ _ _ _ _ (fun k => negb (teqb k tag))) in E.
        destruct (de_fields Serde fs _) as [r|] eqn:D; [|discriminate]. injection E as <-.
        apply fields_read in D as (_ & D); [|apply Forall_forall; intros x Hx; apply filter_In in Hx as [Hx _]; rewrite Forall_forall in IH; exact (IH x Hx)].
        apply rf_variant_serde; auto. intros k v Hkv. destruct (D k v Hkv) as [(j & Hj & R)|(_ & -> & N)].
        * rewrite assoc_untagged in Hj. destruct (teqb_spec k tag); [discriminate|]. left. exists j. auto.
        * right. split; auto. destruct (teqb_spec k tag); [left; auto|right]. intros H. apply N. apply untagged_in; auto.
      + destruct kvs as [|[k0 j0] kvs]; [discriminate E|]. cbn -[tag de_fields] in E. destruct j0; try discriminate E.
        destruct (teqb_spec k0 tag) as [->|]; [|discriminate]. inversion IH as [|? ? _ IH']; subst.
        destruct (assoc s vs) as [fs|]; [|destruct kvs; [injection E as <-; apply rf_other_miniserde; auto|discriminate]].
        destruct (forallb _ _) eqn:FA in E; [|discriminate]. fold (ent Miniserde S sd pas ri kvs) in *.
        destruct (de_fields _ fs _) as [r|] eqn:D; [|discriminate]. injection E as <-.
        apply fields_read in D as (KS & D); auto.
        assert (D' : forall k v, In (k, v) r -> exists j, assoc k kvs = Some j /\ read_from Miniserde S sd v j).
        { intros k v Hkv. destruct (D k v Hkv) as [|(K & _)]; [auto|discriminate K]. }
        apply rf_variant_miniserde; auto. intros k. split; intros H.
        * rewrite KS. rewrite forallb_forall in FA. apply in_map_iff in H as ((k', j) & <- & H).
          specialize (FA (k', (j, de Miniserde S sd pas ri j))). cbn in FA. apply tmem_In. apply FA. apply in_map_iff. exists (k', j). auto.
        * apply in_map_iff in H as ((k', v) & <- & H). destruct (D' _ _ H) as (j & A & _). cbn.
          apply assoc_In in A. apply (in_map fst) in A. exact A.
Qed.

Lemma de_WBase cod S sd pas ri j e :
  de cod S sd pas ri j (WBase e) = de_base cod S sd pas ri e j (match j with JObj kvs => ent cod S sd pas ri kvs | _ => [] end).
Proof. destruct j; reflexivity. Qed.
Lemma de_WOpt cod S sd pas ri j w :
  de cod S sd pas ri j (WOpt w) = match j with JNull => Some RNone | _ => option_map RSome (de cod S sd pas ri j w) end.
Proof. destruct j; reflexivity. Qed.
Lemma de_WVec cod S sd pas ri j w :
  de cod S sd pas ri j (WVec w) = match j with JList js => option_map RVec (oseq (map (fun x => de cod S sd pas ri x w) js)) | _ => None end.
Proof. destruct j; reflexivity. Qed.

(** * C94 *)
Theorem c94_read : forall cod S scalar_de pascal root_items j w v,
  de cod S scalar_de pascal root_items j w = Some v -> read_from cod S scalar_de v j.
Proof.
  intros cod S sd pas ri j.
  assert (Base : forall j e v, (forall x w v, match j with JObj kvs => In x (map snd kvs) | _ => False end -> de cod S sd pas ri x w = Some v -> read_from cod S sd v x) ->
      de_base cod S sd pas ri e j (match j with JObj kvs => ent cod S sd pas ri kvs | _ => [] end) = Some v -> read_from cod S sd v j).
  { clear. intros j e v IH E.
    assert (I : forall e', de_item cod e' j (match j with JObj kvs => ent cod S sd pas ri kvs | _ => [] end) = Some v -> read_from cod S sd v j).
    { intros e' F. destruct j; try (destruct e'; discriminate F). eapply item_read; eauto. apply Forall_forall. intros kv Hkv w v' D.
      apply (IH _ w); auto. apply List.in_map. auto. }
    destruct e as [p fs|p vs|n bo|b bo|n bo]; cbn -[tag de_item de_leaf] in E.
    - apply (I _ E).
    - apply (I _ E).
    - destruct (resolve pas ri n); [|discriminate]. apply (I _ E).
    - destruct b, j; try discriminate E; cbn in E; try (injection E as <-; constructor; unfold is_number; eauto; fail).
      destruct (fits_i32 z) eqn:F; [|discriminate]. injection E as <-. constructor. unfold fits_i32 in F. lia.
    - unfold de_leaf in E. destruct (get_type S n) as [t|] eqn:G; [|discriminate]. destruct t; try discriminate.
      + destruct (sd n j) eqn:D; [|discriminate]. injection E as <-. constructor. auto.
      + destruct j; try discriminate. injection E as <-. destruct (existsb _ _) eqn:X.
        * apply existsb_exists in X as (ev & H1 & H2). destruct (teqb_spec (ev_name ev) s); [|discriminate]. subst. eapply rf_enum; eauto.
        * eapply rf_enum_other; eauto. intros H. apply in_map_iff in H as (ev & <- & H).
          match type of X with existsb ?f ?l = _ =>
            assert (K : existsb f l = true) by (apply existsb_exists; exists ev; split; [auto|destruct (teqb_spec (ev_name ev) (ev_name ev)); auto]) end.
          congruence. }
  assert (Step : forall j, (forall x w v, match j with JObj kvs => In x (map snd kvs) | JList js => In x js | _ => False end -> de cod S sd pas ri x w = Some v -> read_from cod S sd v x) ->
      forall w v, de cod S sd pas ri j w = Some v -> read_from cod S sd v j).
  { clear j. intros j IH w. induction w as [e|w IHw|w IHw]; intros v E.
    - rewrite de_WBase in E. apply (Base j e v); auto. intros x w v' Hx. apply IH. destruct j; auto. destruct Hx.
    - rewrite de_WOpt in E. destruct j; try (injection E as <-; constructor; fail);
        (destruct (de _ _ _ _ _ _ w) eqn:D; [|discriminate]; injection E as <-; constructor; [discriminate|auto]).
    - rewrite de_WVec in E. destruct j; try discriminate. destruct (oseq _) as [r|] eqn:O; [|discriminate]. injection E as <-. constructor.
      apply oseq_Forall2 in O. clear -IH O. revert r O. induction js as [|x js IHj]; intros r O; inversion O; subst; constructor.
      + apply (IH x w); [left; reflexivity|auto].
      + apply IHj; auto. intros x' w' v' Hx'. apply IH. right. exact Hx'. }
  induction j using json_ind'; apply Step; intros x w v Hx; try (destruct Hx; fail); rewrite Forall_forall in *.
  - apply H. exact Hx.
  - apply in_map_iff in Hx as (kv & <- & Hkv). apply H. exact Hkv.
Qed.
Print Assumptions c94_read.

(** ** A concrete case: JSON that is no response. serde reads it ([me] is missing, __typename is not first, there is an entry too many); miniserde does not, and
    reads it when these are put right *)
Definition odd_json (extra : list (text * json)) : json :=
  JObj [(tx "node", JNull); (tx "find", JList [JObj ([(tx "id", JStr (tx "1")); (tx "__typename", JStr (tx "User")); (tx "name", JNull)] ++ extra)])].
Definition odd_value : rval :=
  RStruct [(tx "me", RNone); (tx "node", RNone); (tx "find", RVec [RVariant (tx "User") [(tx "id", RStr (tx "1")); (tx "name", RNone)]])].
Example c94_case : exists e, nth_error tg_types 0 = Some e /\
  de Serde tg_schema all_read same (items tg_types) (odd_json [(tx "age", JInt 3)]) (WBase e) = Some odd_value /\
  read_from Serde tg_schema all_read odd_value (odd_json [(tx "age", JInt 3)]) /\
  de Miniserde tg_schema all_read same (items tg_types) (odd_json []) (WBase e) = None /\
  de Miniserde tg_schema all_read same (items tg_types)
    (JObj [(tx "find", JList [tg_user]); (tx "node", JNull); (tx "age", JInt 3); (tx "me", JNull)]) (WBase e) = Some odd_value /\
  ~ read_from Serde tg_schema all_read (RStr (tx "2")) (JStr (tx "1")).
Proof.
  eexists. split; [vm_compute; reflexivity|].
  match goal with |- ?A /\ _ => assert (E : A) by (vm_compute; reflexivity) end.
  split; [exact E|]. split; [eapply c94_read; exact E|]. split; [vm_compute; reflexivity|]. split; [vm_compute; reflexivity|].
  intros H. inversion H.
Qed.
