(** Shapes of accepted selection sets; the conversion does not panic. *)
From Verif Require Import Base Ast Maps Graph Doc DocSpec DocRulesSpec FragmentsSpec DocProofs DocRules DocTypingProofs DocRulesProofs
                          FragmentCycles OperationProofs Json Typegen TypegenDe TypegenSpec.
Local Open Scope string_scope.
Local Open Scope list_scope.

(** * Lists *)
Lemma find_map_Some {A B} (f : A -> option B) l b : find_map f l = Some b -> exists x, In x l /\ f x = Some b.
Proof.
  induction l as [|x l IH]; cbn; [discriminate|]. destruct (f x) eqn:E; [intros [= <-]; eauto|].
  intros H. destruct (IH H) as (y & Hy & Hf). eauto.
Qed.
Lemma find_map_None {A B} (f : A -> option B) l : find_map f l = None -> forall x, In x l -> f x = None.
Proof.
  induction l as [|x l IH]; cbn; intros H y [].
  - subst y. destruct (f x); congruence.
  - destruct (f x); [discriminate|]. auto.
Qed.
Lemma find_map_none {A B} (f : A -> option B) l : (forall x, In x l -> f x = None) -> find_map f l = None.
Proof. induction l as [|x l IH]; cbn; intros H; auto. rewrite H by auto. apply IH. auto. Qed.
Lemma filter_map_In {A B} (f : A -> option B) l b : In b (filter_map f l) <-> exists x, In x l /\ f x = Some b.
Proof.
  induction l as [|x l IH]; cbn; [firstorder|]. destruct (f x) eqn:E; cbn; rewrite IH; split.
  - intros [<-|(y & Hy & Hf)]; eauto.
  - intros (y & [<-|Hy] & Hf); [left; congruence|right; eauto].
  - intros (y & Hy & Hf). eauto.
  - intros (y & [<-|Hy] & Hf); [congruence|eauto].
Qed.
Lemma bseq_built {A B} (f : A -> built B) l : (forall x, In x l -> exists y, f x = Built y) ->
  exists ys, bseq (map f l) = Built ys.
Proof.
  induction l as [|x l IH]; cbn; intros H; [eauto|].
  destruct (H x) as (y & ->); auto. destruct IH as (ys & ->); auto. cbn. eauto.
Qed.
Lemma bseq_Forall2 {A B} (f : A -> built B) l ys : bseq (map f l) = Built ys -> Forall2 (fun x y => f x = Built y) l ys.
Proof.
  revert ys. induction l as [|x l IH]; cbn; intros ys H; [injection H as <-; constructor|].
  destruct (f x) eqn:E; cbn in H; [|discriminate]. destruct (bseq (map f l)); cbn in H; [|discriminate].
  injection H as <-. constructor; auto.
Qed.
Lemma bmap_Built {A B} (f : A -> B) x b : bmap f x = Built b <-> exists a, x = Built a /\ b = f a.
Proof.
  unfold bmap, bbind. destruct x; split.
  - intros [= <-]; eauto.
  - intros (a' & [= <-] & ->); auto.
  - discriminate.
  - intros (a & E & _). discriminate.
Qed.
Lemma bbind_Built {A B} (f : A -> built B) x b : bbind x f = Built b <-> exists a, x = Built a /\ f a = Built b.
Proof.
  unfold bbind. destruct x; split; eauto.
  - intros (a' & [= <-] & ?). auto.
  - discriminate.
  - intros (a' & E & _). discriminate.
Qed.

Lemma filter_all {A} (p : A -> bool) l : (forall x, In x l -> p x = true) -> filter p l = l.
Proof. induction l as [|x l IH]; cbn; intros H; auto. rewrite H by auto. f_equal. auto. Qed.

(** * Selections *)
Definition is_field (s : selection) : Prop := match s with SField _ _ _ _ _ => True | _ => False end.
Definition is_spread (s : selection) : Prop := match s with SSpread _ _ => True | _ => False end.
Definition inline_on (c : name) (s : selection) : Prop := match s with SInline (Some c') _ _ => c' = c | _ => False end.

Lemma isolated_spread sels n : isolated sels = IsoSpread n -> exists ds, sels = [SSpread n ds].
Proof.
  unfold isolated. destruct (find_map sel_spread sels) as [m|] eqn:E; [|discriminate].
  destruct (Nat.eqb_spec (length sels) 1) as [El|]; cbn; [|discriminate]. intros [= ->].
  apply find_map_Some in E as (s & Hs & E). destruct s; try discriminate. cbn in E. injection E as ->.
  destruct sels as [|s [|]]; cbn in El; try discriminate. destruct Hs as [->|[]]. eauto.
Qed.
Lemma isolated_none sels : isolated sels = IsoNone -> forall s, In s sels -> ~ is_spread s.
Proof.
  unfold isolated. destruct (find_map sel_spread sels) as [m|] eqn:E; [destruct (negb _); discriminate|].
  intros _ s Hs. pose proof (find_map_None _ _ E s Hs) as H. destruct s; cbn in *; auto; discriminate.
Qed.
Lemma no_inlines {B} (f : option name -> B) sels : map f (filter_map sel_inline sels) = [] ->
  forall c ds sub, ~ In (SInline c ds sub) sels.
Proof.
  intros H c ds sub Hin. apply map_eq_nil in H.
  assert (Hc : In c (filter_map sel_inline sels)) by (apply filter_map_In; exists (SInline c ds sub); auto).
  rewrite H in Hc. destruct Hc.
Qed.

Lemma object_shape sels : object_set_errors sels = [] ->
  (exists n ds, sels = [SSpread n ds]) \/ Forall is_field sels.
Proof.
  unfold object_set_errors. intros H. apply app_eq_nil in H as [H1 H2].
  destruct (isolated sels) as [|n|n] eqn:Ei; [|apply isolated_spread in Ei; firstorder|discriminate].
  right. apply Forall_forall. intros s Hs. pose proof (isolated_none _ Ei s Hs). destruct s; cbn in *; auto.
  eapply no_inlines; eauto.
Qed.
Lemma interface_shape d i sels : interface_set_errors d i sels = [] ->
  (exists n ds f, sels = [SSpread n ds] /\ defines d n f /\ In (fr_cond f) (if_ifaces i ++ [if_name i])) \/ Forall is_field sels.
Proof.
  unfold interface_set_errors. intros H. apply app_eq_nil in H as [H1 H2].
  destruct (isolated sels) as [|n|n] eqn:Ei; [|left|discriminate].
  - right. apply Forall_forall. intros s Hs. pose proof (isolated_none _ Ei s Hs). destruct s; cbn in *; auto.
    eapply no_inlines; eauto.
  - apply isolated_spread in Ei as (ds & ->). destruct (cached_fragment d n) as [f|] eqn:Ec; [|discriminate].
    destruct (tmem (fr_cond f) (if_ifaces i ++ [if_name i])) eqn:Em; [|discriminate].
    exists n, ds, f. split; auto. split; [apply cached_defines; auto|apply tmem_In; auto].
Qed.
Lemma mapi_from_concat_nil sels k :
  map snd (filter (fun x : nat * (option name * name) => negb (Nat.eqb (fst x) 0 && plain_typename (fst (snd x)) (snd (snd x))))
    (concat (mapi_from (fun i s => match s with SField al n _ _ _ => [(i, (al, n))] | _ => [] end) (Datatypes.S k) sels))) = [] ->
  forall s, In s sels -> ~ is_field s.
Proof.
  intros H s Hs. apply map_eq_nil in H. rewrite filter_nil in H. destruct s as [alias n args ds sub| |]; cbn; auto. intros _.
  apply In_nth_error in Hs as (j & Hj).
  assert (Hin : In (Datatypes.S k + j, (alias, n)) (concat (mapi_from (fun i s => match s with SField al n _ _ _ => [(i, (al, n))] | _ => [] end) (Datatypes.S k) sels))).
  { apply in_concat. exists [(Datatypes.S k + j, (alias, n))]. split; [|left; auto].
    apply mapi_from_In. exists j. eexists. split; eauto. }
  apply H in Hin. cbn in Hin. discriminate.
Qed.
Lemma union_shape u sels : union_set_errors u sels = [] ->
  (exists n ds, sels = [SSpread n ds]) \/
  (exists args ds sub inl, sels = SField None (tx "__typename") args ds sub :: inl /\
     (forall s, In s inl -> exists c, In c (un_members u) /\ inline_on c s) /\
     NoDup (map (fun s => match s with SInline (Some c) _ _ => c | _ => [] end) inl)).
Proof.
  unfold union_set_errors. destruct (isolated sels) as [|n|n] eqn:Ei; [|apply isolated_spread in Ei; firstorder|discriminate].
  destruct (typename_first sels) as [ht others] eqn:Et. intros H. right.
  apply app_eq_nil in H as [H1 H]. apply app_eq_nil in H as [H2 H]. apply app_eq_nil in H as [H3 H4].
  destruct ht; [|discriminate]. clear H1.
  unfold typename_first in Et. injection Et as E1 E2.
  apply existsb_exists in E1 as ((i & al & n) & Hin & E1). cbn in E1. apply andb_true_iff in E1 as [Ei0 Ep].
  apply Nat.eqb_eq in Ei0. subst i. destruct al; [discriminate|]. cbn in Ep. apply teqb_eq in Ep. subst n.
  unfold mapi in *. destruct sels as [|s0 rest]; [destruct Hin|]. cbn [mapi_from concat] in Hin, E2.
  assert (Hrest : forall s, In s rest -> ~ is_field s).
  { apply map_eq_nil in H2. rewrite <- E2 in H2. rewrite filter_app, map_app in H2. apply app_eq_nil in H2 as [_ H2].
    exact (mapi_from_concat_nil rest 0 H2). }
  apply in_app_iff in Hin as [Hin|Hin].
  2: { apply in_concat in Hin as (l & Hl & Hin). apply mapi_from_In in Hl as (j & s & Hj & ->).
       destruct s; cbn in Hin; try (destruct Hin; fail). destruct Hin as [Hin|[]]. discriminate. }
  destruct s0 as [al n args ds sub| |]; try (destruct Hin; fail). destruct Hin as [[= -> ->]|[]].
  exists args, ds, sub, rest. split; auto.
  apply map_eq_nil in H3. rewrite filter_nil in H3. apply map_eq_nil in H4. apply duplicates_nil in H4.
  assert (Hin : forall s, In s rest -> exists c ds sub, s = SInline (Some c) ds sub /\ In c (un_members u)).
  { intros s Hs. pose proof (Hrest s Hs) as Hnf. pose proof (isolated_none _ Ei s (or_intror Hs)) as Hns.
    destruct s as [| |c ds' sub']; cbn in Hnf, Hns; try tauto.
    assert (Hc : In c (filter_map sel_inline (SField None (tx "__typename") args ds sub :: rest))) by (apply filter_map_In; eexists; split; [right; eauto|reflexivity]).
    apply H3 in Hc. destruct c as [c|]; [|discriminate]. exists c, ds', sub'. split; auto. apply negb_false_iff, tmem_In in Hc. auto. }
  split.
  - intros s Hs. destruct (Hin s Hs) as (c & ds' & sub' & -> & Hc). exists c. split; auto. reflexivity.
  - cbn [filter_map sel_inline] in H3, H4. clear - Hin H4 H3.
    rewrite filter_all in H4.
    2: { intros c Hc. apply H3 in Hc. apply negb_false_iff in Hc. exact Hc. }
    clear H3. induction rest as [|s rest IH]; cbn; [constructor|].
    destruct (Hin s (or_introl eq_refl)) as (c & ds' & sub' & -> & Hc). cbn in H4.
    inversion H4 as [|? ? Hn Hd]; subst. constructor; [|apply IH; auto; intros; apply Hin; right; auto].
    intros Hx. apply Hn. apply in_map_iff in Hx as (s & E & Hs). destruct (Hin s (or_intror Hs)) as (c2 & ? & ? & -> & _). subst c2.
    apply in_map_iff. exists (Some c). split; auto. apply filter_map_In. eexists. split; [eauto|reflexivity].
Qed.

(** * Conversion *)
Section Conversion.
  Variable S : schema.
  Variable borrow : bool.
  Variable scalar_borrows : name -> option bool.
  Notation build_selection := (build_selection S borrow scalar_borrows).
  Notation build_fields := (build_fields S borrow scalar_borrows).
  Notation build_variants := (build_variants S borrow scalar_borrows).
  Notation build_set := (build_set S borrow scalar_borrows).

  Lemma build_fields_fix fds l :
    (fix go (l : list selection) : built (list (name * wtype)) :=
       match l with [] => Built [] | x :: l' => bbind (build_selection fds x) (fun f => bmap (cons f) (go l')) end) l = build_fields fds l.
  Proof. unfold Typegen.build_fields. induction l as [|x l IH]; cbn; [reflexivity|]. rewrite IH. reflexivity. Qed.
  Lemma build_variants_fix u l :
    (fix go (l : list selection) : built (list (name * list (name * wtype))) :=
       match l with
       | [] => Built []
       | SInline c _ sub' :: l' =>
           bbind (variant_fields S u c) (fun v =>
           bbind ((fix go (l : list selection) : built (list (name * wtype)) :=
                     match l with [] => Built [] | x :: l' => bbind (build_selection (snd v) x) (fun f => bmap (cons f) (go l')) end) sub')
                 (fun fs => bmap (cons (fst v, fs)) (go l')))
       | _ :: l' => go l'
       end) l = build_variants u l.
  Proof.
    induction l as [|x l IH]; cbn; [reflexivity|]. destruct x as [| |c ds sub']; auto.
    destruct (variant_fields S u c) as [v|]; cbn [bbind]; [|reflexivity].
    rewrite build_fields_fix. destruct (build_fields (snd v) sub'); cbn [bbind]; [|reflexivity]. rewrite IH. reflexivity.
  Qed.
  Lemma build_base_ext p t sels f f' v v' : (forall x, f x = f' x) -> (forall x, v x = v' x) ->
    build_base borrow scalar_borrows p t sels f v = build_base borrow scalar_borrows p t sels f' v'.
  Proof.
    intros H1 H2. destruct t; cbn; auto; destruct sels; auto; rewrite ?H1, ?H2; reflexivity.
  Qed.
  Lemma build_field_eq fds al n args ds sub :
    build_selection fds (SField al n args ds sub) =
    match get_field fds n with
    | None => Panics PNoField
    | Some fd => match get_type S (tref_base (fd_type fd)) with
                 | None => Panics PNoType
                 | Some t => bmap (fun e => (response_name al n, wrap (fd_type fd) e)) (build_set (response_name al n) t sub)
                 end
    end.
  Proof.
    cbn [Typegen.build_selection]. destruct (get_field fds n) as [fd|]; [|reflexivity].
    cbv zeta. destruct (get_type S (tref_base (fd_type fd))) as [t|]; [|reflexivity].
    f_equal. unfold Typegen.build_set. apply build_base_ext.
    - intros x. apply build_fields_fix.
    - intros x. apply build_variants_fix.
  Qed.

  (** ** no panic *)
  Lemma within_In t sels t' sels' : within S t sels t' sels' -> In t (s_types S) -> In t' (s_types S).
  Proof.
    induction 1; auto; intros _; apply IHwithin;
      match goal with H : get_type _ _ = Some _ |- _ => apply get_type_Some in H; tauto | _ => auto end.
  Qed.
  Lemma root_type_In ty t : root_type S ty t -> In t (s_types S).
  Proof. destruct ty; cbn; [|intros (n & _ & H); revert H..]; intros H; apply get_type_Some in H; tauto. Qed.
  Lemma set_at_In d r t sels : set_at S d r t sels -> In t (s_types S).
  Proof.
    intros (t0 & s0 & Htop & Hw). eapply within_In; eauto. inversion Htop as [? ? ? _ H|? ? ? _ H]; subst.
    - eapply root_type_In; eauto.
    - apply get_type_Some in H. tauto.
  Qed.
  Variable d : document.
  Hypothesis HR : resolved S.
  Hypothesis Hok : document_ok S d.
  Hypothesis Hsets : forall r t sels, set_at S d r t sels -> set_errors d sels t = [].
  Hypothesis Hscalars : forall x, In (DScalar x) (s_types S) -> scalar_borrows (sc_name x) <> None.
  Hypothesis Hvariants : no_spread_in_variants S d.

  Definition converts (s : selection) : Prop :=
    is_field s -> forall r t, sel_at S d r t s -> exists f, build_selection (td_fields t) s = Built f.
  Lemma build_fields_built r t sels : set_at S d r t sels -> Forall is_field sels -> Forall converts sels ->
    exists fs, build_fields (td_fields t) sels = Built fs.
  Proof.
    intros Hset Hf Hc. unfold Typegen.build_fields. apply bseq_built. intros s Hs. rewrite Forall_forall in Hf, Hc.
    apply (Hc s Hs (Hf s Hs) r t). exists sels; auto.
  Qed.
  Definition converts_deep (s : selection) : Prop :=
    converts s /\ match s with SInline _ _ sub => Forall converts sub | _ => True end.
  Lemma build_set_built p r t sels : set_at S d r t sels -> td_composite t = true -> In t (s_types S) -> sels <> [] ->
    Forall converts_deep sels -> exists e, build_set p t sels = Built e.
  Proof.
    intros Hset Hc Ht Hne HF. pose proof (Hsets _ _ _ Hset) as HE.
    assert (HF1 : Forall converts sels) by (eapply Forall_impl; [|exact HF]; intros s [H _]; exact H).
    unfold Typegen.build_set, build_base. destruct t as [| |o| | |u|i]; try discriminate; cbn [set_errors] in HE.
    - destruct (object_shape _ HE) as [(n & ds & ->)|Hf]; [cbn; eauto|].
      destruct (build_fields_built _ _ _ Hset Hf HF1) as (fs & Hfs). cbn [td_fields] in Hfs. rewrite Hfs.
      unfold spread_or. rewrite find_map_none. 2: { rewrite Forall_forall in Hf. intros s Hs. apply Hf in Hs. destruct s; [reflexivity|destruct Hs..]. }
      destruct sels; [congruence|]. cbn. eauto.
    - destruct (union_shape _ _ HE) as [(n & ds & ->)|(args & ds & sub & inl & -> & Hin & _)]; [cbn; eauto|].
      unfold spread_or. rewrite find_map_none.
      2: { intros s [<-|Hs]; [reflexivity|]. destruct (Hin s Hs) as (c & _ & H). destruct s; [destruct H..|reflexivity]. }
      cbn [Typegen.build_variants].
      assert (HV : exists vs, build_variants u inl = Built vs); [|destruct HV as (vs & ->); cbn; eauto].
      assert (Hall : forall s, In s inl -> exists c ds' sub' o, s = SInline (Some c) ds' sub' /\ In c (un_members u) /\ get_type S c = Some (DObject o) /\
                (exists fs, build_fields (ob_fields o) sub' = Built fs)).
      { intros s Hs. destruct (Hin s Hs) as (c & Hm & H). destruct s as [| |[c'|] ds' sub']; try (destruct H; fail). cbn in H. subst c'.
        destruct (rs_members S HR u c Ht Hm) as (o & Ho). exists c, ds', sub', o. repeat split; auto.
        assert (Hset' : set_at S d r (DObject o) sub').
        { eapply set_at_within; eauto. eapply within_inline_on; [right; eauto|eauto|constructor]. }
        inversion HF as [|? ? _ HF']; subst. rewrite Forall_forall in HF'. destruct (HF' _ Hs) as [_ Hd].
        apply (build_fields_built r (DObject o)); auto.
        destruct (object_shape _ (Hsets _ _ _ Hset')) as [(n & ds2 & ->)|Hf]; auto. exfalso.
        assert (Hat : sel_at S d r (DUnion u) (SInline (Some c) ds' [SSpread n ds2])) by (eexists; split; [exact Hset|right; eauto]).
        exact (Hvariants _ _ _ _ _ n ds2 Hat (or_introl eq_refl)). }
      clear - Hall. induction inl as [|s inl IH]; [cbn; eauto|].
      destruct (Hall s (or_introl eq_refl)) as (c & ds' & sub' & o & -> & Hm & Ho & fs & Hfs). cbn.
      rewrite (proj2 (tmem_In _ _) Hm), Ho. cbn. rewrite Hfs. cbn.
      destruct IH as (vs & ->); [intros; apply Hall; right; auto|]. cbn. eauto.
    - destruct (interface_shape _ _ _ HE) as [(n & ds & f & -> & _)|Hf]; [cbn; eauto|].
      destruct (build_fields_built _ _ _ Hset Hf HF1) as (fs & Hfs). cbn [td_fields] in Hfs. rewrite Hfs.
      unfold spread_or. rewrite find_map_none. 2: { rewrite Forall_forall in Hf. intros s Hs. apply Hf in Hs. destruct s; [reflexivity|destruct Hs..]. }
      destruct sels; [congruence|]. cbn. eauto.
  Qed.
  Lemma all_convert s : converts_deep s.
  Proof.
    induction s as [al n args ds sub IH|n ds|c ds sub IH] using selection_ind'.
    - split; [|exact I]. intros _ r t Hat. rewrite build_field_eq.
      pose proof (doc_ok_sel S d Hok r t _ Hat) as Hsel.
      assert (Hsub : forall fd t1, get_field (td_fields t) n = Some fd -> get_type S (tref_base (fd_type fd)) = Some t1 ->
                td_composite t1 = true -> sub <> [] -> exists e, build_set (response_name al n) t1 sub = Built e).
      { intros fd t1 Hf Ht1 Hc Hne. apply (build_set_built _ r); auto.
        - destruct Hat as (sels & Hset & Hin). eapply set_at_within; eauto. eapply within_field; eauto. constructor.
        - apply get_type_Some in Ht1. tauto. }
      inversion Hsel as [? ? ? ? ? fd ft Hf Hft Hl|? ? ? ? ? ? fd ft Hf Hft Hl Hne _| | |]; subst; rewrite Hf, Hft.
      + destruct ft; try (destruct Hl; fail); cbn; eauto.
        destruct (scalar_borrows (sc_name d0)) eqn:E; cbn; eauto. exfalso. eapply Hscalars; [|exact E].
        apply get_type_Some in Hft. tauto.
      + destruct (Hsub fd ft Hf Hft) as (e & ->); cbn; eauto.
        assert (Hin : In t (s_types S)) by (destruct Hat as (sels & Hset & _); eapply set_at_In; eauto).
        destruct (wf_fields S (rs_wf S HR) t fd Hin) as (td & Htd & Ho); [apply get_field_Some in Hf; tauto|].
        rewrite Hft in Htd. injection Htd as <-. destruct ft; cbn in *; auto; tauto.
    - split; [intros []|exact I].
    - split; [intros []|]. eapply Forall_impl; [|exact IH]. intros s [H _]; exact H.
  Qed.
End Conversion.
