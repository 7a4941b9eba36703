(** If there are no conflicts, the merging rule reports nothing: proofs. *)
From Verif Require Import Base Ast Graph Maps Doc DocSpec DocRulesSpec FragmentsSpec FragmentCyclesProofs ValueEq ValueEqSpec ValueEqProofs Merging MergingSpec MergingTermination MergingProofs MergingSound.

Section Complete.
  Variable S : schema.
  Variable d : document.
  Variable ord : nat -> list (list fctx) -> list (list fctx).
  Hypothesis ord_In : forall k l g, In g (ord k l) <-> In g l.
  Hypothesis numbers : plain_numbers d.
  Hypothesis simple : spreads_simple S d.
  Set Default Proof Using "Type".

  Notation lexical := (lexical S d).
  Notation collected := (collected S d).
  Notation below := (below S d).
  Notation reached := (reached S d).
  Definition any_two (_ _ : sfield) : Prop := True.

  (** What an error is about: comparing [x] with [y] came down to two fields that differ. *)
  Inductive shape_witness (id : set_id) (x y : sfield) : merge_error -> Prop :=
  | sw_types a b : reached any_two x y (sf_of a) (sf_of b) -> ~ same_shape_type S (fd_type (cx_def a)) (fd_type (cx_def b)) ->
      shape_witness id x y (IncompatibleTypes id a b).
  Inductive parent_witness (id : set_id) (x y : sfield) : merge_error -> Prop :=
  | pw_names a b : reached can_meet_not_union x y (sf_of a) (sf_of b) -> cx_name a <> cx_name b -> parent_witness id x y (DifferingNames id a b)
  | pw_args a b : reached can_meet_not_union x y (sf_of a) (sf_of b) -> cx_name a = cx_name b -> ~ same_value (VObj (cx_args a)) (VObj (cx_args b)) ->
      parent_witness id x y (DifferingArguments id a b).
  Inductive real_error (id : set_id) : merge_error -> Prop :=
  | real_types a b : have_to_merge S d any_two (fst id) (sf_of a) (sf_of b) -> ~ same_shape_type S (fd_type (cx_def a)) (fd_type (cx_def b)) ->
      real_error id (IncompatibleTypes id a b)
  | real_names a b : have_to_merge S d can_meet_not_union (fst id) (sf_of a) (sf_of b) -> cx_name a <> cx_name b -> real_error id (DifferingNames id a b)
  | real_args a b : have_to_merge S d can_meet_not_union (fst id) (sf_of a) (sf_of b) -> cx_name a = cx_name b ->
      ~ same_value (VObj (cx_args a)) (VObj (cx_args b)) -> real_error id (DifferingArguments id a b).

  (** only real errors are recorded *)
  Definition truthful (st : mstate) : Prop := forall id es e, In (id, es) (ms_cache st) -> In e es -> real_error id e.
  Lemma truthful_insert id es st : (forall e, In e es -> real_error id e) -> truthful st -> truthful (insert id es st).
  Proof. intros He Hc i es' e [H|H] Hin; [injection H as <- <-; auto|]. apply filter_In in H as [H _]. eapply Hc; eauto. Qed.

  Record fine (x : fctx) : Prop := {
    fine_set : forall t, cx_sub x <> [] -> get_type S (tref_base (fd_type (cx_def x))) = Some t -> lexical (cx_id x) (cx_sub x) t;
    fine_args : args_plain (cx_args x) }.

  (** a fragment of fields only, entered from type [t] *)
  Definition plain_on (t t1 : tdef) (sels : list selection) : Prop :=
    ~ is_union t1 /\ (forall s, In s sels -> exists al n args ds sub, s = SField al n args ds sub) /\
    (forall al n args ds sub fd, In (SField al n args ds sub) sels -> has_field t n fd -> exists fd', has_field t1 n fd' /\ fd_type fd = fd_type fd').
  Definition visitable' (id : set_id) (sels : list selection) (t : tdef) : Prop :=
    lexical id sels t \/ exists t1, lexical id sels t1 /\ plain_on t t1 sels.

  (** What is below a field does not depend on its parent, nor on its definition apart from the type. *)
  Lemma same_selection_refl x : same_selection x x.
  Proof. repeat split. Qed.
  Lemma same_below x x' y : same_selection x x' -> below x y -> below x' y.
  Proof. intros (_ & _ & _ & Es & Et) (t & Ht & Hy). exists t. rewrite <- Es, <- Et. auto. Qed.
  Lemma same_merged x x' y y' a b : same_selection x x' -> same_selection y y' -> merged S d x y a b -> merged S d x' y' a b.
  Proof. intros Hx Hy ([H1|H1] & [H2|H2] & Hk); split; eauto using same_below. Qed.
  Lemma same_reached (meet : sfield -> sfield -> Prop) x x' y y' a b : same_selection x x' -> same_selection y y' -> meet x' y' -> reached meet x y a b ->
    exists a' b', reached meet x' y' a' b' /\ same_selection a a' /\ same_selection b b'.
  Proof.
    intros Hx Hy Hm H. destruct H as [x y _|x y x1 y1 a b _ Hg H].
    - exists x', y'. split; [constructor; auto|auto].
    - exists a, b. split; [eapply re_below; eauto; eapply same_merged; eauto|auto using same_selection_refl].
  Qed.

  Lemma reached_have_to_merge id sels t (meet : sfield -> sfield -> Prop) x y a b : visitable' id sels t -> collected t sels x -> collected t sels y -> sf_key x = sf_key y ->
    (forall x y, sf_parent x = sf_parent y -> ~ is_union (sf_parent x) -> meet x y) ->
    reached meet x y a b -> have_to_merge S d meet (fst id) a b.
  Proof.
    intros [Hl|(t1 & Hl & Hu & Hfields & Hsame)] Hx Hy Hk Hm Hr; pose proof (lexical_set_at S d _ _ _ Hl) as Hset.
    { exists t, sels, x, y, a, b. auto 10 using same_selection_refl. }
    assert (K : forall z, collected t sels z -> exists z', collected t1 sels z' /\ sf_key z' = sf_key z /\ same_selection z z' /\ sf_parent z' = t1).
    { clear -Hfields Hsame. intros z Hz. destruct Hz as [t sels al n args ds sub fd Hi Hf|t sels ds sub x Hi|t sels c ds sub u x Hi|t sels n ds f u x Hi];
        [|destruct (Hfields _ Hi) as (? & ? & ? & ? & ? & E); discriminate E..].
      destruct (Hsame _ _ _ _ _ _ Hi Hf) as (fd' & Hf' & Et).
      eexists. split; [eapply col_field; eauto|]. split; [reflexivity|]. split; [|reflexivity]. repeat split; auto. }
    destruct (K x Hx) as (x' & Hx' & Kx & Ax & Px). destruct (K y Hy) as (y' & Hy' & Ky & Ay & Py).
    destruct (same_reached meet x x' y y' a b Ax Ay) as (a' & b' & Hr' & Ha & Hb); auto; [apply Hm; congruence|].
    exists t1, sels, x', y', a', b'. split; auto. split; auto. split; auto. split; [congruence|auto].
  Qed.
  Lemma shape_witness_real id sels t x y e : visitable' id sels t -> collected t sels x -> collected t sels y -> sf_key x = sf_key y ->
    shape_witness id x y e -> real_error id e.
  Proof. intros Hv Hx Hy Hk [a b Hr Hn]. apply real_types; auto. exact (reached_have_to_merge id sels t any_two x y _ _ Hv Hx Hy Hk (fun _ _ _ _ => I) Hr). Qed.
  Lemma parent_witness_real id sels t x y e : visitable' id sels t -> collected t sels x -> collected t sels y -> sf_key x = sf_key y ->
    parent_witness id x y e -> real_error id e.
  Proof.
    intros Hv Hx Hy Hk Hw. assert (Hm : forall x y, sf_parent x = sf_parent y -> ~ is_union (sf_parent x) -> can_meet_not_union x y).
    { intros u v E Hu. split; [left; congruence|]. rewrite <- E. auto. }
    destruct Hw as [a b Hr Hn|a b Hr He Hn]; [apply real_names|apply real_args]; auto; exact (reached_have_to_merge id sels t can_meet_not_union x y _ _ Hv Hx Hy Hk Hm Hr).
  Qed.

  Definition valid_truthful (valid : valid_fn) : Prop :=
    forall id sels t st b st', visitable' id sels t -> truthful st -> valid id sels t st = Some (b, st') -> truthful st'.
  Definition visit_truthful (visit : visit_fn) : Prop :=
    forall id sels t frags acc st out st', visitable' id sels t -> truthful st -> visit id sels t frags acc st = Some (out, st') ->
      truthful st' /\ forall x, In x out -> In x acc \/ fine x /\ collected t sels (sf_of x).

  Lemma place_args id sels al n args ds sub : place d id sels -> In (SField al n args ds sub) sels -> args_plain args.
  Proof using numbers.
    intros Hp Hin. assert (O : occurs_in d (SField al n args ds sub) (fst id)); [|apply (numbers _ _ _ _ _ _ O)].
    clear -Hp Hin. assert (Ho : occurs (SField al n args ds sub) sels) by (constructor; auto). clear Hin.
    induction Hp as [i o Ho'|i f Hf|id sels j al' n' args' ds' sub' Hp IH Hj|id sels j c ds' sub' Hp IH Hj]; cbn in *.
    - econstructor; eauto.
    - eapply occ_frag; eauto.
    - apply IH. eapply occ_field; eauto. eapply nth_error_In; eauto.
    - apply IH. eapply occ_inline; eauto. eapply nth_error_In; eauto.
  Qed.

  Lemma visit_one_truthful valid visit id sels t frags acc j s st out st' :
    valid_truthful valid -> visit_truthful visit -> visitable' id sels t -> truthful st -> nth_error sels j = Some s ->
    visit_one S d valid visit id t frags acc (j, s) st = Some (out, st') ->
    truthful st' /\ forall x, In x out -> In x acc \/ fine x /\ collected t sels (sf_of x).
  Proof using numbers simple.
    intros Hv Hw Hvis Hc Hj E. unfold visit_one in E. cbn [fst snd] in E. pose proof (nth_error_In _ _ Hj) as Hin.
    assert (Hp : place d id sels) by (destruct Hvis as [Hl|(t1 & Hl & _)]; eapply lexical_place; eauto).
    destruct s as [al n args ds sub|n ds|c ds sub].
    - injection E as <- <-. split; auto. intros x Hx. apply in_app_iff in Hx as [Hx|Hx]; auto. right. unfold field_context in Hx.
      destruct (get_field (td_fields t) n) as [fd|] eqn:Ef; [|destruct Hx]. destruct Hx as [<-|[]]. split.
      + split; cbn; [|eapply place_args; eauto]. intros u Hne Hu. destruct Hvis as [Hl|(t1 & Hl & _ & _ & Hs)]; [eapply lex_field; eauto|].
        destruct (Hs _ _ _ _ _ _ Hin Ef) as (fd' & Hf' & Et). rewrite Et in Hu. eapply lex_field; eauto.
      + eapply col_field; eauto.
    - destruct Hvis as [Hl|(t1 & Hl & _ & Hf & _)]; [|destruct (Hf _ Hin) as (? & ? & ? & ? & ? & E'); discriminate E'].
      destruct (tmem n frags); [injection E as <- <-; auto|]. destruct (fragment_named d n) as [[i f]|] eqn:Ef; [|injection E as <- <-; auto].
      pose proof (fragment_named_defines d _ _ _ Ef) as Hd. destruct (get_type S (fr_cond f)) as [t1|] eqn:Et; [|injection E as <- <-; auto].
      assert (Hi : nth_error (doc_frags d) i = Some f) by (apply fragment_named_spec in Ef; tauto).
      assert (Hlf : lexical (RFrag i, []) (fr_sel f) t1) by (constructor; constructor; auto).
      assert (Hvf : visitable' (RFrag i, []) (fr_sel f) t).
      { destruct (simple (fst id) t n ds f t1) as [->|H]; auto; [exists sels; split; auto; eapply lexical_set_at; eauto|left; auto|]. right. exists t1. split; auto. }
      apply bind_Some in E as (b & s1 & E1 & E2). pose proof (Hv _ _ _ _ _ _ Hvf Hc E1) as Hc1. destruct b; [|injection E2 as <- <-; auto].
      destruct (Hw _ _ _ _ _ _ _ _ (or_introl Hlf) Hc1 E2) as [Hc2 Hx]. split; auto. intros x Hin'. destruct (Hx x Hin') as [H|[H1 H2]]; auto. right. split; auto. eapply col_spread; eauto.
    - destruct Hvis as [Hl|(t1 & Hl & _ & Hf & _)]; [|destruct (Hf _ Hin) as (? & ? & ? & ? & ? & E'); discriminate E'].
      destruct (match c with Some c => get_type S c | None => Some t end) as [t1|] eqn:Et; [|injection E as <- <-; auto].
      assert (Hlf : lexical (inner_id id j) sub t1) by (destruct c; [eapply lex_inline_on; eauto|injection Et as <-; eapply lex_inline; eauto]).
      apply bind_Some in E as (b & s1 & E1 & E2). pose proof (Hv _ _ _ _ _ _ (or_introl Hlf) Hc E1) as Hc1. destruct b; [|injection E2 as <- <-; auto].
      destruct (Hw _ _ _ _ _ _ _ _ (or_introl Hlf) Hc1 E2) as [Hc2 Hx]. split; auto. intros x Hin'. destruct (Hx x Hin') as [H|[H1 H2]]; auto. right. split; auto.
      destruct c; [eapply col_inline_on; eauto|injection Et as <-; eapply col_inline; eauto].
  Qed.

  Lemma nested_truthful valid visit g st out st' :
    valid_truthful valid -> visit_truthful visit -> (forall x, In x g -> fine x) -> truthful st -> nested_fields S valid visit g st = Some (out, st') ->
    truthful st' /\ forall y, In y out -> fine y /\ exists x, In x g /\ below (sf_of x) (sf_of y).
  Proof using numbers simple.
    intros Hv Hw Hg Hc E. unfold nested_fields in E.
    pose (Inv := fun (_ : list fctx) (out : list fctx) (s : mstate) => truthful s /\ forall y, In y out -> fine y /\ exists x, In x g /\ below (sf_of x) (sf_of y)).
    eapply (foldM_Some _ Inv); [| |exact E]; [split; auto; intros y []|].
    intros done x rest o1 s1 o2 s2 El [C1 K1] E1. pose proof (in_middle _ _ _ _ El) as Hx.
    destruct (cx_sub x) as [|s sub] eqn:Es; [injection E1 as <- <-; split; auto|]. rewrite <- Es in E1. assert (Hne : cx_sub x <> []) by congruence.
    destruct (get_type S (tref_base (fd_type (cx_def x)))) as [t|] eqn:Et; [|injection E1 as <- <-; split; auto].
    pose proof (fine_set x (Hg x Hx) t Hne Et) as Hl.
    apply bind_Some in E1 as (b & s3 & E3 & E4). pose proof (Hv _ _ _ _ _ _ (or_introl Hl) C1 E3) as Hc3. destruct b; [|injection E4 as <- <-; split; auto].
    destruct (Hw _ _ _ _ _ _ _ _ (or_introl Hl) Hc3 E4) as [Hc4 Hy]. split; auto. intros y Hin. destruct (Hy y Hin) as [H|[H1 H2]]; auto. split; auto.
    exists x. split; auto. exists t. auto.
  Qed.

  Lemma collectM_truthful {A} (f : A -> M (list merge_error)) l st es st' (P : merge_error -> Prop) :
    (forall a s e s', In a l -> truthful s -> f a s = Some (e, s') -> (forall x, In x e -> P x) /\ truthful s') -> truthful st ->
    collectM f l st = Some (es, st') -> (forall x, In x es -> P x) /\ truthful st'.
  Proof.
    intros Hf Hc E. unfold collectM in E. eapply (foldM_Some _ (fun _ es s => (forall x, In x es -> P x) /\ truthful s)); [| |exact E]; [split; auto; intros x []|].
    intros done a rest e1 s1 e2 s2 El [P1 C1] E1. apply bind_Some in E1 as (x & s3 & E3 & E4). injection E4 as <- <-.
    destruct (Hf a s1 x s3) as [P2 C2]; auto; [eapply in_middle; eauto|]. split; auto. intros e He. apply in_app_iff in He as [He|He]; auto.
  Qed.

  Notation sv := (set_valid S d ord).
  Notation vf := (visit_fields S d ord).
  Notation sh := (same_shape S d ord).
  Notation sp := (same_parents S d ord).

  Definition in_group (P : sfield -> sfield -> merge_error -> Prop) (g : list fctx) (e : merge_error) : Prop :=
    exists x y, In x g /\ In y g /\ P (sf_of x) (sf_of y) e.
  Lemma below_group_truthful fuel (f : list fctx -> M (list merge_error)) g st es st' (P : sfield -> sfield -> merge_error -> Prop) :
    valid_truthful (sv fuel) -> visit_truthful (vf fuel) ->
    (forall g st es st', (forall x, In x g -> fine x) -> truthful st -> f g st = Some (es, st') -> (forall e, In e es -> in_group P g e) /\ truthful st') ->
    (forall x, In x g -> fine x) -> (forall x y x' y' e, In x g -> In y g -> merged S d (sf_of x) (sf_of y) x' y' -> P x' y' e -> P (sf_of x) (sf_of y) e) -> truthful st ->
    (let! nested := nested_fields S (sv fuel) (vf fuel) g in let! gs := in_some_order ord (groups_by cx_key nested) in collectM f gs) st = Some (es, st') ->
    (forall e, In e es -> in_group P g e) /\ truthful st'.
  Proof using ord_In numbers simple.
    intros Hv Hw Hf Hg HP Hc E. apply bind_Some in E as (nested & s1 & E1 & E). apply bind_Some in E as (gs & s2 & E2 & E3).
    destruct (nested_truthful _ _ _ _ _ _ Hv Hw Hg Hc E1) as [C1 N1]. destruct (order_Some ord ord_In _ _ _ _ E2) as [Hgs Ec].
    assert (C2 : truthful s2) by (intros i es' e; rewrite Ec; apply C1).
    eapply collectM_truthful; [|exact C2|exact E3]. intros g' s e s' Hg' Cs E'. apply Hgs, groups_by_In in Hg' as (k & _ & Hk).
    destruct (Hf g' s e s') as [P1 C']; auto; [intros x Hx; apply Hk in Hx as [Hx _]; apply N1; auto|]. split; auto.
    intros e' He'. destruct (P1 e' He') as (x & y & Hx & Hy & HPe). apply Hk in Hx as [Hx Kx]. apply Hk in Hy as [Hy Ky].
    destruct (N1 x Hx) as (_ & a & Ha & Ba). destruct (N1 y Hy) as (_ & b & Hb & Bb). exists a, b. split; auto. split; auto.
    apply (HP a b (sf_of x) (sf_of y)); auto. split; [auto|]. split; [auto|]. rewrite !sf_of_key. congruence.
  Qed.

  Lemma parent_groups_pairs g pg x y : In pg (parent_groups g) -> In x pg -> In y pg -> can_meet_not_union (sf_of x) (sf_of y).
  Proof.
    intros Hpg Hx Hy.
    assert (Ha : forall z, In z (filter abstract g) -> ~ is_object (cx_type z) /\ ~ is_union (cx_type z)).
    { intros z Hz. apply filter_In in Hz as [_ Hz]. unfold abstract in Hz. destruct (cx_type z); try discriminate Hz. cbn. auto. }
    assert (Hcc : forall z, In z (filter concrete g) -> ~ is_union (cx_type z)).
    { intros z Hz. apply filter_In in Hz as [_ Hz]. unfold concrete in Hz. destruct (cx_type z); try discriminate Hz. cbn. auto. }
    unfold parent_groups in Hpg. destruct (groups_by (fun x => td_name (cx_type x)) (filter concrete g)) as [|c cs] eqn:E.
    - destruct Hpg as [<-|[]]. destruct (Ha x Hx), (Ha y Hy). unfold can_meet_not_union, can_meet. cbn. auto.
    - rewrite <- E in Hpg. apply in_map_iff in Hpg as (c' & <- & Hc). apply groups_by_In in Hc as (k & _ & Hk).
      unfold can_meet_not_union, can_meet. cbn. apply in_app_iff in Hx as [Hx|Hx]; apply in_app_iff in Hy as [Hy|Hy].
      + destruct (proj1 (Hk x) Hx) as [Hx' Kx]. destruct (proj1 (Hk y) Hy) as [Hy' Ky]. split; [left; congruence|]. auto.
      + destruct (proj1 (Hk x) Hx) as [Hx' _]. destruct (Ha y Hy). auto.
      + destruct (proj1 (Hk y) Hy) as [Hy' _]. destruct (Ha x Hx). auto.
      + destruct (Ha x Hx), (Ha y Hy). auto.
  Qed.

  Lemma rule_truthful fuel :
    valid_truthful (sv fuel) /\ visit_truthful (vf fuel) /\
    (forall id g st es st', (forall x, In x g -> fine x) -> truthful st -> sh fuel id g st = Some (es, st') -> (forall e, In e es -> in_group (shape_witness id) g e) /\ truthful st') /\
    (forall id g st es st', (forall x, In x g -> fine x) -> truthful st -> sp fuel id g st = Some (es, st') -> (forall e, In e es -> in_group (parent_witness id) g e) /\ truthful st').
  Proof using ord_In numbers simple.
    induction fuel as [|fuel (IHv & IHw & IHs & IHp)].
    { split; [intros ? ? ? ? ? ? ? ? E; discriminate E|]. split; [intros ? ? ? ? ? ? ? ? ? ? E; discriminate E|]. split; intros ? ? ? ? ? ? ? E; discriminate E. }
    split; [|split; [|split]].
    - intros id sels t st b st' Hvis Hc E. cbn [set_valid] in E. destruct (lookup id (ms_cache st)) as [es|] eqn:El.
      { injection E as <- <-. auto. }
      apply bind_Some in E as (fields & s1 & E1 & E). apply bind_Some in E as (gs & s2 & E2 & E). apply bind_Some in E as (es & s3 & E3 & E). injection E as <- <-.
      assert (C0 : truthful (insert id [] st)) by (apply truthful_insert; auto; intros e []).
      destruct (IHw id sels t [] [] _ fields s1 Hvis C0 E1) as [C1 N1]. destruct (order_Some ord ord_In _ _ _ _ E2) as [Hgs Ec].
      assert (C2 : truthful s2) by (intros i es' e; rewrite Ec; apply C1).
      match type of E3 with collectM ?f _ _ = _ => destruct (collectM_truthful f gs s2 es s3 (real_error id)) as [P3 C3]; auto end.
      { intros g s e s' Hg Cs Eg. apply Hgs, groups_by_In in Hg as (k & _ & Hk).
        assert (Hf : forall x, In x g -> fine x /\ collected t sels (sf_of x)) by (intros x Hx; apply Hk in Hx as [Hx _]; destruct (N1 x Hx) as [[]|H]; auto).
        assert (Hfine : forall x, In x g -> fine x) by (intros x Hx; apply Hf; auto).
        assert (Hkey : forall x y, In x g -> In y g -> sf_key (sf_of x) = sf_key (sf_of y)).
        { intros x y Hx Hy. apply Hk in Hx as [_ Kx]. apply Hk in Hy as [_ Ky]. rewrite !sf_of_key. congruence. }
        apply bind_Some in Eg as (e1 & s4 & E4 & Eg). apply bind_Some in Eg as (e2 & s5 & E5 & Eg). injection Eg as <- <-.
        destruct (IHs id g s e1 s4) as [P4 C4]; auto. destruct (IHp id g s4 e2 s5) as [P5 C5]; auto. split; auto.
        intros z Hz. apply in_app_iff in Hz as [Hz|Hz]; [destruct (P4 z Hz) as (x & y & Hx & Hy & HP)|destruct (P5 z Hz) as (x & y & Hx & Hy & HP)].
        - apply (shape_witness_real id sels t (sf_of x) (sf_of y)); auto; apply Hf; auto.
        - apply (parent_witness_real id sels t (sf_of x) (sf_of y)); auto; apply Hf; auto. }
      apply truthful_insert; auto.
    - intros id sels t frags acc st out st' Hvis Hc E. cbn [visit_fields] in E.
      eapply (foldM_Some _ (fun _ out s => truthful s /\ forall x, In x out -> In x acc \/ fine x /\ collected t sels (sf_of x))); [| |exact E]; auto.
      intros done [j s] rest o1 s1 o2 s2 Eq [C1 K1] E1. assert (Hj : nth_error sels j = Some s) by (apply numbered_In; eapply in_middle; eauto).
      destruct (visit_one_truthful _ _ id sels t frags o1 j s s1 o2 s2 IHv IHw Hvis C1 Hj E1) as [C2 K2]. split; auto. intros x Hx. destruct (K2 x Hx); auto.
    - intros id g st es st' Hg Hc E. cbn [same_shape] in E. destruct g as [|x [|y g]]; [injection E as <- <-; split; auto; intros e []|injection E as <- <-; split; auto; intros e []|].
      destruct (is_nil (shape_errors S id x (y :: g))) eqn:En.
      + eapply (below_group_truthful fuel (sh fuel id) (x :: y :: g) st es st' (shape_witness id)); eauto.
        intros a b a' b' e Ha Hb Hm [u v Hr Hn]. apply sw_types; auto. eapply re_below; eauto. exact I.
      + assert (Ee : es = shape_errors S id x (y :: g) /\ st' = st) by (injection E; auto). destruct Ee as [-> ->]. split; auto. intros e He. unfold shape_errors in He.
        apply in_flat_map in He as (z & Hz & Hin). destruct (same_type_shape S (fd_type (cx_def x)) (fd_type (cx_def z))) eqn:Es; [destruct Hin|]. destruct Hin as [<-|[]].
        exists x, z. split; [left; auto|]. split; [right; auto|]. apply sw_types; [apply re_here; exact I|]. intros K. apply same_type_shape_iff in K. congruence.
    - intros id g st es st' Hg Hc E. cbn [same_parents] in E. destruct g as [|x [|y g]]; [injection E as <- <-; split; auto; intros e []|injection E as <- <-; split; auto; intros e []|].
      set (gg := x :: y :: g) in *. apply bind_Some in E as (pgs & s1 & E1 & E). destruct (order_Some ord ord_In _ _ _ _ E1) as [Hpgs Ec].
      assert (C1 : truthful s1) by (intros i es' e; rewrite Ec; apply Hc).
      eapply collectM_truthful; [|exact C1|exact E]. intros pg s e s' Hin Cs Eg. apply Hpgs in Hin. cbv beta zeta in Eg.
      assert (Hpg : forall z, In z pg -> In z gg) by (intros z Hz; eapply parent_groups_incl; eauto).
      assert (Hup : forall e, in_group (parent_witness id) pg e -> in_group (parent_witness id) gg e) by (intros e' (a & b & Ha & Hb & HP); exists a, b; auto).
      destruct (is_nil (parent_errors id pg)) eqn:En.
      + destruct (below_group_truthful fuel (sp fuel id) pg s e s' (parent_witness id) IHv IHw (IHp id)) as [P2 C2]; auto.
        intros a b a' b' z Ha Hb Hm HP. assert (Hmt : can_meet_not_union (sf_of a) (sf_of b)) by (eapply parent_groups_pairs; eauto).
        destruct HP as [u v Hr Hn|u v Hr He Hn]; [apply pw_names|apply pw_args]; auto; eapply re_below; eauto.
      + assert (Ee : e = parent_errors id pg /\ s' = s) by (injection Eg; auto). destruct Ee as [-> ->]. split; auto. intros e0 Hine. apply Hup. destruct pg as [|a rest]; [destruct Hine|]. cbn [parent_errors] in Hine.
        apply in_flat_map in Hine as (z & Hz & Hine). assert (Hmt : can_meet_not_union (sf_of a) (sf_of z)) by (eapply parent_groups_pairs; eauto; [left; auto|right; auto]).
        assert (Ha : In a gg) by (apply Hpg; left; auto). assert (Hzg : In z gg) by (apply Hpg; right; auto). exists a, z. split; [left; auto|]. split; [right; auto|].
        destruct (teqb (cx_name a) (cx_name z)) eqn:Eq; cbn [negb] in Hine.
        * destruct (arguments_equivalent (cx_args a) (cx_args z)) eqn:Ea; [destruct Hine|]. destruct Hine as [<-|[]]. apply pw_args; [apply re_here; auto|apply teqb_eq; auto|]. intros K.
          apply (args_equivalent_iff _ _ (fine_args _ (Hg a Ha)) (fine_args _ (Hg z Hzg))) in K. congruence.
        * destruct Hine as [<-|[]]. apply pw_names; [apply re_here; auto|]. apply teqb_neq in Eq. exact Eq.
  Qed.

  Lemma run_truthful fuel st : merging_run S d ord fuel = Some st -> truthful st.
  Proof using ord_In numbers simple.
    unfold merging_run. destruct (foldM _ _ _ _) as [[b st1]|] eqn:E; [|discriminate]. intros H. injection H as <-.
    eapply (foldM_Some _ (fun _ _ s => truthful s)); [| |exact E]; [intros i es e []|].
    intros done e rest b1 s1 b2 s2 El C1 E1. eapply (proj1 (rule_truthful fuel)); [left; apply document_sets_lexical; eapply in_middle; eauto|exact C1|exact E1].
  Qed.

  Lemma errors_real es e : merging_errors S d ord = Some es -> In e es -> exists id, real_error id e.
  Proof using ord_In numbers simple.
    unfold merging_errors. destruct (merging_run S d ord (merging_fuel d)) as [st|] eqn:E; [|discriminate]. intros H Hin. injection H as <-.
    apply in_flat_map in Hin as ([id es] & Hc & Hin). exists id. apply (run_truthful _ _ E id es); auto.
  Qed.

  (** ** if there are no conflicts, no error is real *)
  Lemma reached_shapes x y a b : reached any_two x y a b -> ~ same_shape_type S (fd_type (sf_def a)) (fd_type (sf_def b)) -> shapes_conflict S d x y.
  Proof. intros H Hn. induction H as [x y _|x y x' y' a b _ Hm H IH]; [apply sc_type|eapply sc_below]; eauto. Qed.
  Lemma reached_selections (meet : sfield -> sfield -> Prop) x y a b : reached meet x y a b -> sf_name a <> sf_name b \/ ~ same_value (VObj (sf_args a)) (VObj (sf_args b)) -> selections_conflict S d meet x y.
  Proof. intros H Hn. induction H as [x y Hm|x y x' y' a b Hm Hg H IH]; [destruct Hn; [apply fc_name|apply fc_args]; auto|eapply fc_below; eauto]. Qed.
  Lemma rule_complete_document : document_can_merge S d can_meet_not_union -> merging_errors S d ord = Some [].
  Proof using ord_In numbers simple.
    intros Hm. destruct (merging_errors S d ord) as [[|e es]|] eqn:E; auto.
    - exfalso. destruct (errors_real (e :: es) e E (or_introl eq_refl)) as (id & Hr).
      destruct Hr as [a b (t & sels & x & y & a' & b' & Hs & Hx & Hy & Hk & Hr & Ha & Hb) Hn|a b (t & sels & x & y & a' & b' & Hs & Hx & Hy & Hk & Hr & Ha & Hb) Hn
        |a b (t & sels & x & y & a' & b' & Hs & Hx & Hy & Hk & Hr & Ha & Hb) _ Hn]; destruct (Hm _ _ _ Hs x y Hx Hy Hk) as [N1 N2].
      + apply N1. eapply reached_shapes; eauto. destruct Ha as (_ & _ & _ & _ & <-), Hb as (_ & _ & _ & _ & <-). exact Hn.
      + apply N2. eapply reached_selections; eauto. left. destruct Ha as (_ & <- & _), Hb as (_ & <- & _). exact Hn.
      + apply N2. eapply reached_selections; eauto. right. destruct Ha as (_ & _ & <- & _), Hb as (_ & _ & <- & _). exact Hn.
    - exfalso. unfold merging_errors in E. destruct (merging_run_total S d ord ord_In) as [st Er]. rewrite Er in E. discriminate.
  Qed.
End Complete.

Lemma within_inline_end S t sels t' sels' ds sub : within S t sels t' sels' -> In (SInline None ds sub) sels' -> within S t sels t' sub.
Proof. intros H Hin. induction H; eauto using within. Qed.
Lemma set_at_inline S d r t sels ds sub : set_at S d r t sels -> In (SInline None ds sub) sels -> set_at S d r t sub.
Proof. intros (t0 & s0 & H1 & H2) Hin. exists t0, s0. split; auto. eapply within_inline_end; eauto. Qed.

(** * The hypothesis of completeness implies that of soundness *)
Lemma spreads_simple_entered S d t t' sels :
  spreads_simple S d -> entered S d t t' sels -> (exists r, set_at S d r t' sels) /\ (t = t' \/ plain_on t t' sels).
Proof.
  intros Hs H. induction H as [r t sels Ha|t t' sels n ds f t1 H IH Hin Hd Ht|t t' sels ds sub H IH Hin].
  - eauto.
  - destruct IH as [[r Ha] [<-|(_ & Hf & _)]]; [|destruct (Hf _ Hin) as (? & ? & ? & ? & ? & E); discriminate E].
    split; [|destruct (Hs r t n ds f t1 (ex_intro _ sels (conj Ha Hin)) Hd Ht) as [->|K]; [left; auto|right; exact K]].
    destruct Hd as (b & a & E & _ & _). assert (Hi : nth_error (doc_frags d) (length b) = Some f) by (rewrite E, nth_error_app2, Nat.sub_diag; auto).
    exists (RFrag (length b)), t1, (fr_sel f). split; [constructor; auto|constructor].
  - destruct IH as [[r Ha] [<-|(_ & Hf & _)]]; [|destruct (Hf _ Hin) as (? & ? & ? & ? & ? & E); discriminate E].
    split; [|left; auto]. exists r. eapply set_at_inline; eauto.
Qed.
Lemma spreads_simple_agree S d : spreads_simple S d -> fields_agree S d.
Proof.
  intros Hs t t' sels al n args ds sub fd He Hin Hf. destruct (spreads_simple_entered S d t t' sels Hs He) as [_ [<-|(_ & _ & H)]]; [eauto|].
  destruct (H _ _ _ _ _ _ Hin Hf) as (fd' & Hf' & E). exists fd'. rewrite E. auto.
Qed.
