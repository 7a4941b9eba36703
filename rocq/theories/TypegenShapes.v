(** Where the parts of generated types come from. *)
From Verif Require Import Base Ast Maps Graph Doc DocSpec DocRulesSpec FragmentsSpec DocProofs DocRules DocTypingProofs DocRulesProofs
                          FragmentCycles FragmentCyclesProofs OperationProofs Json Typegen TypegenDe TypegenSpec TypegenProofs TypegenBorrow.
Local Open Scope string_scope.
Local Open Scope list_scope.

Lemma winside_wrap t e e' : winside (wrap t e) e' <-> inside e e'.
Proof.
  induction t as [n r|t IH r]; cbn; destruct r; split; intros H;
    repeat (match goal with
            | H : winside (WBase _) _ |- _ => inversion H; subst; clear H
            | H : winside (WOpt _) _ |- _ => inversion H; subst; clear H
            | H : winside (WVec _) _ |- _ => inversion H; subst; clear H
            end); try tauto; repeat constructor; try tauto.
Qed.

Section Shapes.
  Variable S : schema.
  Variable borrow : bool.
  Variable scalar_borrows : name -> option bool.
  Variable d : document.
  Notation build_selection := (build_selection S borrow scalar_borrows).
  Notation build_fields := (build_fields S borrow scalar_borrows).
  Notation build_variants := (build_variants S borrow scalar_borrows).
  Notation build_set := (build_set S borrow scalar_borrows).

  Definition is_leaf_type (e : etype) : Prop := match e with EBuiltin _ _ | ELeaf _ _ => True | _ => False end.
  Definition source (r : root) (e : etype) : Prop :=
    is_leaf_type e \/ exists p t sels, set_at S d r t sels /\ build_set p t sels = Built e.

  (** the results of a successful [build_set], by type *)
  Inductive set_result (p : name) (sels : list selection) : tdef -> etype -> Prop :=
  | sr_spread t n ds b : td_composite t = true -> sels = [SSpread n ds] -> b = false -> set_result p sels t (ERef n b)
  | sr_struct t fs : td_composite t = true -> (forall u, t <> DUnion u) ->
      Forall2 (fun s f => build_selection (td_fields t) s = Built f) sels fs -> sels <> [] -> set_result p sels t (EStruct p fs)
  | sr_enum u vs : build_variants u sels = Built vs -> (forall s, In s sels -> ~ is_spread s) -> sels <> [] ->
      set_result p sels (DUnion u) (EEnum p vs)
  | sr_leaf t e : td_composite t = false -> is_leaf_type e -> set_result p sels t e.
  Lemma build_set_result p t sels e : build_set p t sels = Built e -> set_result p sels t e.
  Proof.
    intros HB. unfold Typegen.build_set, build_base in HB.
    assert (Hsp : forall others n, td_composite t = true -> find_map sel_spread sels = Some n -> spread_or sels others = Built e -> set_result p sels t e).
    { intros others n Hc En H. unfold spread_or in H. rewrite En in H. destruct (Nat.eqb_spec (length sels) 1) as [El|]; [|discriminate].
      injection H as <-. apply find_map_Some in En as (s & Hin & E). destruct s as [|n' ds|]; try discriminate. cbn in E. injection E as ->.
      destruct sels as [|s [|]]; try discriminate. destruct Hin as [->|[]]. econstructor; eauto. }
    destruct t as [b|x|o|x|x|u|i].
    - injection HB as <-. apply sr_leaf; cbn; auto.
    - destruct (scalar_borrows (sc_name x)); [|discriminate]. injection HB as <-. apply sr_leaf; cbn; auto.
    - destruct sels as [|s0 sels]; [discriminate|]. destruct (find_map sel_spread (s0 :: sels)) eqn:E; [eapply Hsp; eauto|].
      unfold spread_or in HB. rewrite E in HB. apply bmap_Built in HB as (fs & HB & ->). apply bseq_Forall2 in HB.
      apply sr_struct; cbn; auto; discriminate.
    - discriminate.
    - injection HB as <-. apply sr_leaf; cbn; auto.
    - destruct sels as [|s0 sels]; [discriminate|]. destruct (find_map sel_spread (s0 :: sels)) eqn:E; [eapply Hsp; eauto|].
      unfold spread_or in HB. rewrite E in HB. apply bmap_Built in HB as (fs & HB & ->).
      apply sr_enum; auto; [|discriminate]. intros s Hs. pose proof (find_map_None _ _ E s Hs). destruct s; cbn; auto. discriminate.
    - destruct sels as [|s0 sels]; [discriminate|]. destruct (find_map sel_spread (s0 :: sels)) eqn:E; [eapply Hsp; eauto|].
      unfold spread_or in HB. rewrite E in HB. apply bmap_Built in HB as (fs & HB & ->). apply bseq_Forall2 in HB.
      apply sr_struct; cbn; auto; discriminate.
  Qed.
  (** the variants of a union *)
  Lemma build_variants_In u sels vs : build_variants u sels = Built vs ->
    (forall n fs, In (n, fs) vs -> exists ds sub o, In (SInline (Some n) ds sub) sels /\ In n (un_members u) /\ get_type S n = Some (DObject o) /\
       Forall2 (fun s f => build_selection (ob_fields o) s = Built f) sub fs) /\
    map fst vs = filter_map (fun s => match s with SInline (Some c) _ _ => Some c | _ => None end) sels.
  Proof.
    revert vs. induction sels as [|s sels IH]; cbn; intros vs HB.
    - injection HB as <-. split; [intros ? ? []|reflexivity].
    - assert (Hskip : build_variants u sels = Built vs ->
        (forall n fs, In (n, fs) vs -> exists ds sub o, (s = SInline (Some n) ds sub \/ In (SInline (Some n) ds sub) sels) /\ In n (un_members u) /\ get_type S n = Some (DObject o) /\
          Forall2 (fun s f => build_selection (ob_fields o) s = Built f) sub fs)).
      { intros H n fs Hin. destruct (proj1 (IH vs H) n fs Hin) as (ds & sub & o & H1 & H2). exists ds, sub, o. auto. }
      destruct s as [al m args ds sub|m ds|c ds sub].
      + split; [apply Hskip; auto|apply IH; auto].
      + split; [apply Hskip; auto|apply IH; auto].
      + apply bbind_Built in HB as ([m fds] & Hv & HB). apply bbind_Built in HB as (fs & Hfs & HB).
        apply bmap_Built in HB as (vs' & HB & ->). cbn in Hfs. unfold variant_fields in Hv.
        destruct c as [c|]; [|discriminate]. destruct (tmem c (un_members u)) eqn:Em; [|discriminate].
        destruct (get_type S c) as [[| |o| | | |]|] eqn:Eg; try discriminate. injection Hv as <- <-. cbn.
        destruct (IH vs' HB) as [IH1 IH2]. split; [|rewrite IH2; reflexivity].
        intros n fs' [[= <- <-]|Hin].
        * exists ds, sub, o. split; auto. split; [apply tmem_In; auto|]. split; auto. apply bseq_Forall2 in Hfs. exact Hfs.
        * destruct (IH1 n fs' Hin) as (ds' & sub' & o' & H1 & H2). exists ds', sub', o'. auto.
  Qed.

  Definition field_inside (s : selection) : Prop :=
    forall r t k w, sel_at S d r t s -> build_selection (td_fields t) s = Built (k, w) -> forall e', winside w e' -> source r e'.
  Definition deep_inside (s : selection) : Prop :=
    field_inside s /\ match s with SInline _ _ sub => Forall field_inside sub | _ => True end.
  Lemma Forall2_In_r {A B} (P : A -> B -> Prop) l l' y : Forall2 P l l' -> In y l' -> exists x, In x l /\ P x y.
  Proof. intros H Hy. eapply Forall2_find; eauto. Qed.
  Lemma set_inside p r t sels e : Forall deep_inside sels -> set_at S d r t sels -> build_set p t sels = Built e ->
    forall e', inside e e' -> source r e'.
  Proof.
    intros HF Hset HB e' Hi. pose proof (build_set_result _ _ _ _ HB) as HR. rewrite Forall_forall in HF.
    destruct HR as [t n ds b Hc -> ->|t fs Hc Hu HF2 Hne|u vs HV Hns Hne|t e Hc Hl].
    - inversion Hi; subst. right. eauto.
    - inversion Hi as [|? ? k w ? Hin Hw|]; subst; [right; eauto|]. destruct (Forall2_In_r _ _ _ _ HF2 Hin) as (s & Hs & Hb).
      apply (proj1 (HF s Hs) r t k w); auto. exists sels; auto.
    - inversion Hi as [| |? ? n fs k w ? Hv Hin Hw]; subst; [right; eauto|].
      destruct (proj1 (build_variants_In _ _ _ HV) n fs Hv) as (ds & sub & o & Hs & Hm & Hg & HF2).
      destruct (Forall2_In_r _ _ _ _ HF2 Hin) as (s & Hs' & Hb). destruct (HF _ Hs) as [_ HFs]. rewrite Forall_forall in HFs.
      apply (HFs s Hs' r (DObject o) k w); auto. exists sub. split; auto. eapply set_at_within; eauto.
      eapply within_inline_on; eauto. constructor.
    - left. destruct e; cbn in Hl; try contradiction; inversion Hi; subst; exact I.
  Qed.
  Lemma all_inside s : deep_inside s.
  Proof.
    induction s as [al n args ds sub IH|n ds|c ds sub IH] using selection_ind'.
    - split; [|exact I]. intros r t k w Hat HB e' Hw. rewrite build_field_eq in HB.
      destruct (get_field (td_fields t) n) as [fd|] eqn:Ef; [|discriminate].
      destruct (get_type S (tref_base (fd_type fd))) as [t1|] eqn:Et; [|discriminate].
      apply bmap_Built in HB as (e & HB & [= -> ->]). apply winside_wrap in Hw.
      destruct (td_composite t1) eqn:Ec.
      + assert (Hne : sub <> []) by (intros ->; unfold Typegen.build_set, build_base in HB; destruct t1; discriminate).
        apply (set_inside (response_name al n) r t1 sub e); auto. destruct Hat as (sels & Hset & Hin).
        eapply set_at_within; eauto. eapply within_field; eauto. constructor.
      + left. apply build_set_result in HB. destruct HB as [t1 m ds' b Hc|t1 fs Hc|u vs|t1 e Hc Hl]; try congruence; try discriminate.
        destruct e; cbn in Hl; try contradiction; inversion Hw; subst; exact I.
    - split; [|exact I]. intros r t k w _ HB. discriminate.
    - split; [intros r t k w _ HB; discriminate|]. eapply Forall_impl; [|exact IH]. intros s [H _]; exact H.
  Qed.
  Lemma inside_source p r t sels e e' : set_at S d r t sels -> build_set p t sels = Built e -> inside e e' -> source r e'.
  Proof.
    intros Hset HB Hi. apply (set_inside p r t sels e); auto. apply Forall_forall. intros s _. apply all_inside.
  Qed.

  (** the names of fields *)
  Lemma build_selection_name fds s k w : build_selection fds s = Built (k, w) -> exists al n args ds sub, s = SField al n args ds sub /\ k = response_name al n.
  Proof.
    destruct s as [al n args ds sub|n ds|c ds sub]; [|discriminate..]. rewrite build_field_eq.
    destruct (get_field fds n); [|discriminate]. destruct (get_type S _); [|discriminate]. intros H. apply bmap_Built in H as (e & _ & [= -> ->]).
    eauto 10.
  Qed.
  Lemma fields_names fds sels fs : Forall2 (fun s f => build_selection fds s = Built f) sels fs -> map fst fs = field_names sels.
  Proof.
    induction 1 as [|s [k w] sels fs Hs HF IH]; cbn; [reflexivity|].
    destruct (build_selection_name _ _ _ _ Hs) as (al & n & args & ds & sub & -> & ->). cbn. f_equal. exact IH.
  Qed.
End Shapes.
