(** Responses deserialize: proofs for C55. *)
From Verif Require Import Base Ast Maps Graph Doc DocSpec DocRulesSpec FragmentsSpec DocProofs DocRules DocTypingProofs DocRulesProofs DocRulesProps
                          FragmentCycles FragmentCyclesProofs OperationProofs Json Typegen TypegenDe TypegenSpec TypegenProofs TypegenBorrow
                          TypegenShapes TypegenProps TypegenCompiles.
Local Open Scope string_scope.
Local Open Scope list_scope.

Scheme response_mut := Induction for response Sort Prop with field_response_mut := Induction for field_response Sort Prop.

(** * Lists *)
Lemma distinct_id l : NoDup l -> distinct l = l.
Proof.
  induction 1 as [|x l Hx Hl IH]; cbn; [reflexivity|]. rewrite IH. f_equal. apply filter_all. intros y Hy.
  destruct (teqb y x) eqn:E; [|reflexivity]. apply teqb_eq in E. subst. contradiction.
Qed.
Lemma under_single k ns x : NoDup (map nd_key ns) -> In x ns -> nd_key x = k -> under k ns = [x].
Proof.
  unfold under. induction ns as [|y ns IH]; cbn; intros Hnd Hin E; [destruct Hin|]. inversion Hnd as [|? ? Hy Hns]; subst.
  destruct Hin as [<-|Hin].
  - rewrite teqb_refl. f_equal. apply filter_nil. intros z Hz. destruct (teqb (nd_key z) (nd_key y)) eqn:E; [|reflexivity].
    apply teqb_eq in E. exfalso. apply Hy. rewrite <- E. apply in_map; auto.
  - destruct (teqb (nd_key y) (nd_key x)) eqn:E.
    + apply teqb_eq in E. exfalso. apply Hy. rewrite E. apply in_map; auto.
    + apply IH; auto.
Qed.
Lemma Forall2_forall_l {A B} (R : A -> B -> Prop) l l' : Forall2 R l l' -> (forall x, In x l -> exists y, R x y) /\ length l = length l'.
Proof.
  induction 1 as [|x y l l' H HF [IH1 IH2]]; cbn; [split; [intros ? []|auto]|]. split; [|auto]. intros z [<-|Hz]; eauto.
Qed.
Lemma keys_unique {A} (l : list (name * A)) k a b : NoDup (map fst l) -> In (k, a) l -> In (k, b) l -> a = b.
Proof. intros Hnd Ha Hb. apply assoc_NoDup in Ha, Hb; auto. congruence. Qed.
Lemma wupdate_wrap flags t e : wupdate flags (wrap t e) = wrap t (update flags e).
Proof. induction t as [n r|t IH r]; cbn; destruct r; cbn; rewrite ?IH; reflexivity. Qed.

Scheme inside_mut := Induction for inside Sort Prop with winside_mut := Induction for winside Sort Prop.
Lemma inside_trans a b c : inside a b -> inside b c -> inside a c.
Proof.
  intros H. revert c. induction H using inside_mut with (P0 := fun w b _ => forall c, inside b c -> winside w c); intros c Hc.
  - auto.
  - eapply in_struct; eauto.
  - eapply in_enum; eauto.
  - constructor; auto.
  - constructor; auto.
  - constructor; auto.
Qed.
Lemma NoDup_snake {A} (f : A -> name) (g : name -> name) l : NoDup (map (fun x => g (f x)) l) -> NoDup (map f l).
Proof. intros H. rewrite <- (map_map f g) in H. apply NoDup_map_inv in H. exact H. Qed.

(** * Types of fields *)
Section Types.
  Variable S : schema.
  Lemma refines_refl a : refines S a a.
  Proof. induction a as [n r|a IH r]; constructor; auto; destruct r; reflexivity. Qed.
  Lemma refines_required a b : refines S a b -> tref_required a = false -> tref_required b = false.
  Proof. destruct 1 as [n r r' H|n n' r r' t t' H|a b r r' H]; cbn; destruct r, r'; cbn in *; congruence. Qed.
  Section Resp.
    Variable d : document.
    Variable vals : name -> option bool.
    Variable scalar_out : name -> json -> Prop.
    Notation response := (response S d vals scalar_out).
    Lemma response_refines a sels j : response a sels j -> forall b, refines S a b -> response b sels j.
    Proof.
      induction 1 using response_mut with (P0 := fun _ _ _ _ => True); try exact I; intros bb HRf.
      - constructor. eapply refines_required; eauto.
      - inversion HRf; subst. constructor. auto.
      - inversion HRf; subst; [eapply re_builtin; eauto|]. exfalso.
        match goal with H1 : get_type S ?m = Some _, H2 : get_type S ?m = Some _, H3 : td_composite _ = true |- _ => rewrite H1 in H2; injection H2 as <-; discriminate H3 end.
      - inversion HRf; subst; [eapply re_enum; eauto|]. exfalso.
        match goal with H1 : get_type S ?m = Some _, H2 : get_type S ?m = Some _, H3 : td_composite _ = true |- _ => rewrite H1 in H2; injection H2 as <-; discriminate H3 end.
      - inversion HRf; subst; [eapply re_scalar; eauto|]. exfalso.
        match goal with H1 : get_type S ?m = Some _, H2 : get_type S ?m = Some _, H3 : td_composite _ = true |- _ => rewrite H1 in H2; injection H2 as <-; discriminate H3 end.
      - inversion HRf; subst; [eapply re_object; eauto|].
        match goal with H1 : get_type S ?m = Some ?a, H2 : get_type S ?m = Some ?b, H3 : possible S ?a _ |- _ => rewrite H1 in H2; injection H2 as <- end.
        eapply re_object; eauto.
    Qed.
  End Resp.
End Types.

(** * Types at run time *)
Section Runtime.
  Variable S : schema.
  Hypothesis HR : resolved S.
  Lemma type_self t : In t (s_types S) -> get_type S (td_name t) = Some t.
  Proof.
    intros Hin. destruct (get_type S (td_name t)) as [t'|] eqn:E.
    - pose proof (get_type_Some _ _ _ E) as [Hin' En]. f_equal. pose proof (rs_names S HR) as Hnd.
      apply In_nth_error in Hin as (i & Hi). apply In_nth_error in Hin' as (k & Hk).
      assert (i = k); [|congruence]. rewrite NoDup_nth_error in Hnd. apply Hnd.
      + rewrite map_length. apply nth_error_Some. congruence.
      + rewrite !nth_error_map, Hi, Hk. cbn. congruence.
    - exfalso. rewrite get_type_None in E. apply (E t Hin). reflexivity.
  Qed.

  Hypothesis HT : wf_types S.
  (** the field that is found at run time suits the field that the type was generated from *)
  Lemma runtime_field t o n fd : In t (s_types S) -> (forall u, t <> DUnion u) -> possible S t (ob_name o) ->
    get_type S (ob_name o) = Some (DObject o) -> get_field (td_fields t) n = Some fd ->
    (n = tx "__typename" /\ fd_type fd = TBase (tx "String") true) \/
    (n <> tx "__typename" /\ exists fd', get_field (ob_fields o) n = Some fd' /\ refines S (fd_type fd') (fd_type fd)).
  Proof.
    intros Hin Hu Hp Ho Hf. pose proof (get_field_Some _ _ _ Hf) as [Hfin Hn].
    destruct (text_dec n (tx "__typename")) as [E|Hne].
    { left. split; auto. eapply (wt_typename S HT t fd); eauto. congruence. }
    right. split; auto. subst n. remember (ob_name o) as rt eqn:Ert. destruct Hp as [o'|i o' Ho' Hi|u m Hm].
    - pose proof (type_self _ Hin) as Hs. change (td_name (DObject o')) with (ob_name o') in Hs. rewrite Ho in Hs. injection Hs as <-.
      exists fd. split; auto. apply refines_refl.
    - pose proof (type_self _ Ho') as Hs. change (td_name (DObject o')) with (ob_name o') in Hs. rewrite Ho in Hs. injection Hs as <-.
      destruct (wt_fields S HT i o fd Hin) as (fd' & H1 & H2); auto. exists fd'. auto.
    - exfalso. eapply Hu; eauto.
  Qed.
End Runtime.

Section Deserialize.
  Variables A B : schema.
  Variable d : document.
  Variable borrow : bool.
  Variable scalar_borrows : name -> option bool.
  Hypothesis HR : resolved A.
  Hypothesis HRB : resolved B.
  Hypothesis HW : well_parsed d.
  Hypothesis HV : validated A d.
  Hypothesis HTA : wf_types A.
  Hypothesis HT : wf_types B.
  Hypothesis SV : serves A B.
  Variables (types : list etype) (frags : list (name * etype)) (flags : list (name * bool)) (ops : list etype).
  Hypothesis HP : parts A borrow scalar_borrows d types frags flags ops.
  Notation build_selection := (build_selection A borrow scalar_borrows).
  Notation build_set := (build_set A borrow scalar_borrows).
  Notation build_operation := (build_operation A borrow scalar_borrows).
  Notation build_fragment := (build_fragment A borrow scalar_borrows).
  Let Hok := validated_ok A d HR HW HV.
  Let Hspr := validated_spreads A d HV.
  Variable vals : name -> option bool.
  Variable scalar_out : name -> json -> Prop.
  Variable cod : codec.
  Variable scalar_de : name -> json -> bool.
  Variables pascal snake : name -> name.
  Hypothesis HC : compiles pascal snake cod types.
  Hypothesis Hpascal : forall a b, In a (item_names d) -> In b (item_names d) -> pascal a = pascal b -> a = b.
  Hypothesis Hscalars : forall n j, scalar_out n j -> scalar_de n j = true.
  Hypothesis Hskip : nothing_skipped A d vals.
  Hypothesis Hcover : union_spreads_cover_at B A d.
  Hypothesis Htypename : cod = Miniserde -> no_typename_in_variants A d.
  Notation response := (response B d vals scalar_out).
  Notation field_response := (field_response B d vals scalar_out).
  Notation collects := (collects B d vals).
  Notation de := (de cod A scalar_de pascal (items types)).
  Notation de_item := (de_item cod).
  Notation upd := (fun f : name * wtype => (fst f, wupdate flags (snd f))).

  Notation shown := (shows_but (new_value A B)).
  (** a type of the server, as the client knows it *)
  Lemma type_later n t : get_type A n = Some t -> exists u, get_type B n = Some u /\ later B t u /\ td_name u = td_name t.
  Proof.
    intros H. destruct (sv_types _ _ SV n t H) as (u & Hu & L). exists u. split; [exact Hu|split; [exact L|]].
    pose proof (get_type_Some _ _ _ H) as [_ <-]. pose proof (get_type_Some _ _ _ Hu) as [_ E]. exact E.
  Qed.
  Lemma object_later n a u : get_type A n = Some (DObject a) -> get_type B n = Some u -> exists o, u = DObject o.
  Proof. intros H Hu. destruct (type_later n _ H) as (u' & Hu' & L & _). rewrite Hu in Hu'. injection Hu' as <-. inversion L. eauto. Qed.
  Lemma possible_later t u rt : In t (s_types A) -> get_type B (td_name t) = Some u -> possible A t rt -> possible B u rt.
  Proof.
    intros Ht Hu Hp. destruct (type_later _ _ (type_self A HR t Ht)) as (u' & Hu' & L & E). rewrite Hu in Hu'. injection Hu' as <-.
    destruct Hp as [o|i o Ho Hi|x m Hm]; inversion L as [| |? ? Hif Hfs|? ? Hif Hfs|? ? Hms| |]; subst; cbn in E.
    - rewrite <- E. constructor.
    - destruct (type_later _ _ (type_self A HR _ Ho)) as (u1 & Hu1 & L1 & E1). inversion L1 as [| |? o' Hif1 Hfs1| | | |]; subst. cbn in E1.
      rewrite <- E1. apply poss_interface; [apply (proj1 (get_type_Some _ _ _ Hu1))|]. rewrite E. auto.
    - apply poss_union. auto.
  Qed.
  (** the field that is found at run time suits the field that the type was generated from *)
  Lemma runtime_field_later t u o n fd : In t (s_types A) -> get_type B (td_name t) = Some u -> (forall x, t <> DUnion x) -> possible B u (ob_name o) ->
    get_type B (ob_name o) = Some (DObject o) -> get_field (td_fields t) n = Some fd ->
    (n = tx "__typename" /\ fd_type fd = TBase (tx "String") true) \/
    (n <> tx "__typename" /\ exists fd', get_field (ob_fields o) n = Some fd' /\ forall sub j, response (fd_type fd') sub j -> response (fd_type fd) sub j).
  Proof.
    intros Ht Hu Hnu Hp Ho Hf. destruct (text_dec n (tx "__typename")) as [E|Hne].
    { left. split; [exact E|]. pose proof (get_field_Some _ _ _ Hf) as [Hfin Hn]. eapply (wt_typename A HTA t fd); eauto. congruence. }
    right. split; [exact Hne|]. destruct (type_later _ _ (type_self A HR t Ht)) as (u' & Hu' & L & E). rewrite Hu in Hu'. injection Hu' as <-.
    assert (Hg : exists g, get_field (td_fields u) n = Some g /\ refines B (fd_type g) (fd_type fd)).
    { destruct L as [| |? ? _ Hfs|? ? _ Hfs|a b _| |]; cbn [td_fields] in *; auto; try discriminate. now destruct (Hnu a). }
    destruct Hg as (g & Hg & Hr). assert (Hnu' : forall x, u <> DUnion x) by (intros x ->; inversion L; subst; eapply Hnu; eauto).
    destruct (runtime_field B HRB HT u o n g (proj1 (get_type_Some _ _ _ Hu)) Hnu' Hp Ho Hg) as [(X & _)|(_ & fd' & G & R)]; [contradiction|].
    exists fd'. split; [exact G|]. intros sub j H. eapply response_refines; [|exact Hr]. eapply response_refines; eauto.
  Qed.

  (** ** CollectFields for the accepted shapes *)
  Definition node_of (s : selection) : list node :=
    match s with SField al n _ _ sub => [{| nd_key := response_name al n; nd_name := n; nd_sub := sub |}] | _ => [] end.
  Definition not_skipped (s : selection) : Prop :=
    match s with SField _ _ _ ds _ | SSpread _ ds | SInline _ ds _ => skipped vals ds = false end.
  Lemma collects_fields rt sels ns : Forall is_field sels -> Forall not_skipped sels -> collects rt sels ns -> ns = flat_map node_of sels.
  Proof.
    intros HF Hns HCo. induction HCo as [|al n args ds sub rest ns Hs HCo IH| | | | |s rest ns Hs HCo IH];
      inversion HF as [|? ? Hf HF']; subst; inversion Hns as [|? ? Hn Hns']; subst; cbn in *; try contradiction; auto.
    - f_equal. auto.
    - destruct s; cbn in *; try contradiction. congruence.
  Qed.
  Lemma node_keys sels : map nd_key (flat_map node_of sels) = field_names sels.
  Proof. induction sels as [|[al n args ds sub|n ds|c ds sub] sels IH]; cbn; auto. f_equal; auto. Qed.

  Lemma sel_skip r t sels : set_at A d r t sels -> Forall not_skipped sels.
  Proof. intros Hset. apply Forall_forall. intros s Hs. apply (Hskip r t s). exists sels. auto. Qed.

  (** ** Fields *)
  Definition entries_of (kvs : list (text * json)) : entries := map (fun kv => (fst kv, (snd kv, de (snd kv)))) kvs.
  Lemma assoc_entries kvs k j : assoc k kvs = Some j -> assoc k (entries_of kvs) = Some (j, de j).
  Proof.
    induction kvs as [|[k' j'] kvs IH]; cbn; [discriminate|]. destruct (teqb k k'); [intros [= ->]; reflexivity|auto].
  Qed.
  Lemma de_fields_shown fs es kvs :
    (forall k w, In (k, w) fs -> exists j v, assoc k es = Some (j, de j) /\ In (k, j) kvs /\ de j (wupdate flags w) = Some v /\ shown v j) ->
    exists vs, de_fields cod (map upd fs) es = Some vs /\ map fst vs = map fst fs /\
               forall k v, In (k, v) vs -> exists j, In (k, j) kvs /\ shown v j.
  Proof.
    unfold de_fields. induction fs as [|[k w] fs IH]; intros H.
    - exists []. cbn. split; auto. split; auto. intros ? ? [].
    - destruct IH as (vs & E & En & Hvs); [intros; apply H; right; auto|].
      destruct (H k w (or_introl eq_refl)) as (j & v & Ea & Hin & Ed & Hs).
      exists ((k, v) :: vs). cbn. rewrite Ea, Ed. cbn. rewrite E. split; auto. split; [cbn; congruence|].
      intros k' v' [[= <- <-]|Hin']; eauto.
  Qed.

  Definition P (j : json) : Prop := forall ty t sels p e, get_type A (tref_base ty) = Some t ->
    (td_composite t = true -> exists r, set_at A d r t sels) -> build_set p t sels = Built e ->
    (exists top, In top types /\ inside top (update flags e)) -> response ty sels j ->
    exists v, de j (wrap ty (update flags e)) = Some v /\ shown v j.

  (** the fields of a struct or variant *)
  Lemma fields_shown r t u o sels fs ns kvs es :
    Forall (fun kv => P (snd kv)) kvs -> set_at A d r t sels -> get_type B (td_name t) = Some u -> (forall x, t <> DUnion x) ->
    (exists top, In top types /\ forall k w e, In (k, w) fs -> winside (wupdate flags w) e -> inside top e) ->
    possible B u (ob_name o) -> get_type B (ob_name o) = Some (DObject o) ->
    Forall2 (fun s f => build_selection (td_fields t) s = Built f) sels fs ->
    NoDup (map nd_key ns) -> map fst kvs = map nd_key ns -> (forall x, In x (flat_map node_of sels) -> In x ns) ->
    (forall k j, In (k, j) kvs -> field_response o (under k ns) j) ->
    (forall k j, In k (field_names sels) -> assoc k kvs = Some j -> assoc k es = Some (j, de j)) ->
    exists vs, de_fields cod (map upd fs) es = Some vs /\ map fst vs = map fst fs /\
               forall k v, In (k, v) vs -> exists j, In (k, j) kvs /\ shown v j.
  Proof.
    intros HIH Hset HBu Hu (top & Htop & Hinside) Hp Ho HF Hnd Hkeys Hns Hfr Hes. apply de_fields_shown. intros k w Hin.
    destruct (Forall2_In_r _ _ _ _ HF Hin) as (s & Hs & HB). pose proof (build_selection_name _ _ _ _ _ _ _ HB) as (al & n & args & ds & sub & -> & ->).
    assert (Hx : In {| nd_key := response_name al n; nd_name := n; nd_sub := sub |} ns).
    { apply Hns. apply in_flat_map. eexists. split; [exact Hs|]. left. reflexivity. }
    assert (Hk : In (response_name al n) (map fst kvs)) by (rewrite Hkeys; apply (in_map nd_key) in Hx; exact Hx).
    apply in_map_iff in Hk as ([k' j] & Ek & Hj). cbn in Ek. subst k'.
    assert (Hndk : NoDup (map fst kvs)) by (rewrite Hkeys; auto).
    assert (Hfn : In (response_name al n) (field_names sels)).
    { apply filter_map_In. eexists. split; [exact Hs|]. reflexivity. }
    rewrite build_field_eq in HB. destruct (get_field (td_fields t) n) as [fd|] eqn:Ef; [|discriminate].
    destruct (get_type A (tref_base (fd_type fd))) as [t1|] eqn:Et; [|discriminate].
    apply bmap_Built in HB as (e1 & HB & [= ->]).
    assert (Htin : In t (s_types A)) by (eapply set_at_In; eauto).
    assert (Hresp : response (fd_type fd) sub j).
    { pose proof (Hfr _ _ Hj) as Hf. rewrite (under_single (response_name al n) ns _ Hnd Hx eq_refl) in Hf.
      destruct (runtime_field_later t u o n fd Htin HBu Hu Hp Ho Ef) as [[En Hty]|[Hne (fd' & Ef' & Href)]].
      - inversion Hf as [? ? ? En'|? ? ? fd' ? Hne]; subst; [|cbn in Hne; congruence]. rewrite Hty.
        eapply re_builtin; [apply (wt_string B HT)|]. cbn. eauto.
      - inversion Hf as [? ? ? En'|? ? ? fd2 ? Hne' Ef2 Hr]; subst; [cbn in En'; contradiction|]. cbn in Ef2, Hr. rewrite Ef' in Ef2. injection Ef2 as <-.
        rewrite app_nil_r in Hr. auto. }
    rewrite Forall_forall in HIH. destruct (HIH _ Hj (fd_type fd) t1 sub (response_name al n) e1 Et) as (v & Hd & Hsh); auto.
    { intros Hc. exists r. assert (Hne : sub <> []) by (intros ->; unfold Typegen.build_set, build_base in HB; destruct t1; discriminate).
      eapply set_at_within; eauto. eapply within_field; eauto. constructor. }
    { exists top. split; auto. apply (Hinside _ _ _ Hin). rewrite wupdate_wrap. apply winside_wrap. constructor. }
    exists j, v. split; [apply Hes; auto; apply assoc_NoDup; auto|]. split; auto. split; auto. rewrite wupdate_wrap. auto.
  Qed.

  (** ** Unions *)
  Lemma applies_member rt c o : get_type A c = Some (DObject o) -> applies B rt c -> c = rt.
  Proof.
    intros Hg (t & Ht & Hp). destruct (object_later _ _ _ Hg Ht) as (o' & ->). apply get_type_Some in Ht as [_ En]. cbn in En. subst c.
    inversion Hp; subst. reflexivity.
  Qed.
  Lemma member_applies rt o : get_type B rt = Some (DObject o) -> applies B rt rt.
  Proof.
    intros Hg. exists (DObject o). split; auto. apply get_type_Some in Hg as [_ En]. cbn in En. subst rt. constructor.
  Qed.
  Definition member_inline (s : selection) : Prop := exists c ds sub o, s = SInline (Some c) ds sub /\ get_type A c = Some (DObject o).
  Definition cond_of (s : selection) : name := match s with SInline (Some c) _ _ => c | _ => [] end.
  Lemma collects_none rt inl ns : Forall member_inline inl -> Forall not_skipped inl -> ~ In rt (map cond_of inl) -> collects rt inl ns -> ns = [].
  Proof.
    intros HF Hns Hno HCo. induction HCo as [|al n args ds sub rest ns Hs HCo IH|n ds f rest ns ns' Hs Hd Ha HC1 IH1 HC2 IH2|n ds f rest ns Hs Hd Ha HC1 IH1
        |c ds sub rest ns ns' Hs Ha HC1 IH1 HC2 IH2|c ds sub rest ns Hs Ha HC1 IH1|s rest ns Hs HCo IH];
      [auto|inversion HF as [|? ? Hf HF']; subst; inversion Hns as [|? ? Hn Hns']; subst; destruct Hf as (c0 & ds0 & sub0 & o & E & Hg); try discriminate..].
    - injection E as -> <- <-. exfalso. apply Hno. left. cbn. eapply applies_member; eauto.
    - apply IH1; auto. intros Hin. apply Hno. right. auto.
    - subst s. cbn in *. congruence.
  Qed.
  Lemma collects_variant rt o inl ns ds sub : get_type B rt = Some (DObject o) ->
    Forall member_inline inl -> Forall not_skipped inl -> NoDup (map cond_of inl) -> In (SInline (Some rt) ds sub) inl ->
    collects rt inl ns -> collects rt sub ns.
  Proof.
    intros Hrt HF Hns Hnd Hin HCo. induction HCo as [|al n args ds' sub' rest ns Hs HCo IH|n ds' f rest ns ns' Hs Hd Ha HC1 IH1 HC2 IH2|n ds' f rest ns Hs Hd Ha HC1 IH1
        |c ds' sub' rest ns ns' Hs Ha HC1 IH1 HC2 IH2|c ds' sub' rest ns Hs Ha HC1 IH1|s rest ns Hs HCo IH];
      [destruct Hin|inversion HF as [|? ? Hf HF']; subst; inversion Hns as [|? ? Hn Hns']; subst; cbn in Hnd; inversion Hnd as [|? ? Hx Hnd']; subst;
       destruct Hf as (c0 & ds0 & sub0 & o' & E & Hg); try discriminate..].
    - injection E as -> <- <-. assert (c0 = rt) by (eapply applies_member; eauto). subst c0. cbn in Hx.
      rewrite (collects_none rt rest ns' HF' Hns' Hx HC2), app_nil_r. destruct Hin as [E|Hin]; [injection E as <- <-; auto|].
      exfalso. apply Hx. apply (in_map cond_of) in Hin. exact Hin.
    - injection E as <- <- <-. destruct Hin as [E|Hin]; [|auto]. injection E as -> _ _. exfalso. apply Ha. eapply member_applies; eauto.
    - subst s. cbn in *. congruence.
  Qed.

  (** ** Objects *)
  Lemma entries_filter kvs : ~ In tag (map fst kvs) -> filter (fun kv : text * (json * (wtype -> option rval)) => negb (teqb (fst kv) tag)) (entries_of kvs) = entries_of kvs.
  Proof.
    intros H. apply filter_all. intros [k x] Hin. unfold entries_of in Hin. apply in_map_iff in Hin as ([k' j] & [= <- <-] & Hin). cbn [fst].
    destruct (teqb k' tag) eqn:E; [|reflexivity]. apply teqb_eq in E. subst. exfalso. apply H. apply (in_map fst) in Hin. exact Hin.
  Qed.
  Lemma item_shown r p t u sels e kvs rt o ns :
    Forall (fun kv => P (snd kv)) kvs -> set_at A d r t sels -> get_type B (td_name t) = Some u -> td_composite t = true -> build_set p t sels = Built e ->
    (exists top, In top types /\ inside top (update flags e)) -> (forall n b, e <> ERef n b) ->
    possible B u rt -> get_type B rt = Some (DObject o) -> collects rt sels ns -> map fst kvs = distinct (map nd_key ns) ->
    (forall k j, In (k, j) kvs -> field_response o (under k ns) j) ->
    exists v, de_item (update flags e) (JObj kvs) (entries_of kvs) = Some v /\ shown v (JObj kvs).
  Proof.
    intros HIH Hset HBu Hc HB (top & Htop & Hin) Hne Hp Ho HCo Hkeys Hfr.
    pose proof (get_type_Some _ _ _ Ho) as [_ Ert]. cbn in Ert. subst rt.
    pose proof (build_set_result _ _ _ _ _ _ _ HB) as HS. inversion HS as [t' n ds b Hc' E|t' fs Hc' Hu HF Hn0|un vs HBv Hns Hn0|t' e' Hc' Hl]; subst.
    - exfalso. eapply Hne; eauto.
    - (* a struct *)
      cbn in Hin. destruct (cc_struct _ _ _ _ HC top p _ Htop Hin) as [Hnd _]. rewrite map_map in Hnd. cbn in Hnd.
      apply NoDup_snake in Hnd. pose proof (fields_names _ _ _ _ _ _ HF) as Hfn. change (NoDup (map fst fs)) in Hnd. rewrite Hfn in Hnd.
      assert (Hfields : Forall is_field sels).
      { apply Forall_forall. intros s Hs. destruct (proj1 (Forall2_forall_l _ _ _ HF) s Hs) as (f & Hf).
        destruct f. apply build_selection_name in Hf as (al & n & args & ds & sub & -> & _). exact I. }
      assert (Ens : ns = flat_map node_of sels) by (eapply collects_fields; eauto; eapply sel_skip; eauto).
      assert (Hk : map nd_key ns = field_names sels) by (rewrite Ens; apply node_keys).
      rewrite Hk, (distinct_id _ Hnd) in Hkeys.
      destruct (fields_shown r t u o sels fs ns kvs (entries_of kvs)) as (vs & Ed & Ev & Hvs); auto.
      + exists top. split; auto. intros k w e Hkw Hw. eapply inside_trans; [exact Hin|]. eapply in_struct; [|exact Hw].
        apply in_map_iff. exists (k, w). auto.
      + rewrite Hk. auto.
      + rewrite Hk. auto.
      + rewrite Ens. auto.
      + intros k j _. apply assoc_entries.
      + exists (RStruct vs). split; [change (option_map RStruct (de_fields cod (map upd fs) (entries_of kvs)) = Some (RStruct vs)); rewrite Ed; reflexivity|]. apply sb_struct.
        * rewrite Ev, Hkeys. auto.
        * rewrite Ev, Hfn. auto.
        * intros k v j Hv Hj. destruct (Hvs k v Hv) as (j' & Hj' & Hs). rewrite (keys_unique kvs k j j'); auto. rewrite Hkeys. auto.
    - (* an enum *)
      cbn in Hin. destruct (cc_enum _ _ _ _ HC top p _ Htop Hin) as [Hvn Hvf].
      pose proof (validated_sets A d HV _ _ _ Hset) as Hse. cbn in Hse.
      apply union_shape in Hse as [(n & ds & ->)|(args & ds & sub & inl & -> & Hm & Hnd)].
      { exfalso. apply (Hns (SSpread n ds)); [left; auto|exact I]. }
      destruct (build_variants_In _ _ _ _ _ _ HBv) as [Hv1 Hv2].
      assert (Hu : In (DUnion un) (s_types A)) by (eapply set_at_In; eauto).
      assert (Hinl : Forall member_inline inl).
      { apply Forall_forall. intros s Hs. destruct (Hm s Hs) as (c & Hc1 & Hc2). destruct s as [| |[c'|] ds1 sub1]; cbn in Hc2; try contradiction. subst c'.
        destruct (rs_members A HR un c Hu Hc1) as (o' & Ho'). exists c, ds1, sub1, o'. auto. }
      assert (Ev : map fst vs = map cond_of inl).
      { rewrite Hv2. cbn. clear - Hinl. induction inl as [|s inl IH]; cbn; [reflexivity|]. inversion Hinl as [|? ? Hs Hl]; subst.
        destruct Hs as (c & ds & sub & o & -> & _). cbn. f_equal. auto. }
      assert (Hsk : Forall not_skipped (SField None (tx "__typename") args ds sub :: inl)) by (eapply sel_skip; eauto).
      inversion Hsk as [|? ? Hsk1 Hsk2]; subst.
      set (tnode := {| nd_key := tx "__typename"; nd_name := tx "__typename"; nd_sub := sub |}).
      assert (Hns' : exists ns', ns = tnode :: ns' /\ collects (ob_name o) inl ns').
      { inversion HCo as [|al n args' ds' sub' rest ns' Hs' HCo' E1 E2| | | | |s rest ns' Hs' HCo' E1 E2]; subst; [exists ns'; auto|].
        cbn in Hsk1. congruence. }
      destruct Hns' as (ns' & -> & HCi).
      assert (Hcase : (exists fs, In (ob_name o, fs) vs) \/ ~ In (ob_name o) (map fst vs)).
      { destruct (in_dec text_dec (ob_name o) (map fst vs)) as [H|H]; [left|right; auto]. apply in_map_iff in H as ([n fs] & E & H). cbn in E. subst n. eauto. }
      assert (Hndv : NoDup (map fst vs)) by (rewrite Ev; exact Hnd).
      assert (Hup : forall n fs, In (n, fs) vs -> assoc n (map (fun v : name * list (name * wtype) => (fst v, map upd (snd v))) vs) = Some (map upd fs)).
      { intros n fs H. apply assoc_NoDup; [rewrite map_map; exact Hndv|]. apply in_map_iff. exists (n, fs). auto. }
      assert (Hup0 : ~ In (ob_name o) (map fst vs) -> assoc (ob_name o) (map (fun v : name * list (name * wtype) => (fst v, map upd (snd v))) vs) = None).
      { intros H. destruct (assoc _ _) as [x|] eqn:E; [|reflexivity]. exfalso. apply H. apply assoc_In in E. apply in_map_iff in E as ([n fs] & E & E').
        injection E as -> _. apply (in_map fst) in E'. exact E'. }
      destruct Hcase as [(fs & Hfs)|Hno].
      + (* a variant *)
        destruct (Hv1 _ _ Hfs) as (ds' & sub' & o' & Hs & Hmem & Hg & HF).
        destruct Hs as [Hs|Hs]; [discriminate|].
        pose proof (collects_variant _ o inl ns' ds' sub' Ho Hinl Hsk2 Hnd Hs HCi) as HCs.
        assert (Hset' : set_at A d r (DObject o') sub').
        { eapply set_at_within; eauto. eapply within_inline_on; [right; exact Hs|exact Hg|constructor]. }
        assert (Hfields : Forall is_field sub').
        { apply Forall_forall. intros s Hs'. destruct (proj1 (Forall2_forall_l _ _ _ HF) s Hs') as (f & Hf).
          destruct f. apply build_selection_name in Hf as (al & n & args' & ds2 & sub2 & -> & _). exact I. }
        assert (Ens : ns' = flat_map node_of sub') by (eapply collects_fields; eauto; eapply sel_skip; eauto).
        assert (Hk : map nd_key ns' = field_names sub') by (rewrite Ens; apply node_keys).
        pose proof (fields_names _ _ _ _ _ _ HF) as Hfn.
        assert (Hfs' : In (ob_name o, map upd fs) (map (fun v : name * list (name * wtype) => (fst v, map upd (snd v))) vs)).
        { apply in_map_iff. exists (ob_name o, fs). auto. }
        destruct (Hvf _ _ Hfs') as (Hndf & Htag & _). rewrite map_map in Hndf. cbn in Hndf. apply NoDup_snake in Hndf. change (NoDup (map fst fs)) in Hndf.
        rewrite Hfn in Hndf.
        assert (Hnt : ~ In (tx "__typename") (field_names sub')).
        { destruct cod eqn:Ecod.
          - specialize (Htag eq_refl). rewrite map_map in Htag. cbn in Htag. change (~ In (tx "__typename") (map fst fs)) in Htag. rewrite Hfn in Htag. exact Htag.
          - intros H. apply filter_map_In in H as (s & Hs1 & Hs2). destruct s as [al n args2 ds2 sub2| |]; try discriminate. injection Hs2 as Hs2.
            eapply (Htypename eq_refl r un (Some (ob_name o)) ds' sub'); [eexists; split; [exact Hset|right; exact Hs]|exact Hs1|exact Hs2]. }
        assert (Hndk : NoDup (map nd_key (tnode :: ns'))) by (cbn; constructor; rewrite Hk; auto).
        rewrite (distinct_id _ Hndk) in Hkeys.
        destruct (fields_shown r (DObject o') (DObject o) o sub' fs (tnode :: ns') kvs (entries_of (tl kvs))) as (rs & Ed & Er & Hrs); auto.
        * apply get_type_Some in Hg as [_ En]. cbn in En. cbn. rewrite En. exact Ho.
        * discriminate.
        * exists top. split; auto. intros k w e Hkw Hw. eapply inside_trans; [exact Hin|]. eapply in_enum; [exact Hfs'| |exact Hw].
          apply in_map_iff. exists (k, w). auto.
        * constructor.
        * intros x Hx. right. rewrite Ens. auto.
        * intros k j Hk1 Hj. apply assoc_entries. destruct kvs as [|[k0 j0] kvs]; [discriminate|]. cbn in Hkeys. injection Hkeys as -> _.
          change ((if teqb k (tx "__typename") then Some j0 else assoc k kvs) = Some j) in Hj. cbn [tl].
          destruct (teqb k (tx "__typename")) eqn:E; [|auto]. apply teqb_eq in E. subst k. contradiction.
        * destruct kvs as [|[k0 j0] kvs]; [discriminate|]. cbn [map fst] in Hkeys. injection Hkeys as -> Hkeys.
          pose proof (Hfr _ _ (or_introl eq_refl)) as H0. rewrite (under_single _ _ tnode Hndk) in H0; [|left; auto|reflexivity].
          inversion H0 as [o1 x1 ns1 Et|o1 x1 ns1 fd1 j1 Hne1]; subst; [|cbn in Hne1; congruence].
          cbn [tl] in Ed. exists (RVariant (ob_name o) rs). split.
          -- set (g := de (JStr (ob_name o))).
             change (match cod with
                     | Serde => match assoc (ob_name o) (map (fun v : name * list (name * wtype) => (fst v, map upd (snd v))) vs) with
                                | Some fs => option_map (RVariant (ob_name o)) (de_fields cod fs (filter (fun kv => negb (teqb (fst kv) tag)) (entries_of kvs)))
                                | None => Some ROther end
                     | Miniserde => match assoc (ob_name o) (map (fun v : name * list (name * wtype) => (fst v, map upd (snd v))) vs) with
                                    | Some fs => if forallb (fun kv => tmem (fst kv) (map fst fs)) (entries_of kvs)
                                                 then option_map (RVariant (ob_name o)) (de_fields cod fs (entries_of kvs)) else None
                                    | None => match entries_of kvs with [] => Some ROther | _ => None end end
                     end = Some (RVariant (ob_name o) rs)).
             rewrite (Hup _ _ Hfs). rewrite entries_filter; [|rewrite Hkeys, Hk; exact Hnt]. rewrite Ed.
             replace (forallb _ (entries_of kvs)) with true; [destruct cod; reflexivity|]. symmetry. apply forallb_forall. intros [k x] Hx.
             unfold entries_of in Hx. apply in_map_iff in Hx as ([k' j'] & [= <- <-] & Hx). cbn [fst]. apply tmem_In. rewrite map_map. cbn [fst].
             change (In k' (map fst fs)). rewrite Hfn, <- Hk, <- Hkeys. apply (in_map fst) in Hx. exact Hx.
          -- apply sb_variant.
             ++ cbn. rewrite Er, Hfn, Hkeys, Hk. reflexivity.
             ++ cbn. rewrite Hkeys. exact Hndk.
             ++ left. reflexivity.
             ++ intros k v j Hv Hj. destruct (Hrs k v Hv) as (j' & Hj' & Hs').
                rewrite (keys_unique ((tx "__typename", JStr (ob_name o)) :: kvs) k j j'); auto. cbn. rewrite Hkeys. exact Hndk.
      + (* none of the variants *)
        assert (Hinlno : ~ In (ob_name o) (map cond_of inl)) by (rewrite <- Ev; exact Hno).
        rewrite (collects_none _ inl ns' Hinl Hsk2 Hinlno HCi) in *. cbn in Hkeys.
        destruct kvs as [|[k0 j0] [|]]; try discriminate. injection Hkeys as ->.
        pose proof (Hfr _ _ (or_introl eq_refl)) as H0. cbn in H0.
        inversion H0 as [o1 x1 ns1 Et|o1 x1 ns1 fd1 j1 Hne1]; subst; [|cbn in Hne1; congruence].
        exists ROther. split; [|constructor].
        change (match cod with
                | Serde => match assoc (ob_name o) (map (fun v : name * list (name * wtype) => (fst v, map upd (snd v))) vs) with
                           | Some fs => option_map (RVariant (ob_name o)) (de_fields cod fs (filter (fun kv => negb (teqb (fst kv) tag)) (entries_of [])))
                           | None => Some ROther end
                | Miniserde => match assoc (ob_name o) (map (fun v : name * list (name * wtype) => (fst v, map upd (snd v))) vs) with
                               | Some fs => if forallb (fun kv => tmem (fst kv) (map fst fs)) (entries_of [])
                                            then option_map (RVariant (ob_name o)) (de_fields cod fs (entries_of [])) else None
                               | None => Some ROther end
                end = Some ROther).
        rewrite (Hup0 Hno). destruct cod; reflexivity.
    - exfalso. congruence.
  Qed.

  (** ** Spreads *)
  Lemma fragment_resolves n f : defines d n f -> (exists top b, In top types /\ inside top (ERef n b)) ->
    exists e0, build_fragment f = Built e0 /\ resolve pascal (items types) n = Some (update flags e0) /\
               In (update flags e0) types /\ (forall m b, e0 <> ERef m b).
  Proof.
    intros Hd (top & b & Htop & Hin). destruct (cc_refs _ _ _ _ HC top n b Htop Hin) as ([q e] & Hi & E). cbn in E.
    assert (Hn : In n (item_names d)).
    { unfold item_names. apply in_or_app. right. rewrite <- (defines_name _ _ _ Hd). apply in_map. eapply defines_In_frags; eauto. }
    assert (Hkeys : forall q e, In (q, e) (items types) -> In q (item_names d)).
    { intros q' e' Hi'. eapply keys_items; eauto. eapply item_key; eauto. }
    assert (q = n) by (apply Hpascal; eauto). subst q.
    destruct (item_fragment A d borrow scalar_borrows HV types frags flags ops HP n f e Hd Hi) as (e0 & HB & ->).
    apply items_In in Hi as [Hin' Hshape]. exists e0. split; auto. split; [|split].
    - unfold resolve. destruct (find _ (items types)) as [[q e1]|] eqn:Ef.
      + apply find_some in Ef as [Hi1 E1]. cbn in E1. apply teqb_eq in E1. assert (q = n) by (apply Hpascal; eauto). subst q.
        destruct (item_fragment A d borrow scalar_borrows HV types frags flags ops HP n f e1 Hd Hi1) as (e2 & HB2 & ->). cbn. congruence.
      + exfalso. pose proof (find_none _ _ Ef (n, update flags e0) (proj2 (items_In _ _ _) (conj Hin' Hshape))) as X.
        cbn in X. rewrite teqb_refl in X. discriminate.
    - auto.
    - intros m b' ->. cbn in Hshape. destruct Hshape as [(? & [=])|(? & [=])].
  Qed.
  (** a fragment that stands alone applies to all objects *)
  Lemma spread_applies r t u n ds f rt o : set_at A d r t [SSpread n ds] -> get_type B (td_name t) = Some u -> td_composite t = true -> defines d n f ->
    possible B u rt -> get_type B rt = Some (DObject o) -> ~ ~ applies B rt (fr_cond f).
  Proof.
    intros Hset HBu Hc Hd Hp Ho Hna. assert (Hat : sel_at A d r t (SSpread n ds)) by (eexists; split; [exact Hset|left; auto]).
    assert (Hft : exists ft, get_type A (fr_cond f) = Some ft /\ td_composite ft = true).
    { destruct (proj2 Hok f (defines_In_frags d n f Hd)) as (ft & Ht & Hcf & _). eauto. }
    destruct Hft as (ft & Ht & Hcf). pose proof (get_type_Some _ _ _ Ht) as [Hftin Hftn].
    destruct (type_later _ _ Ht) as (fu & Hfu & _ & _).
    assert (Htin : In t (s_types A)) by (eapply set_at_In; eauto).
    destruct (type_later _ _ (type_self A HR t Htin)) as (u' & Hu' & L & E). rewrite HBu in Hu'. injection Hu' as <-.
    destruct L as [| |a b Hif Hfs|a b Hif Hfs|a b Hms| |]; try discriminate Hc; cbn [td_name] in E.
    - assert (HE : In (SpreadImpossible n (DObject a)) (spread_possible_errors A d (visit A d))).
      { apply impossible_spreads_reported_exactly. exists r, ds, f, ft. repeat (split; auto). intros (m & Hm1 & Hm2).
        inversion Hm1; subst. inversion Hp; subst. apply Hna. exists fu. split; [exact Hfu|]. rewrite E. apply (possible_later ft fu (ob_name a) Hftin); [|exact Hm2]. match goal with X : get_type B (fr_cond f) = _ |- _ => first [exact X|rewrite Hftn; exact X] end. }
      rewrite (va_possible A d HV) in HE. destruct HE.
    - pose proof (validated_sets A d HV _ _ _ Hset) as Hse. change (interface_set_errors d a [SSpread n ds] = []) in Hse.
      apply interface_shape in Hse as [(n' & ds' & f' & [= <- <-] & Hd' & Hin)|HF]; [|inversion HF; contradiction].
      rewrite (defines_fun _ _ _ _ Hd' Hd) in Hin. apply Hna. inversion Hp as [|? o' Ho' Hi|]; subst. apply in_app_iff in Hin as [Hin|[En|[]]].
      + destruct (wt_transitive B HT b o' (fr_cond f) (proj1 (get_type_Some _ _ _ HBu)) Ho' Hi (Hif _ Hin)) as [H1 (i' & H2)]. exists (DInterface i'). split; auto.
        apply poss_interface; auto. pose proof (get_type_Some _ _ _ H2) as [_ En]. cbn in En. rewrite En. auto.
      + exists (DInterface b). split; [rewrite <- En, <- E; cbn in HBu; rewrite E; exact HBu|]. apply poss_interface; auto.
    - apply Hna. inversion Hp; subst. eapply Hcover; eauto.
  Qed.

  (** ** The main lemma *)
  Lemma object_shown r p t u sels e kvs rt o ns :
    Forall (fun kv => P (snd kv)) kvs -> set_at A d r t sels -> get_type B (td_name t) = Some u -> td_composite t = true -> build_set p t sels = Built e ->
    (exists top, In top types /\ inside top (update flags e)) ->
    possible B u rt -> get_type B rt = Some (DObject o) -> collects rt sels ns -> map fst kvs = distinct (map nd_key ns) ->
    (forall k j, In (k, j) kvs -> field_response o (under k ns) j) ->
    exists v, de_base cod A scalar_de pascal (items types) (update flags e) (JObj kvs) (entries_of kvs) = Some v /\ shown v (JObj kvs).
  Proof.
    intros HIH Hset HBu Hc HB Htop Hp Ho HCo Hkeys Hfr.
    assert (Hcase : (forall n b, e <> ERef n b) \/ exists n b, e = ERef n b) by (destruct e; eauto; left; discriminate).
    destruct Hcase as [Hne|(n & b & ->)].
    - destruct (item_shown r p t u sels e kvs rt o ns) as (v & Hd & Hs); auto. exists v. split; auto.
      pose proof (build_set_result _ _ _ _ _ _ _ HB) as HS. inversion HS as [t' n ds b Hc' E|t' fs Hc' Hu HF Hn0|un vs HBv Hns Hn0|t' e' Hc' Hl]; subst; auto; congruence.
    - pose proof (build_set_result _ _ _ _ _ _ _ HB) as HS. inversion HS as [t' n' ds b' Hc' E| | |t' e' Hc' Hl]; subst; [|destruct Hl].
      destruct (Hspr r t n ds) as (f & Hd); [eexists; split; [exact Hset|left; auto]|].
      destruct Htop as (top & Htop & Hin). cbn in Hin.
      destruct (fragment_resolves n f Hd) as (e0 & HBf & Hres & Hty & Hne); [eauto|].
      pose proof HBf as HBf'. unfold Typegen.build_fragment in HBf'. destruct (get_type A (fr_cond f)) as [ft|] eqn:Et; [|discriminate].
      destruct (fragment_set A d Hok n f ft Hd Et) as (rf & Hsetf & Hcf & _).
      pose proof (sel_skip _ _ _ Hset) as Hsk. inversion Hsk as [|? ? Hsk1 _]; subst. cbn in Hsk1.
      assert (Hns' : applies B rt (fr_cond f) /\ collects rt (fr_sel f) ns).
      { inversion HCo as [| |n1 ds1 f1 rest ns1 ns2 Hs1 Hd1 Ha1 HC1 HC2 E1 E2|n1 ds1 f1 rest ns1 Hs1 Hd1 Ha1 HC1 E1 E2| | |s rest ns1 Hs1 HC1 E1 E2]; subst.
        - rewrite (defines_fun _ _ _ _ Hd1 Hd) in Ha1, HC1. inversion HC2; subst. rewrite app_nil_r. auto.
        - exfalso. rewrite (defines_fun _ _ _ _ Hd1 Hd) in Ha1. exact (spread_applies r t u n ds f rt o Hset HBu Hc Hd Hp Ho Ha1).
        - cbn in Hs1. congruence. }
      destruct Hns' as ((fu & Et' & Hpf) & HCf).
      destruct (item_shown rf (fr_name f) ft fu (fr_sel f) e0 kvs rt o ns) as (v & Hdv & Hs); auto.
      { pose proof (get_type_Some _ _ _ Et) as [_ En]. rewrite En. exact Et'. }
      { exists (update flags e0). split; auto. constructor. }
      exists v. split; auto. cbn. rewrite Hres. auto.
  Qed.
  Lemma de_opt j w : j <> JNull -> de j (WOpt w) = option_map RSome (de j w).
  Proof. intros H. destruct j; try reflexivity. congruence. Qed.
  Lemma de_basic j e : de j (WBase e) = de_base cod A scalar_de pascal (items types) e j (match j with JObj kvs => entries_of kvs | _ => [] end).
  Proof. destruct j; reflexivity. Qed.
  Lemma base_shown j n req t sels p e : (forall kvs, j = JObj kvs -> Forall (fun kv => P (snd kv)) kvs) -> j <> JNull ->
    get_type A n = Some t -> (td_composite t = true -> exists r, set_at A d r t sels) -> build_set p t sels = Built e ->
    (exists top, In top types /\ inside top (update flags e)) -> response (TBase n req) sels j ->
    exists v, de j (WBase (update flags e)) = Some v /\ shown v j.
  Proof.
    intros HIH Hnn Hg Hset HB Htop Hr. rewrite de_basic. pose proof (get_type_Some _ _ _ Hg) as [_ En].
    destruct (type_later _ _ Hg) as (u & Hgu & L & Eu).
    inversion Hr as [| |? ? b ? ? Hg' Hout|? ? x ev ? Hg' Hin|? ? x ? ? Hg' Hn Hout|? ? t' ? rt o ns kvs Hg' Hp Ho HCo Hkeys Hfr]; subst;
      try congruence; rewrite Hgu in Hg'; injection Hg' as ->.
    - inversion L; subst. injection HB as <-. cbn [update de_base]. destruct b; cbn in Hout.
      + destruct Hout as (z & -> & Hz). exists (RInt z). unfold de_builtin. replace (fits_i32 z) with true; [split; [reflexivity|constructor]|].
        unfold fits_i32. symmetry. apply andb_true_iff. rewrite !Z.leb_le. lia.
      + destruct Hout as [(z & ->)|(f & ->)]; cbn; eauto using shows_but.
      + destruct Hout as (s & ->). cbn. eauto using shows_but.
      + destruct Hout as (b & ->). cbn. eauto using shows_but.
      + destruct Hout as (s & ->). cbn. eauto using shows_but.
    - inversion L as [| | | | |a y|]; subst. injection HB as <-. cbn [update de_base]. unfold de_leaf. cbn in Hg. rewrite Hg.
      destruct (existsb (fun e => teqb (ev_name e) (ev_name ev)) (en_values a)) eqn:Ex; [eauto using shows_but|].
      exists REnumOther. split; [reflexivity|]. apply sb_unknown. exists (en_name a), a, x. split; [exact Hg|]. split; [exact Hgu|].
      split; [now apply in_map|]. intros H. apply in_map_iff in H as (e' & Ee & He'). apply not_true_iff_false in Ex. apply Ex. apply existsb_exists. exists e'. split; [exact He'|]. now apply teqb_eq.
    - inversion L as [|a y| | | | |]; subst. unfold Typegen.build_set, build_base in HB. destruct (scalar_borrows (sc_name a)) as [b|]; [|discriminate]. injection HB as <-.
      cbn [update de_base]. unfold de_leaf. cbn in Hg, Hout. rewrite Hg, (Hscalars _ _ Hout). eauto using shows_but.
    - assert (Hc : td_composite t = true) by (inversion Hp; subst; inversion L; reflexivity). destruct (Hset Hc) as (r & Hs).
      eapply object_shown; eauto.
  Qed.
  Lemma all_shown j : P j.
  Proof.
    assert (Hgo : forall j, (forall kvs, j = JObj kvs -> Forall (fun kv => P (snd kv)) kvs) -> (forall js, j = JList js -> Forall P js) -> P j).
    { clear j. intros j Ho Hl ty t sels p e Hg Hset HB Htop Hr.
      assert (Hnull : tref_required ty = false -> j = JNull -> exists v, de j (wrap ty (update flags e)) = Some v /\ shown v j).
      { intros Hq ->. exists RNone. split; [|constructor]. destruct ty; cbn in Hq; subst; reflexivity. }
      assert (Hnn : j = JNull -> tref_required ty = false).
      { intros ->. inversion Hr as [| |? ? b ? ? Hg' Hout| |? ? ? ? ? ? Hn|]; subst; auto; [|congruence].
        destruct b; cbn in Hout; repeat match goal with H : _ \/ _ |- _ => destruct H | H : exists _, _ |- _ => destruct H | H : _ /\ _ |- _ => destruct H end; discriminate. }
      assert (Hdec : j = JNull \/ j <> JNull) by (destruct j; auto; right; discriminate).
      destruct Hdec as [E|Hne]; [apply Hnull; auto|].
      assert (Hopt : forall w req, (exists v, de j w = Some v /\ shown v j) -> exists v, de j (if req : bool then w else WOpt w) = Some v /\ shown v j).
      { intros w [] (v & Hd & Hs); [eauto|]. exists (RSome v). rewrite de_opt, Hd by auto. split; auto. constructor; auto. }
      destruct ty as [n req|inner req].
      - apply (Hopt (WBase (update flags e)) req). eapply base_shown; eauto.
      - apply (Hopt (WVec (wrap inner (update flags e))) req).
        inversion Hr as [| ? ? ? js Hjs| | | |]; subst; try congruence. specialize (Hl js eq_refl). rewrite Forall_forall in Hl.
        assert (Hvs : exists vs, oseq (map (fun x => de x (wrap inner (update flags e))) js) = Some vs /\ Forall2 shown vs js).
        { clear Hr Hne Hopt Hnn Hnull Ho. induction js as [|j js IH]; cbn; [exists []; split; auto|].
          destruct IH as (vs & E & HF); [intros; apply Hl; right; auto|intros; apply Hjs; right; auto|].
          destruct (Hl j (or_introl eq_refl) inner t sels p e Hg Hset HB Htop (Hjs j (or_introl eq_refl))) as (v & Hd & Hs).
          rewrite Hd, E. eauto. }
        destruct Hvs as (vs & E & HF). exists (RVec vs). split; [|constructor; auto]. cbn. rewrite E. reflexivity. }
    induction j using json_ind'; apply Hgo; intros ? E; try discriminate; injection E as <-; auto.
  Qed.
End Deserialize.

(** * Servers with the schema of the client *)
Section Same.
  Variable S : schema.
  Hypothesis HR : resolved S.
  Lemma serves_same : serves S S.
  Proof using HR.
    split.
    - intros n t H. exists t. split; [exact H|]. destruct t; constructor; eauto using refines_refl.
    - intros ty t u H H'. now rewrite (DocTypingProofs.root_type_fun _ _ _ _ H H').
  Qed.
  Lemma cover_same d : union_spreads_cover S d -> union_spreads_cover_at S S d.
  Proof using HR.
    intros H r u n ds f Hat Hd u' m Hu Hm. apply (H r u n ds f); auto. pose proof Hat as (sels & Hset & _). apply (set_at_In S (fun _ => None)) in Hset; auto.
    apply (type_self S HR) in Hset. cbn in Hset. congruence.
  Qed.
  Lemma no_new_value s : ~ new_value S S s.
  Proof. intros (n & x & y & H1 & H2 & H3 & H4). rewrite H1 in H2. injection H2 as <-. auto. Qed.
End Same.
Fixpoint shows_all (other : name -> Prop) (H : forall s, ~ other s) v j (Sh : shows_but other v j) {struct Sh} : shows v j.
Proof.
  destruct Sh as [|v j Hn Sh|vs js HF|fs kvs E Hnd Hf|n fs kvs E Hnd Hin Hf|n|b|z|j|s|n|s Hs|n j].
  - constructor.
  - constructor; [exact Hn|]. exact (shows_all other H _ _ Sh).
  - constructor. induction HF as [|x y l l' Sh HF IH]; constructor; [exact (shows_all other H _ _ Sh)|exact IH].
  - constructor; [exact E|exact Hnd|]. intros k v j Hv Hj. exact (shows_all other H _ _ (Hf k v j Hv Hj)).
  - constructor; [exact E|exact Hnd|exact Hin|]. intros k v j Hv Hj. exact (shows_all other H _ _ (Hf k v j Hv Hj)).
  - constructor.
  - constructor.
  - constructor.
  - constructor.
  - constructor.
  - constructor.
  - destruct (H s Hs).
  - constructor.
Qed.
