(** Documents that are accepted for a scoped schema. *)
From Verif Require Import Base Ast CoercionTypes CoercionSpec Graph Maps DefParser ResolveSpec Doc DocSpec DocRules DocRulesSpec DocTypingProofs DocRulesProps DocVariables DocVariablesSpec DocVariablesProps OperationSpec
  ValiditySpec TypegenSpec
  CompareSpec CompareProofs CompatSpec CompatProofs Visibility VisibilitySpec VisibilityProofs VisibilityProps ScopedSpec ScopedProofs.

Set Default Proof Using "Type".

Section Docs.
  Variables (S : schema) (W : warden).
  Hypothesis P : proper S W.
  Notation V := (scoped S W).

  Lemma visible_get n t : visible_type S W n = Some t -> get_type S n = Some t.
  Proof. unfold visible_type. destruct (get_type S n) as [u|]; [|discriminate]. now destruct (type_visible W u). Qed.
  Lemma scoped_get n u : get_type V n = Some u -> exists t, visible_type S W n = Some t /\ u = narrow_type S W t.
  Proof using P. rewrite (scoped_type S W P). destruct (visible_type S W n) as [t|]; [|discriminate]. intros E. injection E as <-. eauto. Qed.
  Lemma scoped_get_both n t u : get_type S n = Some t -> get_type V n = Some u -> visible_type S W n = Some t /\ u = narrow_type S W t.
  Proof using P. intros G H. apply scoped_get in H as (t' & H & E). pose proof (visible_get _ _ H) as G'. assert (t' = t) by congruence. subst. auto. Qed.
  Lemma visible_shown n t : visible_type S W n = Some t -> shown S W t.
  Proof using P. intros H. apply visible_type_Some in H as (I & _ & Vt); auto. split; auto. Qed.
  Lemma narrow_composite t : td_composite (narrow_type S W t) = td_composite t.
  Proof. now destruct t. Qed.
  Lemma narrow_output t : td_is_output (narrow_type S W t) = td_is_output t.
  Proof. now destruct t. Qed.
  Lemma narrow_is_input t : td_is_input (narrow_type S W t) = td_is_input t.
  Proof. now destruct t. Qed.
  Lemma scoped_types_In u : In u (s_types V) -> exists t, visible_type S W (td_name t) = Some t /\ u = narrow_type S W t.
  Proof using P.
    intros H. cbn [scoped s_types] in H. apply in_map_iff in H as (t & <- & H). apply filter_In in H as (H & Vt). exists t. split; auto. apply visible_type_Some; auto.
  Qed.
  Lemma visible_root n o : visible_object S W n = Some o -> get_type V n = Some (narrow_type S W (DObject o)).
  Proof using P.
    intros H. rewrite (scoped_type S W P). unfold visible_object in H. destruct (visible_type S W n) as [[]|]; try discriminate. injection H as ->. reflexivity.
  Qed.

  (** ** the scoped schema is as resolution gives schemas *)
  Lemma scoped_resolved : visible_object S W (s_query S) <> None -> resolved V.
  Proof using P.
    intros Q. assert (R : forall n m, narrow_root S W n = Some m -> exists o, get_type V m = Some (narrow_type S W (DObject o))).
    { intros n m H. unfold narrow_root in H. destruct n as [k|]; [|discriminate]. destruct (visible_object S W k) as [o|] eqn:E; [|discriminate]. injection H as ->. exists o. now apply visible_root. }
    assert (Rq : exists o, get_type V (s_query V) = Some (narrow_type S W (DObject o))).
    { change (s_query V) with (s_query S). destruct (visible_object S W (s_query S)) as [o|] eqn:E; [|congruence]. exists o. now apply visible_root. }
    constructor.
    - constructor.
      + destruct Rq as (o & E). eauto.
      + intros n H. destruct (R _ _ H) as (o & E). eauto.
      + intros n H. destruct (R _ _ H) as (o & E). eauto.
      + intros u f Hu Hf. apply scoped_types_In in Hu as (t & Vt & ->). rewrite narrow_td_fields in Hf. unfold narrow_fields in Hf. apply in_map_iff in Hf as (x & <- & I).
        apply visible_fields_In in I as (I & _ & Rf). apply visible_ref_Some in Rf as (Ex & Vx). pose proof Vt as Vt'. apply visible_type_Some in Vt as (Ht & _ & _); auto.
        destruct (ro_fields _ _ (p_references _ _ P) t (fst x) Ht I) as (v & Hv & Ev & Ov). exists (narrow_type S W (snd (snd x))). cbn [narrow_field fd_type].
        rewrite (scoped_type S W P), Vx, narrow_output. split; [reflexivity|]. apply visible_get in Vx. rewrite <- Ev in Vx.
        assert (E : get_type S (td_name v) = Some v) by (apply find_unique; [apply (p_types _ _ P)|exact Hv|reflexivity]). congruence.
    - intros ty t H. destruct ty; unfold root_type in H.
      + destruct Rq as (o & E). rewrite E in H. injection H as <-. reflexivity.
      + destruct H as (n & En & H). destruct (R _ _ En) as (o & E). rewrite E in H. injection H as <-. reflexivity.
      + destruct H as (n & En & H). destruct (R _ _ En) as (o & E). rewrite E in H. injection H as <-. reflexivity.
    - cbn [scoped s_types]. rewrite map_map, (map_ext _ td_name); [|apply narrow_name]. pose proof (p_types _ _ P) as ND. clear - ND.
      induction (s_types S) as [|t l IH]; [constructor|]. cbn in *. inversion ND as [|? ? N ND']; subst. destruct (type_visible W t); [|auto]. cbn. constructor; [|auto].
      intros I. apply N. apply in_map_iff in I as (x & E & I). apply filter_In in I as (I & _). rewrite <- E. now apply in_map.
    - intros u n Hu Hn. apply scoped_types_In in Hu as (t & Vt & E). destruct t; try discriminate. injection E as ->. cbn [un_members] in Hn. apply in_map_iff in Hn as (m & <- & I).
      apply visible_members_In in I as (_ & _ & Vo). eexists. exact (visible_root _ _ Vo).
  Qed.

  (** ** what is kept *)
  Lemma narrow_inputs_In p l i : In i (narrow_inputs S W p l) -> exists k x, In x (visible_inputs S W p l) /\ i = narrow_input S W p (k, x).
  Proof. unfold narrow_inputs. intros H. apply in_map_iff in H as ((k & x) & <- & H). exists k, x. split; [now apply numbered_sound in H|reflexivity]. Qed.
  Lemma In_narrow_inputs p l x : In x (visible_inputs S W p l) -> exists k, In (narrow_input S W p (k, x)) (narrow_inputs S W p l).
  Proof. intros H. apply In_numbered in H as (k & H). exists k. unfold narrow_inputs. now apply in_map. Qed.
  Section Keeps.
    Hypothesis H : hidden_optional S W.
    Lemma narrow_keeps_inputs p l : inputs_at S W p l -> keeps_inputs (narrow_inputs S W p l) l.
    Proof using P H.
      intros A. split.
      - intros a Ha. apply narrow_inputs_In in Ha as (k & x & Hx & ->). exists (fst x). apply visible_inputs_In in Hx as (Hx & _). split; [exact Hx|split; [reflexivity|]].
        split; [apply compatible_refl|split; [apply (ho_defaults _ _ H)|apply (ho_nulls _ _ H)]].
      - intros b Hb N. apply (ho_inputs _ _ H p l); auto. intros x Hx E. destruct (In_narrow_inputs p l x Hx) as (k & Hk). apply (N _ Hk). cbn. now rewrite E.
    Qed.
    Lemma narrow_keeps_fields t d : visible_type S W t = Some d -> keeps_fields True (narrow_fields S W t (td_fields d)) (td_fields d).
    Proof using P H.
      intros Vt f Hf. unfold narrow_fields in Hf. apply in_map_iff in Hf as (x & <- & Hx). exists (fst x). pose proof Hx as Hx'. apply visible_fields_In in Hx as (Hx & _). split; [exact Hx|].
      split; [reflexivity|split; [reflexivity|split; [reflexivity|]]]. apply narrow_keeps_inputs. constructor. exists d. auto.
    Qed.
    Lemma narrow_keeps_type t : visible_type S W (td_name t) = Some t -> (forall u, t = DUnion u -> un_fields u = [typename_field]) -> keeps_type True (narrow_type S W t) t.
    Proof using P H.
      intros Vt U. pose proof (narrow_keeps_fields _ _ Vt) as F. destruct t as [b|d|d|d|d|d|d]; cbn [narrow_type td_name td_fields] in *.
      - constructor.
      - now constructor.
      - constructor; auto. cbn. intros n Hn. apply in_map_iff in Hn as (i & <- & I). now apply visible_interfaces_In in I.
      - constructor; [reflexivity| |]; cbn.
        + apply narrow_keeps_inputs. now constructor.
        + intros (x & Hx & E). pose proof (ho_one_of _ _ H _ _ x Vt Hx E) as O. destruct (visible_ddef S W (tx "oneOf")) as [e|] eqn:Ve; [|congruence].
          exists {| dir_name := dir_name x; dir_args := w_arguments W (OnType (io_name d)) x |}. split; [|exact E]. cbn. unfold narrow_directives.
          apply (in_map (fun x => {| dir_name := dir_name (fst x); dir_args := w_arguments W (OnType (io_name d)) (fst x) |}) _ (x, e)). apply visible_directives_In. cbn [fst snd]. rewrite E. auto.
      - constructor; [reflexivity|]. cbn. intros v Hv. apply in_map_iff in Hv as ((k & w) & <- & Hk). apply numbered_sound in Hk. apply filter_In in Hk as (Hk & _). exists w. auto.
      - constructor; [reflexivity| |]; cbn.
        + intros n Hn. apply in_map_iff in Hn as (m & <- & I). now apply visible_members_In in I.
        + rewrite (U d eq_refl). unfold narrow_fields, visible_fields. cbn [filter_map]. destruct (if w_field W (un_name d) typename_field then _ else None) as [x|] eqn:E; [|now right]. left.
          destruct (w_field W (un_name d) typename_field); [|discriminate]. destruct (visible_ref S W (fd_type typename_field)); [|discriminate]. injection E as <-. reflexivity.
      - constructor; auto.
    Qed.
    Lemma scoped_keeps : (forall u, In (DUnion u) (s_types S) -> un_fields u = [typename_field]) -> keeps True V S.
    Proof using P H.
      intros U. split.
      - assert (R : forall n m, narrow_root S W n = Some m -> n = Some m).
        { intros n m E. unfold narrow_root in E. destruct n as [k|]; [|discriminate]. destruct (visible_object S W k); [congruence|discriminate]. }
        split; [reflexivity|intros n E; now apply R in E|intros n E; now apply R in E].
      - intros u Hu. apply scoped_types_In in Hu as (t & Vt & ->). exists t. split; [apply visible_type_Some in Vt; auto; apply Vt|]. split; [now rewrite narrow_name|].
        apply narrow_keeps_type; auto. intros u ->. apply U. apply visible_type_Some in Vt; auto. apply Vt.
      - intros e He. cbn [scoped s_ddefs] in He. apply in_map_iff in He as (d & <- & Hd). apply filter_In in Hd as (Hd & Vd). exists d. split; [exact Hd|split; [reflexivity|]].
        split; [|cbn; auto]. apply narrow_keeps_inputs. constructor. apply visible_ddef_Some; auto.
    Qed.
  End Keeps.

  (** ** what documents use *)
  Section Uses.
    Variable d : document.
    Hypothesis Ok : document_ok V d.

    Lemma field_both t n f g : visible_type S W (td_name t) = Some t -> has_field t n f -> get_field (td_fields (narrow_type S W t)) n = Some g ->
      exists x, visible_field S W (td_name t) n x /\ fst x = f /\ g = narrow_field S W (td_name t) x.
    Proof using P.
      intros Vt Hf Hg. rewrite narrow_td_fields, narrow_get_field in Hg. destruct (find _ (visible_fields S W (td_name t) (td_fields t))) as [x|] eqn:E; [|discriminate].
      injection Hg as <-. apply find_some in E as (I & E). apply teqb_eq in E. exists x. split; [exists t; auto|split; [|reflexivity]].
      apply get_field_Some in Hf as (Hf & En). apply visible_fields_In in I as (I & _). apply (same_named fd_name (td_fields t)); auto; [|congruence].
      apply (p_fields _ _ P). apply visible_type_Some in Vt; auto. apply Vt.
    Qed.
    Lemma visible_at n t : visible_type S W n = Some t -> visible_type S W (td_name t) = Some t.
    Proof using P. intros H. now rewrite (visible_type_name S W P _ _ H). Qed.
    Lemma set_shown r t sels : set_at S d r t sels -> visible_type S W (td_name t) = Some t /\ set_at V d r (narrow_type S W t) sels.
    Proof using P Ok.
      intros (t0 & sels0 & Ht & Hw).
      assert (H0 : visible_type S W (td_name t0) = Some t0 /\ set_at V d r (narrow_type S W t0) sels0).
      { assert (X : forall n u, get_type S n = Some t0 -> get_type V n = Some u -> visible_type S W (td_name t0) = Some t0 /\ u = narrow_type S W t0).
        { intros n u G Gv. destruct (scoped_get_both n t0 u G Gv) as (Vt & E). split; [eapply visible_at; eauto|exact E]. }
        destruct Ht as [i o t0 Ho Hr|i f t0 Hf Hg].
        - destruct (proj1 Ok o) as (u & Hu & _); [eapply nth_error_In; eauto|].
          assert (Y : visible_type S W (td_name t0) = Some t0 /\ u = narrow_type S W t0).
          { destruct (op_type o); cbn in Hr, Hu; [eapply X; eauto| |].
            - destruct Hr as (n & En & G), Hu as (m & Em & Gv). cbn [scoped s_mutation] in Em. unfold narrow_root in Em. rewrite En in Em. destruct (visible_object S W n); [|discriminate].
              injection Em as <-. eapply X; eauto.
            - destruct Hr as (n & En & G), Hu as (m & Em & Gv). cbn [scoped s_subscription] in Em. unfold narrow_root in Em. rewrite En in Em. destruct (visible_object S W n); [|discriminate].
              injection Em as <-. eapply X; eauto. }
          destruct Y as (Vt & ->). split; [exact Vt|]. exists (narrow_type S W t0), (op_sel o). split; [now constructor|constructor].
        - destruct (proj2 Ok f) as (u & Hu & _); [eapply nth_error_In; eauto|]. destruct (X _ _ Hg Hu) as (Vt & ->). split; [exact Vt|].
          exists (narrow_type S W t0), (fr_sel f). split; [now constructor|constructor]. }
      clear Ht. induction Hw as [t sels|t sels al n args ds sub fd t1 t' sels' Hin Ne Hf G Hw IH|t sels ds sub t' sels' Hin Hw IH|t sels c ds sub t1 t' sels' Hin G Hw IH]; auto; apply IH; clear IH;
        destruct H0 as (Vt & Hs).
      - assert (Hv : sel_at V d r (narrow_type S W t) (SField al n args ds sub)) by (exists sels; auto).
        assert (Z : exists g ft, get_field (td_fields (narrow_type S W t)) n = Some g /\ get_type V (tref_base (fd_type g)) = Some ft).
        { pose proof (doc_ok_sel V d Ok _ _ _ Hv) as K. inversion K; subst; eauto. }
        destruct Z as (g & ft & Gg & Gt). destruct (field_both t n fd g Vt Hf Gg) as (x & _ & Ex & Eg). subst g. cbn [narrow_field fd_type] in Gt. rewrite Ex in Gt.
        destruct (scoped_get_both _ _ _ G Gt) as (V1 & ->). split; [eapply visible_at; eauto|]. eapply set_at_within; [exact Hs|].
        eapply within_field; [exact Hin|exact Ne|exact Gg| |constructor]. cbn [narrow_field fd_type]. now rewrite Ex.
      - split; [exact Vt|]. eapply set_at_within; [exact Hs|]. eapply within_inline; [exact Hin|constructor].
      - assert (Hv : sel_at V d r (narrow_type S W t) (SInline (Some c) ds sub)) by (exists sels; auto). pose proof (doc_ok_sel V d Ok _ _ _ Hv) as K. inversion K; subst.
        match goal with E : get_type V c = Some _ |- _ => destruct (scoped_get_both _ _ _ G E) as (V1 & ->) end. split; [eapply visible_at; eauto|].
        eapply set_at_within; [exact Hs|]. eapply within_inline_on; [exact Hin|eassumption|constructor].
    Qed.
    Lemma sel_shown r t s : sel_at S d r t s -> visible_type S W (td_name t) = Some t /\ sel_at V d r (narrow_type S W t) s.
    Proof using P Ok. intros (sels & Hs & Hin). destruct (set_shown _ _ _ Hs) as (Vt & H). split; [exact Vt|]. exists sels. auto. Qed.
    Lemma field_shown r t al n args ds sub : sel_at S d r t (SField al n args ds sub) ->
      sel_at V d r (narrow_type S W t) (SField al n args ds sub) /\ exists x, visible_field S W (td_name t) n x /\ has_field t n (fst x) /\ has_field (narrow_type S W t) n (narrow_field S W (td_name t) x).
    Proof using P Ok.
      intros H. destruct (sel_shown _ _ _ H) as (Vt & Hv). split; [exact Hv|].
      assert (Z : exists g, get_field (td_fields (narrow_type S W t)) n = Some g).
      { pose proof (doc_ok_sel V d Ok _ _ _ Hv) as K. inversion K; subst; eauto. }
      destruct Z as (g & Gg). pose proof Gg as Gg'. rewrite narrow_td_fields, narrow_get_field in Gg. destruct (find _ (visible_fields S W (td_name t) (td_fields t))) as [x|] eqn:E; [|discriminate].
      injection Gg as <-. apply find_some in E as (I & E). apply teqb_eq in E. exists x. split; [exists t; auto|split; [|exact Gg']].
      apply visible_fields_In in I as (I & _). apply find_unique; auto. apply (p_fields _ _ P). apply visible_type_Some in Vt; auto. apply Vt.
    Qed.
    Lemma directives_shown r ds loc : DocSpec.directives_at S d r ds loc -> DocSpec.directives_at V d r ds loc.
    Proof using P Ok.
      intros H. destruct H as [i o Ho N|i f Hf N|r t al n args ds sub fd H Hf N|r t n ds H N|r t c ds sub H N].
      - now constructor.
      - now constructor.
      - destruct (field_shown _ _ _ _ _ _ _ H) as (Hv & x & _ & _ & Fx). eapply dirs_field; eauto.
      - destruct (sel_shown _ _ _ H) as (_ & Hv). eapply dirs_spread; eauto.
      - destruct (sel_shown _ _ _ H) as (_ & Hv). eapply dirs_inline; eauto.
    Qed.
    Lemma directive_shown x loc : directive_at S d x loc -> directive_at V d x loc.
    Proof using P Ok. intros [r ds l y H Hy|ds y H Hy]; [eapply dir_var; eauto using directives_shown|eapply dir_const; eauto]. Qed.

    Hypothesis Defined : forall x loc, directive_at V d x loc -> exists dd, In dd (s_ddefs V) /\ dd_name dd = dir_name x.
    Hypothesis Args : forall w args defs, args_at V d w args defs -> forall a, In a args -> exists i, In i defs /\ iv_name i = fst a.
    Lemma ddef_shown x loc : directive_at S d x loc -> exists e, visible_ddef S W (dir_name x) = Some e /\ get_ddef V (dir_name x) = Some (narrow_ddef S W e).
    Proof using P Ok Defined.
      intros H. apply directive_shown in H. destruct (Defined x loc H) as (dd & Hd & E). cbn [scoped s_ddefs] in Hd. apply in_map_iff in Hd as (e & <- & Hd). apply filter_In in Hd as (Hd & Ve).
      cbn in E. assert (X : visible_ddef S W (dir_name x) = Some e) by (apply visible_ddef_Some; auto). exists e. split; [exact X|]. now rewrite (scoped_ddef S W P), X.
    Qed.
    Lemma field_argument_shown r t al n args ds sub a : sel_at S d r t (SField al n args ds sub) -> In a args ->
      exists x y, visible_field S W (td_name t) n x /\ In y (visible_inputs S W (PArgument (td_name t) n) (fd_args (fst x))) /\ iv_name (fst y) = fst a.
    Proof using P Ok Args.
      intros H Ha. destruct (field_shown _ _ _ _ _ _ _ H) as (Hv & x & Vx & _ & Fx). assert (A := args_field V d _ _ _ _ _ _ _ _ Hv Fx). destruct (Args _ _ _ A a Ha) as (i & Hi & Ei).
      cbn [narrow_field fd_args] in Hi. apply narrow_inputs_In in Hi as (k & y & Hy & ->). exists x, y. split; [exact Vx|]. destruct Vx as (_ & _ & _ & <-). auto.
    Qed.
    Lemma args_directive_at x loc e : directive_at V d x loc -> get_ddef V (dir_name x) = Some e -> args_at V d (OwnDirective e) (dir_args x) (dd_args e).
    Proof. intros [r ds l y H Hy|ds y H Hy] G; [eapply args_directive; eauto|eapply args_const_directive; eauto]. Qed.
    Lemma directive_argument_shown x loc a : directive_at S d x loc -> In a (dir_args x) ->
      exists e y, visible_ddef S W (dir_name x) = Some e /\ In y (visible_inputs S W (PDirectiveArgument (dir_name x)) (dd_args e)) /\ iv_name (fst y) = fst a.
    Proof using P Ok Defined Args.
      intros H Ha. destruct (ddef_shown _ _ H) as (e & Ve & Ge). apply directive_shown in H. destruct (Args _ _ _ (args_directive_at _ _ _ H Ge) a Ha) as (i & Hi & Ei).
      cbn [narrow_ddef dd_args] in Hi. apply narrow_inputs_In in Hi as (k & y & Hy & ->). exists e, y. split; [exact Ve|]. assert (E : dd_name e = dir_name x) by (apply visible_ddef_Some in Ve as (_ & E & _); auto).
      rewrite E in Hy. auto.
    Qed.

    Hypothesis Once : forall p l, inputs_at S W p l -> NoDup (map iv_name l).
    (** the argument, as the scoped schema defines it *)
    Lemma get_narrow p l n i y : inputs_at S W p l -> get_ivd l n = Some i -> In y (visible_inputs S W p l) -> iv_name (fst y) = n ->
      exists k, get_ivd (narrow_inputs S W p l) n = Some (narrow_input S W p k) /\ iv_type (narrow_input S W p k) = iv_type i.
    Proof using P Once.
      intros A G Hy En. destruct (get_ivd (narrow_inputs S W p l) n) as [j|] eqn:E.
      - pose proof E as E'. apply get_ivd_Some in E' as (Hj & Ej). apply narrow_inputs_In in Hj as (k & z & Hz & ->). exists (k, z). split; [reflexivity|]. cbn in *.
        apply visible_inputs_In in Hz as (Hz & _). apply get_ivd_Some in G as (Hi & Ei). f_equal. apply (same_named iv_name l); auto; [eauto|congruence].
      - exfalso. destruct (In_narrow_inputs p l y Hy) as (k & Hk). apply (proj1 (get_ivd_None _ _) E _ Hk). exact En.
    Qed.
    Lemma argument_shown r a i : argument_at S d r a i -> exists j, argument_at V d r a j /\ iv_type j = iv_type i.
    Proof using P Ok Defined Args Once.
      intros H. destruct H as [r t al n args ds sub fd a i H Hf Ha G|r ds loc x dd a i H Hx Gd Ha G].
      - destruct (field_shown _ _ _ _ _ _ _ H) as (Hv & x & Vx & Fx & Fv). destruct (field_argument_shown _ _ _ _ _ _ _ _ H Ha) as (x' & y & Vx' & Hy & Ey).
        assert (x' = x) by (eapply (visible_field_unique S W P); eauto). subst x'. assert (fd = fst x) by (unfold has_field in *; congruence). subst fd.
        destruct (get_narrow (PArgument (td_name t) n) _ _ _ y (ia_argument _ _ _ _ _ Vx) G Hy Ey) as (k & Gk & Tk). eexists. split; [|exact Tk]. eapply arg_field; eauto.
        cbn [narrow_field fd_args]. destruct Vx as (_ & _ & _ & ->). exact Gk.
      - assert (Dx : directive_at S d x loc) by (eapply dir_var; eauto). destruct (ddef_shown _ _ Dx) as (e & Ve & Ge). destruct (directive_argument_shown _ _ _ Dx Ha) as (e' & y & Ve' & Hy & Ey).
        assert (e' = e) by congruence. subst e'. assert (dd = e). { unfold visible_ddef in Ve. rewrite Gd in Ve. destruct (w_ddef W dd); congruence. } subst dd.
        destruct (get_narrow (PDirectiveArgument (dir_name x)) _ _ _ y (ia_directive _ _ _ _ Ve) G Hy Ey) as (k & Gk & Tk). eexists. split; [|exact Tk].
        eapply arg_directive; eauto using directives_shown. cbn [narrow_ddef dd_args]. assert (E : dd_name e = dir_name x) by (apply visible_ddef_Some in Ve as (_ & E & _); auto). now rewrite E.
    Qed.
    Lemma const_argument_shown a i : const_argument_at S d a i -> exists j, const_argument_at V d a j /\ iv_type j = iv_type i.
    Proof using P Ok Defined Args Once.
      intros (ds & x & dd & H & Hx & Gd & Ha & G). assert (Dx : directive_at S d x LVariableDefinition) by (eapply dir_const; eauto).
      destruct (ddef_shown _ _ Dx) as (e & Ve & Ge). destruct (directive_argument_shown _ _ _ Dx Ha) as (e' & y & Ve' & Hy & Ey).
      assert (e' = e) by congruence. subst e'. assert (dd = e). { unfold visible_ddef in Ve. rewrite Gd in Ve. destruct (w_ddef W dd); congruence. } subst dd.
      destruct (get_narrow (PDirectiveArgument (dir_name x)) _ _ _ y (ia_directive _ _ _ _ Ve) G Hy Ey) as (k & Gk & Tk). eexists. split; [|exact Tk].
      exists ds, x, (narrow_ddef S W e). repeat split; auto; try apply H. cbn [narrow_ddef dd_args]. assert (E : dd_name e = dir_name x) by (apply visible_ddef_Some in Ve as (_ & E & _); auto). now rewrite E.
    Qed.

    Section Values.
      Variable accepts : name -> value -> Prop.
      Variables str_enum one_of : bool.
      Notation fits := (conforms accepts str_enum one_of V).
      Lemma stands_fits t v t' w : stands_in S t v t' w -> is_concrete w -> fits t v -> fits t' w.
      Proof using P Once.
        intros H Cw. induction H as [t v|inner r vs v t' w Hv H IH|inner r v t' w Nl H IH|n r io es f v t' w G Hf Hv H IH]; auto; intros C; apply IH; auto; clear IH.
        - inversion C as [| | | | | |? ? ? Cv|? ? ? N1 N2 N3]; subst; [exact (proj1 (Cv v Hv))|]. exfalso. eapply N3; eauto.
        - assert (X : v = VNull -> w = VNull).
          { intros ->. clear - H. remember VNull as v eqn:E. induction H; subst; auto; discriminate. }
          assert (Y : forall x, v = VVar x -> w = VVar x).
          { intros x ->. clear - H. remember (VVar x) as v eqn:E. induction H; subst; auto; discriminate. }
          inversion C; subst; auto.
          + rewrite X in Cw by reflexivity. destruct Cw.
          + rewrite (Y _ eq_refl) in Cw. destruct Cw.
          + exfalso. eapply Nl; eauto.
        - assert (Q : forall u, get_type V n = Some u -> u = narrow_type S W (DInput io) /\ visible_type S W n = Some (DInput io)).
          { intros u Gu. destruct (scoped_get_both _ _ _ G Gu) as (Vt & E). auto. }
          inversion C as [| |? ? b ? Gb|? ? sd ? Gs|? ? ed ? Ge|? ? d0 ? Gd ND U Cf|  |]; subst.
          + destruct (Q _ Gb) as (E & _). discriminate.
          + destruct (Q _ Gs) as (E & _). discriminate.
          + destruct (Q _ Ge) as (E & _). discriminate.
          + destruct (Q _ Gd) as (E & Vt). injection E as ->. destruct (U _ _ Hv) as (i & Hi & Ei). pose proof Hi as Hi'. cbn [io_fields] in Hi. apply narrow_inputs_In in Hi as (k & y & Hy & E).
            assert (Ey : fst y = f).
            { apply visible_inputs_In in Hy as (Hy & _). apply (same_named iv_name (io_fields io)); auto; [|now rewrite <- Ei, E].
              apply (Once (PInputField n)). now constructor. }
            rewrite <- Ei in Hv. specialize (Cf i v Hi' Hv). rewrite E in Cf. cbn in Cf. now rewrite Ey in Cf.
      Qed.
      Lemma enum_shown n r w k : (exists e, get_type S n = Some (DEnum e)) -> w = VEnum k \/ str_enum = true /\ w = VStr k -> fits (TBase n r) w ->
        exists y, shown_value S W n y /\ ev_name y = k.
      Proof using P.
        intros (e & G) Hw C. assert (Q : forall u, get_type V n = Some u -> u = narrow_type S W (DEnum e) /\ visible_type S W n = Some (DEnum e)).
        { intros u Gu. destruct (scoped_get_both _ _ _ G Gu) as (Vt & E). auto. }
        inversion C as [| |? ? b ? Gb|? ? sd ? Gs|? ? ed ? Ge (v & Hv & Ev)|? ? d0 ? Gd|  |]; subst; try (destruct Hw as [Hw|(_ & Hw)]; discriminate).
        - destruct (Q _ Gb) as (E & _). discriminate.
        - destruct (Q _ Gs) as (E & _). discriminate.
        - destruct (Q _ Ge) as (E & Vt). injection E as ->. cbn [en_values] in Hv. apply in_map_iff in Hv as ((j & v0) & <- & Hj). apply numbered_sound in Hj. exists v0. cbn [narrow_value snd ev_name] in Ev.
          split; [|destruct Hw as [->|(_ & ->)], Ev as [Ev|(_ & Ev)]; congruence]. pose proof (visible_type_name S W P _ _ Vt) as En. cbn in En. rewrite En in Hj. eapply (shown_value_of S W P); eauto.
      Qed.
      Lemma object_shown n r es k x : (exists io, get_type S n = Some (DInput io)) -> In (k, x) es -> fits (TBase n r) (VObj es) ->
        exists y, shown_input S W (PInputField n) y /\ iv_name (fst y) = k.
      Proof using P.
        intros (e & G) Hw C. assert (Q : forall u, get_type V n = Some u -> u = narrow_type S W (DInput e) /\ visible_type S W n = Some (DInput e)).
        { intros u Gu. destruct (scoped_get_both _ _ _ G Gu) as (Vt & E). auto. }
        inversion C as [| |? ? b ? Gb|? ? sd ? Gs|? ? ed ? Ge|? ? d0 ? Gd ND U|  |]; subst.
        - destruct (Q _ Gb) as (E & _). discriminate.
        - destruct (Q _ Gs) as (E & _). discriminate.
        - destruct (Q _ Ge) as (E & _). discriminate.
        - destruct (Q _ Gd) as (E & Vt). injection E as ->. destruct (U _ _ Hw) as (i & Hi & <-). cbn [io_fields] in Hi. apply narrow_inputs_In in Hi as (j & y & Hy & ->). exists y. split; [|reflexivity].
          pose proof (visible_type_name S W P _ _ Vt) as En. cbn in En. rewrite En in Hy. eapply (shown_input_of S W P); eauto. now constructor.
      Qed.
    End Values.
  End Uses.
End Docs.
