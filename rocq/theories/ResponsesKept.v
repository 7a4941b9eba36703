(** Responses to a document that is valid for the old schema, by a server with the new one, are responses of the old one. *)
From Verif Require Import Base Ast Maps Graph Json Doc DocSpec DocRulesSpec FragmentsSpec DocVariablesSpec DocProofs DocTypingProofs MergingSpec MergingProps
  Typegen TypegenDe TypegenSpec TypegenResponses Compare CompareSpec CompareProofs CompareProps CompatSpec CompatProofs.
Local Open Scope string_scope.
Local Open Scope list_scope.

Scheme response_min := Minimality for response Sort Prop
  with field_response_min := Minimality for field_response Sort Prop.
Combined Scheme responses_min from response_min, field_response_min.

Section Kept.
  Variables old new : schema.
  Hypothesis SR : same_results old new.
  Hypothesis RO : resolved old.
  Hypothesis WT : wf_types old.
  Hypothesis Un : NoDup (map td_name (s_types new)).
  Hypothesis Uf : forall o, In (DObject o) (s_types new) -> NoDup (map fd_name (ob_fields o)).

  Lemma old_self t : In t (s_types old) -> get_type old (td_name t) = Some t.
  Proof using RO. intros H. unfold get_type. eapply find_unique; eauto. apply RO. Qed.
  Lemma new_self t : In t (s_types new) -> get_type new (td_name t) = Some t.
  Proof using Un. intros H. unfold get_type. eapply find_unique; eauto. Qed.
  Lemma old_in n t : get_type old n = Some t -> In t (s_types old) /\ td_name t = n.
  Proof. apply get_type_Some. Qed.
  Lemma new_in n t : get_type new n = Some t -> In t (s_types new) /\ td_name t = n.
  Proof. apply get_type_Some. Qed.
  Lemma types_meet n t u : get_type old n = Some t -> get_type new n = Some u -> same_type_results t u.
  Proof using SR Un.
    intros Ht Hu. apply old_in in Ht as (Ht & E). apply new_in in Hu as (Hu & E'). destruct (sr_types _ _ SR t Ht) as (u' & Hu' & E'' & R).
    assert (u' = u) as <-; [|exact R]. eapply (same_named td_name); eauto. congruence.
  Qed.
  Lemma type_there n t : get_type old n = Some t -> exists u, get_type new n = Some u /\ same_type_results t u.
  Proof using SR Un.
    intros Ht. pose proof Ht as Ht'. apply old_in in Ht' as (Hi & E). destruct (sr_types _ _ SR t Hi) as (u & Hu & E' & R). exists u. split; [|exact R].
    rewrite <- E, <- E'. now apply new_self.
  Qed.
  (** the object types of the old schema with the results of [t] *)
  Lemma possible_back t u rt : In t (s_types old) -> same_type_results t u -> In u (s_types new) -> possible new u rt -> possible old t rt.
  Proof using SR Un RO.
    intros Ht R Hu P. destruct R; inversion P; subst.
    - match goal with H : ob_name _ = ob_name _ |- _ => rewrite <- H end. constructor.
    - match goal with H : In (DObject o) _ |- _ => rename H into Ho end. match goal with H : In _ (ob_ifaces o) |- _ => rename H into Hi end.
      match goal with H : if_name a = if_name b |- _ => rename H into E end. rewrite <- E in Hi.
      destruct (sr_implementors _ _ SR o a Ho Ht Hi) as (o' & Ho' & E').
      assert (S : same_type_results (DObject o') (DObject o)).
      { eapply (types_meet (ob_name o)); [rewrite <- E'; now apply (old_self (DObject o'))|now apply (new_self (DObject o))]. }
      inversion S; subst. rewrite <- E'. constructor; auto. match goal with H : forall n, In n (ob_ifaces _) <-> _ |- _ => now apply H end.
    - constructor. match goal with H : forall n, In n (un_members _) <-> _ |- _ => now apply H end.
  Qed.
  Lemma possible_on t u rt : In t (s_types old) -> same_type_results t u -> possible old t rt -> possible new u rt.
  Proof using SR Un RO.
    intros Ht R P. destruct R; inversion P; subst.
    - match goal with H : ob_name _ = ob_name _ |- _ => rewrite H end. constructor.
    - destruct (type_there (ob_name o) (DObject o)) as (u & Hu & S); [now apply (old_self (DObject o))|]. inversion S; subst.
      apply new_in in Hu as (Hu & _). match goal with H : ob_name o = ob_name _ |- _ => rewrite H end. constructor; [exact Hu|]. match goal with H : if_name a = if_name b |- _ => rewrite <- H end. match goal with H : forall n, In n (ob_ifaces _) <-> _ |- _ => now apply H end.
    - constructor. match goal with H : forall n, In n (un_members _) <-> _ |- _ => now apply H end.
  Qed.
  (** an object of the old schema *)
  Lemma possible_object_old t rt : In t (s_types old) -> possible old t rt -> exists o, get_type old rt = Some (DObject o) /\ ob_name o = rt.
  Proof using RO.
    intros Ht P. inversion P; subst.
    - exists o. split; auto. now apply (old_self (DObject o)).
    - exists o. split; auto. now apply (old_self (DObject o)).
    - destruct (rs_members _ RO u rt Ht) as (o & Ho); auto. exists o. split; auto. apply old_in in Ho. apply Ho.
  Qed.
  Lemma applies_iff rt c t : get_type old c = Some t -> applies new rt c <-> applies old rt c.
  Proof using SR Un RO.
    intros Ht. destruct (type_there _ _ Ht) as (u & Hu & R). pose proof (old_in _ _ Ht) as (Hi & _). pose proof (new_in _ _ Hu) as (Hj & _).
    unfold applies. split; intros (x & Hx & P).
    - exists t. split; auto. rewrite Hu in Hx. injection Hx as <-. eapply possible_back; eauto.
    - exists u. split; auto. rewrite Ht in Hx. injection Hx as <-. eapply possible_on; eauto.
  Qed.

  Section Document.
    Variable d : document.
    Hypothesis OK : document_ok old d.
    Hypothesis CM : document_can_merge old d can_meet.
    Variable vals : name -> option bool.
    Variable scalar_out : name -> json -> Prop.
    Variable o : operation.
    Hypothesis Ho : In o (doc_ops d).

    (** selection sets that are executed at a path *)
    Definition origin (p : list (name * name)) (t : tdef) (sels : list selection) : Prop :=
      (p = [] /\ root_type old (op_type o) t /\ sels = op_sel o) \/
      (exists y, executed_at old d o p y /\ get_type old (tref_base (fd_type (sf_def y))) = Some t /\ sels = sf_sub y).
    Inductive available (p : list (name * name)) : tdef -> selection -> Prop :=
    | av_top t sels s : origin p t sels -> In s sels -> available p t s
    | av_inline t ds sub s : available p t (SInline None ds sub) -> In s sub -> available p t s
    | av_inline_on t c ds sub t1 s : available p t (SInline (Some c) ds sub) -> get_type old c = Some t1 -> In s sub -> available p t1 s
    | av_spread t n ds f t1 s : available p t (SSpread n ds) -> defines d n f -> get_type old (fr_cond f) = Some t1 -> In s (fr_sel f) -> available p t1 s.
    Lemma collected_mono t sels x : collected old d t sels x -> forall sels', (forall s, In s sels -> In s sels') -> collected old d t sels' x.
    Proof. intros H. destruct H; intros sels' I; [eapply col_field|eapply col_inline|eapply col_inline_on|eapply col_spread]; eauto. Qed.
    Lemma available_collected p t s : available p t s -> exists t0 sels0, origin p t0 sels0 /\ forall x, collected old d t [s] x -> collected old d t0 sels0 x.
    Proof.
      induction 1 as [t sels s O I|t ds sub s A IH I|t c ds sub t1 s A IH E I|t n ds f t1 s A IH D E I].
      - exists t, sels. split; auto. intros x C. eapply collected_mono; eauto. intros s' [<-|[]]. exact I.
      - destruct IH as (t0 & sels0 & O & C). exists t0, sels0. split; auto. intros x X. apply C. eapply col_inline; [now left|]. eapply collected_mono; eauto. intros s' [<-|[]]. exact I.
      - destruct IH as (t0 & sels0 & O & C). exists t0, sels0. split; auto. intros x X. apply C. eapply col_inline_on; [now left|eassumption|]. eapply collected_mono; eauto. intros s' [<-|[]]. exact I.
      - destruct IH as (t0 & sels0 & O & C). exists t0, sels0. split; auto. intros x X. apply C. eapply col_spread; [now left|eassumption..|]. eapply collected_mono; eauto. intros s' [<-|[]]. exact I.
    Qed.

    (** the selections [sels] are executed at [p], on objects of type [rt] *)
    Definition selected (p : list (name * name)) (rt : name) (s : selection) : Prop :=
      exists t, available p t s /\ possible old t rt /\ sel_ok old t s /\ In t (s_types old).
    Definition node_ok (p : list (name * name)) (rt : name) (x : node) : Prop :=
      exists y, executed_at old d o ((nd_key x, rt) :: p) y /\ sf_name y = nd_name x /\ sf_sub y = nd_sub x /\ sf_key y = nd_key x /\
        In (sf_parent y) (s_types old) /\ has_field (sf_parent y) (nd_name x) (sf_def y) /\ possible old (sf_parent y) rt /\
        exists t, get_type old (tref_base (fd_type (sf_def y))) = Some t /\ forall s, In s (nd_sub x) -> sel_ok old t s.
    Lemma field_node p rt al n args ds sub : selected p rt (SField al n args ds sub) ->
      node_ok p rt {| nd_key := response_name al n; nd_name := n; nd_sub := sub |}.
    Proof.
      intros (t & A & P & K & Hi). destruct (available_collected _ _ _ A) as (t0 & sels0 & O & C).
      assert (F : exists fd t1, has_field t n fd /\ get_type old (tref_base (fd_type fd)) = Some t1 /\ forall s, In s sub -> sel_ok old t1 s).
      { inversion K; subst; eexists _, _; (split; [eassumption|split; [eassumption|]]); auto. intros s []. }
      destruct F as (fd & t1 & F & G & N). set (y := {| sf_alias := al; sf_name := n; sf_args := args; sf_sub := sub; sf_def := fd; sf_parent := t |}).
      assert (CY : collected old d t0 sels0 y) by (apply C; eapply col_field; [now left|exact F]).
      assert (EK : sf_key y = response_name al n) by (unfold sf_key, response_name; cbn; destruct al; reflexivity).
      exists y. split; [|repeat (split; [first [reflexivity|eassumption]|])].
      - cbn [nd_key]. rewrite <- EK. destruct O as [(-> & R & ->)|(z & E & R & ->)].
        + eapply ex_root; eauto.
        + eapply ex_below; eauto. exists t0. split; eauto.
      - exists t1. split; [exact G|exact N].
    Qed.
    Lemma fragment_typed n f : defines d n f -> exists t, get_type old (fr_cond f) = Some t /\ forall s, In s (fr_sel f) -> sel_ok old t s.
    Proof using OK.
      intros D. apply defined_fragment in D. destruct (proj2 OK f D) as (t & E & _ & K). eauto.
    Qed.
    Lemma collects_back p rt sels ns : collects new d vals rt sels ns -> (forall s, In s sels -> selected p rt s) ->
      collects old d vals rt sels ns /\ forall x, In x ns -> node_ok p rt x.
    Proof using OK SR Un RO.
      induction 1 as [|al n args ds sub rest ns Sk C IH|n ds f rest ns ns' Sk D A C1 IH1 C2 IH2|n ds f rest ns Sk D A C IH|c ds sub rest ns ns' Sk A C1 IH1 C2 IH2
        |c ds sub rest ns Sk A C IH|s rest ns Sk C IH]; intros Sel.
      - split; [constructor|intros x []].
      - destruct IH as (IC & IN); [intros; apply Sel; now right|]. split; [now constructor|]. intros x [<-|Hx]; [|auto]. eapply field_node. apply Sel. now left.
      - destruct (fragment_typed _ _ D) as (t1 & E & K). destruct IH2 as (IC2 & IN2); [intros; apply Sel; now right|].
        apply (applies_iff rt _ _ E) in A. destruct (Sel (SSpread n ds)) as (t & Av & P & KS & Hi); [now left|].
        destruct IH1 as (IC1 & IN1).
        { intros s Hs. exists t1. split; [eapply av_spread; eauto|]. split; [|split; [auto|now apply old_in in E]]. destruct A as (t' & E' & P'). congruence. }
        split; [eapply co_spread; eauto|]. intros x Hx. apply in_app_or in Hx as [Hx|Hx]; auto.
      - destruct IH as (IC & IN); [intros; apply Sel; now right|]. split; auto. destruct (fragment_typed _ _ D) as (t1 & E & K).
        eapply co_spread_not; eauto. intros A'. apply A. now apply (applies_iff rt _ _ E).
      - destruct IH2 as (IC2 & IN2); [intros; apply Sel; now right|]. destruct (Sel (SInline c ds sub)) as (t & Av & P & KS & Hi); [now left|].
        assert (A' : forall n, c = Some n -> applies old rt n).
        { intros n ->. inversion KS; subst. eapply applies_iff; eauto. }
        destruct IH1 as (IC1 & IN1).
        { intros s Hs. inversion KS; subst.
          - exists t. split; [eapply av_inline; eauto|]. auto.
          - exists ft. split; [eapply av_inline_on; eauto|]. split; [|split; [auto|]].
            + destruct (A' _ eq_refl) as (t' & E' & P'). congruence.
            + match goal with H : get_type old _ = Some ft |- _ => apply old_in in H; apply H end. }
        split; [eapply co_inline; eauto|]. intros x Hx. apply in_app_or in Hx as [Hx|Hx]; auto.
      - destruct IH as (IC & IN); [intros; apply Sel; now right|]. split; auto. destruct (Sel (SInline (Some c) ds sub)) as (t & Av & P & KS & Hi); [now left|].
        eapply co_inline_not; eauto. intros A'. apply A. inversion KS; subst. eapply applies_iff; eauto.
      - destruct IH as (IC & IN); [intros; apply Sel; now right|]. split; auto. eapply co_skipped; eauto.
    Qed.

    (** what is known of the subselections of a result of type [T] *)
    Definition covers (p : list (name * name)) (T : tref) (sels : list selection) : Prop :=
      (exists u, get_type old (tref_base T) = Some u) /\
      forall s, In s sels -> exists t sels0, origin p t sels0 /\ In s sels0 /\ In t (s_types old) /\ sel_ok old t s /\
        forall u rt, get_type old (tref_base T) = Some u -> possible old u rt -> possible old t rt.
    Lemma same_names p rt x y : node_ok p rt x -> node_ok p rt y -> nd_key x = nd_key y -> nd_name x = nd_name y.
    Proof using CM Ho.
      intros (a & Ea & Na & _ & _ & _ & _ & Pa & _) (b & Eb & Nb & _ & _ & _ & _ & Pb & _) E. rewrite E in Ea. rewrite <- Na, <- Nb.
      destruct (executed_no_conflict old d o CM Ho _ _ _ Ea Eb) as (_ & N).
      destruct (teqb (sf_name a) (sf_name b)) eqn:En; [now apply teqb_eq|]. exfalso. apply N. apply fc_name; [eapply possible_meet; eauto|]. now apply teqb_neq.
    Qed.
    Lemma refines_base a b : refines old a b -> (exists u, get_type old (tref_base b) = Some u) ->
      (exists u, get_type old (tref_base a) = Some u) /\
      forall t u rt, get_type old (tref_base b) = Some t -> get_type old (tref_base a) = Some u -> possible old u rt -> possible old t rt.
    Proof.
      induction 1 as [n r r' I|n n' r r' t t' I E E' C C' P|a b r r' I R IH]; cbn [tref_base]; intros X.
      - split; [exact X|]. intros t u rt Ht Hu. congruence.
      - split; [eauto|]. intros t0 u0 rt Ht Hu. rewrite E' in Ht. rewrite E in Hu. injection Ht as <-. injection Hu as <-. apply P.
      - auto.
    Qed.
    Lemma response_back :
      (forall T' sels j, response new d vals scalar_out T' sels j -> forall T p, compatible T' T -> covers p T sels -> response old d vals scalar_out T sels j) /\
      (forall ob xs j, field_response new d vals scalar_out ob xs j -> forall oo p k, get_type old (ob_name oo) = Some (DObject oo) ->
         same_type_results (DObject oo) (DObject ob) -> In (DObject ob) (s_types new) ->
         (forall x, In x xs -> node_ok p (ob_name oo) x /\ nd_key x = k) -> field_response old d vals scalar_out oo xs j).
    Proof using OK CM Ho SR Un RO WT Uf.
      apply responses_min.
      - intros T' sels Rq T p C _. apply re_null. destruct (tref_required T) eqn:E; [|reflexivity]. apply (compatible_required _ _ C) in E. congruence.
      - intros inner r sels js R IH T p C Cv. inversion C; subst. apply re_list. intros j Hj. eapply IH; eauto.
      - intros n r b sels j E B T p C Cv. inversion C; subst. destruct Cv as ((u & Hu) & _). cbn in Hu. pose proof (types_meet _ _ _ Hu E) as R. inversion R; subst. eapply re_builtin; eauto.
      - intros n r x e sels E I T p C Cv. inversion C; subst. destruct Cv as ((u & Hu) & _). cbn in Hu. pose proof (types_meet _ _ _ Hu E) as R. inversion R; subst.
        assert (I' : In (ev_name e) (map ev_name (en_values a))) by (match goal with H : forall n, In n (map ev_name _) <-> _ |- _ => apply H end; now apply in_map). apply in_map_iff in I' as (v & <- & I'). eapply re_enum; eauto.
      - intros n r x sels j E N O T p C Cv. inversion C; subst. destruct Cv as ((u & Hu) & _). cbn in Hu. pose proof (types_meet _ _ _ Hu E) as R. inversion R; subst. eapply re_scalar; eauto.
      - intros n r t sels rt ob ns kvs E P Eo Co K _ IH T p C Cv. inversion C; subst. destruct Cv as ((u & Hu) & Cv). cbn [tref_base] in *.
        pose proof (types_meet _ _ _ Hu E) as R. pose proof (old_in _ _ Hu) as (Iu & _). pose proof (new_in _ _ E) as (It & _).
        pose proof (possible_back _ _ _ Iu R It P) as P'. destruct (possible_object_old _ _ Iu P') as (oo & Eoo & Nm).
        destruct (collects_back p rt sels ns Co) as (Co' & Nd).
        { intros s Hs. destruct (Cv s Hs) as (t0 & sels0 & O & I & It0 & K0 & Ps). exists t0. split; [eapply av_top; eauto|]. split; [eauto|]. auto. }
        eapply re_object; eauto. intros k j Hkj. pose proof (new_in _ _ Eo) as (Iob & _).
        eapply (IH k j Hkj oo p k); auto; [congruence|eapply types_meet; eauto|]. intros x Hx. unfold under in Hx. apply filter_In in Hx as (Hx & Ex). apply teqb_eq in Ex.
        split; [|exact Ex]. rewrite Nm. auto.
      - intros ob x xs Tn oo p k Eo R Iob Nd. assert (E : ob_name oo = ob_name ob) by (inversion R; auto). rewrite <- E. now constructor.
      - intros ob x xs fd j Tn G _ IH oo p k Eo R Iob Nd. destruct (Nd x) as ((y & Ey & Ny & Sy & Ky & Iy & Fy & Py & t & Ty & Oy) & Kx); [now left|].
        assert (RF : exists f, get_field (ob_fields oo) (nd_name x) = Some f /\ forall z, node_ok p (ob_name oo) z -> nd_key z = k ->
          exists y, executed_at old d o ((k, ob_name oo) :: p) y /\ sf_sub y = nd_sub z /\ refines old (fd_type f) (fd_type (sf_def y)) /\
            exists t, get_type old (tref_base (fd_type (sf_def y))) = Some t /\ forall s, In s (nd_sub z) -> sel_ok old t s).
        { assert (One : forall z, node_ok p (ob_name oo) z -> nd_key z = k -> exists f, get_field (ob_fields oo) (nd_name x) = Some f /\
            exists y, executed_at old d o ((k, ob_name oo) :: p) y /\ sf_sub y = nd_sub z /\ refines old (fd_type f) (fd_type (sf_def y)) /\
            exists t, get_type old (tref_base (fd_type (sf_def y))) = Some t /\ forall s, In s (nd_sub z) -> sel_ok old t s).
          { intros z Nz Kz. assert (En : nd_name z = nd_name x) by (eapply same_names; eauto; [apply Nd; now left|congruence]).
            destruct Nz as (w & Ew & Nw & Sw & Kw & Iw & Fw & Pw & tw & Tw & Ow).
            destruct (runtime_field old RO WT (sf_parent w) oo (nd_name z) (sf_def w)) as [(X & _)|(_ & f & Gf & Rf)]; auto.
            - intros u Eu. apply Tn. rewrite <- En. rewrite Eu in *. unfold has_field in Fw. apply get_field_Some in Fw as (Fi & Fn). rewrite <- Fn. eapply (wt_union_fields _ WT); eauto.
            - exfalso. congruence.
            - rewrite En in Gf. exists f. split; [exact Gf|]. exists w. rewrite Kz in Ew. split; [exact Ew|]. split; [exact Sw|]. split; [exact Rf|]. eauto. }
          destruct (One x) as (f & Gf & _); [apply Nd; now left|exact Kx|]. exists f. split; [exact Gf|]. intros z Nz Kz. destruct (One z Nz Kz) as (f' & Gf' & rest). rewrite Gf in Gf'. injection Gf' as <-. exact rest. }
        destruct RF as (f & Gf & All). apply (fr_field _ _ _ _ oo x xs f); [exact Tn|exact Gf|].
        assert (Cm : compatible (fd_type fd) (fd_type f)).
        { inversion R as [| |a b E1 E2 E3| | | |]; subst. apply get_field_Some in Gf as (If & Nf). destruct (E3 f If) as (g & Ig & Ng & Cg).
          apply get_field_Some in G as (Ifd & Nfd). assert (g = fd) as <-; [|exact Cg]. eapply (same_named fd_name); eauto. congruence. }
        eapply (IH (fd_type f) ((k, ob_name oo) :: p)); [exact Cm|]. split.
        + destruct (All x) as (w & _ & _ & Rf & tw & Tw & _); [apply Nd; now left|exact Kx|]. eapply refines_base; eauto.
        + intros s Hs. apply in_flat_map in Hs as (z & Iz & Hs). destruct (Nd z Iz) as (Nz & Kz). destruct (All z Nz Kz) as (w & Ew & Sw & Rf & tw & Tw & Ow).
          exists tw, (sf_sub w). split; [right; exists w; auto|]. split; [congruence|]. split; [now apply old_in in Tw|]. split; [auto|].
          intros u rt Hu P. eapply refines_base; eauto.
    Qed.
    Lemma operation_response_back j : operation_response new d vals scalar_out o j -> operation_response old d vals scalar_out o j.
    Proof using OK CM Ho SR Un RO WT Uf.
      intros (u & Ru & R). destruct (proj1 OK o Ho) as (t & Rt & K). exists t. split; [exact Rt|].
      assert (E : td_name u = td_name t /\ get_type old (td_name t) = Some t).
      { pose proof (sr_roots _ _ SR) as Rs. unfold root_type in *. destruct (op_type o).
        - rewrite (sr_query _ _ Rs) in Ru. apply old_in in Rt as (I & N). apply new_in in Ru as (_ & N'). split; [congruence|]. now apply old_self.
        - destruct Rt as (n & En & Rt). destruct Ru as (m & Em & Ru). rewrite (sr_mutation _ _ Rs n En) in Em. injection Em as <-.
          apply old_in in Rt as (I & N). apply new_in in Ru as (_ & N'). split; [congruence|]. now apply old_self.
        - destruct Rt as (n & En & Rt). destruct Ru as (m & Em & Ru). rewrite (sr_subscription _ _ Rs n En) in Em. injection Em as <-.
          apply old_in in Rt as (I & N). apply new_in in Ru as (_ & N'). split; [congruence|]. now apply old_self. }
      destruct E as (E & G). rewrite E in R. eapply (proj1 response_back); [exact R|now constructor|].
      split; [exists t; exact G|]. intros s Hs. exists t, (op_sel o). split; [left; auto|]. split; [exact Hs|]. pose proof (old_in _ _ G) as (I & _). split; [exact I|].
      split; [auto|]. intros u' rt Hu' P. cbn in Hu'. congruence.
    Qed.
  End Document.
End Kept.

(** * From the comparison *)
Lemma safe_field_compatible a : forall b, change_safe_for_field a b = true -> compatible b a.
Proof.
  induction a as [n r|i IH r]; intros [m s|k s] H; cbn in H; try discriminate; apply andb_true_iff in H as (H & H').
  - apply teqb_eq in H' as <-. constructor. intros ->. exact H.
  - constructor; [|now apply IH]. intros ->. exact H.
Qed.
Section Safe.
  Variables old new : schema.
  Hypothesis Fo : floats old.
  Hypothesis Fn : floats new.
  Hypothesis Un : names_once new.
  Hypothesis Rs : same_roots old new.
  Hypothesis Ni : no_new_implementors old new.
  Hypothesis Safe : forall c, In c (compare old new) -> non_breaking c = true.
  Lemma called_safe c : real old new c -> ~ overlooked old new c -> non_breaking c = true.
  Proof using Fo Fn Un Safe. intros H N. apply Safe. destruct (c45_reported_partial old new c Fo Fn Un H); [contradiction|assumption]. Qed.
  Ltac seen := let H := fresh in intros H; inversion H.
  Lemma fields_same t l l' f : common_fields old new t l l' -> In f l -> exists g, In g l' /\ fd_name g = fd_name f /\ compatible (fd_type g) (fd_type f).
  Proof using Fo Fn Un Safe.
    intros C Hf. destruct (common_or_only fd_name l l' f Hf) as [(g & Hg & E)|O].
    2:{ assert (R : real old new (FieldRemoved f t)) by (eapply r_field_removed; eauto). apply called_safe in R; [|seen].
        unfold non_breaking, criticality_of in R. destruct (existsb _ _); discriminate. }
    exists g. split; [exact Hg|split; [exact E|]]. assert (CF : common_field old new t f g) by (eapply cfd_intro; [exact C|split; auto]).
    destruct (tref_same (fd_type f) (fd_type g)) as [<-|N]; [apply compatible_refl|].
    assert (R : real old new (FieldTypeChanged t f g)) by (eapply r_field_type; eauto). apply called_safe in R; [|seen].
    unfold non_breaking, criticality_of in R. destruct (change_safe_for_field (fd_type f) (fd_type g)) eqn:Q; [|discriminate]. now apply safe_field_compatible.
  Qed.
  Lemma common_type_same t u : common_type old new t u -> same_type_results t u.
  Proof using Fo Fn Un Safe.
    intros C. assert (K : kind_of t = kind_of u).
    { assert (D : kind_of t = kind_of u \/ kind_of t <> kind_of u) by (destruct (kind_of t), (kind_of u); auto; right; discriminate).
      destruct D as [D|D]; [exact D|]. assert (R : real old new (TypeKindChanged t u)) by (now constructor). apply called_safe in R; [discriminate|seen]. }
    pose proof (proj2 (proj2 C)) as E. destruct t as [x|a|a|a|a|a|a], u as [y|b|b|b|b|b|b]; cbn in K; try discriminate; cbn [td_name] in E.
    - assert (x = y) by (destruct x, y; try reflexivity; discriminate E). subst. constructor.
    - now constructor.
    - constructor; [exact E| |intros f Hf; eapply fields_same; [constructor; exact C|exact Hf]].
      intros n. split; intros Hn; (destruct (in_dec (list_eq_dec N.eq_dec) n (ob_ifaces a)) as [X|X]; destruct (in_dec (list_eq_dec N.eq_dec) n (ob_ifaces b)) as [Y|Y]; auto; exfalso; try contradiction).
      + assert (R : real old new (ObjectInterfaceRemoval a n)) by (eapply r_interface_removed; eauto). apply called_safe in R; [discriminate|seen].
      + assert (R : real old new (ObjectInterfaceAddition a n)) by (eapply r_interface_added; eauto). apply called_safe in R; [discriminate|seen].
    - now constructor.
    - constructor; [exact E|]. intros n. rewrite !in_map_iff. split; intros (v & <- & Hv).
      + destruct (common_or_only ev_name _ (en_values b) v Hv) as [(w & Hw & Ew)|O]; [eauto|]. exfalso.
        assert (R : real old new (EnumValueRemoved a v)) by (eapply r_value_removed; eauto). apply called_safe in R; [discriminate|seen].
      + destruct (common_or_only ev_name _ (en_values a) v Hv) as [(w & Hw & Ew)|O]; [eauto|]. exfalso.
        assert (R : real old new (EnumValueAdded b v)) by (eapply r_value_added; eauto). apply called_safe in R; [discriminate|seen].
    - constructor; [exact E|].
      intros n. split; intros Hn; (destruct (in_dec (list_eq_dec N.eq_dec) n (un_members a)) as [X|X]; destruct (in_dec (list_eq_dec N.eq_dec) n (un_members b)) as [Y|Y]; auto; exfalso; try contradiction).
      + assert (R : real old new (UnionMemberRemoved b n)) by (eapply r_member_removed; eauto). apply called_safe in R; [discriminate|seen].
      + assert (R : real old new (UnionMemberAdded b n)) by (eapply r_member_added; eauto). apply called_safe in R; [discriminate|seen].
    - now constructor.
  Qed.
  Lemma safe_same_results : same_results old new.
  Proof using Fo Fn Un Safe Rs Ni.
    split; [exact Rs| |exact Ni]. intros t Ht. destruct (common_or_only td_name _ (s_types new) t Ht) as [(u & Hu & E)|O].
    - exists u. split; [exact Hu|split; [exact E|]]. apply common_type_same. split; auto.
    - exfalso. assert (R : real old new (TypeRemoved t)) by (now constructor). apply called_safe in R; [discriminate|seen].
  Qed.
End Safe.
