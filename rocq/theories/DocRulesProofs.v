From Verif Require Import Base Ast Graph Maps Doc DocSpec DocProofs CoercionTypes Coercion CoercionSpec CoercionProofs DocRules FragmentsSpec FragmentCyclesProofs DocRulesSpec.

Ltac ev_split H := apply in_flat_map in H as (ev & Hev & H); destruct ev; try destruct H.

Section P.
  Variable S : schema.
  Variable d : document.

  Lemma args_at_events o args defs : args_at S d o args defs <->
    (exists r al n ds sub fd, In (EField r al n args ds sub fd) (visit S d) /\ o = OwnField fd /\ defs = fd_args fd) \/
    (exists x loc dd, (In (EVarDirective x loc) (visit S d) \/ In (EConstDirective x loc) (visit S d)) /\
       get_ddef S (dir_name x) = Some dd /\ o = OwnDirective dd /\ args = dir_args x /\ defs = dd_args dd).
  Proof.
    split.
    - inversion 1; subst.
      + left. do 6 eexists. rewrite visit_EField. eauto.
      + right. exists x, loc, dd. rewrite visit_EVarDirective. eauto 10.
      + right. exists x, LVariableDefinition, dd. rewrite visit_EConstDirective. eauto 10.
    - intros [(r & al & n & ds & sub & fd & H & -> & ->)|(x & loc & dd & [H|H] & Hd & -> & -> & ->)].
      + apply visit_EField in H as (t & H & Hf). econstructor; eauto.
      + apply visit_EVarDirective in H as (r & ds & H & Hi). econstructor; eauto.
      + apply visit_EConstDirective in H as (ds & H & Hi & _). econstructor 3; eauto.
  Qed.
  Lemma directive_at_events x loc : directive_at S d x loc <->
    In (EVarDirective x loc) (visit S d) \/ In (EConstDirective x loc) (visit S d).
  Proof.
    rewrite visit_EVarDirective, visit_EConstDirective. split.
    - inversion 1; subst; eauto 10.
    - intros [(r & ds & H & Hi)|(ds & H & Hi & ->)]; [econstructor|econstructor 2]; eauto.
  Qed.

  (** a rule that looks at argument lists with their definitions *)
  Lemma args_rule {B} (rule : owner -> list argument -> list ivd -> list B) (b : B) :
    In b (flat_map (fun ev => match ev with
                        | EField _ _ _ args _ _ fd => rule (OwnField fd) args (fd_args fd)
                        | EVarDirective x _ => match get_ddef S (dir_name x) with
                                               | Some dd => rule (OwnDirective dd) (dir_args x) (dd_args dd) | None => [] end
                        | EConstDirective x _ => match get_ddef S (dir_name x) with
                                               | Some dd => rule (OwnDirective dd) (dir_args x) (dd_args dd) | None => [] end
                        | _ => []
                        end) (visit S d)) <->
    exists o args defs, args_at S d o args defs /\ In b (rule o args defs).
  Proof.
    split.
    - intros H. ev_split H.
      + exists (OwnField fd), args, (fd_args fd). split; auto. apply args_at_events. left. eauto 10.
      + destruct (get_ddef S (dir_name d0)) as [dd|] eqn:E; [|destruct H].
        exists (OwnDirective dd), (dir_args d0), (dd_args dd). split; auto. apply args_at_events. right. eauto 10.
      + destruct (get_ddef S (dir_name d0)) as [dd|] eqn:E; [|destruct H].
        exists (OwnDirective dd), (dir_args d0), (dd_args dd). split; auto. apply args_at_events. right. eauto 10.
    - intros (o & args & defs & Ha & Hb). rewrite in_flat_map.
      apply args_at_events in Ha as [(r & al & n & ds & sub & fd & H & -> & ->)|(x & loc & dd & H & Hd & -> & -> & ->)].
      + exists (EField r al n args ds sub fd). split; auto.
      + destruct H as [H|H]; [exists (EVarDirective x loc)|exists (EConstDirective x loc)]; (split; [auto|]); rewrite Hd; auto.
  Qed.

  Lemma unknown_In o args defs oa : In oa (unknown_args o args defs) <->
    oa = (o, snd oa) /\ In (snd oa) args /\ (forall i, In i defs -> iv_name i <> fst (snd oa)).
  Proof.
    destruct oa as [o' a]. cbn [snd]. unfold unknown_args. rewrite in_flat_map. split.
    - intros (a' & Ha & H). destruct (find (fun i => teqb (iv_name i) (fst a')) defs) eqn:E; [destruct H|].
      destruct H as [[= <- <-]|[]]. split; auto. split; auto. apply get_ivd_None. exact E.
    - intros ([= ->] & Ha & H). exists a. split; auto. apply get_ivd_None in H. unfold get_ivd in H. rewrite H. left; auto.
  Qed.
  Lemma unknown_arguments_iff o a :
    In (o, a) (argument_name_errors S (visit S d)) <->
    exists args defs, args_at S d o args defs /\ In a args /\ forall i, In i defs -> iv_name i <> fst a.
  Proof.
    unfold argument_name_errors, unknown_args_directive. rewrite (args_rule unknown_args (o, a)). split.
    - intros (o' & args & defs & Ha & H). apply unknown_In in H as ([= <-] & H1 & H2). eauto.
    - intros (args & defs & Ha & H1 & H2). exists o, args, defs. split; auto. apply unknown_In. auto.
  Qed.

  Lemma assoc_last_None {A} k (l : list (name * A)) : assoc_last k l = None <-> ~ In k (map fst l).
  Proof.
    split.
    - intros H Hin. assert (Hx : assoc_last k l <> None); [|congruence]. clear H.
      induction l as [|[k' a] l IH]; cbn in *; [destruct Hin|].
      destruct (assoc_last k l) eqn:E; [discriminate|]. destruct Hin as [->|Hin]; [rewrite teqb_refl; discriminate|].
      exfalso. apply IH; auto.
    - intros H. destruct (assoc_last k l) as [a|] eqn:E; auto. exfalso. apply H.
      apply assoc_last_split in E as (b & c & -> & _). rewrite map_app, in_app_iff. right. left. auto.
  Qed.
  Definition missing_def (args : list argument) (i : ivd) : Prop :=
    tref_required (iv_type i) = true /\ iv_default i = None /\ ~ In (iv_name i) (map fst args).
  Lemma missing_args_In o args defs om : In om (missing_args o args defs) <->
    exists ms, om = (o, ms) /\ ms <> [] /\
      ms = filter (fun i => tref_required (iv_type i)
                           && match iv_default i with None => true | Some _ => false end
                           && negb (match assoc_last (iv_name i) args with Some _ => true | None => false end)) defs.
  Proof.
    unfold missing_args. destruct (filter _ defs) as [|m ms] eqn:E; cbn [In].
    - split; [tauto|]. intros (ms & _ & H & H'). subst. contradiction.
    - split; [intros [<-|[]]|intros (ms' & -> & _ & ->)]; [|auto]. exists (m :: ms). repeat split; auto. discriminate.
  Qed.
  Lemma missing_filter args defs i :
    In i (filter (fun i => tref_required (iv_type i)
                           && match iv_default i with None => true | Some _ => false end
                           && negb (match assoc_last (iv_name i) args with Some _ => true | None => false end)) defs)
    <-> In i defs /\ missing_def args i.
  Proof.
    rewrite filter_In, !andb_true_iff, negb_true_iff. unfold missing_def. rewrite <- assoc_last_None.
    destruct (iv_default i), (assoc_last (iv_name i) args); intuition (try discriminate).
  Qed.
  Lemma required_iff o ms :
    In (o, ms) (required_argument_errors S (visit S d)) ->
    ms <> [] /\ exists args defs, args_at S d o args defs /\ forall i, In i ms <-> In i defs /\ missing_def args i.
  Proof.
    unfold required_argument_errors, missing_args_directive. rewrite (args_rule missing_args (o, ms)).
    intros (o' & args & defs & Ha & H). apply missing_args_In in H as (ms' & [= <- <-] & Hne & Hms).
    split; auto. exists args, defs. split; auto. intros i. rewrite Hms. apply missing_filter.
  Qed.
  Lemma required_complete o args defs i : args_at S d o args defs -> In i defs -> missing_def args i ->
    exists ms, In (o, ms) (required_argument_errors S (visit S d)) /\ In i ms /\ forall j, In j ms <-> In j defs /\ missing_def args j.
  Proof.
    intros Ha Hi Hm. unfold required_argument_errors, missing_args_directive.
    eexists. split; [|split].
    - apply (args_rule missing_args). exists o, args, defs. split; [exact Ha|]. apply missing_args_In.
      eexists. split; [reflexivity|]. split; [|reflexivity]. intros E.
      assert (H : In i []) by (rewrite <- E; apply missing_filter; auto). destruct H.
    - apply missing_filter; auto.
    - intros j. apply missing_filter.
  Qed.

  (** repeated arguments: also looked at when the directive is not defined *)
  Lemma repeated_arguments_iff k xs :
    In (k, xs) (argument_uniqueness_errors (visit S d)) <->
    exists args, ((exists r t al n ds sub fd, sel_at S d r t (SField al n args ds sub) /\ has_field t n fd) \/
                  (exists x loc, directive_at S d x loc /\ args = dir_args x)) /\
                 xs = with_key fst k args /\ 2 <= length xs.
  Proof.
    split.
    - intros H. unfold argument_uniqueness_errors in H. ev_split H; apply duplicates_In in H.
      + apply visit_EField in Hev as (t & H1 & H2). eexists. split; [left|exact H]. do 7 eexists. eauto.
      + eexists. split; [right|exact H]. exists d0, loc. split; auto. apply directive_at_events; auto.
      + eexists. split; [right|exact H]. exists d0, loc. split; auto. apply directive_at_events; auto.
    - intros (args & Ha & H). apply duplicates_In in H. apply in_flat_map.
      destruct Ha as [(r & t & al & n & ds & sub & fd & H1 & H2)|(x & loc & Hx & ->)].
      + exists (EField r al n args ds sub fd). split; auto. apply visit_EField; eauto.
      + apply directive_at_events in Hx as [Hx|Hx]; eauto.
  Qed.

  Lemma get_ddef_None n : get_ddef S n = None <-> forall dd, In dd (s_ddefs S) -> dd_name dd <> n.
  Proof.
    unfold get_ddef. split.
    - intros H f Hf E. eapply find_none in H; eauto. cbn in H. apply teqb_neq in H. auto.
    - intros H. destruct (find _ _) as [f|] eqn:E; auto.
      apply find_some in E as [E1 E2]. apply teqb_eq in E2. exfalso. eapply H; eauto.
  Qed.
  Lemma directive_rule {B} (rule : directive -> dloc -> list B) b :
    In b (flat_map (fun ev => match ev with
                              | EVarDirective x loc => rule x loc
                              | EConstDirective x loc => rule x loc
                              | _ => [] end) (visit S d)) <->
    exists x loc, directive_at S d x loc /\ In b (rule x loc).
  Proof.
    split.
    - intros H. ev_split H; do 2 eexists; (split; [apply directive_at_events|exact H]); auto.
    - intros (x & loc & Hx & Hb). apply in_flat_map. apply directive_at_events in Hx as [Hx|Hx]; eauto.
  Qed.
  Lemma undefined_directives_iff x :
    In x (directive_defined_errors S (visit S d)) <->
    (exists loc, directive_at S d x loc) /\ forall dd, In dd (s_ddefs S) -> dd_name dd <> dir_name x.
  Proof.
    unfold directive_defined_errors. rewrite (directive_rule (fun x _ => undefined_directive S x) x). unfold undefined_directive.
    rewrite <- get_ddef_None. split.
    - intros (y & loc & Hy & Hx). destruct (get_ddef S (dir_name y)) eqn:E; try contradiction; destruct Hx as [<-|[]]. eauto.
    - intros [(loc & Hx) E]. exists x, loc. split; auto. rewrite E. left; auto.
  Qed.
  Lemma misplaced_directives_iff x loc :
    In (x, loc) (directive_location_errors S (visit S d)) <->
    directive_at S d x loc /\ exists dd, get_ddef S (dir_name x) = Some dd /\ ~ In loc (dd_locs dd).
  Proof.
    unfold directive_location_errors. rewrite (directive_rule (misplaced_directive S) (x, loc)). unfold misplaced_directive.
    assert (Hb : forall dd loc, forallb (fun l => negb (dloc_eqb l loc)) (dd_locs dd) = true <-> ~ In loc (dd_locs dd)).
    { intros dd l. rewrite forallb_forall. split.
      - intros H Hin. specialize (H _ Hin). rewrite negb_true_iff in H. assert (dloc_eqb l l = true) by (apply dloc_eqb_eq; auto). congruence.
      - intros H y Hy. rewrite negb_true_iff. destruct (dloc_eqb y l) eqn:E; auto. apply dloc_eqb_eq in E. subst. contradiction. }
    split.
    - intros (y & l & Hy & Hx). destruct (get_ddef S (dir_name y)) as [dd|] eqn:E; [|destruct Hx].
      destruct (forallb _ _) eqn:F; [|destruct Hx]. destruct Hx as [[= <- <-]|[]]. split; auto. exists dd. split; auto. apply Hb; auto.
    - intros [Hx (dd & E & Hn)]. exists x, loc. split; auto. rewrite E. apply Hb in Hn. rewrite Hn. left; auto.
  Qed.
  Definition directive_list_at (ds : list directive) : Prop :=
    (exists r loc, directives_at S d r ds loc) \/ const_directives_at d ds.
  Lemma repeated_directives_iff xs :
    In xs (directive_uniqueness_errors S (visit S d)) <->
    exists ds n dd, directive_list_at ds /\ get_ddef S n = Some dd /\ dd_repeatable dd = false /\
                    xs = with_key dir_name n ds /\ 2 <= length xs.
  Proof.
    assert (Hr : forall ds, In xs (repeated_directives S ds) <->
       exists n dd, get_ddef S n = Some dd /\ dd_repeatable dd = false /\ xs = with_key dir_name n ds /\ 2 <= length xs).
    { intros ds. unfold repeated_directives. rewrite in_flat_map. split.
      - intros ([k ys] & Hk & Hx). cbn [fst snd] in Hx. apply duplicates_In in Hk as (H1 & H2).
        destruct (get_ddef S k) as [dd|] eqn:E; [|destruct Hx]. destruct (dd_repeatable dd) eqn:F; try contradiction; destruct Hx as [<-|[]]. eauto 10.
      - intros (n & dd & E & F & H1 & H2). exists (n, xs). split; [apply duplicates_In; auto|]. cbn. rewrite E, F. left; auto. }
    split.
    - intros H. unfold directive_uniqueness_errors in H. ev_split H; apply Hr in H as (n & dd & H1 & H2 & H3);
        exists ds, n, dd; split; auto.
      + right. apply visit_EConstDirectives in Hev. tauto.
      + left. apply visit_EVarDirectives in Hev as (r & H). eauto.
    - intros (ds & n & dd & Hd & H). apply in_flat_map.
      assert (Hx : In xs (repeated_directives S ds)) by (apply Hr; eauto).
      destruct Hd as [(r & loc & Hd)|Hd].
      + exists (EVarDirectives ds loc). split; auto. apply visit_EVarDirectives; eauto.
      + exists (EConstDirectives ds LVariableDefinition). split; auto. apply visit_EConstDirectives; eauto.
  Qed.

  (** ** selections *)
  Lemma field_selection_iff n t :
    In (n, t) (field_selection_errors (visit S d)) <->
    td_composite t = true /\ (exists r al args ds sub, sel_at S d r t (SField al n args ds sub)) /\
    forall fd, In fd (td_fields t) -> fd_name fd <> n.
  Proof.
    unfold field_selection_errors. rewrite in_flat_map, <- get_field_None. split.
    - intros (ev & Hev & H). destruct ev; try destruct H. destruct (td_composite t0) eqn:Ec; [|destruct H].
      apply in_flat_map in H as (s & Hs & H). destruct s as [al m args ds sub| |]; try destruct H.
      destruct (get_field (td_fields t0) m) eqn:E; [destruct H|]. destruct H as [[= -> ->]|[]].
      apply visit_ESelSet in Hev as (r & Hr). split; auto. split; auto. unfold sel_at. eauto 10.
    - intros (Hc & (r & al & args & ds & sub & sels & Hset & Hs) & E). exists (ESelSet sels t).
      split; [apply visit_ESelSet; eauto|]. rewrite Hc. apply in_flat_map. eexists. split; [exact Hs|]. cbn. rewrite E. left; auto.
  Qed.
  Definition leaf_tref (t : tref) : Prop := exists td, get_type S (tref_base t) = Some td /\ is_leaf td.
  Lemma leaf_type_iff t : leaf_type S t = true <-> leaf_tref t.
  Proof.
    unfold leaf_type, leaf_tref. split.
    - destruct (get_type S (tref_base t)) as [[]|]; try discriminate; eexists; split; reflexivity.
    - intros (td & -> & H). destruct td; cbn in H; auto; contradiction.
  Qed.
  Lemma leaf_selection_iff e :
    In e (leaf_selection_errors S (visit S d)) <->
    exists r t al n args ds sub fd, sel_at S d r t (SField al n args ds sub) /\ has_field t n fd /\
      ((e = LeafNotEmpty n fd /\ leaf_tref (fd_type fd) /\ sub <> []) \/
       (e = NonLeafEmpty n fd /\ ~ leaf_tref (fd_type fd) /\ sub = [])).
  Proof.
    unfold leaf_selection_errors. rewrite in_flat_map. split.
    - intros (ev & Hev & H). destruct ev; try destruct H. apply visit_EField in Hev as (t & H1 & H2).
      exists r, t, al, n, args, ds, sub, fd. split; auto. split; auto. rewrite <- leaf_type_iff.
      destruct (leaf_type S (fd_type fd)) eqn:E; destruct sub; cbn in H; try contradiction; try contradiction; destruct H as [<-|[]].
      + left. repeat split; auto. discriminate.
      + right. repeat split; auto.
    - intros (r & t & al & n & args & ds & sub & fd & H1 & H2 & H). exists (EField r al n args ds sub fd).
      split; [apply visit_EField; eauto|]. rewrite <- leaf_type_iff in H.
      destruct (leaf_type S (fd_type fd)); destruct sub; destruct H as [(-> & H3 & H4)|(-> & H3 & H4)]; try congruence; left; auto.
  Qed.
  Lemma fragment_type_iff c :
    In c (fragment_type_errors S (visit S d)) <->
    ((exists f, In f (doc_frags d) /\ fr_cond f = c) \/ (exists r t ds sub, sel_at S d r t (SInline (Some c) ds sub))) /\
    get_type S c = None.
  Proof.
    unfold fragment_type_errors. rewrite in_flat_map. split.
    - intros (ev & Hev & H). destruct ev; try destruct H.
      + apply visit_EFrag in Hev. destruct (get_type S (fr_cond f)) eqn:E; try contradiction; destruct H as [<-|[]]. split; eauto.
      + destruct cond as [c'|]; [|destruct H]. apply visit_EInline in Hev as (r & Hr).
        destruct (get_type S c') eqn:E; try contradiction; destruct H as [<-|[]]. split; eauto 10.
    - intros ([(f & Hf & <-)|(r & t & ds & sub & Hr)] & E).
      + exists (EFrag f). split; [apply visit_EFrag; auto|]. rewrite E. left; auto.
      + exists (EInline (Some c) ds sub t). split; [apply visit_EInline; eauto|]. rewrite E. left; auto.
  Qed.
  Lemma fragment_composite_iff c :
    In c (fragment_composite_errors S (visit S d)) <->
    ((exists f, In f (doc_frags d) /\ fr_cond f = c) \/ (exists r t ds sub, sel_at S d r t (SInline (Some c) ds sub))) /\
    exists t, get_type S c = Some t /\ td_composite t = false.
  Proof.
    unfold fragment_composite_errors. rewrite in_flat_map. split.
    - intros (ev & Hev & H). destruct ev; try destruct H.
      + apply visit_EFrag in Hev. destruct (get_type S (fr_cond f)) as [t|] eqn:E; [|destruct H].
        destruct (td_composite t) eqn:F; try contradiction; destruct H as [<-|[]]. split; eauto.
      + destruct cond as [c'|]; [|destruct H]. apply visit_EInline in Hev as (r & Hr).
        destruct (get_type S c') as [t'|] eqn:E; [|destruct H].
        destruct (td_composite t') eqn:F; try contradiction; destruct H as [<-|[]]. split; eauto 10.
    - intros ([(f & Hf & <-)|(r & t & ds & sub & Hr)] & t' & E & F).
      + exists (EFrag f). split; [apply visit_EFrag; auto|]. rewrite E, F. left; auto.
      + exists (EInline (Some c) ds sub t). split; [apply visit_EInline; eauto|]. rewrite E, F. left; auto.
  Qed.

  (** ** fragments *)
  Lemma spread_target_iff n :
    In n (spread_target_errors d (visit S d)) <->
    (exists r t ds, sel_at S d r t (SSpread n ds)) /\ forall f, In f (doc_frags d) -> fr_name f <> n.
  Proof.
    unfold spread_target_errors. rewrite in_flat_map. split.
    - intros (ev & Hev & H). destruct ev; try destruct H. apply visit_ESpread in Hev.
      destruct (tmem n0 (map fr_name (doc_frags d))) eqn:E; try contradiction; destruct H as [<-|[]]. split; eauto.
      intros f Hf Hn. assert (tmem n0 (map fr_name (doc_frags d)) = true); [|congruence]. apply tmem_In. rewrite <- Hn. apply in_map; auto.
    - intros ((r & t & ds & Hr) & H). exists (ESpread r n ds t). split; [apply visit_ESpread; auto|].
      destruct (tmem n (map fr_name (doc_frags d))) eqn:E; [|left; auto].
      apply tmem_In in E. apply in_map_iff in E as (f & Hn & Hf). exfalso. eapply H; eauto.
  Qed.
  Lemma fold_remove (evs : list event) : forall m e,
    In e (fold_left (fun m ev => match ev with
                                 | ESpread _ n _ _ => filter (fun e => negb (teqb (fst e) n)) m
                                 | _ => m end) evs m) <->
    In e (m : list (name * fragment)) /\ forall r n ds t, In (ESpread r n ds t) evs -> fst e <> n.
  Proof.
    induction evs as [|ev evs IH]; intros m e; cbn [fold_left].
    - split; [|tauto]. intros H; split; auto.
    - rewrite IH. split.
      + intros [H1 H2]. destruct ev; try (split; [exact H1|]; intros r' n' ds' t' [E|E]; [discriminate|eauto]).
        apply filter_In in H1 as [H1 H3]. split; auto. intros r' n' ds' t' [[= -> -> -> ->]|E]; [|eauto].
        rewrite negb_true_iff, teqb_neq in H3. auto.
      + intros [H1 H2]. split; [|intros; eapply H2; right; eauto].
        destruct ev; auto. apply filter_In. split; auto. rewrite negb_true_iff, teqb_neq. eapply H2. left; eauto.
  Qed.
  Lemma unused_fragment_iff f :
    In f (unused_fragment_errors d (visit S d)) <->
    defines d (fr_name f) f /\ forall r t ds, ~ sel_at S d r t (SSpread (fr_name f) ds).
  Proof.
    unfold unused_fragment_errors. rewrite in_map_iff. split.
    - intros ((k & f') & E & H). cbn in E. subst f'. apply fold_remove in H as [H1 H2]. cbn [fst] in H2.
      apply tmap_of_In in H1. apply (defines_assoc (fun f => f)) in H1 as (f' & Hd & <-).
      assert (En := defines_name _ _ _ Hd). subst k. split; auto. intros r t ds Hs. eapply H2; [|reflexivity].
      apply visit_ESpread. exact Hs.
    - intros [Hd H]. exists (fr_name f, f). split; auto. apply fold_remove. split.
      + apply tmap_of_In. apply (defines_assoc (fun f => f)). eauto.
      + intros r n ds t Hev E. apply visit_ESpread in Hev. cbn in E. subst n. eapply H; eauto.
  Qed.

  (** ** possible types *)
  Lemma implementors_In o n : In o (implementors S n) <-> In (DObject o) (s_types S) /\ In n (ob_ifaces o).
  Proof.
    unfold implementors. rewrite in_flat_map. split.
    - intros (t & Ht & H). destruct t; try destruct H. apply in_flat_map in H as (i & Hi & H).
      destruct (teqb i n) eqn:E; [|destruct H]. apply teqb_eq in E. subst. destruct H as [<-|[]]. auto.
    - intros [H1 H2]. exists (DObject o). split; auto. apply in_flat_map. exists n. split; auto. rewrite teqb_refl. left; auto.
  Qed.
  Lemma possible_types_spec t : 
    match possible_types S t with
    | Some l => td_composite t = true /\ forall n, In n l <-> possible S t n
    | None => td_composite t = false
    end.
  Proof.
    destruct t; cbn; auto; split; auto; intros n.
    - split; [intros [<-|[]]; constructor|]. inversion 1; auto.
    - split; [constructor; auto|]. inversion 1; auto.
    - rewrite in_map_iff. split.
      + intros (o & <- & H). apply implementors_In in H as [H1 H2]. constructor; auto.
      + inversion 1; subst. exists o. split; auto. apply implementors_In; auto.
  Qed.
  Lemma spread_not_possible_iff a b :
    spread_is_not_possible S a b = true <-> td_composite a = true /\ td_composite b = true /\ ~ overlap S a b.
  Proof.
    unfold spread_is_not_possible. assert (Ha := possible_types_spec a). assert (Hb := possible_types_spec b).
    destruct (possible_types S a) as [la|]; [|split; [discriminate|intuition congruence]].
    destruct (possible_types S b) as [lb|]; [|split; [discriminate|intuition congruence]].
    destruct Ha as [Ca Ha], Hb as [Cb Hb]. rewrite negb_true_iff, existsb_false. split.
    - intros H. repeat split; auto. intros (n & H1 & H2). apply Ha in H1. apply Hb in H2. specialize (H _ H1).
      apply tmem_In in H2. congruence.
    - intros (_ & _ & H) n Hn. destruct (tmem n lb) eqn:E; auto. apply tmem_In in E. exfalso. apply H. exists n. split; [apply Ha|apply Hb]; auto.
  Qed.
  Lemma spread_possible_iff e :
    In e (spread_possible_errors S d (visit S d)) <->
    exists r t ft, td_composite t = true /\ td_composite ft = true /\ ~ overlap S t ft /\
      ((exists n ds f, e = SpreadImpossible n t /\ sel_at S d r t (SSpread n ds) /\ defines d n f /\ get_type S (fr_cond f) = Some ft) \/
       (exists c ds sub, e = InlineImpossible c t /\ sel_at S d r t (SInline (Some c) ds sub) /\ get_type S c = Some ft)).
  Proof.
    unfold spread_possible_errors, cached_fragment. rewrite in_flat_map. split.
    - intros (ev & Hev & H). destruct ev; try destruct H.
      + destruct cond as [c|]; [|destruct H]. apply visit_EInline in Hev as (r & Hr).
        destruct (get_type S c) as [ft|] eqn:E; [|destruct H]. destruct (spread_is_not_possible S t ft) eqn:F; [|destruct H].
        destruct H as [<-|[]]. apply spread_not_possible_iff in F as (F1 & F2 & F3). exists r, t, ft. repeat (split; auto). right. eauto 10.
      + destruct (assoc_last n _) as [f|] eqn:A; [|destruct H]. apply (defines_assoc (fun f => f)) in A as (f' & Hd & <-).
        apply visit_ESpread in Hev.
        destruct (get_type S (fr_cond f')) as [ft|] eqn:E; [|destruct H]. destruct (spread_is_not_possible S t ft) eqn:F; [|destruct H].
        destruct H as [<-|[]]. apply spread_not_possible_iff in F as (F1 & F2 & F3). exists r, t, ft. repeat (split; auto). left. eauto 10.
    - intros (r & t & ft & F1 & F2 & F3 & H). assert (F : spread_is_not_possible S t ft = true) by (apply spread_not_possible_iff; auto).
      destruct H as [(n & ds & f & -> & Hs & Hd & E)|(c & ds & sub & -> & Hs & E)].
      + exists (ESpread r n ds t). split; [apply visit_ESpread; auto|].
        assert (A : assoc_last n (map (fun f => (fr_name f, f)) (doc_frags d)) = Some f) by (apply (defines_assoc (fun f => f)); eauto).
        rewrite A, E, F. left; auto.
      + exists (EInline (Some c) ds sub t). split; [apply visit_EInline; eauto|]. rewrite E, F. left; auto.
  Qed.

  (** ** operations and fragments in document order *)
  Lemma flat_map_app {A B} (g : A -> list B) l1 l2 : flat_map g (l1 ++ l2) = flat_map g l1 ++ flat_map g l2.
  Proof. induction l1; cbn; auto. rewrite IHl1, app_assoc. auto. Qed.
  Lemma flat_map_concat {A B} (g : A -> list B) ls : flat_map g (concat ls) = concat (map (flat_map g) ls).
  Proof. induction ls; cbn; auto. rewrite flat_map_app, IHls. auto. Qed.
End P.
