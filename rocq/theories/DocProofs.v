(** The orchestrator makes exactly the visitor calls that the places of the document call for. *)
From Verif Require Import Base Ast Doc DocSpec.

Section Visit.
  Variable S : schema.

  (** calls made for a selection itself, without those for the selection sets below it *)
  Definition own (r : root) (t : tdef) (s : selection) : list event :=
    match s with
    | SField al n args ds sub =>
        match get_field (td_fields t) n with
        | None => []
        | Some fd => EField r al n args ds sub fd :: var_directives S r ds LField ++ var_args r args (fd_args fd)
        end
    | SInline cond ds sub => var_directives S r ds LInlineFragment ++ [EInline cond ds sub t]
    | SSpread n ds => var_directives S r ds LFragmentSpread ++ [ESpread r n ds t]
    end.
  (** the selection set directly below a selection, if it is visited *)
  Inductive below (t : tdef) : selection -> tdef -> list selection -> Prop :=
  | below_field al n args ds sub fd t1 : sub <> [] -> has_field t n fd ->
      get_type S (tref_base (fd_type fd)) = Some t1 -> below t (SField al n args ds sub) t1 sub
  | below_inline ds sub : below t (SInline None ds sub) t sub
  | below_inline_on c ds sub t1 : get_type S c = Some t1 -> below t (SInline (Some c) ds sub) t1 sub.

  Lemma go_flat_map r t sub :
    (fix go (l : list selection) : list event := match l with [] => [] | x :: l' => visit_selection S r t x ++ go l' end) sub
    = flat_map (visit_selection S r t) sub.
  Proof. induction sub as [|x l IH]; cbn; auto. Qed.

  Lemma visit_selection_In r t s ev :
    In ev (visit_selection S r t s) <->
    In ev (own r t s) \/ exists t1 sub, below t s t1 sub /\ In ev (visit_selection_set S r t1 sub).
  Proof.
    destruct s as [al n args ds sub|n ds|cond ds sub]; cbn [visit_selection own].
    - destruct (get_field (td_fields t) n) as [fd|] eqn:Ef.
      + destruct sub as [|x sub'].
        * rewrite !app_nil_r. split; [auto|]. intros [H|(t1 & sub & H & _)]; auto. inversion H; congruence.
        * set (sub := x :: sub') in *. destruct (get_type S (tref_base (fd_type fd))) as [t'|] eqn:Et.
          -- rewrite go_flat_map. cbn [In]. rewrite !in_app_iff. unfold visit_selection_set. cbn [In].
             split.
             ++ intros [H|[H|[H|H]]]; auto. right. exists t', sub. split; [|exact H].
                econstructor; eauto. subst sub; discriminate.
             ++ intros [[H|[H|H]]|(t1 & s1 & H & H')]; auto. inversion H; subst.
                match goal with K : has_field _ _ _ |- _ => unfold has_field in K; rewrite Ef in K; injection K as <- end.
                match goal with K : get_type _ _ = Some t1 |- _ => rewrite Et in K; injection K as <- end.
                auto.
          -- rewrite app_nil_r. split; [auto|]. intros [H|(t1 & s1 & H & _)]; auto. inversion H; subst.
             match goal with K : has_field _ _ _ |- _ => unfold has_field in K; rewrite Ef in K; injection K as <- end. congruence.
      + split; [intros []|]. intros [[]|(t1 & s1 & H & _)]. inversion H; subst. unfold has_field in *. congruence.
    - split; [auto|]. intros [H|(t1 & s1 & H & _)]; auto. inversion H.
    - rewrite !in_app_iff. destruct cond as [c|].
      + destruct (get_type S c) as [t'|] eqn:Ec.
        * rewrite go_flat_map. split.
          -- intros [H|[H|H]]; auto. right. exists t', sub. split; auto. constructor; auto.
          -- intros [[H|H]|(t1 & s1 & H & H')]; auto. inversion H; subst. assert (t1 = t') by congruence. subst. auto.
        * split; [intros [H|[[]|H]]; auto|]. intros [[H|H]|(t1 & s1 & H & _)]; auto. inversion H; subst. congruence.
      + rewrite go_flat_map. split.
        * intros [H|[H|H]]; auto. right. exists t, sub. split; auto. constructor.
        * intros [[H|H]|(t1 & s1 & H & H')]; auto. inversion H; subst. auto.
  Qed.

  Lemma within_below t sels s t1 sub t' sels' :
    In s sels -> below t s t1 sub -> within S t1 sub t' sels' -> within S t sels t' sels'.
  Proof.
    intros Hin Hb Hw. inversion Hb; subst.
    - eapply within_field; eauto.
    - eapply within_inline; eauto.
    - eapply within_inline_on; eauto.
  Qed.

  Lemma visit_selection_set_sound r ev s : forall t,
    In ev (visit_selection S r t s) ->
    In ev (own r t s) \/
    exists t1 sub t' sels', below t s t1 sub /\ within S t1 sub t' sels' /\
      (ev = ESelSet sels' t' \/ exists x, In x sels' /\ In ev (own r t' x)).
  Proof.
    assert (Hset : forall t1 sub,
       Forall (fun s => forall t, In ev (visit_selection S r t s) ->
           In ev (own r t s) \/
           exists t1 sub t' sels', below t s t1 sub /\ within S t1 sub t' sels' /\
             (ev = ESelSet sels' t' \/ exists x, In x sels' /\ In ev (own r t' x))) sub ->
       In ev (visit_selection_set S r t1 sub) ->
       exists t' sels', within S t1 sub t' sels' /\ (ev = ESelSet sels' t' \/ exists x, In x sels' /\ In ev (own r t' x))).
    { intros t1 sub Hall Hin. rewrite Forall_forall in Hall. unfold visit_selection_set in Hin. destruct Hin as [<-|Hin].
      - exists t1, sub. split; [constructor|auto].
      - apply in_flat_map in Hin as (x & Hx & Hin). apply Hall in Hin as [Hin|(t2 & sub2 & t' & sels' & H1 & H2 & H3)]; auto.
        + exists t1, sub. split; [constructor|]. right; eauto.
        + exists t', sels'. split; [eapply within_below; eauto|auto]. }
    induction s as [al n args ds sub IH|n ds|c ds sub IH] using selection_ind'; intros t Hin;
      apply visit_selection_In in Hin as [Hin|(t1 & sub1 & Hb & Hin)]; auto; right.
    - assert (sub1 = sub) by (inversion Hb; auto). subst sub1.
      apply Hset in Hin as (t' & sels' & H1 & H2); auto. exists t1, sub, t', sels'. auto.
    - inversion Hb.
    - assert (sub1 = sub) by (inversion Hb; auto). subst sub1.
      apply Hset in Hin as (t' & sels' & H1 & H2); auto. exists t1, sub, t', sels'. auto.
  Qed.

  Lemma visit_selection_set_In r t sels ev :
    In ev (visit_selection_set S r t sels) <->
    exists t' sels', within S t sels t' sels' /\ (ev = ESelSet sels' t' \/ exists s, In s sels' /\ In ev (own r t' s)).
  Proof.
    split.
    - unfold visit_selection_set. intros [<-|Hin].
      + exists t, sels. split; [constructor|auto].
      + apply in_flat_map in Hin as (s & Hs & Hin). apply visit_selection_set_sound in Hin as [Hin|(t1 & sub & t' & sels' & H1 & H2 & H3)].
        * exists t, sels. split; [constructor|]. right; eauto.
        * exists t', sels'. split; [eapply within_below; eauto|auto].
    - intros (t' & sels' & Hw & Hev).
      induction Hw as [t sels|t sels al n args ds sub fd t1 t' sels' Hin Hne Hf Hg Hw IH
                      |t sels ds sub t' sels' Hin Hw IH|t sels c ds sub t1 t' sels' Hin Hg Hw IH].
      + unfold visit_selection_set. destruct Hev as [->|(s & Hs & Hev)]; [left; auto|]. right.
        apply in_flat_map. exists s. split; auto. apply visit_selection_In. auto.
      + right. apply in_flat_map. eexists. split; [exact Hin|]. apply visit_selection_In. right.
        exists t1, sub. split; auto. econstructor; eauto.
      + right. apply in_flat_map. eexists. split; [exact Hin|]. apply visit_selection_In. right.
        exists t, sub. split; auto. constructor.
      + right. apply in_flat_map. eexists. split; [exact Hin|]. apply visit_selection_In. right.
        exists t1, sub. split; auto. constructor; auto.
  Qed.

  Variable d : document.

  Lemma op_root_name_type ty t :
    (exists n, op_root_name S ty = Some n /\ get_type S n = Some t) <-> root_type S ty t.
  Proof.
    destruct ty; cbn; [|tauto|tauto]. split; [intros (n & [= <-] & H)|]; eauto.
  Qed.

  (** calls made outside selection sets *)
  Definition op_own (i : nat) (o : operation) : list event :=
    EOp o :: var_directives S (ROp i) (op_dirs o) (op_location (op_type o)) ++
    visit_variable_definitions S (op_vars o).

  Lemma visit_In ev : ev <> EPanic ->
    (In ev (visit S d) <->
     (exists i o, nth_error (doc_ops d) i = Some o /\ In ev (op_own i o)) \/
     (exists i f, nth_error (doc_frags d) i = Some f /\
                  (In ev (var_directives S (RFrag i) (fr_dirs f) LFragmentDefinition) \/ ev = EFrag f)) \/
     (exists r t sels, set_at S d r t sels /\ (ev = ESelSet sels t \/ exists s, In s sels /\ In ev (own r t s)))).
  Proof.
    intros Hp. unfold visit. rewrite in_app_iff. split.
    - intros [H|H]; apply in_concat in H as (l & Hl & Hin); unfold mapi in Hl; apply mapi_from_In in Hl as (i & x & Hn & ->); cbn [Nat.add] in *.
      + unfold visit_operation in Hin. destruct Hin as [<-|Hin].
        { left. exists i, x. split; auto. left; auto. }
        rewrite !in_app_iff in Hin. destruct Hin as [Hin|[Hin|Hin]].
        * left. exists i, x. split; auto. right. rewrite in_app_iff; auto.
        * left. exists i, x. split; auto. right. rewrite in_app_iff; auto.
        * destruct (op_root_name S (op_type x)) as [n|] eqn:En; [|destruct Hin].
          destruct (get_type S n) as [t|] eqn:Eg; [|destruct Hin as [<-|[]]; congruence].
          apply visit_selection_set_In in Hin as (t' & sels' & Hw & Hev).
          right; right. exists (ROp i), t', sels'. split; auto. exists t, (op_sel x). split; auto.
          constructor; auto. apply op_root_name_type. eauto.
      + unfold visit_fragment in Hin. rewrite !in_app_iff in Hin. destruct Hin as [Hin|[Hin|[<-|[]]]].
        * destruct (get_type S (fr_cond x)) as [t|] eqn:Eg; [|destruct Hin].
          apply visit_selection_set_In in Hin as (t' & sels' & Hw & Hev).
          right; right. exists (RFrag i), t', sels'. split; auto. exists t, (fr_sel x). split; auto. constructor; auto.
        * right; left. eauto.
        * right; left. eauto.
    - assert (Hops : forall i o, nth_error (doc_ops d) i = Some o -> In ev (visit_operation S i o) ->
                In ev (concat (mapi (visit_operation S) (doc_ops d)))).
      { intros i o Hn Hin. apply in_concat. exists (visit_operation S i o). split; auto. unfold mapi. apply mapi_from_In. eauto. }
      assert (Hfrags : forall i o, nth_error (doc_frags d) i = Some o -> In ev (visit_fragment S i o) ->
                In ev (concat (mapi (visit_fragment S) (doc_frags d)))).
      { intros i o Hn Hin. apply in_concat. exists (visit_fragment S i o). split; auto. unfold mapi. apply mapi_from_In. eauto. }
      intros [(i & o & Hn & Hin)|[(i & f & Hn & Hin)|(r & t & sels & (t0 & sels0 & Htop & Hw) & Hev)]].
      + left. eapply Hops; eauto. unfold visit_operation. destruct Hin as [<-|Hin]; [left; auto|right].
        rewrite !in_app_iff in *. tauto.
      + right. eapply Hfrags; eauto. unfold visit_fragment. rewrite !in_app_iff. destruct Hin as [Hin| ->]; auto. right; right; left; auto.
      + inversion Htop; subst.
        * left. eapply Hops; eauto. right. rewrite !in_app_iff. right. right.
          match goal with K : root_type _ _ _ |- _ => apply op_root_name_type in K as (n & -> & ->) end.
          apply visit_selection_set_In. eauto.
        * right. eapply Hfrags; eauto. unfold visit_fragment. rewrite !in_app_iff. left.
          match goal with K : get_type _ _ = Some _ |- _ => rewrite K end. apply visit_selection_set_In. eauto.
  Qed.

  (** ** membership in the argument and directive calls *)
  Lemma var_args_In r args defs ev : In ev (var_args r args defs) <->
    exists a i, ev = EVarArg r a i /\ In a args /\ get_ivd defs (fst a) = Some i.
  Proof.
    unfold var_args. rewrite in_flat_map. split.
    - intros (a & Ha & Hin). destruct (get_ivd defs (fst a)) as [i|] eqn:E; [|destruct Hin].
      destruct Hin as [<-|[]]. eauto.
    - intros (a & i & -> & Ha & E). exists a. split; auto. rewrite E. left; auto.
  Qed.
  Lemma const_args_In args defs ev : In ev (const_args args defs) <->
    exists a i, ev = EConstArg a i /\ In a args /\ get_ivd defs (fst a) = Some i.
  Proof.
    unfold const_args. rewrite in_flat_map. split.
    - intros (a & Ha & Hin). destruct (get_ivd defs (fst a)) as [i|] eqn:E; [|destruct Hin].
      destruct Hin as [<-|[]]. eauto.
    - intros (a & i & -> & Ha & E). exists a. split; auto. rewrite E. left; auto.
  Qed.
  Lemma var_directives_In r ds loc ev : In ev (var_directives S r ds loc) <->
    (ds <> [] /\ ev = EVarDirectives ds loc) \/
    (exists x, In x ds /\ ev = EVarDirective x loc) \/
    (exists x dd a i, In x ds /\ get_ddef S (dir_name x) = Some dd /\ In a (dir_args x) /\
                      get_ivd (dd_args dd) (fst a) = Some i /\ ev = EVarArg r a i).
  Proof.
    unfold var_directives. destruct ds as [|x0 ds'].
    - split; [intros []|]. intros [[H _]|[(x & [] & _)|(x & dd & a & i & [] & _)]]. congruence.
    - set (ds := x0 :: ds'). cbn [In]. rewrite in_flat_map. split.
      + intros [<-|(x & Hx & Hin)]; [left; split; auto; subst ds; discriminate|]. unfold var_directive in Hin. destruct Hin as [<-|Hin]; [right; left; eauto|].
        destruct (get_ddef S (dir_name x)) as [dd|] eqn:E; [|destruct Hin].
        apply var_args_In in Hin as (a & i & -> & Ha & Hi). right; right. exists x, dd, a, i. auto.
      + intros [[_ ->]|[(x & Hx & ->)|(x & dd & a & i & Hx & E & Ha & Hi & ->)]]; auto; right; exists x; split; auto.
        * left; auto.
        * right. rewrite E. apply var_args_In. eauto.
  Qed.
  Lemma const_directives_In ds loc ev : In ev (const_directives S ds loc) <->
    (ds <> [] /\ ev = EConstDirectives ds loc) \/
    (exists x, In x ds /\ ev = EConstDirective x loc) \/
    (exists x dd a i, In x ds /\ get_ddef S (dir_name x) = Some dd /\ In a (dir_args x) /\
                      get_ivd (dd_args dd) (fst a) = Some i /\ ev = EConstArg a i).
  Proof.
    unfold const_directives. destruct ds as [|x0 ds'].
    - split; [intros []|]. intros [[H _]|[(x & [] & _)|(x & dd & a & i & [] & _)]]. congruence.
    - set (ds := x0 :: ds'). cbn [In]. rewrite in_flat_map. split.
      + intros [<-|(x & Hx & Hin)]; [left; split; auto; subst ds; discriminate|]. unfold const_directive in Hin. destruct Hin as [<-|Hin]; [right; left; eauto|].
        destruct (get_ddef S (dir_name x)) as [dd|] eqn:E; [|destruct Hin].
        apply const_args_In in Hin as (a & i & -> & Ha & Hi). right; right. exists x, dd, a, i. auto.
      + intros [[_ ->]|[(x & Hx & ->)|(x & dd & a & i & Hx & E & Ha & Hi & ->)]]; auto; right; exists x; split; auto.
        * left; auto.
        * right. rewrite E. apply const_args_In. eauto.
  Qed.
  Lemma visit_variable_definitions_In vs ev : In ev (visit_variable_definitions S vs) <->
    (vs <> [] /\ ev = EVarDefs vs) \/
    (exists v, In v vs /\ (ev = EVarDef v \/ In ev (const_directives S (vd_dirs v) LVariableDefinition))).
  Proof.
    unfold visit_variable_definitions. destruct vs as [|v0 vs'].
    - split; [intros []|]. intros [[H _]|(v & [] & _)]. congruence.
    - set (vs := v0 :: vs'). cbn [In]. rewrite in_flat_map. split.
      + intros [<-|(v & Hv & Hin)]; [left; split; auto; subst vs; discriminate|]. right. exists v. split; auto.
        apply in_app_iff in Hin as [Hin|[<-|[]]]; auto.
      + intros [[_ ->]|(v & Hv & [->|Hin])]; auto; right; exists v; split; auto; apply in_app_iff; auto. right; left; auto.
  Qed.

  Ltac dirs_case H :=
    rewrite ?var_directives_In, ?var_args_In, ?const_directives_In, ?visit_variable_definitions_In in H.

  (** [ev] is produced in a directive list at a place *)
  Lemma own_In r t s ev : In ev (own r t s) <->
    (exists al n args ds sub fd, s = SField al n args ds sub /\ has_field t n fd /\ ev = EField r al n args ds sub fd) \/
    (exists al n args ds sub fd a i, s = SField al n args ds sub /\ has_field t n fd /\
          In a args /\ get_ivd (fd_args fd) (fst a) = Some i /\ ev = EVarArg r a i) \/
    (exists al n args ds sub fd, s = SField al n args ds sub /\ has_field t n fd /\ In ev (var_directives S r ds LField)) \/
    (exists n ds, s = SSpread n ds /\ (ev = ESpread r n ds t \/ In ev (var_directives S r ds LFragmentSpread))) \/
    (exists c ds sub, s = SInline c ds sub /\ (ev = EInline c ds sub t \/ In ev (var_directives S r ds LInlineFragment))).
  Proof.
    destruct s as [al n args ds sub|n ds|c ds sub]; cbn [own].
    - unfold has_field. destruct (get_field (td_fields t) n) as [fd|] eqn:E.
      + cbn [In]. rewrite in_app_iff, var_args_In. split.
        * intros [<-|[H|(a & i & -> & Ha & Hi)]].
          -- left. do 6 eexists. eauto.
          -- right; right; left. do 6 eexists. eauto.
          -- right; left. do 8 eexists. repeat split; eauto.
        * intros [(al' & n' & args' & ds' & sub' & fd' & [= <- <- <- <- <-] & Hf & ->)
                 |[(al' & n' & args' & ds' & sub' & fd' & a & i & [= <- <- <- <- <-] & Hf & Ha & Hi & ->)
                 |[(al' & n' & args' & ds' & sub' & fd' & [= <- <- <- <- <-] & Hf & H)
                 |[(n' & ds' & H & _)|(c & ds' & sub' & H & _)]]]]; try discriminate;
            assert (fd' = fd) by congruence; subst fd'; auto. right; right; eauto.
      + split; [intros []|].
        intros [(al' & n' & args' & ds' & sub' & fd' & [= <- <- <- <- <-] & Hf & ->)
                 |[(al' & n' & args' & ds' & sub' & fd' & a & i & [= <- <- <- <- <-] & Hf & Ha & Hi & ->)
                 |[(al' & n' & args' & ds' & sub' & fd' & [= <- <- <- <- <-] & Hf & H)
                 |[(n' & ds' & H & _)|(c & ds' & sub' & H & _)]]]]; try discriminate; congruence.
    - rewrite in_app_iff. split.
      + intros [H|[<-|[]]]; right; right; right; left; eauto.
      + intros [(al' & n' & args' & ds' & sub' & fd' & H & _)
                 |[(al' & n' & args' & ds' & sub' & fd' & a & i & H & _)
                 |[(al' & n' & args' & ds' & sub' & fd' & H & _)
                 |[(n' & ds' & [= <- <-] & [->|H])|(c & ds' & sub' & H & _)]]]]; try discriminate; auto. right; left; auto.
    - rewrite in_app_iff. split.
      + intros [H|[<-|[]]]; right; right; right; right; eauto 6.
      + intros [(al' & n' & args' & ds' & sub' & fd' & H & _)
                 |[(al' & n' & args' & ds' & sub' & fd' & a & i & H & _)
                 |[(al' & n' & args' & ds' & sub' & fd' & H & _)
                 |[(n' & ds' & H & _)|(c' & ds' & sub' & [= <- <- <-] & [->|H])]]]]; try discriminate; auto. right; left; auto.
  Qed.

  (** Directive-list calls, wherever they come from. *)
  Lemma visit_dirs_In ev :
    ((exists r ds loc, directives_at S d r ds loc /\ In ev (var_directives S r ds loc)) \/
     (exists ds, const_directives_at d ds /\ In ev (const_directives S ds LVariableDefinition)) \/
     (exists o, In o (doc_ops d) /\ ev = EOp o) \/
     (exists o, In o (doc_ops d) /\ op_vars o <> [] /\ ev = EVarDefs (op_vars o)) \/
     (exists o v, In o (doc_ops d) /\ In v (op_vars o) /\ ev = EVarDef v) \/
     (exists f, In f (doc_frags d) /\ ev = EFrag f) \/
     (exists r t sels, set_at S d r t sels /\ ev = ESelSet sels t) \/
     (exists r t al n args ds sub fd, sel_at S d r t (SField al n args ds sub) /\ has_field t n fd /\ ev = EField r al n args ds sub fd) \/
     (exists r t al n args ds sub fd a i, sel_at S d r t (SField al n args ds sub) /\ has_field t n fd /\
        In a args /\ get_ivd (fd_args fd) (fst a) = Some i /\ ev = EVarArg r a i) \/
     (exists r t n ds, sel_at S d r t (SSpread n ds) /\ ev = ESpread r n ds t) \/
     (exists r t c ds sub, sel_at S d r t (SInline c ds sub) /\ ev = EInline c ds sub t)) <->
    In ev (visit S d) /\ ev <> EPanic.
  Proof.
    assert (Hne : forall r ds loc, In EPanic (var_directives S r ds loc) -> False).
    { intros r ds loc H. apply var_directives_In in H as [[_ H]|[(x & _ & H)|(x & dd & a & i & _ & _ & _ & _ & H)]]; discriminate. }
    assert (Hne2 : forall ds loc, In EPanic (const_directives S ds loc) -> False).
    { intros ds loc H. apply const_directives_In in H as [[_ H]|[(x & _ & H)|(x & dd & a & i & _ & _ & _ & _ & H)]]; discriminate. }
    split.
    - intros H.
      assert (Hp : ev <> EPanic).
      { intros ->. repeat match goal with
          | K : _ \/ _ |- _ => destruct K as [K|K]
          | K : exists _, _ |- _ => destruct K as [? K]
          | K : _ /\ _ |- _ => destruct K as [? K]
          end; try discriminate; eauto. }
      split; auto. apply visit_In; auto.
      destruct H as [(r & ds & loc & Hd & Hin)|[(ds & (Hnn & o & v & Ho & Hv & <-) & Hin)|[(o & Ho & ->)|[(o & Ho & Hv & ->)
        |[(o & v & Ho & Hv & ->)|[(f & Hf & ->)|[(r & t & sels & Hs & ->)|[(r & t & al & n & args & ds & sub & fd & (sels & Hs & Hin) & Hf & ->)
        |[(r & t & al & n & args & ds & sub & fd & a & i & (sels & Hs & Hin) & Hf & Ha & Hi & ->)
        |[(r & t & n & ds & (sels & Hs & Hin) & ->)|(r & t & c & ds & sub & (sels & Hs & Hin) & ->)]]]]]]]]]].
      + inversion Hd as [i o Hn Hd1 E1 E2|i f Hn Hd1|r0 t al n args ds0 sub fd (sels & Hs & Hsel) Hf Hd1|r0 t n ds0 (sels & Hs & Hsel) Hd1|r0 t c ds0 sub (sels & Hs & Hsel) Hd1]; subst.
        * left. exists i, o. split; auto. right. apply in_app_iff. left. exact Hin.
        * right; left. eauto.
        * right; right. exists r, t, sels. split; auto. right. eexists. split; [exact Hsel|]. apply own_In.
          right; right; left. do 6 eexists. eauto.
        * right; right. exists r, t, sels. split; auto. right. eexists. split; [exact Hsel|]. apply own_In.
          right; right; right; left. eauto.
        * right; right. exists r, t, sels. split; auto. right. eexists. split; [exact Hsel|]. apply own_In.
          right; right; right; right. do 3 eexists. eauto.
      + left. apply In_nth_error in Ho as (i & Hi). exists i, o. split; auto. right. apply in_app_iff. right.
        apply visit_variable_definitions_In. right. eauto.
      + left. apply In_nth_error in Ho as (i & Hi). exists i, o. split; auto. left; auto.
      + left. apply In_nth_error in Ho as (i & Hi). exists i, o. split; auto. right. apply in_app_iff. right.
        apply visit_variable_definitions_In. auto.
      + left. apply In_nth_error in Ho as (i & Hi). exists i, o. split; auto. right. apply in_app_iff. right.
        apply visit_variable_definitions_In. right; eauto.
      + right; left. apply In_nth_error in Hf as (i & Hi). eauto.
      + right; right. eauto 8.
      + right; right. exists r, t, sels. split; auto. right. eexists. split; [exact Hin|]. apply own_In. left. do 6 eexists; eauto.
      + right; right. exists r, t, sels. split; auto. right. eexists. split; [exact Hin|]. apply own_In. right; left. do 8 eexists; repeat split; eauto.
      + right; right. exists r, t, sels. split; auto. right. eexists. split; [exact Hin|]. apply own_In. right; right; right; left; eauto.
      + right; right. exists r, t, sels. split; auto. right. eexists. split; [exact Hin|]. apply own_In. right; right; right; right; eauto 6.
    - intros [H Hp]. apply visit_In in H; auto.
      destruct H as [(i & o & Hn & [<-|Hin])|[(i & f & Hn & [Hin| ->])|(r & t & sels & Hs & [->|(s & Hsel & Hin)])]].
      + do 2 right; left. exists o. split; auto. eapply nth_error_In; eauto.
      + apply in_app_iff in Hin as [Hin|Hin].
        * left. exists (ROp i), (op_dirs o), (op_location (op_type o)). split; auto.
          assert (Hnn : op_dirs o <> []) by (intros E; rewrite E in Hin; destruct Hin).
          apply (dirs_op S d i o Hn Hnn).
        * apply visit_variable_definitions_In in Hin as [[Hv ->]|(v & Hv & [->|Hin])].
          -- do 3 right; left. exists o. split; [eapply nth_error_In; eauto|auto].
          -- do 4 right; left. exists o, v. split; [eapply nth_error_In; eauto|auto].
          -- right; left. exists (vd_dirs v). split; auto. split.
             ++ intros E; rewrite E in Hin; destruct Hin.
             ++ exists o, v. split; [eapply nth_error_In; eauto|auto].
      + left. exists (RFrag i), (fr_dirs f), LFragmentDefinition. split; auto. constructor; auto.
        intros E; rewrite E in Hin; destruct Hin.
      + do 5 right; left. exists f. split; auto. eapply nth_error_In; eauto.
      + do 6 right; left. eauto.
      + assert (Hat : sel_at S d r t s) by (exists sels; auto).
        apply own_In in Hin as [(al & n & args & ds & sub & fd & -> & Hf & ->)
           |[(al & n & args & ds & sub & fd & a & i & -> & Hf & Ha & Hi & ->)
           |[(al & n & args & ds & sub & fd & -> & Hf & Hin)
           |[(n & ds & -> & [->|Hin])|(c & ds & sub & -> & [->|Hin])]]]].
        * do 7 right; left. do 8 eexists. eauto.
        * do 8 right; left. do 10 eexists. repeat split; eauto.
        * left. exists r, ds, LField. split; auto. econstructor; eauto. intros E; rewrite E in Hin; destruct Hin.
        * do 9 right; left. do 4 eexists. eauto.
        * left. exists r, ds, LFragmentSpread. split; auto. econstructor; eauto. intros E; rewrite E in Hin; destruct Hin.
        * do 10 right. do 5 eexists. eauto.
        * left. exists r, ds, LInlineFragment. split; auto. econstructor; eauto. intros E; rewrite E in Hin; destruct Hin.
  Qed.

  (** ** One lemma per kind of call. *)
  Ltac solve_ev :=
    match goal with |- In ?ev _ <-> _ =>
      split;
      [ intros Hev; assert (Hp : ev <> EPanic) by (clear; discriminate); pose proof (proj2 (visit_dirs_In ev) (conj Hev Hp)) as Hx; clear Hev Hp;
        repeat match goal with
          | K : _ \/ _ |- _ => destruct K as [K|K]
          | K : exists _, _ |- _ => destruct K as [? K]
          | K : _ /\ _ |- _ => destruct K as [? K]
          | K : In _ (var_directives _ _ _ _) |- _ => apply var_directives_In in K
          | K : In _ (const_directives _ _ _) |- _ => apply const_directives_In in K
          end; try discriminate
      | intros Hx; apply (proj1 (visit_dirs_In ev)) ]
    end.

  Lemma visit_EOp o : In (EOp o) (visit S d) <-> In o (doc_ops d).
  Proof. solve_ev. - congruence. - do 2 right; left. eauto. Qed.
  Lemma visit_EFrag f : In (EFrag f) (visit S d) <-> In f (doc_frags d).
  Proof. solve_ev. - congruence. - do 5 right; left. eauto. Qed.
  Lemma visit_EVarDefs vs : In (EVarDefs vs) (visit S d) <-> vs <> [] /\ exists o, In o (doc_ops d) /\ op_vars o = vs.
  Proof.
    solve_ev.
    - match goal with K : EVarDefs _ = EVarDefs _ |- _ => injection K as -> end. eauto.
    - destruct Hx as (H & o & Ho & <-). do 3 right; left. eauto.
  Qed.
  Lemma visit_EVarDef v : In (EVarDef v) (visit S d) <-> exists o, In o (doc_ops d) /\ In v (op_vars o).
  Proof.
    solve_ev.
    - match goal with K : EVarDef _ = EVarDef _ |- _ => injection K as -> end. eauto.
    - destruct Hx as (o & Ho & Hv). do 4 right; left. eauto.
  Qed.
  Lemma visit_ESelSet sels t : In (ESelSet sels t) (visit S d) <-> exists r, set_at S d r t sels.
  Proof.
    solve_ev.
    - match goal with K : ESelSet _ _ = ESelSet _ _ |- _ => injection K as -> -> end. eauto.
    - destruct Hx as (r & Hr). do 6 right; left. eauto.
  Qed.
  Lemma visit_EField r al n args ds sub fd : In (EField r al n args ds sub fd) (visit S d) <->
    exists t, sel_at S d r t (SField al n args ds sub) /\ has_field t n fd.
  Proof.
    solve_ev.
    - match goal with K : EField _ _ _ _ _ _ _ = _ |- _ => injection K as -> -> -> -> -> -> -> end. eauto.
    - destruct Hx as (t & H1 & H2). do 7 right; left. do 8 eexists. eauto.
  Qed.
  Lemma visit_ESpread r n ds t : In (ESpread r n ds t) (visit S d) <-> sel_at S d r t (SSpread n ds).
  Proof.
    solve_ev.
    - match goal with K : ESpread _ _ _ _ = _ |- _ => injection K as -> -> -> -> end. eauto.
    - do 9 right; left. do 4 eexists. eauto.
  Qed.
  Lemma visit_EInline c ds sub t : In (EInline c ds sub t) (visit S d) <-> exists r, sel_at S d r t (SInline c ds sub).
  Proof.
    solve_ev.
    - match goal with K : EInline _ _ _ _ = _ |- _ => injection K as -> -> -> -> end. eauto.
    - destruct Hx as (r & Hr). do 10 right. do 5 eexists. eauto.
  Qed.
  Lemma visit_EVarDirectives ds loc : In (EVarDirectives ds loc) (visit S d) <-> exists r, directives_at S d r ds loc.
  Proof.
    solve_ev.
    - match goal with K : EVarDirectives _ _ = _ |- _ => injection K as -> -> end. eauto.
    - destruct Hx as (r & Hr). left. exists r, ds, loc. split; auto. apply var_directives_In. left. split; auto.
      inversion Hr; auto.
  Qed.
  Lemma visit_EConstDirectives ds loc : In (EConstDirectives ds loc) (visit S d) <-> const_directives_at d ds /\ loc = LVariableDefinition.
  Proof.
    solve_ev.
    - match goal with K : EConstDirectives _ _ = _ |- _ => injection K as -> -> end. eauto.
    - destruct Hx as (Hr & ->). right; left. exists ds. split; auto. apply const_directives_In. left. split; auto. apply Hr.
  Qed.
  Lemma visit_EVarDirective x loc : In (EVarDirective x loc) (visit S d) <-> exists r ds, directives_at S d r ds loc /\ In x ds.
  Proof.
    solve_ev.
    - match goal with K : EVarDirective _ _ = _ |- _ => injection K as -> -> end. eauto.
    - destruct Hx as (r & ds & Hr & Hin). left. exists r, ds, loc. split; auto. apply var_directives_In. eauto.
  Qed.
  Lemma visit_EConstDirective x loc : In (EConstDirective x loc) (visit S d) <->
    exists ds, const_directives_at d ds /\ In x ds /\ loc = LVariableDefinition.
  Proof.
    solve_ev.
    - match goal with K : EConstDirective _ _ = _ |- _ => injection K as -> -> end. eauto.
    - destruct Hx as (ds & Hr & Hin & ->). right; left. exists ds. split; auto. apply const_directives_In. eauto.
  Qed.
  Lemma visit_EVarArg r a i : In (EVarArg r a i) (visit S d) <-> argument_at S d r a i.
  Proof.
    solve_ev.
    - match goal with K : EVarArg _ _ _ = _ |- _ => injection K as -> -> -> end. eapply arg_directive; eauto.
    - match goal with K : EVarArg _ _ _ = _ |- _ => injection K as -> -> -> end. eapply arg_field; eauto.
    - inversion Hx; subst.
      + do 8 right; left. do 10 eexists. repeat split; eauto.
      + left. do 3 eexists. split; [eauto|]. apply var_directives_In. right; right. do 4 eexists. eauto 8.
  Qed.
  Lemma visit_EConstArg a i : In (EConstArg a i) (visit S d) <-> const_argument_at S d a i.
  Proof.
    solve_ev.
    - match goal with K : EConstArg _ _ = _ |- _ => injection K as -> -> end. unfold const_argument_at. do 3 eexists. eauto 8.
    - destruct Hx as (ds & x & dd & H1 & H2 & H3 & H4 & H5). right; left. exists ds. split; auto.
      apply const_directives_In. right; right. do 4 eexists. eauto 8.
  Qed.

  (** no panic if the schema's root types exist *)
  Lemma visit_no_panic : (forall ty n, op_root_name S ty = Some n -> get_type S n <> None) -> ~ In EPanic (visit S d).
  Proof.
    intros Hr H. unfold visit in H. apply in_app_iff in H as [H|H]; apply in_concat in H as (l & Hl & Hin);
      unfold mapi in Hl; apply mapi_from_In in Hl as (i & x & Hn & ->); cbn [Nat.add] in *.
    - destruct Hin as [H|Hin]; [discriminate|]. rewrite !in_app_iff in Hin. destruct Hin as [Hin|[Hin|Hin]].
      + apply var_directives_In in Hin as [[_ H]|[(y & _ & H)|(y & dd & a & j & _ & _ & _ & _ & H)]]; discriminate.
      + apply visit_variable_definitions_In in Hin as [[_ H]|(v & _ & [H|Hin])]; try discriminate.
        apply const_directives_In in Hin as [[_ H]|[(y & _ & H)|(y & dd & a & j & _ & _ & _ & _ & H)]]; discriminate.
      + destruct (op_root_name S (op_type x)) as [n|] eqn:En; [|destruct Hin]. specialize (Hr _ _ En).
        destruct (get_type S n) as [t|]; [|congruence].
        apply visit_selection_set_In in Hin as (t' & sels' & _ & [H|(s & _ & Hin)]); [discriminate|].
        apply own_In in Hin as [(al & n' & args & ds & sub & fd & -> & Hf & H)
           |[(al & n' & args & ds & sub & fd & a & j & -> & Hf & Ha & Hi & H)
           |[(al & n' & args & ds & sub & fd & -> & Hf & Hin)
           |[(n' & ds & -> & [H|Hin])|(c & ds & sub & -> & [H|Hin])]]]]; try discriminate;
        apply var_directives_In in Hin as [[_ H]|[(y & _ & H)|(y & dd & a & j & _ & _ & _ & _ & H)]]; discriminate.
    - unfold visit_fragment in Hin. rewrite !in_app_iff in Hin. destruct Hin as [Hin|[Hin|[H|[]]]]; try discriminate.
      + destruct (get_type S (fr_cond x)) as [t|]; [|destruct Hin].
        apply visit_selection_set_In in Hin as (t' & sels' & _ & [H|(s & _ & Hin)]); [discriminate|].
        apply own_In in Hin as [(al & n' & args & ds & sub & fd & -> & Hf & H)
           |[(al & n' & args & ds & sub & fd & a & j & -> & Hf & Ha & Hi & H)
           |[(al & n' & args & ds & sub & fd & -> & Hf & Hin)
           |[(n' & ds & -> & [H|Hin])|(c & ds & sub & -> & [H|Hin])]]]]; try discriminate;
        apply var_directives_In in Hin as [[_ H]|[(y & _ & H)|(y & dd & a & j & _ & _ & _ & _ & H)]]; discriminate.
      + apply var_directives_In in Hin as [[_ H]|[(y & _ & H)|(y & dd & a & j & _ & _ & _ & _ & H)]]; discriminate.
  Qed.
End Visit.
