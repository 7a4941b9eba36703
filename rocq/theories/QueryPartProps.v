(** An operation that asks for less never costs more: leaving out selections makes no analysis find more (C85). *)
From Coq Require Import Permutation.
From Verif Require Import Base Ast Graph Maps Doc DocSpec DocRules DocRulesSpec DocVariablesSpec FragmentsSpec FragmentCyclesProofs
  CoercionTypes Coercion Operation OperationSpec OperationProofs OperationValuesProofs OperationProps DeprecationProps Complexity ComplexitySpec ComplexityProofs
  ComplexityProps ComplexityCases Examples.
Local Open Scope string_scope.
Local Open Scope list_scope.

(** * Asking for less *)
(** [part s s']: [s] is [s'] without some of the selections below it. *)
Inductive part : selection -> selection -> Prop :=
| pt_field al n args ds sub sub' : (forall s, In s sub -> exists s', In s' sub' /\ part s s') ->
    part (SField al n args ds sub) (SField al n args ds sub')
| pt_inline c ds sub sub' : (forall s, In s sub -> exists s', In s' sub' /\ part s s') -> part (SInline c ds sub) (SInline c ds sub')
| pt_spread n ds : part (SSpread n ds) (SSpread n ds).
(** every selection is (part of) a selection of the other set; the order does not matter, nor does how often it is written *)
Definition parts (sels sels' : list selection) : Prop := forall s, In s sels -> exists s', In s' sels' /\ part s s'.
(** The operation [o] of the document [d] asks for part of what [o'] of [d'] asks for: selections are left out in the
    operation or in fragments; fragments which are not needed any more may be left out as well. *)
Record asks_less (d : document) (o : operation) (d' : document) (o' : operation) : Prop := {
  al_type : op_type o = op_type o';
  al_vars : op_vars o = op_vars o';
  al_dirs : incl (op_dirs o) (op_dirs o');
  al_sel : parts (op_sel o) (op_sel o');
  al_frags : forall n f, defines d n f -> exists f', defines d' n f' /\ fr_cond f' = fr_cond f /\ parts (fr_sel f) (fr_sel f') }.

Section Less.
  Variable S : schema.
  Variables d d' : document.
  Variables o o' : operation.
  Hypothesis L : asks_less d o d' o'.

  Lemma reaches_more p t sels : reaches S d o p t sels -> exists sels', reaches S d' o' p t sels' /\ parts sels sels'.
  Proof using L.
    induction 1 as [t Hr|p t sels al n args ds sub fd t1 H (sels' & H' & P) Hi Hf Hn Ht|p t sels ds sub H (sels' & H' & P) Hi
      |p t sels c ds sub t1 H (sels' & H' & P) Hi Ht|p t sels n ds f t1 H (sels' & H' & P) Hi Hd Ht].
    - exists (op_sel o'). split; [apply r_root; rewrite <- (al_type _ _ _ _ L); auto|apply (al_sel _ _ _ _ L)].
    - destruct (P _ Hi) as (s' & Hi' & Hp). inversion Hp as [? ? ? ? ? sub' Hs| |]; subst. exists sub'. split; auto. eapply r_field; eauto.
      intros ->. destruct sub as [|s sub]; [auto|]. destruct (Hs s (or_introl eq_refl)) as (? & [] & _).
    - destruct (P _ Hi) as (s' & Hi' & Hp). inversion Hp as [|? ? ? sub' Hs|]; subst. exists sub'. split; auto. eapply r_inline; eauto.
    - destruct (P _ Hi) as (s' & Hi' & Hp). inversion Hp as [|? ? ? sub' Hs|]; subst. exists sub'. split; auto. eapply r_inline_on; eauto.
    - destruct (P _ Hi) as (s' & Hi' & Hp). inversion Hp; subst. destruct (al_frags _ _ _ _ L _ _ Hd) as (f' & Hd' & Ec & Hs).
      exists (fr_sel f'). split; auto. eapply r_spread; eauto. rewrite Ec. auto.
  Qed.
  Lemma selected_more p t s : selected S d o p t s -> exists s', selected S d' o' p t s' /\ part s s'.
  Proof using L.
    intros (sels & Hr & Hi). destruct (reaches_more _ _ _ Hr) as (sels' & Hr' & P). destruct (P _ Hi) as (s' & Hi' & Hp).
    exists s'. split; auto. exists sels'. auto.
  Qed.
  Lemma argument_more dss a i : argument_used S d o dss a i -> argument_used S d' o' dss a i.
  Proof using L.
    intros H. inversion H as [p t al n args ds sub fd a' i' A B C D|p t s x dd a' i' A B C D E F|x dd a' i' A B C D]; subst.
    - destruct (selected_more _ _ _ A) as (s' & A' & Hp). inversion Hp; subst. eapply au_field; eauto.
    - destruct (selected_more _ _ _ A) as (s' & A' & Hp).
      assert (Es : sel_dirs s = sel_dirs s') by (inversion Hp; reflexivity). rewrite Es in *. eapply au_dir; eauto.
      intros al n args ds sub ->. inversion Hp; subst. eapply B; eauto.
    - eapply au_op; eauto. apply (al_dirs _ _ _ _ L). auto.
  Qed.

  Variable vals : list (name * value).
  Lemma included_same ds : selection_included o vals ds = selection_included o' vals ds.
  Proof using L. unfold selection_included, directive_bool, evaluate_bool. rewrite (al_vars _ _ _ _ L). reflexivity. Qed.
  Lemma all_included_same p : all_included o vals p = all_included o' vals p.
  Proof using L. unfold all_included. induction p as [|x p IH]; cbn [forallb]; auto. rewrite included_same, IH. reflexivity. Qed.

  Notation calls := (ovisit_operation S d o vals).
  Notation calls' := (ovisit_operation S d' o' vals).
  Lemma arg_more a i : In (OArg a i) calls -> In (OArg a i) calls'.
  Proof using L. rewrite !argument_used_iff. intros (dss & H). exists dss. apply argument_more; auto. Qed.
  Lemma enter_more al n args ds sub fd t b : In (OEnter al n args ds sub fd t b) calls -> exists sub', In (OEnter al n args ds sub' fd t b) calls'.
  Proof using L.
    rewrite enter_iff. intros (p & A & B & C & D). destruct (selected_more _ _ _ A) as (s' & A' & Hp). inversion Hp; subst.
    eexists. rewrite enter_iff. exists p. split; [exact A'|]. rewrite all_included_same. auto.
  Qed.
  Lemma depth_more : query_depth calls <= query_depth calls'.
  Proof using L.
    destruct (query_depth_spec S d o vals) as (_ & [E|H]); [rewrite E; lia|]. apply (proj1 (query_depth_spec S d' o' vals)).
    destruct H as (p & t & al & n & args & ds & sub & fd & A & B & C & D & E). destruct (selected_more _ _ _ A) as (s' & A' & Hp). inversion Hp; subst.
    rewrite all_included_same in D. unfold depth_at. eauto 15.
  Qed.
  Lemma sizes_more mx : incl (input_size_offenders mx vals (op_vars o) calls) (input_size_offenders mx vals (op_vars o') calls').
  Proof using L.
    intros x Hx. unfold input_size_offenders in *. rewrite <- (al_vars _ _ _ _ L). apply in_flat_map in Hx as (ev & Hev & Hx). apply in_flat_map.
    destruct ev; try (destruct Hx; fail). eexists. split; [apply arg_more; eauto|exact Hx].
  Qed.
  Lemma deprecations_more strings : incl (deprecations S vals strings calls) (deprecations S vals strings calls').
  Proof using L.
    intros x Hx. unfold deprecations in *. apply in_flat_map in Hx as (ev & Hev & Hx). apply in_flat_map. destruct ev; try (destruct Hx; fail).
    all: try (eexists; split; [apply arg_more; eauto|exact Hx]).
    all: try (apply enter_more in Hev as (sub' & Hev); eexists; split; [exact Hev|exact Hx]).
    apply vardef_iff in Hev. rewrite (al_vars _ _ _ _ L) in Hev. eexists. split; [apply vardef_iff; eauto|exact Hx].
  Qed.

  (** ** complexity *)
  Variable M : Type.
  Variable mdefault : M.
  Variable multiplier_for : M -> selection -> N.
  Variable cost_of : fdef -> N.
  Variable multipliers_of : fdef -> selection -> M.
  Hypothesis mf_ignores : forall m al n args ds sub, multiplier_for m (SField al n args ds sub) = multiplier_for m (SField al n args ds []).
  Hypothesis mo_ignores : forall fd al n args ds sub, multipliers_of fd (SField al n args ds sub) = multipliers_of fd (SField al n args ds []).
  Notation root := (root_node S d o (keeps o vals) M mdefault multiplier_for).
  Notation root' := (root_node S d' o' (keeps o' vals) M mdefault multiplier_for).
  Notation child := (child_node S d (keeps o vals) M multiplier_for multipliers_of).
  Notation child' := (child_node S d' (keeps o' vals) M multiplier_for multipliers_of).
  (** [x] is [x'] with less selected below *)
  Definition less (x x' : node) : Prop :=
    nd_alias x = nd_alias x' /\ nd_name x = nd_name x' /\ nd_args x = nd_args x' /\ nd_dirs x = nd_dirs x' /\ parts (nd_sub x) (nd_sub x') /\
    nd_def x = nd_def x' /\ nd_type x = nd_type x' /\ nd_outer x = nd_outer x' /\ nd_active x = nd_active x' /\ nd_mult x = nd_mult x'.

  Lemma in_set_more act t ts sels act' t' ts' f : in_set S d (keeps o vals) act t ts sels act' t' ts' f -> forall sels', parts sels sels' ->
    exists f', in_set S d' (keeps o' vals) act t ts sels' act' t' ts' f' /\ part f f'.
  Proof using L.
    assert (K : forall ds, keeps o vals ds -> keeps o' vals ds) by (intros ds; unfold keeps; rewrite included_same; auto).
    induction 1 as [act t ts sels al n args ds sub Hi Hk|act t ts sels ds sub act' t' ts' f Hi Hk Hin IH
      |act t ts sels c ds sub t1 act' t' ts' f Hi Hk Ht Hin IH|act t ts sels n ds fr t1 act' t' ts' f Hi Hk Hn Hd Ht Hin IH]; intros sels' P;
      destruct (P _ Hi) as (s' & Hi' & Hp); inversion Hp as [? ? ? ? ? sub' Hs|? ? ? sub' Hs|]; subst.
    - eexists. split; [apply is_field; eauto|exact Hp].
    - destruct (IH sub' Hs) as (f' & A & B). exists f'. split; auto. eapply is_inline; eauto.
    - destruct (IH sub' Hs) as (f' & A & B). exists f'. split; auto. eapply is_inline_on; eauto.
    - destruct (al_frags _ _ _ _ L _ _ Hd) as (g & Hd' & Ec & Hs). destruct (IH _ Hs) as (f' & A & B). exists f'. split; auto.
      eapply is_spread; eauto. rewrite Ec. auto.
  Qed.
  Lemma set_more m act t sels x sels' : set_node S d (keeps o vals) M multiplier_for m act t sels x -> parts sels sels' ->
    exists x', set_node S d' (keeps o' vals) M multiplier_for m act t sels' x' /\ less x x'.
  Proof using L mf_ignores.
    intros (Hin & Hf & Hm) P. destruct (in_set_more _ _ _ _ _ _ _ _ Hin _ P) as (f' & A & B). unfold nd_field in B. inversion B as [? ? ? ? ? sub' Hs| |]; subst.
    exists {| nd_alias := nd_alias x; nd_name := nd_name x; nd_args := nd_args x; nd_dirs := nd_dirs x; nd_sub := sub'; nd_def := nd_def x;
              nd_type := nd_type x; nd_outer := nd_outer x; nd_active := nd_active x; nd_mult := nd_mult x |}.
    split; [|unfold less; cbn; repeat split; auto]. split; [exact A|]. split; [exact Hf|]. cbn [nd_mult]. rewrite Hm. unfold nd_field. cbn.
    rewrite mf_ignores, (mf_ignores _ _ _ _ _ sub'). reflexivity.
  Qed.
  Lemma less_multipliers x x' : less x x' -> multipliers_of (nd_def x) (nd_field x) = multipliers_of (nd_def x') (nd_field x').
  Proof using mo_ignores.
    intros (A & B & C & D & _ & E & _). unfold nd_field. rewrite mo_ignores, (mo_ignores _ _ _ _ _ (nd_sub x')). congruence.
  Qed.
  Lemma less_multiplier x x' m : less x x' -> multiplier_for m (nd_field x) = multiplier_for m (nd_field x').
  Proof using mf_ignores.
    intros (A & B & C & D & _). unfold nd_field. rewrite mf_ignores, (mf_ignores _ _ _ _ _ (nd_sub x')). congruence.
  Qed.
  Lemma root_more x : root x -> exists x', root' x' /\ less x x'.
  Proof using L mf_ignores.
    intros (t & Hr & Hs). rewrite (al_type _ _ _ _ L) in Hr. destruct (set_more _ _ _ _ _ _ Hs (al_sel _ _ _ _ L)) as (x' & A & B). exists x'. split; auto. exists t. auto.
  Qed.
  Lemma child_more x x' y : less x x' -> child x y -> exists y', child' x' y' /\ less y y'.
  Proof using L mf_ignores mo_ignores.
    intros Hl (t & Ht & Hs). rewrite (less_multipliers _ _ Hl) in Hs. destruct Hl as (_ & _ & _ & _ & Hp & E & _ & _ & Ea & _).
    rewrite Ea in Hs. destruct (set_more _ _ _ _ _ _ Hs Hp) as (y' & A & B). exists y'. split; auto. exists t. split; [rewrite <- E; auto|exact A].
  Qed.
  Lemma less_key x x' : less x x' -> nd_key x = nd_key x'.
  Proof using. intros (A & B & _). unfold nd_key. rewrite A, B. reflexivity. Qed.
  Lemma same_more x y : same_scope S d o (keeps o vals) M mdefault multiplier_for multipliers_of x y ->
    exists x' y', same_scope S d' o' (keeps o' vals) M mdefault multiplier_for multipliers_of x' y' /\ less x x' /\ less y y'.
  Proof using L mf_ignores mo_ignores.
    induction 1 as [x y Hx Hy Et Ek|x y x1 y1 Hs (x' & y' & A & B & C) Hx Hy Et Ek].
    - destruct (root_more _ Hx) as (x' & A & B), (root_more _ Hy) as (y' & C & D). exists x', y'. split; auto.
      apply ss_root; auto; [|rewrite <- (less_key _ _ B), <- (less_key _ _ D); auto].
      destruct B as (_ & _ & _ & _ & _ & _ & <- & _), D as (_ & _ & _ & _ & _ & _ & <- & _). auto.
    - destruct (child_more _ _ _ B Hx) as (x1' & D & E), (child_more _ _ _ C Hy) as (y1' & F & G).
      exists x1', y1'. split; auto. eapply ss_child; eauto; [|rewrite <- (less_key _ _ E), <- (less_key _ _ G); auto].
      destruct E as (_ & _ & _ & _ & _ & _ & <- & _), G as (_ & _ & _ & _ & _ & _ & <- & _). auto.
  Qed.
  Lemma op_more x : op_node S d o (keeps o vals) M mdefault multiplier_for multipliers_of x ->
    exists x', op_node S d' o' (keeps o' vals) M mdefault multiplier_for multipliers_of x' /\ less x x'.
  Proof using L mf_ignores mo_ignores.
    induction 1 as [x Hx|x y Hx (x' & A & B) Hc].
    - destruct (root_more _ Hx) as (x' & A & B). exists x'. split; auto. apply on_root; auto.
    - destruct (child_more _ _ _ B Hc) as (y' & C & D). exists y'. split; auto. eapply on_child; eauto.
  Qed.

  Lemma complexity_more :
    consistent_multipliers S d' o' (keeps o' vals) M mdefault multiplier_for multipliers_of ->
    leaves_have_no_selections S d' o' (keeps o' vals) M mdefault multiplier_for cost_of multipliers_of ->
    exists n n', complexity S M mdefault multiplier_for cost_of multipliers_of calls = CCost n /\
      complexity S M mdefault multiplier_for cost_of multipliers_of calls' = CCost n' /\ (n <= n')%N.
  Proof using L mf_ignores mo_ignores.
    intros HC HL.
    destruct (complexity_ok S d' o' vals M mdefault multiplier_for cost_of multipliers_of HC HL) as (n' & E' & _ & _ & W).
    destruct (complexity_ok S d o vals M mdefault multiplier_for cost_of multipliers_of) as (n & E & P & _).
    - intros x y Hs. destruct (same_more _ _ Hs) as (x' & y' & A & B & C). destruct (HC _ _ A) as (D & F).
      rewrite (less_multipliers _ _ B), (less_multipliers _ _ C). split; auto. intros m. rewrite (less_multiplier _ _ m B), (less_multiplier _ _ m C). auto.
    - intros x y Hx Hn Hc. destruct (op_more _ Hx) as (x' & A & B). destruct (child_more _ _ _ B Hc) as (y' & C & _). apply (HL _ _ A) in C; auto.
      intros Hc'. apply Hn. unfold counted in *. destruct B as (_ & _ & _ & _ & _ & -> & _). auto.
    - exists n, n'. split; auto. split; auto. apply (W d (keeps o vals) less (allowed_by_innermost S) root n); auto.
      + split.
        * intros x x' H. split; [apply less_key; auto|]. destruct H as (_ & _ & _ & _ & _ & A & B & _ & _ & C). auto.
        * intros x x' y Hl Hc. destruct (child_more _ _ _ Hl Hc) as (y' & A & B). eauto.
      + intros x Hx. destruct (root_more _ Hx) as (x' & A & B). eauto.
  Qed.
End Less.

(** * C85 *)
(** Leave out any selections of an operation, at any depth, or of the fragments it uses. Whatever the schema, the fragments
    (cyclic ones too) and the variable values, and whether or not the document is valid: the depth does not grow; each list
    reported as too long, and each deprecated use reported, is reported for the whole operation as well; the number of fields
    (complexity with the default costs) does not grow; the errors about variable values are the same. *)
Theorem c85_analyses :
  forall (S : schema) (d d' : document) (o o' : operation) (vals : list (name * value)), asks_less d o d' o' ->
    let calls := ovisit_operation S d o vals in
    let calls' := ovisit_operation S d' o' vals in
    query_depth calls <= query_depth calls' /\
    (forall mx, incl (input_size_offenders mx vals (op_vars o) calls) (input_size_offenders mx vals (op_vars o') calls')) /\
    (forall strings, incl (deprecations S vals strings calls) (deprecations S vals strings calls')) /\
    (forall hook str_enum one_of,
       variable_value_errors S hook str_enum one_of vals calls = variable_value_errors S hook str_enum one_of vals calls') /\
    (exists n n', default_complexity S calls = CCost n /\ default_complexity S calls' = CCost n' /\ (n <= n')%N).
Proof.
  intros S d d' o o' vals L calls calls'. split; [apply depth_more; auto|]. split; [intros mx; apply sizes_more; auto|].
  split; [intros strings; apply deprecations_more; auto|]. split.
  - intros hook str_enum one_of. unfold variable_value_errors, calls, calls'. rewrite !fold_vardefs, (al_vars _ _ _ _ L). reflexivity.
  - apply (complexity_more S d d' o o' L vals unit tt (fun _ _ => 1%N) (fun _ => 1%N) (fun _ _ => tt)); auto.
    + intros x y _; auto.
    + intros x y _ Hn. exfalso. apply Hn. left. discriminate.
Qed.
Print Assumptions c85_analyses.

(** So the order of the selections does not matter to the depth, to the complexity and to what is reported, nor does
    repeating a selection. *)
Theorem c85_rearranged :
  forall (S : schema) (d d' : document) (o o' : operation) (vals : list (name * value)), asks_less d o d' o' -> asks_less d' o' d o ->
    let calls := ovisit_operation S d o vals in
    let calls' := ovisit_operation S d' o' vals in
    query_depth calls = query_depth calls' /\
    default_complexity S calls = default_complexity S calls' /\
    (forall mx x, In x (input_size_offenders mx vals (op_vars o) calls) <-> In x (input_size_offenders mx vals (op_vars o') calls')) /\
    (forall strings x, In x (deprecations S vals strings calls) <-> In x (deprecations S vals strings calls')).
Proof.
  intros S d d' o o' vals L L' calls calls'. unfold calls, calls'. clear calls calls'.
  destruct (c85_analyses S d d' o o' vals L) as (A1 & A2 & A3 & _ & n & n' & A4 & A5 & A6).
  destruct (c85_analyses S d' d o' o vals L') as (B1 & B2 & B3 & _ & k & k' & B4 & B5 & B6).
  split; [lia|]. split; [rewrite A4, A5; rewrite A4 in B5; rewrite A5 in B4; injection B4 as <-; injection B5 as <-; f_equal; lia|].
  split; [intros mx x; split; [apply A2|apply B2]|intros strings x; split; [apply A3|apply B3]].
Qed.
Print Assumptions c85_rearranged.

(** The same for any costs and multipliers which do not depend on what is selected below a field, and for the Relay costs,
    if the whole operation is as a valid document's: what is merged under one response key is the same field with the same
    arguments, and fields of leaf types have no selections. Nothing of the kind need be known of the part. *)
Theorem c85_complexity_partial :
  forall (S : schema) (d d' : document) (o o' : operation) (vals : list (name * value)), asks_less d o d' o' ->
    unique_conditions S d' o' vals ->
    (forall M mdefault multiplier_for cost_of multipliers_of,
       (forall m al n args ds sub, multiplier_for m (SField al n args ds sub) = multiplier_for m (SField al n args ds [])) ->
       (forall fd al n args ds sub, multipliers_of fd (SField al n args ds sub) = multipliers_of fd (SField al n args ds [])) ->
       consistent_multipliers S d' o' (not_excluded o' vals) M mdefault multiplier_for multipliers_of ->
       leaves_have_no_selections S d' o' (not_excluded o' vals) M mdefault multiplier_for cost_of multipliers_of ->
       exists n n', complexity S M mdefault multiplier_for cost_of multipliers_of (ovisit_operation S d o vals) = CCost n /\
         complexity S M mdefault multiplier_for cost_of multipliers_of (ovisit_operation S d' o' vals) = CCost n' /\ (n <= n')%N) /\
    (leaves_are_leaves S d' o' -> forall parse_weight twice_ln, merged_fields_agree S d' o' vals twice_ln ->
       exists n n', relay_complexity S o vals parse_weight twice_ln (ovisit_operation S d o vals) = CCost n /\
         relay_complexity S o' vals parse_weight twice_ln (ovisit_operation S d' o' vals) = CCost n' /\ (n <= n')%N).
Proof.
  intros S d d' o o' vals L U.
  assert (G : forall M mdefault multiplier_for cost_of multipliers_of,
       (forall m al n args ds sub, multiplier_for m (SField al n args ds sub) = multiplier_for m (SField al n args ds [])) ->
       (forall fd al n args ds sub, multipliers_of fd (SField al n args ds sub) = multipliers_of fd (SField al n args ds [])) ->
       consistent_multipliers S d' o' (not_excluded o' vals) M mdefault multiplier_for multipliers_of ->
       leaves_have_no_selections S d' o' (not_excluded o' vals) M mdefault multiplier_for cost_of multipliers_of ->
       exists n n', complexity S M mdefault multiplier_for cost_of multipliers_of (ovisit_operation S d o vals) = CCost n /\
         complexity S M mdefault multiplier_for cost_of multipliers_of (ovisit_operation S d' o' vals) = CCost n' /\ (n <= n')%N).
  { intros M mdefault multiplier_for cost_of multipliers_of H1 H2 HC HL.
    pose proof (agree_to S d' o' vals U) as AT.
    apply (complexity_more S d d' o o' L vals M mdefault multiplier_for cost_of multipliers_of H1 H2).
    - intros x y Hs. apply HC. apply (same_transfer S d' o' M mdefault multiplier_for multipliers_of _ _ _ _ AT Hs).
    - intros x y Hx Hn Hc. destruct (op_transfer S d' o' M mdefault multiplier_for multipliers_of _ _ _ AT Hx) as (Hx' & Hp).
      apply (HL x y Hx' Hn). eapply child_transfer in Hc; [apply Hc|exact AT|exact Hp]. }
  split; [exact G|]. intros HL pw tl HM. unfold relay_complexity.
  assert (EM : relay_multipliers o vals tl = relay_multipliers o' vals tl).
  { unfold relay_multipliers, sizing_argument, evaluate_int. rewrite (al_vars _ _ _ _ L). reflexivity. }
  rewrite EM. apply G.
  - reflexivity.
  - reflexivity.
  - apply relay_consistent; auto.
  - apply relay_leaves; auto.
Qed.
Print Assumptions c85_complexity_partial.

(** ** Concrete cases *)
Ltac solve_parts := intros s Hs; cbn [In] in Hs;
  repeat (destruct Hs as [<-|Hs];
    [first [eexists; split; [left; reflexivity|constructor; solve [solve_parts]]
           |eexists; split; [right; left; reflexivity|constructor; solve [solve_parts]]
           |eexists; split; [right; right; left; reflexivity|constructor; solve [solve_parts]]
           |eexists; split; [right; right; right; left; reflexivity|constructor; solve [solve_parts]]]|]); destruct Hs.
(** { pets(first: 3) { ...F ... on Dog { friend { name } } } } of the operation of [ex_default_complexity], and twice in another order *)
Definition ex_less_op : operation :=
  op_query (Some (tx "Q")) [] [fld "pets" [(tx "first", VInt 3)] [spr "F"; SInline (Some (tx "Dog")) [] [fld "friend" [] []]]].
Definition ex_again_op : operation :=
  op_query (Some (tx "Q")) [] [fld "name" [] []; fld "pets" [(tx "first", VInt 3)] [spr "F"];
    fld "pets" [(tx "first", VInt 3)]
     [SInline (Some (tx "Dog")) [] [fld "friend" [] [fld "name" [] []; fld "name" [] []]]; fld "name" [] []; spr "F"; SInline (Some (tx "Cat")) [] [fld "meows" [] []]]].
Example c85_case :
  asks_less ex_cost_doc ex_less_op ex_cost_doc ex_cost_op /\
  default_complexity ex_schema (ovisit_operation ex_schema ex_cost_doc ex_less_op []) = CCost 3 /\
  default_complexity ex_schema (ovisit_operation ex_schema ex_cost_doc ex_cost_op []) = CCost 5 /\
  query_depth (ovisit_operation ex_schema ex_cost_doc ex_less_op []) = 2 /\ query_depth (ovisit_operation ex_schema ex_cost_doc ex_cost_op []) = 3.
Proof.
  split; [|repeat split; vm_compute; reflexivity]. constructor; [reflexivity|reflexivity|intros x []|unfold parts; cbn [op_sel ex_less_op ex_cost_op op_query]; solve_parts|].
  intros n f Hf. exists f. split; auto. split; auto. unfold parts. intros s Hs. exists s. split; auto.
  assert (E : fr_sel f = [fld "name" [] []]).
  { destruct Hf as (b & a & E & _). cbn in E. destruct b as [|? [|? ?]]; [|discriminate|discriminate]. injection E as <- _. reflexivity. }
  rewrite E in Hs. destruct Hs as [<-|[]]. constructor. intros s [].
Qed.
Lemma parts_refl sels : (forall s, In s sels -> part s s) -> parts sels sels.
Proof. intros H s Hs. exists s. auto. Qed.
Lemma ex_cost_frags n f : defines ex_cost_doc n f -> exists f', defines ex_cost_doc n f' /\ fr_cond f' = fr_cond f /\ parts (fr_sel f) (fr_sel f').
Proof.
  intros Hf. exists f. split; auto. split; auto. apply parts_refl. intros s Hs.
  assert (E : fr_sel f = [fld "name" [] []]).
  { destruct Hf as (b & a & E & _). cbn in E. destruct b as [|? [|? ?]]; [|discriminate|discriminate]. injection E as <- _. reflexivity. }
  rewrite E in Hs. destruct Hs as [<-|[]]. constructor. intros s [].
Qed.
Example c85_rearranged_case :
  asks_less ex_cost_doc ex_cost_op ex_cost_doc ex_again_op /\ asks_less ex_cost_doc ex_again_op ex_cost_doc ex_cost_op /\
  default_complexity ex_schema (ovisit_operation ex_schema ex_cost_doc ex_again_op []) = CCost 5.
Proof.
  split; [|split; [|vm_compute; reflexivity]]; (constructor; [reflexivity|reflexivity|intros x []| |exact ex_cost_frags]);
    unfold parts; cbn [op_sel ex_again_op ex_cost_op op_query]; solve_parts.
Qed.

(** query($n: Int = 1000) { items(first: $n) { nodes { id } } } of the operation of [ex_relay_complexity] *)
Definition ex_relay_less : operation :=
  op_query None [mk_var "n" (ty "Int") (Some (VInt 1000))] [items_field (VVar (tx "n")) [fld "nodes" [] [fld "id" [] []]]].
Example c85_relay_case :
  asks_less (doc_of ex_relay_less) ex_relay_less ex_relay_doc ex_relay_op /\
  unique_conditions ex_relay_schema ex_relay_doc ex_relay_op ex_relay_vals /\ leaves_are_leaves ex_relay_schema ex_relay_doc ex_relay_op /\
  merged_fields_agree ex_relay_schema ex_relay_doc ex_relay_op ex_relay_vals ex_ln /\
  relay_complexity ex_relay_schema ex_relay_less ex_relay_vals ex_weight ex_ln (ovisit_operation ex_relay_schema (doc_of ex_relay_less) ex_relay_less ex_relay_vals) = CCost 5 /\
  relay_complexity ex_relay_schema ex_relay_op ex_relay_vals ex_weight ex_ln (ovisit_operation ex_relay_schema ex_relay_doc ex_relay_op ex_relay_vals) = CCost 12.
Proof.
  split.
  - constructor; [reflexivity|reflexivity|intros x []| |].
    + unfold parts; cbn [op_sel ex_relay_less ex_relay_op op_query]. unfold items_field. solve_parts.
    + intros n f (b & a & E & _). destruct b; discriminate E.
  - destruct ex_relay_complexity as (A & B & C & D). repeat (split; [assumption|]). split; [vm_compute; reflexivity|exact D].
Qed.

(** ** The property is false without the condition on merged fields *)
(** { items(first: 10) { nodes { id } } items(first: 1000) { nodes { id } } }: leaving out the first selection makes the
    Relay cost grow, as the first one written determines the multiplier of both. The document is not valid (the fields
    conflict), but the analysis does not ask for that. *)
Theorem c85_complexity_refuted :
  exists (S : schema) (o o' : operation) parse_weight twice_ln,
    let d := {| doc_ops := [o]; doc_frags := [] |} in
    let d' := {| doc_ops := [o']; doc_frags := [] |} in
    asks_less d o d' o' /\ unique_conditions S d' o' [] /\ leaves_are_leaves S d' o' /\
    exists n n', relay_complexity S o [] parse_weight twice_ln (ovisit_operation S d o []) = CCost n /\
      relay_complexity S o' [] parse_weight twice_ln (ovisit_operation S d' o' []) = CCost n' /\ (n' < n)%N.
Proof.
  exists ex_relay_schema, (op_query None [] [items_field (VInt 1000) [fld "nodes" [] [fld "id" [] []]]]), (ex_conflict_op 10 1000), ex_weight, ex_ln.
  cbv zeta. split.
  - constructor; [reflexivity|reflexivity|intros x []| |].
    + unfold parts; cbn [op_sel ex_conflict_op op_query]. unfold items_field. solve_parts.
    + intros n f (b & a & E & _). destruct b; discriminate E.
  - split; [apply unique_check_ok; vm_compute; reflexivity|]. split; [apply leaf_check_ok; vm_compute; reflexivity|].
    eexists; eexists. split; [vm_compute; reflexivity|]. split; [vm_compute; reflexivity|]. reflexivity.
Qed.
Print Assumptions c85_complexity_refuted.
