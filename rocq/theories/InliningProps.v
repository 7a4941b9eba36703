(** Property C82: naming a fragment or writing it out does not change what the analyses of an operation find. *)
From Verif Require Import Base Ast Graph Maps Doc DocRules FragmentsSpec CoercionTypes Coercion Operation OperationProofs OperationProps
  Complexity InliningSpec Examples.
Local Open Scope string_scope.
Local Open Scope list_scope.

(** ** The visitor calls are the same but for the selections below a field *)
Definition forget_below (e : oevent) : oevent :=
  match e with OEnter al n args ds _ fd t b => OEnter al n args ds [] fd t b | _ => e end.

Lemma plus_trans {A} (R : A -> A -> Prop) a b c : plus R a b -> plus R b c -> plus R a c.
Proof. induction 1; intros; eapply plus_step; eauto. Qed.

Section Inlining.
  Variable S : schema.
  Variable d d' : document.
  Variable o o' : operation.
  Variable vals : list (name * value).
  Hypothesis acyclic : forall n, ~ on_a_cycle d n.
  Hypothesis W : document_written_out d d'.
  Hypothesis vars_same : op_vars o' = op_vars o.

  Lemma included_same ds : selection_included o' vals ds = selection_included o vals ds.
  Proof.
    unfold selection_included. assert (E : forall dn an, directive_bool o' vals ds dn an = directive_bool o vals ds dn an).
    { intros dn an. unfold directive_bool, evaluate_bool. rewrite vars_same. auto. }
    rewrite !E. auto.
  Qed.

  (** the fragments being visited lead to every spread in [s] *)
  Definition behind (act : list name) (s : selection) : Prop :=
    forall a n, In a act -> spread_in n s -> plus (fragment_uses d) a n.
  Definition kept_below (s' : selection) : Prop :=
    forall n f, defines d n f -> spread_in n s' -> exists f', defines d' n f'.

  Lemma behind_not_active act n ds : behind act (SSpread n ds) -> tmem n act = false.
  Proof.
    intros H. apply tmem_false. intros Hin. apply (acyclic n). apply H; auto. constructor.
  Qed.
  Lemma behind_fragment act n ds f x : behind act (SSpread n ds) -> defines d n f -> In x (fr_sel f) -> behind (n :: act) x.
  Proof.
    intros H Hd Hx a m [<-|Ha] Hs.
    - apply plus_one. exists f. split; auto. exists x; auto.
    - apply plus_trans with n; [apply H; auto; constructor|]. apply plus_one. exists f. split; auto. exists x; auto.
  Qed.
  Lemma behind_weaker act act' s : incl act' act -> behind act s -> behind act' s.
  Proof. intros Hi H a n Ha. apply H. auto. Qed.

  Definition alike (fuel fuel' : nat) (s' : selection) : Prop :=
    forall s, written_out d s s' -> forall act act' t b, behind act s -> behind act' s -> kept_below s' ->
      ~ In OFuel (ovisit S d o vals fuel act t b s) -> ~ In OFuel (ovisit S d' o' vals fuel' act' t b s') ->
      map forget_below (ovisit S d' o' vals fuel' act' t b s') = map forget_below (ovisit S d o vals fuel act t b s).

  Lemma alike_set fuel fuel' sub' : Forall (alike fuel fuel') sub' ->
    forall sub, Forall2 (written_out d) sub sub' -> forall act act' t b,
      (forall x, In x sub -> behind act x) -> (forall x, In x sub -> behind act' x) -> (forall x, In x sub' -> kept_below x) ->
      ~ In OFuel (ovisit_set S d o vals fuel act t b sub) -> ~ In OFuel (ovisit_set S d' o' vals fuel' act' t b sub') ->
      map forget_below (ovisit_set S d' o' vals fuel' act' t b sub') = map forget_below (ovisit_set S d o vals fuel act t b sub).
  Proof.
    intros HF sub H2 act act' t b. unfold ovisit_set. induction H2 as [|s s' sub sub' Hw H2 IH]; auto.
    intros B B' K N N'. inversion HF as [|? ? A HF']; subst. cbn [flat_map] in *. rewrite !map_app. f_equal.
    - apply A; auto using in_eq; intros Hin; [apply N|apply N']; apply in_or_app; auto.
    - apply IH; auto using in_cons; intros Hin; [apply N|apply N']; apply in_or_app; auto.
  Qed.

  Lemma visits_alike fuel' : forall s' fuel, alike fuel fuel' s'.
  Proof.
    induction fuel' as [fuel' IHf] using lt_wf_ind.
    induction s' as [al n args ds sub' IH|n ds|c ds sub' IH] using selection_ind'; intros fuel s Hw act act' t b B B' K N N'.
    - inversion Hw as [? ? ? ? sub ? H2| | |]; subst. rewrite !ovisit_field in *. rewrite included_same in *.
      destruct (get_field (td_fields t) n) as [fd|]; auto.
      rewrite !map_app. f_equal. cbn [map forget_below]. f_equal. rewrite !map_app. f_equal. f_equal.
      destruct (get_type S (tref_base (fd_type fd))) as [t'|]; [|destruct sub, sub'; auto].
      assert (E : map forget_below (ovisit_set S d' o' vals fuel' act' t' (b && selection_included o vals ds) sub') =
                  map forget_below (ovisit_set S d o vals fuel act t' (b && selection_included o vals ds) sub)).
      { apply alike_set; auto.
        - eapply Forall_impl; [|exact IH]. intros x Hx. apply Hx.
        - intros x Hx a m Ha Hs. apply B; auto. econstructor; eauto.
        - intros x Hx a m Ha Hs. apply B'; auto. econstructor; eauto.
        - intros x Hx m f Hd Hs. eapply K; eauto. econstructor; eauto.
        - intros Hin. apply N. apply in_or_app; right. right. apply in_or_app; right. apply in_or_app; left.
          destruct sub; [destruct Hin|exact Hin].
        - intros Hin. apply N'. apply in_or_app; right. right. apply in_or_app; right. apply in_or_app; left.
          destruct sub'; [destruct Hin|exact Hin]. }
      destruct sub, sub'; auto.
    - inversion Hw; subst. rewrite !ovisit_spread in *. rewrite included_same in *.
      rewrite (behind_not_active _ _ _ B) in *. rewrite (behind_not_active _ _ _ B') in *.
      rewrite !map_app. f_equal.
      destruct (cached_fragment d' n) as [f'|] eqn:E'.
      + apply cached_defines in E'. destruct (wo_fragments _ _ W _ _ E') as (f & Hd & Hc & H2).
        rewrite (proj2 (cached_defines d n f) Hd) in *. rewrite Hc in *.
        destruct (get_type S (fr_cond f)) as [t'|]; auto.
        destruct fuel as [|fuel]; [exfalso; apply N; apply in_or_app; right; left; auto|].
        destruct fuel' as [|fuel']; [exfalso; apply N'; apply in_or_app; right; left; auto|].
        apply alike_set; auto.
        * apply Forall_forall. intros x _. apply IHf. auto.
        * intros x Hx. eapply behind_fragment; eauto.
        * intros x Hx. eapply behind_fragment; eauto.
        * intros x Hx m g Hg Hs. apply (wo_kept _ _ W m g Hg). right. exists f'. split; [|exists x; auto].
          destruct E' as (bf & af & Ed & _). rewrite Ed. apply in_or_app; right; left; auto.
        * intros Hin. apply N. apply in_or_app; auto.
        * intros Hin. apply N'. apply in_or_app; auto.
      + destruct (cached_fragment d n) as [f|] eqn:Ef; auto. apply cached_defines in Ef.
        destruct (K n f Ef (spread_here n ds)) as (f' & Hf'). rewrite (proj2 (cached_defines d' n f') Hf') in E'. discriminate E'.
    - inversion Hw as [|? ? sub ? H2| |n ? f ? Hd H2]; subst.
      + rewrite !ovisit_inline in *. rewrite included_same in *. rewrite !map_app. f_equal.
        destruct (match c with Some c => get_type S c | None => Some t end) as [t'|]; auto.
        apply alike_set; auto.
        * eapply Forall_impl; [|exact IH]. intros x Hx. apply Hx.
        * intros x Hx a m Ha Hs. apply B; auto. econstructor; eauto.
        * intros x Hx a m Ha Hs. apply B'; auto. econstructor; eauto.
        * intros x Hx m f Hd Hs. eapply K; eauto. econstructor; eauto.
        * intros Hin. apply N. apply in_or_app; auto.
        * intros Hin. apply N'. apply in_or_app; auto.
      + rewrite ovisit_inline, ovisit_spread in *. rewrite included_same in *. rewrite (behind_not_active _ _ _ B) in *.
        rewrite (proj2 (cached_defines d n f) Hd) in *. rewrite !map_app. f_equal.
        destruct (get_type S (fr_cond f)) as [t'|]; auto.
        destruct fuel as [|fuel]; [exfalso; apply N; apply in_or_app; right; left; auto|].
        apply alike_set; auto.
        * eapply Forall_impl; [|exact IH]. intros x Hx. apply Hx.
        * intros x Hx. eapply behind_fragment; eauto.
        * intros x Hx. eapply behind_weaker; [|eapply behind_fragment; eauto]. intros a Ha. right. exact Ha.
        * intros x Hx m g Hg Hs. eapply K; eauto. econstructor; eauto.
        * intros Hin. apply N. apply in_or_app; auto.
        * intros Hin. apply N'. apply in_or_app; auto.
  Qed.

  Hypothesis in_d' : In o' (doc_ops d').
  Hypothesis type_same : op_type o' = op_type o.
  Hypothesis dirs_same : op_dirs o' = op_dirs o.
  Hypothesis sel_out : Forall2 (written_out d) (op_sel o) (op_sel o').

  Lemma operation_visits_alike :
    map forget_below (ovisit_operation S d' o' vals) = map forget_below (ovisit_operation S d o vals).
  Proof.
    pose proof (no_fuel S d o vals) as N. pose proof (no_fuel S d' o' vals) as N'.
    unfold ovisit_operation in *. rewrite type_same, dirs_same, vars_same in *. rewrite !map_app. f_equal. f_equal.
    destruct (op_root_name S (op_type o)) as [n|]; auto. destruct (get_type S n) as [t|]; auto.
    apply alike_set; auto.
    - apply Forall_forall. intros x _. apply visits_alike.
    - intros x _ a m [].
    - intros x _ a m [].
    - intros x Hx m f Hd Hs. apply (wo_kept _ _ W m f Hd). left. exists o'. split; auto. exists x; auto.
    - intros Hin. apply N. apply in_or_app; right. apply in_or_app; auto.
    - intros Hin. apply N'. apply in_or_app; right. apply in_or_app; auto.
  Qed.
End Inlining.

(** ** The analyses do not look below a field *)
Lemma fold_forget {A} (f : A -> oevent -> A) : (forall a e, f a (forget_below e) = f a e) ->
  forall evs a, fold_left f (map forget_below evs) a = fold_left f evs a.
Proof. intros H. induction evs as [|e evs IH]; cbn; auto. intros a. rewrite H. auto. Qed.
Lemma flat_forget {A} (f : oevent -> list A) : (forall e, f (forget_below e) = f e) ->
  forall evs, flat_map f (map forget_below evs) = flat_map f evs.
Proof. intros H. induction evs as [|e evs IH]; cbn; auto. rewrite H, IH. auto. Qed.

Lemma depth_forget evs : query_depth (map forget_below evs) = query_depth evs.
Proof. unfold query_depth. rewrite fold_forget; auto. intros [cur mx] e. destruct e; auto. Qed.
Lemma input_size_forget mx vals vars evs :
  input_size_offenders mx vals vars (map forget_below evs) = input_size_offenders mx vals vars evs.
Proof. unfold input_size_offenders. apply flat_forget. intros e. destruct e; auto. Qed.
Lemma variable_values_forget S hook str_enum one_of vals evs :
  variable_value_errors S hook str_enum one_of vals (map forget_below evs) = variable_value_errors S hook str_enum one_of vals evs.
Proof. unfold variable_value_errors. rewrite fold_forget; auto. intros st e. destruct e; auto. Qed.
Lemma deprecations_forget S vals str evs : deprecations S vals str (map forget_below evs) = deprecations S vals str evs.
Proof. unfold deprecations. apply flat_forget. intros e. destruct e; auto. Qed.
Lemma complexity_forget S M mdefault multiplier_for cost_of multipliers_of evs :
  (forall m al n args ds sub, multiplier_for m (SField al n args ds sub) = multiplier_for m (SField al n args ds [])) ->
  (forall fd al n args ds sub, multipliers_of fd (SField al n args ds sub) = multipliers_of fd (SField al n args ds [])) ->
  complexity S M mdefault multiplier_for cost_of multipliers_of (map forget_below evs) =
  complexity S M mdefault multiplier_for cost_of multipliers_of evs.
Proof.
  intros H1 H2. unfold complexity. rewrite fold_forget; auto. intros [[A stk]|] e; auto. destruct e; auto.
  cbn [forget_below complexity_step]. destruct included; auto. unfold enter_field.
  destruct ((_ =? 0)%N && _); auto. destruct stk as [|[i|] stk]; auto. destruct (nth_error A i); auto.
  rewrite (H1 _ _ _ _ _ sub), (H2 _ _ _ _ _ sub). auto.
Qed.

(** * C82 *)
Lemma resolve_written_out d d' requested : document_written_out d d' ->
  match resolve_operation d requested, resolve_operation d' requested with
  | inl o, inl o' => In o' (doc_ops d') /\ op_type o' = op_type o /\ op_vars o' = op_vars o /\ op_dirs o' = op_dirs o /\
                     Forall2 (written_out d) (op_sel o) (op_sel o')
  | inr e, inr e' => e' = e
  | _, _ => False
  end.
Proof.
  intros W. pose proof (wo_operations _ _ W) as H. unfold resolve_operation. destruct requested as [n|].
  - assert (G : forall l l', Forall2 (fun o o' => op_type o' = op_type o /\ op_name o' = op_name o /\ op_vars o' = op_vars o /\
                             op_dirs o' = op_dirs o /\ Forall2 (written_out d) (op_sel o) (op_sel o')) l l' -> incl l' (doc_ops d') ->
        match match find (fun o => match op_name o with Some m => teqb m n | None => false end) l with Some o => inl o | None => inr (NoOperationWithName n) end,
              match find (fun o => match op_name o with Some m => teqb m n | None => false end) l' with Some o => inl o | None => inr (NoOperationWithName n) end with
        | inl o, inl o' => In o' (doc_ops d') /\ op_type o' = op_type o /\ op_vars o' = op_vars o /\ op_dirs o' = op_dirs o /\
                     Forall2 (written_out d) (op_sel o) (op_sel o')
        | inr e, inr e' => e' = e
        | _, _ => False
        end).
    { induction 1 as [|o o' l l' (Ht & Hn & Hv & Hd & Hs) H2 IH]; intros Hi; [reflexivity|]. cbn [find]. rewrite Hn.
      destruct (match op_name o with Some m => teqb m n | None => false end).
      - split; [apply Hi; left; auto|auto].
      - apply IH. intros x Hx. apply Hi. right; auto. }
    apply (G _ _ H). intros x Hx; exact Hx.
  - inversion H as [E E'|o o' l l' (Ht & Hn & Hv & Hd & Hs) H2 E E']; [reflexivity|].
    inversion H2; subst; [|reflexivity]. split; [left; auto|auto].
Qed.

(** In a document whose fragments are not cyclic (as in every document that is accepted), replace any spreads by inline
    fragments with the type condition and the selections of the fragment, and drop the definitions that are not needed any
    more. Whatever the schema, the variable values, the cost computer (as long as it does not inspect the selections below a
    field) and the custom scalars: the same operation is found, or the same error; and every analysis of the operation gives
    the same result: depth, complexity, oversized lists, errors about variable values, deprecated uses. *)
Theorem c82_analyses :
  forall (S : schema) (d d' : document) (requested : option name) (vals : list (name * value)),
    (forall n, ~ on_a_cycle d n) -> document_written_out d d' ->
    match resolve_operation d requested, resolve_operation d' requested with
    | inl o, inl o' =>
        let calls := ovisit_operation S d o vals in
        let calls' := ovisit_operation S d' o' vals in
        query_depth calls' = query_depth calls /\
        (forall mx, input_size_offenders mx vals (op_vars o') calls' = input_size_offenders mx vals (op_vars o) calls) /\
        (forall hook str_enum one_of,
           variable_value_errors S hook str_enum one_of vals calls' = variable_value_errors S hook str_enum one_of vals calls) /\
        (forall strings, deprecations S vals strings calls' = deprecations S vals strings calls) /\
        default_complexity S calls' = default_complexity S calls /\
        (forall parse_weight twice_ln,
           relay_complexity S o' vals parse_weight twice_ln calls' = relay_complexity S o vals parse_weight twice_ln calls) /\
        (forall M mdefault multiplier_for cost_of multipliers_of,
           (forall m al n args ds sub, multiplier_for m (SField al n args ds sub) = multiplier_for m (SField al n args ds [])) ->
           (forall fd al n args ds sub, multipliers_of fd (SField al n args ds sub) = multipliers_of fd (SField al n args ds [])) ->
           complexity S M mdefault multiplier_for cost_of multipliers_of calls' =
           complexity S M mdefault multiplier_for cost_of multipliers_of calls)
    | inr e, inr e' => e' = e
    | _, _ => False
    end.
Proof.
  intros S d d' requested vals HA W. pose proof (resolve_written_out _ _ requested W) as R.
  destruct (resolve_operation d requested) as [o|e], (resolve_operation d' requested) as [o'|e']; auto.
  destruct R as (Hi & Ht & Hv & Hd & Hs). intros calls calls'.
  assert (E : map forget_below calls' = map forget_below calls) by (apply operation_visits_alike; auto).
  assert (EC : forall M mdefault multiplier_for cost_of multipliers_of,
           (forall m al n args ds sub, multiplier_for m (SField al n args ds sub) = multiplier_for m (SField al n args ds [])) ->
           (forall fd al n args ds sub, multipliers_of fd (SField al n args ds sub) = multipliers_of fd (SField al n args ds [])) ->
           complexity S M mdefault multiplier_for cost_of multipliers_of calls' =
           complexity S M mdefault multiplier_for cost_of multipliers_of calls).
  { intros * H1 H2. rewrite <- (complexity_forget _ _ _ _ _ _ calls'), <- (complexity_forget _ _ _ _ _ _ calls), E; auto. }
  split; [rewrite <- (depth_forget calls'), <- (depth_forget calls), E; auto|].
  split; [intros mx; rewrite Hv, <- (input_size_forget _ _ _ calls'), <- (input_size_forget _ _ _ calls), E; auto|].
  split; [intros; rewrite <- (variable_values_forget _ _ _ _ _ calls'), <- (variable_values_forget _ _ _ _ _ calls), E; auto|].
  split; [intros; rewrite <- (deprecations_forget _ _ _ calls'), <- (deprecations_forget _ _ _ calls), E; auto|].
  split; [apply EC; auto|]. split; [|exact EC].
  intros pw tl. unfold relay_complexity. rewrite EC; auto.
  assert (EM : forall fd f, relay_multipliers o' vals tl fd f = relay_multipliers o vals tl fd f).
  { intros fd f. unfold relay_multipliers, sizing_argument, evaluate_int. rewrite Hv. auto. }
  clear -EM. unfold complexity.
  assert (G : forall evs st, fold_left (complexity_step S (option N) relay_multiplier_for (relay_cost S pw) (relay_multipliers o' vals tl)) evs st =
                             fold_left (complexity_step S (option N) relay_multiplier_for (relay_cost S pw) (relay_multipliers o vals tl)) evs st).
  { induction evs as [|e evs IH]; auto. intros st. cbn [fold_left]. rewrite IH. f_equal.
    destruct st as [[A stk]|]; auto. destruct e; auto. cbn [complexity_step]. destruct included; auto. unfold enter_field. rewrite EM. auto. }
  rewrite G. auto.
Qed.
Print Assumptions c82_analyses.

(** query Q($i: Boolean = true) { dog(id: 1) { ...F } pet { ...G @include(if: $i) } }
    fragment F on Dog { friend { ...G } }
    fragment G on Pet { name }
    and the same with F written out, and G written out in it:
    query Q($i: Boolean = true) { dog(id: 1) { ... on Dog { friend { ... on Pet { name } } } } pet { ...G @include(if: $i) } }
    fragment G on Pet { name } *)
Definition c82_query (inner : selection) : operation :=
  op_query (Some (tx "Q")) [mk_var "i" (ty "Boolean") (Some (VBool true))]
    [SField None (tx "dog") [(tx "id", VInt 1)] [] [inner]; fld "pet" [] [SSpread (tx "G") [inc (VVar (tx "i"))]]].
Definition c82_named : document :=
  {| doc_ops := [c82_query (spr "F")];
     doc_frags := [mk_frag "F" "Dog" [fld "friend" [] [spr "G"]]; mk_frag "G" "Pet" [fld "name" [] []]] |}.
Definition c82_written : document :=
  {| doc_ops := [c82_query (SInline (Some (tx "Dog")) [] [fld "friend" [] [SInline (Some (tx "Pet")) [] [fld "name" [] []]]])];
     doc_frags := [mk_frag "G" "Pet" [fld "name" [] []]] |}.
Lemma defines_in d n f : defines d n f -> In f (doc_frags d) /\ fr_name f = n.
Proof. intros (b & a & E & Hn & _). split; auto. rewrite E. apply in_or_app; right; left; auto. Qed.
Example c82_case :
  (forall n, ~ on_a_cycle c82_named n) /\ document_written_out c82_named c82_written /\
  query_depth (ovisit_operation ex_schema c82_written (c82_query (SInline (Some (tx "Dog")) [] [fld "friend" [] [SInline (Some (tx "Pet")) [] [fld "name" [] []]]])) []) = 3 /\
  query_depth (ovisit_operation ex_schema c82_named (c82_query (spr "F")) []) = 3.
Proof.
  assert (DF : defines c82_named (tx "F") (mk_frag "F" "Dog" [fld "friend" [] [spr "G"]])).
  { exists [], [mk_frag "G" "Pet" [fld "name" [] []]]. split; [reflexivity|]. split; [reflexivity|].
    cbn. intros [E|[]]. discriminate E. }
  assert (DG : defines c82_named (tx "G") (mk_frag "G" "Pet" [fld "name" [] []])).
  { exists [mk_frag "F" "Dog" [fld "friend" [] [spr "G"]]], []. split; [reflexivity|]. split; [reflexivity|]. cbn. tauto. }
  split; [|split; [|split; vm_compute; reflexivity]].
  - assert (U : forall a b, fragment_uses c82_named a b -> a = tx "F" /\ b = tx "G").
    { intros a b (f & Hd & s & Hs & Hb). apply defines_in in Hd as (Hf & Hn).
      destruct Hf as [<-|[<-|[]]]; destruct Hs as [<-|[]].
      - inversion Hb as [|? ? ? ? ? s Hs Hb'|]; subst. destruct Hs as [<-|[]]. inversion Hb'; subst. split; reflexivity.
      - inversion Hb as [|? ? ? ? ? s Hs Hb'|]; subst. destruct Hs. }
    assert (P : forall a b, plus (fragment_uses c82_named) a b -> a = tx "F" /\ b = tx "G").
    { induction 1 as [a b H|a b c H _ IH]; [auto|]. destruct (U _ _ H) as [-> ->]. destruct IH as [E _]. discriminate E. }
    intros n H. destruct (P _ _ H) as [-> E]. discriminate E.
  - split.
    + constructor; [|constructor]. repeat (split; [reflexivity|]). constructor; [|constructor; [|constructor]].
      * constructor. constructor; [|constructor]. apply (wo_replaced _ _ _ _ _ DF).
        constructor; [|constructor]. constructor. constructor; [|constructor]. apply (wo_replaced _ _ _ _ _ DG).
        constructor; [|constructor]. constructor. constructor.
      * constructor. constructor; [constructor|constructor].
    + intros n f' H. apply defines_in in H as (Hf & Hn). destruct Hf as [<-|[]]. subst n. eexists. split; [exact DG|].
      split; [reflexivity|]. constructor; [|constructor]. constructor. constructor.
    + intros n f _ [(o & Ho & s & Hs & Hn)|(g & Hg & s & Hs & Hn)].
      * assert (n = tx "G") as ->.
        { destruct Ho as [<-|[]]. destruct Hs as [<-|[<-|[]]].
          - inversion Hn as [|? ? ? ? ? s1 Hs1 Hn1|]; subst. destruct Hs1 as [<-|[]].
            inversion Hn1 as [| |? ? ? s2 Hs2 Hn2]; subst. destruct Hs2 as [<-|[]].
            inversion Hn2 as [|? ? ? ? ? s3 Hs3 Hn3|]; subst. destruct Hs3 as [<-|[]].
            inversion Hn3 as [| |? ? ? s4 Hs4 Hn4]; subst. destruct Hs4 as [<-|[]].
            inversion Hn4 as [|? ? ? ? ? s5 Hs5 Hn5|]; subst. destruct Hs5.
          - inversion Hn as [|? ? ? ? ? s1 Hs1 Hn1|]; subst. destruct Hs1 as [<-|[]]. inversion Hn1; subst. reflexivity. }
        eexists. exists [], []. split; [reflexivity|]. split; [reflexivity|]. cbn. tauto.
      * destruct Hg as [<-|[]]. destruct Hs as [<-|[]]. inversion Hn as [|? ? ? ? ? s1 Hs1 Hn1|]; subst. destruct Hs1.
Qed.
