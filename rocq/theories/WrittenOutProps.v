(** Giving a value in a variable or writing it in the query makes no difference to the analyses (C91). *)
From Verif Require Import Base Ast Examples Maps Graph Doc DocRules DocVariablesSpec Operation OperationProofs OperationProps Complexity ValidatorCases ValidAnalysisProps WrittenOutSpec.
Local Open Scope string_scope.
Local Open Scope list_scope.

Section WrittenOut.
  Variable S : schema.
  Variable o : operation.
  Variable vals : list (name * value).
  Hypothesis plain : plain_values o vals.
  Notation wval := (written_value o vals).
  Notation warg := (written_argument o vals).
  Notation wdir := (written_directive o vals).
  Notation wsel := (written_selection o vals).
  Notation wop := (written_operation o vals).
  Notation wdoc := (written_document o vals).
  Lemma find_written {A} (p q : A -> bool) (f : A -> A) l : (forall a, p (f a) = q a) -> find p (map f l) = option_map f (find q l).
  Proof using. intros H. induction l as [|a l IH]; cbn; auto. rewrite H. destruct (q a); auto. Qed.
  Lemma once vds : NoDup (map vd_name vds) -> forall v, In v vds -> find (fun u => teqb (vd_name u) (vd_name v)) vds = Some v.
  Proof using.
    induction vds as [|u l IH]; intros ND v Hv; [destruct Hv|]. cbn [map] in ND. inversion ND as [|? ? N ND']; subst. cbn [find].
    destruct Hv as [->|Hv]; [rewrite teqb_refl; auto|]. destruct (teqb_spec (vd_name u) (vd_name v)) as [E|_]; auto. destruct N. rewrite E. apply List.in_map. auto.
  Qed.
  Lemma once_typed vds ty x v : NoDup (map vd_name vds) -> In v vds -> vd_name v = x ->
    find (fun u => teqb (vd_name u) x && is_named ty (vd_type u)) vds = if is_named ty (vd_type v) then Some v else None.
  Proof using.
    intros ND Hv <-. induction vds as [|u l IH]; [destruct Hv|]. cbn [map] in ND. inversion ND as [|? ? N ND']; subst. cbn [find].
    destruct Hv as [->|Hv].
    - rewrite teqb_refl. cbn. destruct (is_named ty (vd_type v)); auto. clear IH ND ND'. induction l as [|a l IH]; auto. cbn [find map] in *.
      destruct (teqb_spec (vd_name a) (vd_name v)) as [E|_]; [destruct N; left; auto|]. cbn. apply IH. intros K. apply N. right. auto.
    - destruct (teqb_spec (vd_name u) (vd_name v)) as [E|_]; [destruct N; rewrite E; apply List.in_map; auto|]. cbn. auto.
  Qed.
  (** what the library finds when it looks up a variable of a type *)
  Lemma looked_up {A} (view : value -> option A) ty x w :
    value_of o vals x = Some w -> (view w <> None -> declared_as o ty x) ->
    match find (fun v => teqb (vd_name v) x && is_named ty (vd_type v)) (op_vars o) with
    | None => None
    | Some vd => match assoc x vals with Some v => view v | None => match vd_default vd with Some v => view v | None => None end end
    end = view w.
  Proof using plain.
    intros E H. destruct plain as (ND & _).
    destruct (find (fun v => teqb (vd_name v) x && is_named ty (vd_type v)) (op_vars o)) as [v|] eqn:F.
    - apply find_some in F as (Hv & F). apply andb_true_iff in F as (Fn & _). unfold value_of in E. destruct (assoc x vals) as [w'|]; [congruence|].
      destruct (teqb_spec (vd_name v) x) as [<-|]; [|discriminate]. rewrite (once _ ND v Hv) in E. rewrite E. auto.
    - destruct (view w) as [a|] eqn:V; auto. destruct H as (v & r & Hv & En & Et); [discriminate|].
      rewrite (once_typed _ ty x v ND Hv En), Et in F. cbn in F. rewrite teqb_refl in F. discriminate F.
  Qed.
  Section Calls.
    Variable d : document.
    Hypothesis booleans : conditions_typed d o vals.
    Definition written_call (e : oevent) : oevent :=
      match e with
      | OEnter al n args ds sub fd t b => OEnter al n (map warg args) (map wdir ds) (map wsel sub) fd t b
      | OArg a i => OArg (warg a) i
      | _ => e
      end.
    Lemma included_written s : reached d o s -> selection_included (wop o) vals (map wdir (directives_of s)) = selection_included o vals (directives_of s).
    Proof using plain booleans.
      intros Rs. pose proof (booleans s) as B. set (ds := directives_of s) in *.
      assert (E : forall dn an, dn = tx "skip" \/ dn = tx "include" -> an = tx "if" -> directive_bool (wop o) vals (map wdir ds) dn an = directive_bool o vals ds dn an).
      { intros dn an Hdn Han. unfold directive_bool. rewrite (find_written _ (fun x => teqb (dir_name x) dn) wdir); auto.
        destruct (find (fun x => teqb (dir_name x) dn) ds) as [x|] eqn:Fx; auto. apply find_some in Fx as (Hx & Ex). destruct (teqb_spec (dir_name x) dn) as [En|]; [|discriminate]. cbn [option_map written_directive dir_args].
        rewrite (find_written _ (fun a => teqb (fst a) an) warg); auto.
        destruct (find (fun a => teqb (fst a) an) (dir_args x)) as [[k v]|] eqn:Fa; auto. apply find_some in Fa as (Ha & Ek). cbn [fst] in Ek. destruct (teqb_spec k an) as [->|]; [|discriminate].
        cbn [option_map written_argument snd]. destruct v; auto.
        unfold written_value. cbn [subst]. destruct (value_of o vals n) as [w|] eqn:V; [|reflexivity].
        transitivity (as_bool w).
        - destruct plain as (_ & P). pose proof (P n w) as P'. destruct w; auto. destruct (P' n0 V). constructor.
        - symmetry. apply (looked_up as_bool (tx "Boolean") n w V). intros H. destruct w; try (destruct H; reflexivity).
          apply (B n x b Rs Hx); [rewrite En; auto|rewrite <- Han; auto|auto]. }
      unfold selection_included. rewrite !E; auto.
    Qed.
    Lemma oargs_written args defs : oargs (map warg args) defs = map written_call (oargs args defs).
    Proof using. unfold oargs. induction args as [|a args IH]; auto. cbn [map flat_map]. rewrite map_app, <- IH. f_equal. cbn. destruct (get_ivd defs (fst a)); auto. Qed.
    Lemma odirectives_written ds : odirectives S (map wdir ds) = map written_call (odirectives S ds).
    Proof using.
      unfold odirectives. induction ds as [|x ds IH]; auto. cbn [map flat_map]. rewrite map_app, <- IH. f_equal. cbn. destruct (get_ddef S (dir_name x)); auto. apply oargs_written.
    Qed.
    Lemma cached_written n : cached_fragment (wdoc d) n = option_map (written_fragment o vals) (cached_fragment d n).
    Proof using.
      unfold cached_fragment. cbn [written_document doc_frags]. induction (doc_frags d) as [|f l IH]; auto. cbn [map assoc_last].
      rewrite IH. destruct (assoc_last n (map (fun f => (fr_name f, f)) l)); auto. cbn. destruct (teqb _ _); auto.
    Qed.
    Lemma flat_written {A B} (f : B -> list oevent) (g : A -> list oevent) (h : A -> B) l :
      (forall x, In x l -> f (h x) = map written_call (g x)) -> flat_map f (map h l) = map written_call (flat_map g l).
    Proof using. intros H. induction l as [|x l IH]; auto. cbn [map flat_map]. rewrite map_app, H, IH; auto using in_cons. left; auto. Qed.
    Lemma visits_written fuel : forall s, reached d o s -> forall act t b, ovisit S (wdoc d) (wop o) vals fuel act t b (wsel s) = map written_call (ovisit S d o vals fuel act t b s).
    Proof using plain booleans.
      induction fuel as [fuel IHf] using lt_wf_ind.
      induction s as [al n args ds sub IH|n ds|c ds sub IH] using selection_ind'; intros Rs act t b; cbn [written_selection];
        pose proof (included_written _ Rs) as EI; cbn [directives_of] in EI.
      - rewrite !ovisit_field. destruct (get_field (td_fields t) n) as [fd|]; auto. rewrite map_app, odirectives_written, EI. f_equal. cbn [map written_call]. f_equal.
        rewrite !map_app, oargs_written. f_equal. f_equal. rewrite Forall_forall in IH. destruct sub as [|x sub]; auto.
        destruct (get_type S (tref_base (fd_type fd))) as [t'|]; auto. apply (flat_written _ _ _ (x :: sub)). intros y Hy. apply IH; auto. eapply re_field; eauto.
      - rewrite !ovisit_spread. rewrite cached_written, map_app, odirectives_written. f_equal. destruct (tmem n act); auto. destruct (cached_fragment d n) as [f|] eqn:Ef; auto.
        cbn [option_map written_fragment fr_cond fr_sel]. destruct (get_type S (fr_cond f)) as [t'|]; auto. destruct fuel as [|fuel]; auto.
        rewrite EI. apply flat_written. intros y Hy. apply IHf; auto. eapply re_spread; eauto.
      - rewrite !ovisit_inline. rewrite map_app, odirectives_written, EI. f_equal. rewrite Forall_forall in IH.
        destruct (match c with Some c => get_type S c | None => Some t end) as [t'|]; auto. apply flat_written. intros y Hy. apply IH; auto. eapply re_inline; eauto.
    Qed.
    Lemma calls_written : ovisit_operation S (wdoc d) (wop o) vals = map written_call (ovisit_operation S d o vals).
    Proof using plain booleans.
      unfold ovisit_operation. cbn [written_operation written_document op_type op_dirs op_vars op_sel doc_frags]. rewrite !map_app, odirectives_written. f_equal. f_equal.
      - destruct (op_root_name S (op_type o)) as [n|]; auto. destruct (get_type S n) as [t|]; auto. rewrite map_length. apply flat_written. intros x Hx. apply visits_written. constructor. auto.
      - rewrite map_map. auto.
    Qed.
    (** the fields that are visited are those of the operation *)
    Lemma entered_set f l : (forall s, In s l -> reached d o s) ->
      (forall s, In s l -> reached d o s -> forall e, In e (f s) -> match e with OEnter al n args ds sub _ _ _ => reached d o (SField al n args ds sub) | _ => True end) ->
      forall e, In e (flat_map f l) -> match e with OEnter al n args ds sub _ _ _ => reached d o (SField al n args ds sub) | _ => True end.
    Proof using. intros H K e He. apply in_flat_map in He as (s & Hs & He). apply (K s); auto. Qed.
    Lemma no_fields_args args defs e : In e (oargs args defs) -> match e with OEnter _ _ _ _ _ _ _ _ => False | _ => True end.
    Proof using. unfold oargs. intros H. apply in_flat_map in H as (a & _ & H). destruct (get_ivd defs (fst a)); [destruct H as [<-|[]]; auto|destruct H]. Qed.
    Lemma no_fields_dirs ds e : In e (odirectives S ds) -> match e with OEnter _ _ _ _ _ _ _ _ => False | _ => True end.
    Proof using. unfold odirectives. intros H. apply in_flat_map in H as (x & _ & H). destruct (get_ddef S (dir_name x)); [eapply no_fields_args; eauto|destruct H]. Qed.
    Lemma entered fuel : forall s, reached d o s -> forall act t b e, In e (ovisit S d o vals fuel act t b s) ->
      match e with OEnter al n args ds sub _ _ _ => reached d o (SField al n args ds sub) | _ => True end.
    Proof using.
      induction fuel as [fuel IHf] using lt_wf_ind.
      induction s as [al n args ds sub IH|n ds|c ds sub IH] using selection_ind'; intros Rs act t b e He; try rewrite Forall_forall in IH.
      - rewrite ovisit_field in He. destruct (get_field (td_fields t) n) as [fd|]; [|destruct He]. apply in_app_iff in He as [He|[<-|He]]; [apply no_fields_dirs in He; destruct e; tauto|auto|].
        apply in_app_iff in He as [He|He]; [apply no_fields_args in He; destruct e; tauto|]. apply in_app_iff in He as [He|[<-|[]]]; [|exact Logic.I].
        destruct sub as [|x sub]; [destruct He|]. destruct (get_type S (tref_base (fd_type fd))) as [t'|]; [|destruct He].
        revert e He. apply (entered_set _ (x :: sub)); [intros s Hs; eapply re_field; eauto|]. intros s Hs Rs'. apply IH; auto.
      - rewrite ovisit_spread in He. apply in_app_iff in He as [He|He]; [apply no_fields_dirs in He; destruct e; tauto|].
        destruct (tmem n act); [destruct He|]. destruct (cached_fragment d n) as [f|] eqn:Ef; [|destruct He]. destruct (get_type S (fr_cond f)) as [t'|]; [|destruct He].
        destruct fuel as [|fuel]; [destruct He as [<-|[]]; exact Logic.I|]. revert e He. apply entered_set; [intros s Hs; eapply re_spread; eauto|]. intros s Hs Rs'. apply IHf; auto.
      - rewrite ovisit_inline in He. apply in_app_iff in He as [He|He]; [apply no_fields_dirs in He; destruct e; tauto|].
        destruct (match c with Some c => get_type S c | None => Some t end) as [t'|]; [|destruct He].
        revert e He. apply entered_set; [intros s Hs; eapply re_inline; eauto|]. intros s Hs Rs'. apply IH; auto.
    Qed.
    Lemma entered_operation e : In e (ovisit_operation S d o vals) -> match e with OEnter al n args ds sub _ _ _ => reached d o (SField al n args ds sub) | _ => True end.
    Proof using.
      unfold ovisit_operation. intros He. apply in_app_iff in He as [He|He]; [apply no_fields_dirs in He; destruct e; tauto|].
      apply in_app_iff in He as [He|He]; [|apply in_map_iff in He as (v & <- & _); exact Logic.I].
      destruct (op_root_name S (op_type o)) as [n|]; [|destruct He]. destruct (get_type S n) as [t|]; [|destruct He as [<-|[]]; exact Logic.I].
      revert e He. apply entered_set; [intros s Hs; constructor; auto|]. intros s Hs Rs. apply entered; auto.
    Qed.
  End Calls.

  Lemma fold_in {A} (f g : A -> oevent -> A) evs : (forall a e, In e evs -> f a (written_call e) = g a e) -> forall a, fold_left f (map written_call evs) a = fold_left g evs a.
  Proof using. intros H. induction evs as [|e evs IH]; cbn; auto. intros a. rewrite H; [|left; auto]. apply IH. intros; apply H; right; auto. Qed.
  Lemma fold_written {A} (f g : A -> oevent -> A) : (forall a e, f a (written_call e) = g a e) -> forall evs a, fold_left f (map written_call evs) a = fold_left g evs a.
  Proof using. intros H evs. apply fold_in. auto. Qed.
  Lemma depth_written evs : query_depth (map written_call evs) = query_depth evs.
  Proof using. unfold query_depth. rewrite (fold_written depth_step depth_step); auto. intros [cur mx] e. destruct e; auto. Qed.
  Lemma complexity_written M mdefault multiplier_for cost_of multipliers_of multipliers_of' evs :
    (forall m f, multiplier_for m (wsel f) = multiplier_for m f) ->
    (forall al n args ds sub fd t b, In (OEnter al n args ds sub fd t b) evs ->
       multipliers_of' fd (wsel (SField al n args ds sub)) = multipliers_of fd (SField al n args ds sub)) ->
    complexity S M mdefault multiplier_for cost_of multipliers_of' (map written_call evs) = complexity S M mdefault multiplier_for cost_of multipliers_of evs.
  Proof using.
    intros H1 H2. unfold complexity.
    rewrite (fold_in (complexity_step S M multiplier_for cost_of multipliers_of') (complexity_step S M multiplier_for cost_of multipliers_of)); auto.
    intros [[A stk]|] e He; auto. destruct e; auto. cbn [written_call complexity_step]. destruct included; auto. unfold enter_field.
    destruct ((_ =? 0)%N && _); auto. destruct stk as [|[i|] stk]; auto. destruct (nth_error A i); auto.
    pose proof (H1 (cs_fm M c) (SField al n args ds sub)) as E1. pose proof (H2 _ _ _ _ _ _ _ _ He) as E2. cbn [written_selection] in E1, E2. rewrite E1, E2. auto.
  Qed.
  Lemma relay_written d twice_ln : sizes_typed d o vals ->
    forall fd al n args ds sub, reached d o (SField al n args ds sub) ->
      relay_multipliers (wop o) vals twice_ln fd (wsel (SField al n args ds sub)) = relay_multipliers o vals twice_ln fd (SField al n args ds sub).
  Proof using plain.
    intros ints fd al n args ds sub Rs. cbn [written_selection relay_multipliers]. destruct (cost_argument (tx "kind") (fd_dirs fd)) as [k|]; auto.
    destruct (teqb k (tx "connection")); auto.
    assert (E : forall an, an = tx "first" \/ an = tx "last" -> sizing_argument (wop o) vals (map warg args) an = sizing_argument o vals args an).
    { intros an Han. unfold sizing_argument. rewrite (find_written _ (fun a => teqb (fst a) an) warg); auto. destruct (find (fun a => teqb (fst a) an) args) as [[k0 v]|] eqn:Fa; auto.
      apply find_some in Fa as (Ha & Ek). cbn [fst] in Ek. destruct (teqb_spec k0 an) as [->|]; [|discriminate].
      cbn [option_map written_argument fst snd]. destruct v; auto. unfold written_value. cbn [subst]. destruct (value_of o vals n0) as [w|] eqn:V; [|reflexivity].
      transitivity (option_map Z.to_N (as_int w)).
      - destruct plain as (_ & P). pose proof (P n0 w) as P'. destruct w; auto. destruct (P' n1 V). constructor.
      - f_equal. symmetry. apply (looked_up as_int (tx "Int") n0 w V). intros H. destruct w; try (destruct H; reflexivity).
        eapply ints; eauto. }
    rewrite !E; auto.
  Qed.
  Lemma values_written hook str_enum one_of evs :
    variable_value_errors S hook str_enum one_of vals (map written_call evs) = variable_value_errors S hook str_enum one_of vals evs.
  Proof using.
    unfold variable_value_errors.
    rewrite (fold_written _ (fun st ev => match ev with OVarDef v => check_variable S hook str_enum one_of st v | _ => st end)); auto. intros st e. destruct e; auto.
  Qed.
  (** ** Oversized lists *)
  Lemma const_same mx vds w : (forall y, ~ var_in y w) -> forall nm, arg_offenders mx vals vds nm w = const_offenders mx nm w.
  Proof using.
    induction w as [n|z|f|s|f| |n|vs IH|es IH] using value_ind'; intros H nm; auto; cbn [arg_offenders const_offenders].
    - destruct (H n). constructor.
    - destruct (Nat.ltb mx (length vs)); auto. assert (H' : forall x, In x vs -> forall y, ~ var_in y x) by (intros x Hx y K; apply (H y); econstructor; eauto).
      clear H. generalize 0%nat. induction IH as [|x l Hx _ IHl]; auto. intros i. rewrite Hx; [|intros y; apply H'; left; auto]. f_equal. apply IHl. intros y Hy. apply H'. right. auto.
    - assert (H' : forall k x, In (k, x) es -> forall y, ~ var_in y x) by (intros k x Hx y K; apply (H y); econstructor; eauto).
      clear H. induction IH as [|[k x] l Hx _ IHl]; auto. cbn [snd] in Hx. rewrite Hx; [|apply (H' k); left; auto]. f_equal. apply IHl. intros k' y Hy. apply (H' k'). right. auto.
  Qed.
  Lemma arg_offenders_written mx : (forall v, In v (op_vars o) -> vd_default v <> None -> assoc (vd_name v) vals <> None) -> forall v nm,
    arg_offenders mx vals (op_vars o) nm (wval v) = arg_offenders mx vals (op_vars o) nm v.
  Proof using plain.
    intros H. unfold written_value. induction v as [n|z|f|s|f| |n|vs IH|es IH] using value_ind'; intros nm; auto; cbn [arg_offenders subst].
    - destruct (assoc n vals) as [w|] eqn:E.
      + assert (V : value_of o vals n = Some w) by (unfold value_of; rewrite E; auto). rewrite V. apply const_same. intros y. apply (proj2 plain n w y V).
      + assert (V : value_of o vals n = None).
        { unfold value_of. rewrite E. destruct (find _ (op_vars o)) as [v|] eqn:F; auto. apply find_some in F as (Hv & F). destruct (teqb_spec (vd_name v) n) as [<-|]; [|discriminate].
          destruct (vd_default v) eqn:D; auto. destruct (H v Hv); [congruence|auto]. }
        rewrite V. cbn [arg_offenders]. rewrite E. auto.
    - rewrite map_length. destruct (Nat.ltb mx (length vs)); auto. generalize 0%nat. induction IH as [|x l Hx _ IHl]; auto. intros i. cbn [map]. rewrite Hx. f_equal. apply IHl.
    - induction IH as [|[k x] l Hx _ IHl]; auto. cbn [map fst snd]. cbn [snd] in Hx. rewrite Hx. f_equal. exact IHl.
  Qed.
End WrittenOut.

(** * C91 *)
Theorem c91_analyses :
  forall (S : schema) (d : document) (o : operation) (vals : list (name * value)),
    plain_values o vals -> conditions_typed d o vals ->
    let calls := ovisit_operation S d o vals in
    let calls' := ovisit_operation S (written_document o vals d) (written_operation o vals o) vals in
    query_depth calls' = query_depth calls /\
    default_complexity S calls' = default_complexity S calls /\
    (forall hook str_enum one_of, variable_value_errors S hook str_enum one_of vals calls' = variable_value_errors S hook str_enum one_of vals calls) /\
    (sizes_typed d o vals -> forall parse_weight twice_ln,
       relay_complexity S (written_operation o vals o) vals parse_weight twice_ln calls' = relay_complexity S o vals parse_weight twice_ln calls) /\
    (forall M mdefault multiplier_for cost_of multipliers_of,
       (forall m f, multiplier_for m (written_selection o vals f) = multiplier_for m f) ->
       (forall fd f, multipliers_of fd (written_selection o vals f) = multipliers_of fd f) ->
       complexity S M mdefault multiplier_for cost_of multipliers_of calls' = complexity S M mdefault multiplier_for cost_of multipliers_of calls).
Proof.
  intros S d o vals P B calls calls'. assert (E : calls' = map (written_call o vals) calls) by (apply calls_written; auto). rewrite E.
  split; [apply depth_written|]. split; [apply complexity_written; auto|]. split; [intros; apply values_written|]. split; [|intros; apply complexity_written; auto].
  intros I pw tl. unfold relay_complexity. apply complexity_written; [intros m f; destruct f; auto|].
  intros al n args ds sub fd t b He. apply (relay_written o vals P d tl I). exact (entered_operation S o vals d _ He).
Qed.
Print Assumptions c91_analyses.

(** Oversized lists: the same if variables that have a default are given a value. *)
Theorem c91_input_sizes_partial :
  forall (S : schema) (d : document) (o : operation) (vals : list (name * value)),
    plain_values o vals -> conditions_typed d o vals ->
    (forall v, In v (op_vars o) -> vd_default v <> None -> assoc (vd_name v) vals <> None) ->
  forall mx, input_size_offenders mx vals (op_vars o) (ovisit_operation S (written_document o vals d) (written_operation o vals o) vals) =
             input_size_offenders mx vals (op_vars o) (ovisit_operation S d o vals).
Proof.
  intros S d o vals P B H mx. rewrite calls_written; auto. unfold input_size_offenders. induction (ovisit_operation S d o vals) as [|e evs IH]; auto.
  cbn [map flat_map]. rewrite IH. f_equal. destruct e; auto. cbn. apply arg_offenders_written; auto.
Qed.
Print Assumptions c91_input_sizes_partial.
(** With a default it does: query($b: [Int] = [1, 2, 3]) { f(a: $b) } and { f(a: [1, 2, 3]) }. *)
Theorem c91_input_sizes_refuted :
  exists (S : schema) (d : document) (o : operation) (mx : nat),
    In o (doc_ops d) /\ plain_values o [] /\ conditions_typed d o [] /\
    input_size_offenders mx [] (op_vars o) (ovisit_operation S d o []) = [] /\
    input_size_offenders mx [] (op_vars o) (ovisit_operation S (written_document o [] d) (written_operation o [] o) []) <> [].
Proof.
  exists ex_size_schema, (doc_of ex_size_missed), ex_size_missed, 2%nat.
  assert (V : forall x w, value_of ex_size_missed [] x = Some w -> w = int_list [1; 2; 3]%Z).
  { intros x w H. unfold value_of in H. cbn [assoc ex_size_missed op_query op_vars find mk_var vd_name vd_default] in H. destruct (teqb _ _); cbn in H; congruence. }
  split; [left; reflexivity|]. split; [|split; [|split; [vm_compute; reflexivity|vm_compute; discriminate]]].
  - split; [repeat constructor; intros []|]. intros x w y H K. rewrite (V _ _ H) in K. inversion K as [|? v Hin Hv|]; subst. destruct Hin as [<-|[<-|[<-|[]]]]; inversion Hv.
  - intros s x dr b _ _ _ _ H. discriminate (V _ _ H).
Qed.
Print Assumptions c91_input_sizes_refuted.

(** ** A concrete case: the first operation of [pets_query] *)
Lemma value_of_in o vals x w : value_of o vals x = Some w -> In (x, w) vals \/ exists v, In v (op_vars o) /\ vd_name v = x /\ vd_default v = Some w.
Proof.
  unfold value_of. intros H. destruct (assoc x vals) as [w'|] eqn:E.
  - injection H as ->. left. induction vals as [|[k v] l IH]; [discriminate|]. cbn in E. destruct (teqb_spec x k) as [->|]; [injection E as ->; left; auto|right; auto].
  - right. destruct (find _ (op_vars o)) as [v|] eqn:F; [|discriminate]. apply find_some in F as (Hv & F). destruct (teqb_spec (vd_name v) x); [|discriminate]. eauto.
Qed.
Definition pets_values : list (name * value) := [(tx "n", VInt 5); (tx "k", VEnum (tx "CAT")); (tx "withId", VBool false)].
Example c91_case :
  In pets_op (doc_ops pets_doc) /\ plain_values pets_op pets_values /\
  conditions_typed pets_doc pets_op pets_values /\ sizes_typed pets_doc pets_op pets_values /\
  (forall v, In v (op_vars pets_op) -> vd_default v <> None -> assoc (vd_name v) pets_values <> None) /\
  written_document pets_op pets_values pets_doc <> pets_doc /\
  query_depth (ovisit_operation pets (written_document pets_op pets_values pets_doc) (written_operation pets_op pets_values pets_op) pets_values) = 2.
Proof.
  assert (V : forall x w, value_of pets_op pets_values x = Some w ->
            (x = tx "n" /\ w = VInt 5) \/ (x = tx "k" /\ w = VEnum (tx "CAT")) \/ (x = tx "withId" /\ exists b, w = VBool b)).
  { intros x w H. apply value_of_in in H as [[H|[H|[H|[]]]]|(v & [<-|[<-|[<-|[<-|[]]]]] & En & Ed)]; try (injection H as <- <-); eauto 6; try discriminate Ed.
    right. right. split; [symmetry; exact En|]. injection Ed as <-. eauto. }
  split; [left; reflexivity|]. split; [|split; [|split; [|split; [|split]]]].
  - split; [repeat constructor; cbn; intros K; repeat (destruct K as [K|K]; [discriminate K|]); destruct K|].
    intros x w y H K. destruct (V _ _ H) as [(_ & ->)|[(_ & ->)|(_ & b & ->)]]; inversion K.
  - intros s x dr b _ _ _ _ H. destruct (V _ _ H) as [(_ & K)|[(_ & K)|(K & _)]]; [congruence|congruence|].
    eexists. eexists. split; [right; right; right; left; reflexivity|]. split; [rewrite K; reflexivity|reflexivity].
  - intros al n args ds sub x k z _ _ _ H. destruct (V _ _ H) as [(K & _)|[(_ & K)|(_ & b & K)]]; [|congruence|congruence].
    eexists. eexists. split; [left; reflexivity|]. split; [rewrite K; reflexivity|reflexivity].
  - intros v [<-|[<-|[<-|[<-|[]]]]] H; try (destruct H; reflexivity). vm_compute. discriminate.
  - intros K. apply (f_equal doc_ops) in K. vm_compute in K. discriminate.
  - vm_compute. reflexivity.
Qed.
