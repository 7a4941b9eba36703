(** The names that fields have in the response do not matter to the analyses (C93). *)
From Verif Require Import Base Ast Examples Maps Graph Doc DocRules DocVariablesSpec OperationSpec Operation OperationProofs OperationProps Complexity ValidatorCases ValidAnalysisProps AliasSpec.
Local Open Scope string_scope.
Local Open Scope list_scope.

Lemma alias_key k n : field_key (alias_for k n) n = k.
Proof. unfold alias_for. destruct (teqb_spec k n); auto. Qed.

Section Calls.
  Variable S : schema.
  Variable new : name -> name.
  Variable d : document.
  Variable o : operation.
  Variable vals : list (name * value).
  Notation asel := (aliased_selection new).
  Notation adoc := (aliased_document new).
  Notation aop := (aliased_operation new).
  Definition aliased_call (e : oevent) : oevent :=
    match e with
    | OEnter al n args ds sub fd t b => OEnter (alias_for (new (response_name al n)) n) n args ds (map asel sub) fd t b
    | e => e
    end.
  Lemma included_aliased ds : selection_included (aop o) vals ds = selection_included o vals ds.
  Proof. reflexivity. Qed.
  Lemma args_aliased args defs : oargs args defs = map aliased_call (oargs args defs).
  Proof. unfold oargs. induction args as [|a args IH]; auto. cbn [flat_map]. rewrite map_app, <- IH. destruct (get_ivd defs (fst a)); auto. Qed.
  Lemma dirs_aliased ds : odirectives S ds = map aliased_call (odirectives S ds).
  Proof. unfold odirectives. induction ds as [|x ds IH]; auto. cbn [flat_map]. rewrite map_app, <- IH. f_equal. destruct (get_ddef S (dir_name x)); auto. apply args_aliased. Qed.
  Lemma cached_aliased n : cached_fragment (adoc d) n = option_map (aliased_fragment new) (cached_fragment d n).
  Proof.
    unfold cached_fragment. cbn [aliased_document doc_frags]. induction (doc_frags d) as [|f l IH]; auto. cbn [map assoc_last].
    rewrite IH. destruct (assoc_last n (map (fun f => (fr_name f, f)) l)); auto. cbn. destruct (teqb _ _); auto.
  Qed.
  Lemma flat_aliased {A B} (f : B -> list oevent) (g : A -> list oevent) (h : A -> B) l :
    (forall x, In x l -> f (h x) = map aliased_call (g x)) -> flat_map f (map h l) = map aliased_call (flat_map g l).
  Proof. intros H. induction l as [|x l IH]; auto. cbn [map flat_map]. rewrite map_app, H, IH; auto using in_cons. left; auto. Qed.
  Lemma visits_aliased fuel : forall s act t b, ovisit S (adoc d) (aop o) vals fuel act t b (asel s) = map aliased_call (ovisit S d o vals fuel act t b s).
  Proof.
    induction fuel as [fuel IHf] using lt_wf_ind. induction s as [al n args ds sub IH|n ds|c ds sub IH] using selection_ind'; intros act t b; cbn [aliased_selection].
    - rewrite !ovisit_field. destruct (get_field (td_fields t) n) as [fd|]; auto. rewrite map_app, <- dirs_aliased, included_aliased. f_equal. cbn [map aliased_call]. f_equal.
      rewrite !map_app, <- args_aliased. f_equal. f_equal. rewrite Forall_forall in IH. destruct sub as [|x sub]; auto.
      destruct (get_type S (tref_base (fd_type fd))) as [t'|]; auto. apply (flat_aliased _ _ _ (x :: sub)). intros y Hy. apply IH; auto.
    - rewrite !ovisit_spread. rewrite cached_aliased, map_app, <- dirs_aliased. f_equal. destruct (tmem n act); auto. destruct (cached_fragment d n) as [f|]; auto.
      cbn [option_map aliased_fragment fr_cond fr_sel]. destruct (get_type S (fr_cond f)) as [t'|]; auto. destruct fuel as [|fuel]; auto.
      rewrite included_aliased. apply flat_aliased. intros y Hy. apply IHf; auto.
    - rewrite !ovisit_inline. rewrite map_app, <- dirs_aliased, included_aliased. f_equal. rewrite Forall_forall in IH.
      destruct (match c with Some c => get_type S c | None => Some t end) as [t'|]; auto. apply flat_aliased. intros y Hy. apply IH; auto.
  Qed.
  Lemma calls_aliased : ovisit_operation S (adoc d) (aop o) vals = map aliased_call (ovisit_operation S d o vals).
  Proof.
    unfold ovisit_operation. cbn [aliased_operation aliased_document op_type op_dirs op_vars op_sel doc_frags]. rewrite !map_app, <- dirs_aliased. f_equal. f_equal.
    - destruct (op_root_name S (op_type o)) as [n|]; auto. destruct (get_type S n) as [t|]; auto. rewrite map_length. apply flat_aliased. intros x Hx. apply visits_aliased.
    - rewrite map_map. auto.
  Qed.
End Calls.

Section Costs.
  Variable S : schema.
  Variable new : name -> name.
  Hypothesis inj : forall a b, new a = new b -> a = b.
  Variable M : Type.
  Variable multiplier_for : M -> selection -> N.
  Variable cost_of : fdef -> N.
  Variable multipliers_of : fdef -> selection -> M.
  Hypothesis same_multiplier : forall m f, multiplier_for m (aliased_selection new f) = multiplier_for m f.
  Hypothesis same_multipliers : forall fd f, multipliers_of fd (aliased_selection new f) = multipliers_of fd f.
  Definition keyed {A} (l : list (name * A)) : list (name * A) := map (fun e => (new (fst e), snd e)) l.
  Definition rescope (sc : cscope M) : cscope M :=
    {| cs_cost := cs_cost M sc; cs_mult := cs_mult M sc; cs_fm := cs_fm M sc;
       cs_typed := map (fun e => (fst e, (fst (snd e), keyed (snd (snd e))))) (cs_typed M sc) |}.
  Lemma new_eqb a b : teqb (new a) (new b) = teqb a b.
  Proof. destruct (teqb_spec a b) as [->|N]; [apply teqb_refl|]. destruct (teqb_spec (new a) (new b)) as [E|]; auto. destruct N. auto. Qed.
  Lemma new_mem a l : tmem (new a) (map new l) = tmem a l.
  Proof. induction l as [|b l IH]; auto. cbn [map]. unfold tmem in *. cbn [existsb]. rewrite new_eqb, IH. auto. Qed.
  Lemma assoc_keyed {A} k (l : list (name * A)) : assoc (new k) (keyed l) = assoc k l.
  Proof. induction l as [|[k' a] l IH]; auto. cbn. rewrite new_eqb. destruct (teqb k k'); auto. Qed.
  Lemma entry_keyed {A} k (v : A) f l : entry (new k) v f (keyed l) = keyed (entry k v f l).
  Proof. induction l as [|[k' a] l IH]; auto. cbn [keyed map entry fst snd]. rewrite new_eqb. destruct (teqb k' k); auto. cbn [keyed map fst snd]. f_equal. apply IH. Qed.
  Lemma unique_keyed l : unique_by (fun k => k) (map new l) = map new (unique_by (fun k => k) l).
  Proof.
    unfold unique_by. change (@nil name) with (map new []) at 1. generalize (@nil name). induction l as [|a l IH]; auto. intros seen. cbn [map unique_from].
    rewrite new_mem. destruct (tmem a seen); auto. cbn [map]. f_equal. apply (IH (a :: seen)).
  Qed.
  Lemma upd_map {A B} (h : A -> B) f g l : (forall a, g (h a) = h (f a)) -> forall i, upd (map h l) i g = map h (upd l i f).
  Proof. intros H. induction l as [|a l IH]; intros [|i]; cbn; auto; [rewrite H|rewrite IH]; auto. Qed.
  Lemma insert_rescope t key next sc : insert_scope M t (new key) next (rescope sc) = rescope (insert_scope M t key next sc).
  Proof.
    unfold insert_scope, rescope. cbn. f_equal. induction (cs_typed M sc) as [|[k [t' inner]] l IH]; cbn; auto.
    destruct (teqb k (td_name t)); cbn; [|f_equal; auto]. f_equal. f_equal. f_equal. apply entry_keyed.
  Qed.
  Lemma find_rescope sc tn key : find_scope M (rescope sc) tn (new key) = find_scope M sc tn key.
  Proof.
    unfold find_scope, rescope. cbn. induction (cs_typed M sc) as [|[k [t' inner]] l IH]; cbn; auto. destruct (teqb tn k); auto. apply assoc_keyed.
  Qed.
  Definition restate (st : option (arena M * list (option nat))) := option_map (fun p => (map rescope (fst p), snd p)) st.
  Lemma step_aliased st e :
    complexity_step S M multiplier_for cost_of multipliers_of (restate st) (aliased_call new e) = restate (complexity_step S M multiplier_for cost_of multipliers_of st e).
  Proof.
    destruct st as [[A stk]|]; auto. destruct e as [| |al n args ds sub fd t [|]|[|]| |]; auto; [|cbn; destruct stk; auto].
    cbn [restate option_map aliased_call complexity_step fst snd]. unfold enter_field. rewrite alias_key.
    change (field_key al n) with (response_name al n).
    destruct ((_ =? 0)%N && _); auto. destruct stk as [|[i|] stk]; auto. rewrite nth_error_map. destruct (nth_error A i) as [parent|]; auto. cbn [option_map].
    rewrite find_rescope, map_length. pose proof (same_multiplier (cs_fm M parent) (SField al n args ds sub)) as E1. pose proof (same_multipliers fd (SField al n args ds sub)) as E2.
    cbn [aliased_selection] in E1, E2. change (cs_fm M (rescope parent)) with (cs_fm M parent). rewrite E1, E2.
    rewrite (upd_map rescope (insert_scope M t (response_name al n) (length A))) by (intros; apply insert_rescope).
    destruct (find_scope M parent (td_name t) (response_name al n)) as [j|]; cbn [option_map restate fst snd].
    - rewrite (upd_map rescope (set_costs M (multiplier_for (cs_fm M parent) (SField al n args ds sub)) (cost_of fd))); auto.
    - change [default_scope M (multipliers_of fd (SField al n args ds sub))] with (map rescope [default_scope M (multipliers_of fd (SField al n args ds sub))]).
      rewrite <- map_app, (upd_map rescope (set_costs M (multiplier_for (cs_fm M parent) (SField al n args ds sub)) (cost_of fd))); auto.
  Qed.
  Lemma scopes_aliased A ids : scopes_at M (map rescope A) ids = map rescope (scopes_at M A ids).
  Proof. unfold scopes_at. induction ids as [|i ids IH]; auto. cbn [flat_map]. rewrite map_app, <- IH, nth_error_map. destruct (nth_error A i); auto. Qed.
  Lemma inner_aliased T scs : inner_for S M T (map rescope scs) = map keyed (inner_for S M T scs).
  Proof.
    unfold inner_for. induction scs as [|sc scs IH]; auto. cbn [map flat_map]. rewrite map_app, <- IH. f_equal. cbn [rescope cs_typed].
    induction (cs_typed M sc) as [|e l IHl]; auto. cbn [map flat_map fst snd]. rewrite map_app, <- IHl. f_equal. destruct (tmem T _); auto.
  Qed.
  Lemma children_aliased k inners : children_for (new k) (map keyed inners) = children_for k inners.
  Proof. unfold children_for. induction inners as [|i l IH]; auto. cbn [map flat_map]. rewrite assoc_keyed, IH. auto. Qed.
  Lemma selections_aliased rec A inners :
    selections_cost M rec (map rescope A) (map keyed inners) = selections_cost M rec A inners.
  Proof.
    unfold selections_cost. f_equal.
    assert (E : flat_map (map fst) (map keyed inners) = map new (flat_map (map fst) inners)).
    { induction inners as [|i l IH]; auto. cbn [map flat_map]. rewrite map_app, <- IH. f_equal. unfold keyed. rewrite !map_map. auto. }
    rewrite E, unique_keyed, map_map. apply map_ext. intros k. rewrite children_aliased, scopes_aliased, !map_map.
    assert (F : filter (fun j => match nth_error (map rescope A) j with Some sc => negb (match cs_typed M sc with [] => true | _ => false end) | None => false end) (children_for k inners) =
                filter (fun j => match nth_error A j with Some sc => negb (match cs_typed M sc with [] => true | _ => false end) | None => false end) (children_for k inners)).
    { apply filter_ext. intros j. rewrite nth_error_map. destruct (nth_error A j) as [sc|]; auto. cbn. destruct (cs_typed M sc); auto. }
    rewrite F. auto.
  Qed.
  Lemma cost_aliased fuel : forall A ids, scopes_cost S M fuel (map rescope A) ids = scopes_cost S M fuel A ids.
  Proof.
    induction fuel as [|fuel IH]; auto. intros A ids. cbn [scopes_cost]. rewrite scopes_aliased.
    assert (E : flat_map (fun sc => map (fun e => fst (snd e)) (cs_typed M sc)) (map rescope (scopes_at M A ids)) = flat_map (fun sc => map (fun e => fst (snd e)) (cs_typed M sc)) (scopes_at M A ids)).
    { induction (scopes_at M A ids) as [|sc l IHl]; auto. cbn [map flat_map]. rewrite IHl. f_equal. cbn. rewrite map_map. auto. }
    rewrite E. f_equal. apply map_ext. intros T. rewrite inner_aliased, selections_aliased.
    unfold selections_cost. f_equal. apply map_ext. intros k. rewrite IH. auto.
  Qed.
  Lemma complexity_aliased mdefault evs :
    complexity S M mdefault multiplier_for cost_of multipliers_of (map (aliased_call new) evs) = complexity S M mdefault multiplier_for cost_of multipliers_of evs.
  Proof.
    unfold complexity. assert (E : forall st, fold_left (complexity_step S M multiplier_for cost_of multipliers_of) (map (aliased_call new) evs) (restate st) =
      restate (fold_left (complexity_step S M multiplier_for cost_of multipliers_of) evs st)).
    { induction evs as [|e evs IH]; auto. intros st. cbn [map fold_left]. rewrite step_aliased. apply IH. }
    specialize (E (Some (complexity_start M mdefault))). change (restate (Some (complexity_start M mdefault))) with (Some (complexity_start M mdefault)) in E. rewrite E.
    destruct (fold_left _ evs _) as [[A stk]|]; auto. cbn [restate option_map fst snd]. rewrite map_length, cost_aliased. auto.
  Qed.
End Costs.

(** * C93 *)
Theorem c93_analyses :
  forall (S : schema) (new : name -> name) (d : document) (o : operation) (vals : list (name * value)),
    (forall a b, new a = new b -> a = b) ->
    let o' := aliased_operation new o in
    let calls := ovisit_operation S d o vals in
    let calls' := ovisit_operation S (aliased_document new d) o' vals in
    query_depth calls' = query_depth calls /\
    (forall hook str_enum one_of, variable_value_errors S hook str_enum one_of vals calls' = variable_value_errors S hook str_enum one_of vals calls) /\
    (forall mx, input_size_offenders mx vals (op_vars o') calls' = input_size_offenders mx vals (op_vars o) calls) /\
    (forall strings, deprecations S vals strings calls' = deprecations S vals strings calls) /\
    default_complexity S calls' = default_complexity S calls /\
    (forall parse_weight twice_ln, relay_complexity S o' vals parse_weight twice_ln calls' = relay_complexity S o vals parse_weight twice_ln calls) /\
    (forall M mdefault multiplier_for cost_of multipliers_of,
       (forall m f, multiplier_for m (aliased_selection new f) = multiplier_for m f) ->
       (forall fd f, multipliers_of fd (aliased_selection new f) = multipliers_of fd f) ->
       complexity S M mdefault multiplier_for cost_of multipliers_of calls' = complexity S M mdefault multiplier_for cost_of multipliers_of calls).
Proof.
  intros S new d o vals inj o' calls calls'. assert (E : calls' = map (aliased_call new) calls) by apply calls_aliased. rewrite E.
  assert (F : forall {A} (f : A -> oevent -> A), (forall a e, f a (aliased_call new e) = f a e) -> forall evs a, fold_left f (map (aliased_call new) evs) a = fold_left f evs a).
  { intros A f H. induction evs as [|e evs IH]; auto. intros a. cbn. rewrite H. auto. }
  assert (G : forall {A} (f : oevent -> list A), (forall e, f (aliased_call new e) = f e) -> forall evs, flat_map f (map (aliased_call new) evs) = flat_map f evs).
  { intros A f H. induction evs as [|e evs IH]; auto. cbn. rewrite H, IH. auto. }
  split; [unfold query_depth; rewrite F; auto; intros [cur mx] e; destruct e; auto|].
  split; [intros; unfold variable_value_errors; rewrite F; auto; intros a e; destruct e; auto|].
  split; [intros; apply G; intros e; destruct e; auto|]. split; [intros; apply G; intros e; destruct e; auto|].
  split; [apply complexity_aliased; auto|]. split; [|intros; apply complexity_aliased; auto].
  intros. apply complexity_aliased; auto; [intros m f; destruct f; auto|intros fd f; destruct f; auto].
Qed.
Print Assumptions c93_analyses.

(** ** A concrete case: [pets_query] with "_" added to all names in the response; giving all fields one name does change the cost *)
Definition marked (n : name) : name := n ++ tx "_".
Example c93_case :
  (forall a b, marked a = marked b -> a = b) /\ In pets_op (doc_ops pets_doc) /\
  aliased_document marked pets_doc <> pets_doc /\
  default_complexity pets (ovisit_operation pets (aliased_document marked pets_doc) (aliased_operation marked pets_op) pets_vals) = CCost 4 /\
  default_complexity pets (ovisit_operation pets pets_doc pets_op pets_vals) = CCost 4 /\
  default_complexity pets (ovisit_operation pets (aliased_document (fun _ => tx "x") pets_doc) (aliased_operation (fun _ => tx "x") pets_op) pets_vals) = CCost 2.
Proof.
  split; [intros a b H; eapply app_inv_tail; exact H|]. split; [left; reflexivity|].
  split; [intros K; apply (f_equal doc_ops) in K; vm_compute in K; discriminate|]. vm_compute. auto.
Qed.
