(** The names of variables do not matter (C90). *)
From Verif Require Import Base Ast Examples CoercionTypes Coercion CoercionSpec Graph Maps Doc DocSpec DocProofs DocRules DocRulesSpec DocRulesProofs DocTypingProofs DocRulesProps
  DocVariables DocVariablesSpec DocVariablesProofs DocVariablesProps FragmentsSpec FragmentCycles CyclesProps ValueEqSpec Merging MergingSpec MergingProps MergingComplete MergingCheck MergingCases
  Lexer LexerSpec Parser ParserProps DefParser DefParserProps Resolve ResolveProps Validator ValiditySpec ValidatorProofs EndToEndProofs ValidatorProps TypegenSpec TypegenInputCases ValidatorCases
  Operation OperationProofs OperationProps Complexity RenameProps VariableNamesSpec VariableNamesProofs.
Local Open Scope string_scope.
Local Open Scope list_scope.

(** * C90: validity *)
(** Whatever custom scalars accept, as long as they do not look at the names of the variables in a value. *)
Theorem c90_valid :
  forall (S : schema) (accepts : name -> value -> Prop) (str_enum one_of : bool) (variable_name variable_back : name -> name) (d : document),
    undo variable_name variable_back -> (forall n v, accepts n (named_value variable_name v) <-> accepts n v) ->
    (valid_document S accepts str_enum one_of d <-> valid_document S accepts str_enum one_of (named_document variable_name d)).
Proof.
  intros S acc se oo nu nu' d (I & I') B. split; intros V.
  - apply (named_valid S acc se oo nu' nu I').
    + intros n v H. apply B. auto.
    + rewrite (document_back nu nu' I). auto.
  - apply (named_valid S acc se oo nu nu' I); auto. intros n v H. apply B. rewrite (value_back nu' nu I'). auto.
Qed.
Print Assumptions c90_valid.

(** Renaming variables does not change whether acceptance is known to be validity (see C60). *)
Section Settled.
  Variable S : schema.
  Variables nu nu' : name -> name.
  Hypothesis I : forall n, nu' (nu n) = n.
  Variable d : document.
  Notation d' := (named_document nu d).
  Lemma field_named s : (exists al n args ds sub, named_selection nu s = SField al n args ds sub) <-> exists al n args ds sub, s = SField al n args ds sub.
  Proof using.
    split; intros (al & n & args & ds & sub & H); [|subst s; cbn; repeat eexists]. destruct s; try discriminate H. repeat eexists.
  Qed.
  Lemma counted_named o sels : counted d o sels -> counted d' (named_operation nu o) (map (named_selection nu) sels).
  Proof using.
    intros [K|c ds l K|n ds f K Hf].
    - apply (cn_root d' (named_operation nu o)). intros s Es. cbn in Es. destruct (op_sel o) as [|s0 [|s1 l]]; try discriminate Es. injection Es as <-. apply field_named. apply K. auto.
    - apply (cn_inline d' (named_operation nu o) c (map (named_directive nu) ds)). cbn. rewrite K. auto.
    - apply (cn_spread d' (named_operation nu o) n (map (named_directive nu) ds) (named_fragment nu f)); [cbn; rewrite K; auto|apply defines_named; auto].
  Qed.
  Lemma in_object_in_list_named x v : in_object_in_list x v -> in_object_in_list (nu x) (named_value nu v).
  Proof using.
    induction 1 as [vs es Hi Hv|vs v Hi _ IH|es k v Hi _ IH]; cbn [named_value].
    - apply (oil_here _ _ (map (fun e => (fst e, named_value nu (snd e))) es)); [apply (List.in_map (named_value nu) _ _ Hi)|apply (var_in_named nu _ _ Hv)].
    - eapply oil_list; [apply List.in_map; eauto|auto].
    - apply (oil_obj _ _ k (named_value nu v)); auto. apply in_map_iff. exists (k, v). auto.
  Qed.
  Lemma settled_named : acceptance_is_validity S d' -> acceptance_is_validity S d.
  Proof using I.
    intros (A1 & A2 & A3 & A4 & A5). split; [|split; [|split; [|split]]].
    - intros o sels s Ho Et Hc Hs. destruct (A1 (named_operation nu o) _ (named_selection nu s) (in_op nu d o Ho) Et (counted_named _ _ Hc)) as [K|(x & K)].
      + rewrite Hs. reflexivity.
      + left. exact (proj1 (field_named s) K).
      + right. exists x. intros y. rewrite <- K. split; [apply root_response_named|apply (root_response_back nu nu' I)].
    - intros o sels Ho Et Hc Hl. destruct (A2 (named_operation nu o) _ (in_op nu d o Ho) Et (counted_named _ _ Hc)) as (x & y & Hx & Hy & N); [rewrite map_length; auto|].
      exists x, y. split; [|split; auto]; apply (root_response_back nu nu' I); auto.
    - intros r t n ds f t1 Hs Hd Ht. destruct (A3 r t n (map (named_directive nu) ds) (named_fragment nu f) t1) as [K|(K1 & K2 & K3)]; auto.
      + apply (sel_named S nu d _ _ _ Hs).
      + apply defines_named. auto.
      + right. split; [auto|]. split.
        * intros s Hin. apply field_named. apply K2. apply List.in_map. auto.
        * intros al m args ds' sub fd Hin. apply (List.in_map (named_selection nu)) in Hin. apply (K3 _ _ _ _ _ fd Hin).
    - intros r t al n args ds sub Hs. apply (sel_named S nu) in Hs. destruct (A4 _ _ _ _ _ _ _ Hs) as (K1 & K2). split; [auto|].
      intros H. destruct (K2 H) as (E1 & E2 & E3 & E4). apply map_eq_nil in E3, E4. auto.
    - intros i o r a iv v t df Ho Hr Hv Ha Hl Hu.
      apply (A5 i (named_operation nu o) r (named_argument nu a) iv (named_variable nu v) t df); cbn.
      + apply (nth_op nu d _ _ Ho).
      + apply refers_named. auto.
      + apply (List.in_map (named_variable nu) _ _ Hv).
      + apply argument_named. auto.
      + apply in_object_in_list_named. auto.
      + apply located_named. auto.
  Qed.
End Settled.
Lemma settled_renamed S nu nu' d : undo nu nu' -> acceptance_is_validity S d -> acceptance_is_validity S (named_document nu d).
Proof. intros (I & I') A. apply (settled_named S nu' nu I'). rewrite (document_back nu nu' I). auto. Qed.
(** From texts, for the validator. Left to show: the same of queries for which acceptance is not known to be validity (see C60). *)
Theorem c90_accepted_partial :
  forall so dor recover other_digit parse_f64 recover' other_digit' parse_f64' schema_text query_text query_text' S d variable_name variable_back,
    read_schema_with so dor recover other_digit parse_f64 schema_text = inl (inl S) ->
    parse_text recover' other_digit' parse_f64' query_text = inl d ->
    parse_text recover' other_digit' parse_f64' query_text' = inl (named_document variable_name d) -> reads_numbers parse_f64' ->
    undo variable_name variable_back -> acceptance_is_validity S d ->
  forall hook str_enum one_of ord ord', (forall n v, hook n (named_value variable_name v) = None <-> hook n v = None) -> some_order ord -> some_order ord' ->
    (validate S hook str_enum one_of ord d = Some [] <-> validate S hook str_enum one_of ord' (named_document variable_name d) = Some []).
Proof.
  intros so dor rc od pf rc' od' pf' st qt qt' S d nu nu' HS HD HD' HN U A hook se oo ord ord' HB Ho Ho'.
  destruct (settled_renamed S nu nu' d U A) as (B1 & B2 & B3 & B4 & B5). destruct A as (A1 & A2 & A3 & A4 & A5).
  pose proof (c90_valid S (fun n x => hook n x = None) se oo nu nu' d U HB) as V. split; intros H.
  - apply (valid_texts_accepted_partial _ _ _ _ _ _ _ _ _ _ _ _ HS HD' HN hook se oo ord' Ho'); auto. apply V.
    apply (accepted_texts_valid_partial _ _ _ _ _ _ _ _ _ _ _ _ HS HD HN hook se oo ord Ho); auto. apply spreads_simple_agree. auto.
  - apply (valid_texts_accepted_partial _ _ _ _ _ _ _ _ _ _ _ _ HS HD HN hook se oo ord Ho); auto. apply V.
    apply (accepted_texts_valid_partial _ _ _ _ _ _ _ _ _ _ _ _ HS HD' HN hook se oo ord' Ho'); auto. apply spreads_simple_agree. auto.
Qed.
Print Assumptions c90_accepted_partial.

(** * The analyses *)
(** the same values under the new names *)
Definition named_values (nu : name -> name) (vals : list (name * value)) : list (name * value) := map (fun e => (nu (fst e), snd e)) vals.
Section Analyses.
  Variable S : schema.
  Variable nu : name -> name.
  Hypothesis inj : forall a b, nu a = nu b -> a = b.
  Variable vals : list (name * value).
  Notation vals' := (named_values nu vals).
  Lemma find_named {A} (p q : A -> bool) (f : A -> A) l : (forall a, p (f a) = q a) -> find p (map f l) = option_map f (find q l).
  Proof using. intros H. induction l as [|a l IH]; cbn; auto. rewrite H. destruct (q a); auto. Qed.
  Lemma assoc_named x l : assoc (nu x) (named_values nu l) = assoc x l.
  Proof using inj. induction l as [|[k v] l IH]; cbn; auto. rewrite (teqb_new nu inj). destruct (teqb x k); auto. Qed.

  Section Calls.
    Variable d : document.
    Variable o : operation.
    Notation d' := (named_document nu d).
    Notation o' := (named_operation nu o).
    Definition named_call (e : oevent) : oevent :=
      match e with
      | OEnter al n args ds sub fd t b => OEnter al n (map (named_argument nu) args) (map (named_directive nu) ds) (map (named_selection nu) sub) fd t b
      | OArg a i => OArg (named_argument nu a) i
      | OVarDef v => OVarDef (named_variable nu v)
      | _ => e
      end.
    Lemma evaluate_bool_named x : evaluate_bool o' vals' (nu x) = evaluate_bool o vals x.
    Proof using inj.
      unfold evaluate_bool. cbn [named_operation op_vars].
      rewrite (find_named _ (fun v => teqb (vd_name v) x && is_named (tx "Boolean") (vd_type v)) (named_variable nu)); [|intros v; cbn; rewrite (teqb_new nu inj); auto].
      destruct (find _ (op_vars o)) as [v|]; auto. cbn [option_map]. rewrite assoc_named. auto.
    Qed.
    Lemma included_named ds : selection_included o' vals' (map (named_directive nu) ds) = selection_included o vals ds.
    Proof using inj.
      assert (E : forall dn an, directive_bool o' vals' (map (named_directive nu) ds) dn an = directive_bool o vals ds dn an).
      { intros dn an. unfold directive_bool. rewrite (find_named _ (fun x => teqb (dir_name x) dn) (named_directive nu)); auto.
        destruct (find (fun x => teqb (dir_name x) dn) ds) as [x|]; auto. cbn [option_map named_directive dir_args]. rewrite (find_named _ (fun a => teqb (fst a) an) (named_argument nu)); auto.
        destruct (find (fun a => teqb (fst a) an) (dir_args x)) as [[k v]|]; auto. cbn [option_map named_argument snd]. destruct v; auto. apply evaluate_bool_named. }
      unfold selection_included. rewrite !E. auto.
    Qed.
    Lemma oargs_named args defs : oargs (map (named_argument nu) args) defs = map named_call (oargs args defs).
    Proof using. unfold oargs. induction args as [|a args IH]; auto. cbn [map flat_map]. rewrite map_app, <- IH. f_equal. cbn. destruct (get_ivd defs (fst a)); auto. Qed.
    Lemma odirectives_named ds : odirectives S (map (named_directive nu) ds) = map named_call (odirectives S ds).
    Proof using.
      unfold odirectives. induction ds as [|x ds IH]; auto. cbn [map flat_map]. rewrite map_app, <- IH. f_equal. cbn. destruct (get_ddef S (dir_name x)); auto. apply oargs_named.
    Qed.
    Lemma cached_named n : cached_fragment d' n = option_map (named_fragment nu) (cached_fragment d n).
    Proof using.
      unfold cached_fragment. cbn [named_document doc_frags]. induction (doc_frags d) as [|f l IH]; auto. cbn [map assoc_last].
      rewrite IH. destruct (assoc_last n (map (fun f => (fr_name f, f)) l)); auto. cbn. destruct (teqb _ _); auto.
    Qed.
    Lemma flat_named {A B} (f : B -> list oevent) (g : A -> list oevent) (h : A -> B) l :
      (forall x, In x l -> f (h x) = map named_call (g x)) -> flat_map f (map h l) = map named_call (flat_map g l).
    Proof using. intros H. induction l as [|x l IH]; auto. cbn [map flat_map]. rewrite map_app, H, IH; auto using in_cons. left; auto. Qed.
    Lemma visits_named fuel : forall s act t b, ovisit S d' o' vals' fuel act t b (named_selection nu s) = map named_call (ovisit S d o vals fuel act t b s).
    Proof using inj.
      induction fuel as [fuel IHf] using lt_wf_ind.
      induction s as [al n args ds sub IH|n ds|c ds sub IH] using selection_ind'; intros act t b; cbn [named_selection].
      - rewrite !ovisit_field. destruct (get_field (td_fields t) n) as [fd|]; auto. rewrite map_app, odirectives_named, included_named. f_equal. cbn [map named_call]. f_equal.
        rewrite !map_app, oargs_named. f_equal. f_equal. rewrite Forall_forall in IH. destruct sub as [|x sub]; auto.
        destruct (get_type S (tref_base (fd_type fd))) as [t'|]; auto. apply (flat_named _ _ _ (x :: sub)). auto.
      - rewrite !ovisit_spread. rewrite cached_named, map_app, odirectives_named. f_equal. destruct (tmem n act); auto. destruct (cached_fragment d n) as [f|]; auto.
        cbn [option_map named_fragment fr_cond fr_sel]. destruct (get_type S (fr_cond f)) as [t'|]; auto. destruct fuel as [|fuel]; auto.
        rewrite included_named. apply flat_named. auto.
      - rewrite !ovisit_inline. rewrite map_app, odirectives_named, included_named. f_equal. rewrite Forall_forall in IH.
        destruct (match c with Some c => get_type S c | None => Some t end) as [t'|]; auto. apply flat_named. auto.
    Qed.
    Lemma calls_named : ovisit_operation S d' o' vals' = map named_call (ovisit_operation S d o vals).
    Proof using inj.
      unfold ovisit_operation. cbn [named_operation named_document op_type op_dirs op_vars op_sel doc_frags]. rewrite !map_app, odirectives_named. f_equal. f_equal.
      - destruct (op_root_name S (op_type o)) as [n|]; auto. destruct (get_type S n) as [t|]; auto. rewrite map_length. apply flat_named. intros x _. apply visits_named.
      - rewrite !map_map. auto.
    Qed.
  End Calls.

  (** ** What the analyses make of the calls *)
  Lemma fold_named {A} (f g : A -> oevent -> A) : (forall a e, f a (named_call e) = g a e) -> forall evs a, fold_left f (map named_call evs) a = fold_left g evs a.
  Proof using. intros H. induction evs as [|e evs IH]; cbn; auto. intros a. rewrite H. auto. Qed.
  Lemma depth_named evs : query_depth (map named_call evs) = query_depth evs.
  Proof using. unfold query_depth. rewrite (fold_named depth_step depth_step); auto. intros [cur mx] e. destruct e; auto. Qed.
  Lemma complexity_named M mdefault multiplier_for cost_of multipliers_of multipliers_of' evs :
    (forall m f, multiplier_for m (named_selection nu f) = multiplier_for m f) ->
    (forall fd f, multipliers_of' fd (named_selection nu f) = multipliers_of fd f) ->
    complexity S M mdefault multiplier_for cost_of multipliers_of' (map named_call evs) = complexity S M mdefault multiplier_for cost_of multipliers_of evs.
  Proof using.
    intros H1 H2. unfold complexity.
    rewrite (fold_named (complexity_step S M multiplier_for cost_of multipliers_of') (complexity_step S M multiplier_for cost_of multipliers_of)); auto.
    intros [[A stk]|] e; auto. destruct e; auto. cbn [named_call complexity_step]. destruct included; auto. unfold enter_field.
    destruct ((_ =? 0)%N && _); auto. destruct stk as [|[i|] stk]; auto. destruct (nth_error A i); auto.
    pose proof (H1 (cs_fm M c) (SField al n args ds sub)) as E1. pose proof (H2 fd (SField al n args ds sub)) as E2. cbn [named_selection] in E1, E2. rewrite E1, E2. auto.
  Qed.
  Lemma relay_named o twice_ln fd f : relay_multipliers (named_operation nu o) vals' twice_ln fd (named_selection nu f) = relay_multipliers o vals twice_ln fd f.
  Proof using inj.
    destruct f as [al n args ds sub| |]; auto. cbn [named_selection relay_multipliers]. destruct (cost_argument (tx "kind") (fd_dirs fd)) as [k|]; auto.
    destruct (teqb k (tx "connection")); auto.
    assert (E : forall an, sizing_argument (named_operation nu o) vals' (map (named_argument nu) args) an = sizing_argument o vals args an).
    { intros an. unfold sizing_argument. rewrite (find_named _ (fun a => teqb (fst a) an) (named_argument nu)); auto. destruct (find (fun a => teqb (fst a) an) args) as [[k0 v]|]; auto.
      cbn [option_map named_argument fst snd]. destruct v; auto. cbn [named_value]. f_equal. unfold evaluate_int. cbn [named_operation op_vars].
      rewrite (find_named _ (fun v => teqb (vd_name v) n0 && is_named (tx "Int") (vd_type v)) (named_variable nu)); [|intros v; cbn; rewrite (teqb_new nu inj); auto].
      destruct (find _ (op_vars o)) as [v|]; auto. cbn [option_map]. rewrite assoc_named. auto. }
    rewrite !E. auto.
  Qed.
  (** ** Errors about variable values *)
  Definition named_error (e : variable_value_error) : variable_value_error :=
    match e with
    | MissingValue v => MissingValue (named_variable nu v)
    | InvalidValue v x errs => InvalidValue (named_variable nu v) x errs
    | UnusedValue k x => UnusedValue (nu k) x
    end.
  Lemma remove_named k l : remove_key (nu k) (named_values nu l) = named_values nu (remove_key k l).
  Proof using inj.
    unfold remove_key, named_values. induction l as [|[k1 v] l IH]; auto. cbn [map filter fst snd]. rewrite (teqb_new nu inj). destruct (teqb k1 k); cbn [negb]; auto.
    cbn [map fst snd]. f_equal. auto.
  Qed.
  Lemma index_named l : index_values (named_values nu l) = named_values nu (index_values l).
  Proof using inj.
    unfold index_values. assert (K : forall l m, fold_left (fun m e => remove_key (fst e) m ++ [e]) (named_values nu l) (named_values nu m) =
                                                 named_values nu (fold_left (fun m e => remove_key (fst e) m ++ [e]) l m)).
    { clear l. induction l as [|[k v] l IH]; intros m; auto.
      change (fold_left (fun m e => remove_key (fst e) m ++ [e]) (named_values nu l) (remove_key (nu k) (named_values nu m) ++ [(nu k, v)]) =
              named_values nu (fold_left (fun m e => remove_key (fst e) m ++ [e]) l (remove_key k m ++ [(k, v)]))).
      rewrite remove_named, <- IH. f_equal. unfold named_values. rewrite map_app. auto. }
    apply (K l []).
  Qed.
  Lemma values_named hook str_enum one_of evs :
    variable_value_errors S hook str_enum one_of vals' (map named_call evs) = map named_error (variable_value_errors S hook str_enum one_of vals evs).
  Proof using inj.
    unfold variable_value_errors. rewrite index_named.
    assert (K : forall evs m errs,
      fold_left (fun st ev => match ev with OVarDef v => check_variable S hook str_enum one_of st v | _ => st end) (map named_call evs) (named_values nu m, map named_error errs) =
      let r := fold_left (fun st ev => match ev with OVarDef v => check_variable S hook str_enum one_of st v | _ => st end) evs (m, errs) in
      (named_values nu (fst r), map named_error (snd r))).
    { clear evs. induction evs as [|e evs IH]; intros m errs; auto. cbn [map fold_left]. destruct e; cbn [named_call]; auto. cbn [check_variable].
      cbn [named_variable vd_name vd_type]. rewrite remove_named, assoc_named. change (vd_required (named_variable nu v)) with (vd_required v). rewrite <- IH. f_equal. f_equal. rewrite map_app. f_equal.
      destruct (has_input_type S (vd_type v)); auto. destruct (assoc (vd_name v) m) as [x|]; [destruct (coerce_value _ _ _ _ _ _ _); auto|destruct (vd_required v); auto]. }
    pose proof (K evs (index_values vals) []) as E. cbn [map] in E. cbn zeta in E. rewrite E.
    destruct (fold_left _ evs (index_values vals, [])) as [m errs]. cbn [fst snd]. rewrite map_app. f_equal. unfold named_values. rewrite !map_map. auto.
  Qed.
  (** ** Deprecated uses *)
  Definition what (p : deprecation) : text * usage_type := (dp_reason p, dp_type p).
  Lemma enum_what str_enum en v nm nm' : map what (deprecated_enum str_enum en (named_value nu v) nm') = map what (deprecated_enum str_enum en v nm).
  Proof using.
    unfold deprecated_enum. assert (E : match named_value nu v with VEnum x => Some x | VStr x => if str_enum then Some x else None | _ => None end =
                                        match v with VEnum x => Some x | VStr x => if str_enum then Some x else None | _ => None end) by (destruct v; auto).
    rewrite E. destruct (match v with VEnum x => Some x | VStr x => if str_enum then Some x else None | _ => None end) as [x|]; auto.
    destruct (find _ (en_values en)) as [e|]; auto. destruct (deprecation_reason (ev_dirs e)); auto.
  Qed.
  Lemma what_flat {A} (f g : A -> list deprecation) l : (forall x, In x l -> map what (f x) = map what (g x)) -> map what (flat_map f l) = map what (flat_map g l).
  Proof using. intros H. induction l as [|x l IH]; auto. cbn. rewrite !map_app, H, IH; auto using in_cons. left; auto. Qed.
  Lemma value_what str_enum nm nm' v : forall t,
    map what (value_deprecations S str_enum nm' (named_value nu v) t) = map what (value_deprecations S str_enum nm v t).
  Proof using.
    induction v as [n|z|f|s|f| |n|vs IH|es IH] using value_ind'; intros t.
    1-7: destruct t as [m r|inner r]; cbn [value_deprecations named_value];
      match goal with |- context [get_type S ?k] => destruct (get_type S k) as [[| | | | |en|]|] end; auto;
      match goal with |- map what (deprecated_enum ?b ?en _ ?p) = map what (deprecated_enum _ _ ?v ?q) => exact (enum_what b en v q p) end.
    - destruct t as [m r|inner r]; cbn [value_deprecations named_value].
      + destruct (get_type S m) as [[| | | | |en|]|]; auto.
      + induction IH as [|x l Hx _ IHl]; auto. cbn [map]. rewrite !map_app, Hx. f_equal. exact IHl.
    - assert (K : forall m, map what match get_type S m with
        | Some (DEnum en) => deprecated_enum str_enum en (named_value nu (VObj es)) nm'
        | Some (DInput io) => flat_map (fun f => (fix look (l : list (name * value)) : list deprecation :=
                   match l with
                   | [] => []
                   | (k, x) :: l' =>
                       if teqb k (iv_name f)
                       then match deprecation_reason (iv_dirs f) with
                            | Some r => [{| dp_reason := r; dp_type := UInputField; dp_name := iv_name f |}]
                            | None => []
                            end ++ value_deprecations S str_enum nm' x (iv_type f)
                       else look l'
                   end) (map (fun e => (fst e, named_value nu (snd e))) es)) (io_fields io)
        | _ => [] end = map what match get_type S m with
        | Some (DEnum en) => deprecated_enum str_enum en (VObj es) nm
        | Some (DInput io) => flat_map (fun f => (fix look (l : list (name * value)) : list deprecation :=
                   match l with
                   | [] => []
                   | (k, x) :: l' =>
                       if teqb k (iv_name f)
                       then match deprecation_reason (iv_dirs f) with
                            | Some r => [{| dp_reason := r; dp_type := UInputField; dp_name := iv_name f |}]
                            | None => []
                            end ++ value_deprecations S str_enum nm x (iv_type f)
                       else look l'
                   end) es) (io_fields io)
        | _ => [] end).
      { intros m. destruct (get_type S m) as [td|]; [|auto]; destruct td as [b|sc|ob|io|en|un|ifc]; auto. apply what_flat. intros f _.
        induction IH as [|[k x] l Hx _ IHl]; auto. cbn [map fst snd]. destruct (teqb k (iv_name f)); [|exact IHl]. rewrite !map_app. f_equal. apply Hx. }
      destruct t as [m r|inner r]; [apply (K m)|apply (K (strip inner))].
  Qed.
  Lemma deprecations_what str evs : map what (deprecations S vals' str (map named_call evs)) = map what (deprecations S vals str evs).
  Proof using inj.
    unfold deprecations. induction evs as [|e evs IH]; auto. cbn [map flat_map]. rewrite !map_app, IH. f_equal. destruct e; auto.
    - cbn [named_call named_argument fst snd]. rewrite !map_app. f_equal. apply value_what.
    - cbn [named_call named_variable vd_name vd_type vd_default]. destruct (match get_type S (tref_base (vd_type v)) with Some td => td_is_input td | None => false end); auto.
      rewrite assoc_named, !map_app. f_equal.
      + destruct (assoc (vd_name v) vals) as [x|]; auto. rewrite <- (value_what str (nu (vd_name v)) (vd_name v) x), <- (value_what str (vd_name v) (vd_name v) x). auto.
      + destruct (vd_default v) as [x|]; auto. rewrite <- (value_what false (nu (vd_name v)) (vd_name v) x), <- (value_what false (vd_name v) (vd_name v) x). auto.
  Qed.
  (** ** Oversized lists: only the defaults of variables are looked up under another name (the argument's) *)
  Lemma arg_offenders_named mx vds : (forall v, In v vds -> vd_default v = None) -> forall v nm,
    arg_offenders mx vals' (map (named_variable nu) vds) nm (named_value nu v) = arg_offenders mx vals vds nm v.
  Proof using inj.
    intros H. induction v as [n|z|f|s|f| |n|vs IH|es IH] using value_ind'; intros nm; auto; cbn [arg_offenders named_value].
    - rewrite assoc_named. destruct (assoc n vals); auto.
      assert (K : forall l, (forall v, In v l -> vd_default v = None) ->
                  match find (fun vd => teqb (vd_name vd) nm) l with Some vd => match vd_default vd with Some w => const_offenders mx nm w | None => [] end | None => [] end = []).
      { intros l Hl. destruct (find _ l) as [v|] eqn:E; auto. apply find_some in E as [E _]. rewrite (Hl v E). auto. }
      rewrite (K vds H), K; auto. intros v Hv. apply in_map_iff in Hv as (w & <- & Hw). cbn. auto.
    - rewrite map_length. destruct (Nat.ltb mx (length vs)); auto. generalize 0%nat. induction IH as [|x l Hx _ IHl]; auto. intros i. cbn [map]. rewrite Hx. f_equal. apply IHl.
    - induction IH as [|[k x] l Hx _ IHl]; auto. cbn [map fst snd]. cbn [snd] in Hx. rewrite Hx. f_equal. exact IHl.
  Qed.
  Lemma input_sizes_named mx vds evs : (forall v, In v vds -> vd_default v = None) ->
    input_size_offenders mx vals' (map (named_variable nu) vds) (map named_call evs) = input_size_offenders mx vals vds evs.
  Proof using inj.
    intros H. unfold input_size_offenders. induction evs as [|e evs IH]; auto. cbn [map flat_map]. rewrite IH. f_equal. destruct e; auto. cbn. apply arg_offenders_named. auto.
  Qed.
End Analyses.
Lemma resolve_named nu d requested :
  resolve_operation (named_document nu d) requested = match resolve_operation d requested with inl o => inl (named_operation nu o) | inr e => inr e end.
Proof.
  unfold resolve_operation. cbn [named_document doc_ops]. destruct requested as [n|].
  - rewrite (find_named _ (fun o => match op_name o with Some m => teqb m n | None => false end) (named_operation nu)); auto.
    destruct (find _ (doc_ops d)); auto.
  - destruct (doc_ops d) as [|o [|o' l]]; auto.
Qed.

(** The same operation is found, and what is reported about it is the same, the new names standing for the old ones.
    Of a deprecated use the reason and the kind of use are compared: what it names may be the variable. *)
Theorem c90_analyses :
  forall (S : schema) (variable_name : name -> name) (d : document) (requested : option name) (vals : list (name * value)),
    (forall a b, variable_name a = variable_name b -> a = b) ->
    match resolve_operation d requested, resolve_operation (named_document variable_name d) requested with
    | inl o, inl o' =>
        let vals' := named_values variable_name vals in
        let calls := ovisit_operation S d o vals in
        let calls' := ovisit_operation S (named_document variable_name d) o' vals' in
        o' = named_operation variable_name o /\
        query_depth calls' = query_depth calls /\
        (forall hook str_enum one_of,
           variable_value_errors S hook str_enum one_of vals' calls' = map (named_error variable_name) (variable_value_errors S hook str_enum one_of vals calls)) /\
        (forall strings, map what (deprecations S vals' strings calls') = map what (deprecations S vals strings calls)) /\
        default_complexity S calls' = default_complexity S calls /\
        (forall parse_weight twice_ln,
           relay_complexity S o' vals' parse_weight twice_ln calls' = relay_complexity S o vals parse_weight twice_ln calls) /\
        (forall M mdefault multiplier_for cost_of multipliers_of,
           (forall m f, multiplier_for m (named_selection variable_name f) = multiplier_for m f) ->
           (forall fd f, multipliers_of fd (named_selection variable_name f) = multipliers_of fd f) ->
           complexity S M mdefault multiplier_for cost_of multipliers_of calls' =
           complexity S M mdefault multiplier_for cost_of multipliers_of calls)
    | inr e, inr e' => e' = e
    | _, _ => False
    end.
Proof.
  intros S nu d requested vals I. rewrite resolve_named. destruct (resolve_operation d requested) as [o|e]; auto. intros vals' calls calls'.
  assert (E : calls' = map (named_call nu) calls) by (apply calls_named; auto). rewrite E.
  split; [auto|]. split; [apply depth_named|]. split; [intros; apply values_named; auto|]. split; [intros; apply deprecations_what; auto|].
  split; [apply complexity_named; auto|]. split; [|intros; apply complexity_named; auto].
  intros pw tl. unfold relay_complexity. apply complexity_named; [|intros fd f; apply relay_named; auto].
  intros m f. destruct f; auto.
Qed.
Print Assumptions c90_analyses.

(** Oversized lists: the same if no variable of the operation has a default value. *)
Theorem c90_input_sizes_partial :
  forall (S : schema) (variable_name : name -> name) (d : document) (o : operation) (vals : list (name * value)),
    (forall a b, variable_name a = variable_name b -> a = b) -> (forall v, In v (op_vars o) -> vd_default v = None) ->
  forall mx, let vals' := named_values variable_name vals in let o' := named_operation variable_name o in
    input_size_offenders mx vals' (op_vars o') (ovisit_operation S (named_document variable_name d) o' vals') =
    input_size_offenders mx vals (op_vars o) (ovisit_operation S d o vals).
Proof. intros S nu d o vals I H mx vals' o'. unfold o', vals'. rewrite calls_named; auto. apply input_sizes_named; auto. Qed.
Print Assumptions c90_input_sizes_partial.
(** With defaults they depend on the names of the variables: $b called $a, as the argument it is given to. *)
Theorem c90_input_sizes_refuted :
  exists (S : schema) (variable_name : name -> name) (d : document) (o : operation) (mx : nat),
    (forall a b, variable_name a = variable_name b -> a = b) /\ In o (doc_ops d) /\
    input_size_offenders mx [] (op_vars o) (ovisit_operation S d o []) = [] /\
    input_size_offenders mx [] (op_vars (named_operation variable_name o)) (ovisit_operation S (named_document variable_name d) (named_operation variable_name o) []) <> [].
Proof.
  exists ex_size_schema, (swap (tx "a") (tx "b")), (doc_of ex_size_missed), ex_size_missed, 2%nat.
  split; [intros a b H; rewrite <- (proj1 (swap_undo (tx "a") (tx "b")) a), H; apply (proj1 (swap_undo (tx "a") (tx "b")))|].
  split; [left; reflexivity|]. split; [vm_compute; reflexivity|]. vm_compute. discriminate.
Qed.
Print Assumptions c90_input_sizes_refuted.

(** ** A concrete case: the query of [ex_pets_valid] with $k called $name and $name called $k *)
Definition other_variables_query : string :=
  "query Q($n: Int, $k: String, $name: Kind!, $withId: Boolean! = true) {
     pets(first: $n, where: {name: $k, kinds: [DOG, $name], not: {kinds: []}}) { ...P ... on Dog { b: barks name } __typename }
   }
   subscription S($name: Kind!, $withId: Boolean!) { petAdded(kind: $name) { ...P } }
   fragment P on Pet { id @include(if: $withId) name }".
Definition other_variables_doc : document := Eval vm_compute in document_in other_variables_query.
Lemma other_variables_doc_eq : document_in other_variables_query = other_variables_doc. Proof. vm_compute. reflexivity. Qed.
Lemma other_variables_parsed : read (tx other_variables_query) = inl other_variables_doc.
Proof. rewrite <- other_variables_doc_eq. apply read_document_in. vm_compute. reflexivity. Qed.
Definition new_variable := swap (tx "k") (tx "name").
Example c90_case :
  undo new_variable new_variable /\ named_document new_variable pets_doc = other_variables_doc /\ other_variables_doc <> pets_doc /\
  valid_document pets (fun n x => any_value n x = None) false true pets_doc /\
  valid_document pets (fun n x => any_value n x = None) false true other_variables_doc /\
  acceptance_is_validity pets pets_doc /\
  (forall ord, some_order ord -> validate pets any_value false true ord other_variables_doc = Some []) /\
  (exists o o', resolve_operation pets_doc (Some (tx "S")) = inl o /\ resolve_operation other_variables_doc (Some (tx "S")) = inl o' /\
     (forall v, In v (op_vars o) -> vd_default v = None) /\
     query_depth (ovisit_operation pets other_variables_doc o' (named_values new_variable [(tx "k", VEnum (tx "DOG"))])) = 2 /\
     variable_value_errors pets any_value false true (named_values new_variable [(tx "k", VEnum (tx "DOG"))])
       (ovisit_operation pets other_variables_doc o' (named_values new_variable [(tx "k", VEnum (tx "DOG"))])) <> []).
Proof.
  assert (E : named_document new_variable pets_doc = other_variables_doc) by (vm_compute; reflexivity).
  assert (U : undo new_variable new_variable) by apply swap_undo.
  split; [exact U|]. split; [exact E|]. split; [intros K; apply (f_equal doc_ops) in K; vm_compute in K; discriminate|]. split; [exact ex_pets_valid|].
  split; [rewrite <- E; apply (c90_valid pets (fun n x => any_value n x = None) false true new_variable new_variable pets_doc U); [intros; split; auto|exact ex_pets_valid]|].
  split; [exact pets_settled|].
  split.
  { intros ord Ho. pose proof other_variables_parsed as P. rewrite <- E in P |- *.
    apply (c90_accepted_partial _ _ _ _ _ _ _ _ _ _ _ _ _ _ _ pets_read pets_parsed P no_floats_numbers U
      pets_settled any_value false true in_order ord); [intros; split; auto|exact in_order_ok|exact Ho|apply ex_pets_accepted, in_order_ok]. }
  eexists. eexists. split; [vm_compute; reflexivity|]. split; [vm_compute; reflexivity|].
  split; [intros v [<-|[<-|[]]]; reflexivity|]. split; [vm_compute; reflexivity|]. vm_compute. discriminate.
Qed.
