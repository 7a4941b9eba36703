(** The analyses of an operation of a valid document (C86): the conditions of C34, C35 and C85 follow from validity. *)
From Verif Require Import Lexer LexerSpec Parser Merging MergingProps MergingCheck MergingCases Resolve ResolveProps Validator EndToEndProofs ValidatorProps
  TypegenSpec ValidatorCases.
From Verif Require Import Base Ast Graph Maps Doc DocSpec DocRules DocRulesSpec DocVariablesSpec FragmentsSpec FragmentCyclesProofs
  CoercionTypes Coercion CoercionSpec ValueEqSpec MergingSpec ValiditySpec Operation OperationSpec OperationProofs OperationProps Complexity ComplexitySpec
  ComplexityProofs ComplexityProps ComplexityCases QueryPartProps Examples.
Local Open Scope string_scope.
Local Open Scope list_scope.

(** skip and include cannot be repeated; so they are built in, but a schema may define its own *)
Definition conditions_not_repeatable (S : schema) : Prop :=
  forall dd, In dd (s_ddefs S) -> dd_name dd = tx "skip" \/ dd_name dd = tx "include" -> dd_repeatable dd = false.

Section Valid.
  Variable S : schema.
  Variable accepts : name -> value -> Prop.
  Variable str_enum one_of : bool.
  Variable d : document.
  Variable o : operation.
  Variable vals : list (name * value).
  Hypothesis V : valid_document S accepts str_enum one_of d.
  Hypothesis Ho : In o (doc_ops d).
  Hypothesis W : wf_schema S.
  Hypothesis NR : conditions_not_repeatable S.
  Hypothesis NV : NoDup (map fst vals).

  (** ** what is reached is part of the document *)
  Lemma set_step r t sels t' sels' : set_at S d r t sels -> within S t sels t' sels' -> set_at S d r t' sels'.
  Proof.
    intros (t0 & s0 & Ht & Hw) H. exists t0, s0. split; auto. clear Ht. revert H.
    induction Hw; intros K; auto; [eapply within_field|eapply within_inline|eapply within_inline_on]; eauto.
  Qed.
  Lemma reaches_placed p t sels : reaches S d o p t sels -> exists r, set_at S d r t sels.
  Proof using Ho.
    induction 1 as [t Hr|p t sels al n args ds sub fd t1 H (r & IH) Hin Hf Hne Ht|p t sels ds sub H (r & IH) Hin
      |p t sels c ds sub t1 H (r & IH) Hin Ht|p t sels n ds f t1 H (r & IH) Hin Hd Ht].
    - apply In_nth_error in Ho as (i & Hi). exists (ROp i), t, (op_sel o). split; [apply top_op with (1 := Hi); auto|apply within_here].
    - exists r. eapply set_step; eauto. eapply within_field; eauto. apply within_here.
    - exists r. eapply set_step; eauto. eapply within_inline; eauto. apply within_here.
    - exists r. eapply set_step; eauto. eapply within_inline_on; eauto. apply within_here.
    - assert (Hf : In f (doc_frags d)) by (destruct Hd as (b & a & E & _); rewrite E; apply in_or_app; right; left; auto).
      apply In_nth_error in Hf as (i & Hi). exists (RFrag i), t1, (fr_sel f). split; [apply top_frag with (1 := Hi); auto|apply within_here].
  Qed.
  Lemma selected_placed p t s : selected S d o p t s -> exists r, sel_at S d r t s.
  Proof using Ho. intros (sels & Hr & Hi). destruct (reaches_placed _ _ _ Hr) as (r & H). exists r, sels. auto. Qed.
  Lemma within_ok t sels t' sels' : within S t sels t' sels' -> (forall s, In s sels -> sel_ok S t s) -> forall s, In s sels' -> sel_ok S t' s.
  Proof.
    induction 1 as [t sels|t sels al n args ds sub fd t1 t' sels' Hi Hn Hf Ht Hw IH|t sels ds sub t' sels' Hi Hw IH|t sels c ds sub t1 t' sels' Hi Ht Hw IH];
      intros H; auto; apply IH; clear IH; intros s Hs; apply H in Hi; inversion Hi; subst; try congruence.
    - unfold has_field in Hf. rewrite Hf in *. match goal with H1 : Some _ = Some _ |- _ => injection H1 as <- end. rewrite Ht in *.
      match goal with H1 : Some _ = Some _ |- _ => injection H1 as <- end. auto.
    - auto.
    - rewrite Ht in *. match goal with H1 : Some _ = Some _ |- _ => injection H1 as <- end. auto.
  Qed.
  Lemma root_type_unique ty t t' : root_type S ty t -> root_type S ty t' -> t = t'.
  Proof. destruct ty; cbn; [congruence| |]; intros (n & A & B) (m & C & D); congruence. Qed.
  Lemma sel_at_ok r t s : sel_at S d r t s -> sel_ok S t s.
  Proof using V.
    intros (sels & (t0 & s0 & Ht & Hw) & Hi). apply (within_ok _ _ _ _ Hw); auto. destruct (vd_selections _ _ _ _ _ V) as (VO & VF). intros s1 Hs1.
    inversion Ht as [i q t1 Hi' Hr|i f t1 Hi' Hr]; subst; apply nth_error_In in Hi'.
    - destruct (VO _ Hi') as (t2 & A & B). rewrite (root_type_unique _ _ _ Hr A). auto.
    - destruct (VF _ Hi') as (t2 & A & _ & B). rewrite Hr in A. injection A as ->. auto.
  Qed.
  Lemma sel_ok_field t al n args ds sub : sel_ok S t (SField al n args ds sub) -> exists fd, has_field t n fd.
  Proof. intros H. inversion H; subst; eexists; unfold has_field; eauto. Qed.

  (** ** the conditions *)
  Lemma conditions_unique : unique_conditions S d o vals.
  Proof using V Ho NR NV.
    split; [apply (vd_variable_names _ _ _ _ _ V); auto|]. split; auto. intros p t s Hs n Hn. destruct (selected_placed _ _ _ Hs) as (r & Hr).
    assert (D : forall x, In x (sel_dirs s) -> exists loc, directives_at S d r (sel_dirs s) loc).
    { intros x Hx. assert (sel_dirs s <> []) by (intros E; rewrite E in Hx; destruct Hx).
      pose proof (sel_at_ok _ _ _ Hr) as Hk. destruct s as [al fn args ds sub|fn ds|c ds sub]; cbn [sel_dirs] in *.
      - destruct (sel_ok_field _ _ _ _ _ _ Hk) as (fd & Hf). eexists. eapply dirs_field; eauto.
      - eexists. eapply dirs_spread; eauto.
      - eexists. eapply dirs_inline; eauto. }
    assert (E : forall x, In x (sel_dirs s) -> dir_name x = n -> exists dd, get_ddef S (dir_name x) = Some dd /\ dd_repeatable dd = false).
    { intros x Hx En. destruct (D x Hx) as (loc & Hl). destruct (vd_directive_defined _ _ _ _ _ V x loc (dir_var _ _ _ _ _ _ Hl Hx)) as (dd & Hd & Ed).
      unfold get_ddef. destruct (find _ (s_ddefs S)) as [dd'|] eqn:F.
      - exists dd'. split; auto. apply find_some in F as (F & G). apply teqb_eq in G. apply NR; auto. rewrite G, En. auto.
      - apply (find_none _ _ F) in Hd. cbn beta in Hd. rewrite Ed, teqb_refl in Hd. discriminate. }
    split.
    - intros i j x y Hi Hj Ex Ey. pose proof (nth_error_In _ _ Hi) as Hx. destruct (D x Hx) as (loc & Hl). destruct (E x Hx Ex) as (dd & Hd & Hr').
      eapply (vd_directive_unique _ _ _ _ _ V (sel_dirs s)); eauto. congruence.
    - intros x Hx Ex. destruct (D x Hx) as (loc & Hl). destruct (E x Hx Ex) as (dd & Hd & _).
      eapply (vd_argument_unique _ _ _ _ _ V). eapply args_directive; eauto.
  Qed.
  Lemma leaves_ok : leaves_are_leaves S d o.
  Proof using V Ho W.
    intros p t al n args ds sub fd ft Hs Hf Ht Hc. destruct (selected_placed _ _ _ Hs) as (r & Hr). apply sel_at_ok in Hr. unfold has_field in Hf.
    inversion Hr; subst; auto. rewrite Hf in *. match goal with H1 : Some _ = Some _ |- _ => injection H1 as <- end. rewrite Ht in *.
    match goal with H1 : Some _ = Some _ |- _ => injection H1 as <- end. exfalso.
    assert (Hin : In t (s_types S)) by (destruct Hs as (sels & Hr' & _); eapply reaches_type; eauto).
    destruct (wf_fields _ W t fd Hin) as (td & A & B); [apply get_field_Some in Hf; tauto|]. rewrite Ht in A. injection A as <-.
    match goal with H1 : ~ is_leaf _ |- _ => apply H1 end. destruct ft; try discriminate; exact I.
  Qed.

  (** ** fields which are merged get the same multipliers *)
  Definition sf_of (x : node) : sfield :=
    {| sf_alias := nd_alias x; sf_name := nd_name x; sf_args := nd_args x; sf_sub := nd_sub x; sf_def := nd_def x; sf_parent := nd_type x |}.
  Lemma in_set_collected k act t ts sels act' t' ts' f : in_set S d k act t ts sels act' t' ts' f -> forall x, f = nd_field x -> t' = nd_type x ->
    has_field (nd_type x) (nd_name x) (nd_def x) -> collected S d t sels (sf_of x).
  Proof.
    induction 1 as [act t ts sels al n args ds sub Hi Hk|act t ts sels ds sub act' t' ts' f Hi Hk Hin IH
      |act t ts sels c ds sub t1 act' t' ts' f Hi Hk Ht Hin IH|act t ts sels n ds fr t1 act' t' ts' f Hi Hk Hn Hd Ht Hin IH]; intros x Ef Et Hf.
    - unfold nd_field in Ef. injection Ef as -> -> -> -> ->. subst t. apply col_field with (ds := nd_dirs x); auto.
    - eapply col_inline; eauto.
    - eapply col_inline_on; eauto.
    - eapply col_spread; eauto.
  Qed.
  Section Merged.
    Variable k : list directive -> Prop.
    Variable M : Type.
    Variable mdefault : M.
    Variable multiplier_for : M -> selection -> N.
    Variable multipliers_of : fdef -> selection -> M.
    Lemma root_collected x : root_node S d o k M mdefault multiplier_for x -> exists t, root_type S (op_type o) t /\ collected S d t (op_sel o) (sf_of x).
    Proof using. intros (t & Hr & Hin & Hf & _). exists t. split; auto. eapply in_set_collected; eauto. Qed.
    Lemma child_below x y : child_node S d k M multiplier_for multipliers_of x y -> MergingSpec.below S d (sf_of x) (sf_of y).
    Proof using. intros (t & Ht & Hin & Hf & _). exists t. split; auto. eapply in_set_collected; eauto. Qed.
    Lemma same_scope_type x y : same_scope S d o k M mdefault multiplier_for multipliers_of x y -> td_name (nd_type x) = td_name (nd_type y) /\ nd_key x = nd_key y.
    Proof using. intros H; destruct H; auto. Qed.
    Lemma same_no_conflict x y : same_scope S d o k M mdefault multiplier_for multipliers_of x y ->
      ~ selections_conflict S d can_meet (sf_of x) (sf_of y).
    Proof using V Ho.
      induction 1 as [x y Hx Hy Et Ek|x y x1 y1 Hs IH Hx Hy Et Ek].
      - destruct (root_collected _ Hx) as (t & Hr & Cx). destruct (root_collected _ Hy) as (t' & Hr' & Cy). rewrite (root_type_unique _ _ _ Hr' Hr) in Cy.
        destruct (reaches_placed [] t (op_sel o)) as (r & Hp); [apply r_root; auto|].
        apply (vd_merge _ _ _ _ _ V _ _ _ Hp _ _ Cx Cy). exact Ek.
      - intros C. apply IH. eapply fc_below; [|split; [left; apply child_below; eauto|split; [right; apply child_below; eauto|exact Ek]]|exact C].
        left. apply (proj1 (same_scope_type _ _ Hs)).
    Qed.
  End Merged.

  Lemma find_entry (l : list argument) an : NoDup (map fst l) ->
    find (fun a => teqb (fst a) an) l = match assoc_last an l with Some v => Some (an, v) | None => None end.
  Proof.
    intros Hn. rewrite assoc_last_NoDup; auto. clear Hn. induction l as [|[n v] l IH]; auto. cbn [find assoc fst].
    destruct (teqb_spec n an) as [->|N].
    - rewrite teqb_refl. auto.
    - destruct (teqb_spec an n); [congruence|]. auto.
  Qed.
  Lemma sizing_same a b an : NoDup (map fst a) -> NoDup (map fst b) -> same_value (VObj a) (VObj b) -> sizing_argument o vals a an = sizing_argument o vals b an.
  Proof.
    intros Ha Hb Hs. unfold sizing_argument. rewrite (find_entry a an Ha), (find_entry b an Hb). inversion Hs as [| | | | | | | |x y Hxy Hyx]; subst. unfold entry in *.
    destruct (assoc_last an a) as [v|] eqn:E.
    - destruct (Hxy _ _ E) as (v' & E' & Hv). rewrite E'. inversion Hv; subst; auto.
    - destruct (assoc_last an b) as [v|] eqn:E'; auto. destruct (Hyx _ _ E') as (v' & E2). congruence.
  Qed.
  Lemma relay_multipliers_same twice_ln :
    consistent_multipliers S d o (not_excluded o vals) (option N) None relay_multiplier_for (relay_multipliers o vals twice_ln).
  Proof using V Ho.
    intros x y Hs. pose proof (same_no_conflict _ _ _ _ _ _ _ Hs) as NC. destruct (same_scope_type _ _ _ _ _ _ _ Hs) as (Et & Ek).
    assert (Hm : can_meet (sf_of x) (sf_of y)) by (left; exact Et).
    assert (En : nd_name x = nd_name y).
    { destruct (teqb_spec (nd_name x) (nd_name y)); auto. exfalso. apply NC. apply fc_name; auto. }
    destruct (same_transfer S d o _ _ _ _ _ _ _ _ (agree_refl S d o _) Hs) as (_ & ((p & Px) & Fx & Gx) & ((q & Py) & Fy & Gy)).
    assert (Ed : nd_def x = nd_def y).
    { rewrite Et in Gx. rewrite Gx in Gy. injection Gy as E. unfold has_field in *. rewrite E, En, Fy in Fx. injection Fx; auto. }
    assert (Nx : NoDup (map fst (nd_args x))).
    { destruct (selected_placed _ _ _ Px) as (r & Hr). eapply (vd_argument_unique _ _ _ _ _ V). eapply args_field; eauto. }
    assert (Ny : NoDup (map fst (nd_args y))).
    { destruct (selected_placed _ _ _ Py) as (r & Hr). eapply (vd_argument_unique _ _ _ _ _ V). eapply args_field; eauto. }
    assert (Es : forall an, sizing_argument o vals (nd_args x) an = sizing_argument o vals (nd_args y) an).
    { intros an. assert (Dec : forall a b : option N, {a = b} + {a <> b}) by (decide equality; apply N.eq_dec).
      destruct (Dec (sizing_argument o vals (nd_args x) an) (sizing_argument o vals (nd_args y) an)) as [|Ne]; auto. exfalso. apply NC. apply fc_args; auto.
      intros Hv. apply Ne, sizing_same; auto. }
    unfold nd_field, relay_multipliers, relay_multiplier_for. rewrite Ed, En, (Es (tx "first")), (Es (tx "last")). split; auto.
  Qed.
End Valid.

(** * C86 *)
(** Every operation of a valid document, with any variable values (no name given twice), on a schema whose references resolve
    and where skip and include cannot be repeated: the depth is the greatest number of fields around each other that are
    included; the complexity, with the default and with the Relay costs, is the greatest possible cost over the concrete types
    of objects, as far as type conditions count only directly around a field, and never less than what an execution can cost;
    no analysis panics; and whatever is left out of the operation, it does not get more costly. *)
Theorem c86_analyses :
  forall (S : schema) accepts str_enum one_of (d : document) (o : operation) (vals : list (name * value)),
    valid_document S accepts str_enum one_of d -> In o (doc_ops d) -> wf_schema S -> conditions_not_repeatable S -> NoDup (map fst vals) ->
    let kept := not_excluded o vals in
    let calls := ovisit_operation S d o vals in
    let depth := query_depth calls in
    ((forall k, nested_included S d o vals (fun _ => True) k -> k <= depth) /\ (depth = 0 \/ nested_included S d o vals (fun _ => True) depth)) /\
    (let possible_costs applies := possible_cost S d kept unit (fun _ _ => 1%N) (fun _ => 1%N) (fun _ _ => tt) applies
                                     (root_node S d o kept unit tt (fun _ _ => 1%N)) in
     exists n, default_complexity S calls = CCost n /\ is_max (possible_costs (allowed_by_innermost S)) n /\
       (forall m, possible_costs (allowed_by_all S) m -> (m <= n)%N)) /\
    (forall parse_weight twice_ln,
     let possible_costs applies := possible_cost S d kept (option N) relay_multiplier_for (relay_cost S parse_weight) (relay_multipliers o vals twice_ln)
                                     applies (root_node S d o kept (option N) None relay_multiplier_for) in
     exists n, relay_complexity S o vals parse_weight twice_ln calls = CCost n /\ is_max (possible_costs (allowed_by_innermost S)) n /\
       (forall m, possible_costs (allowed_by_all S) m -> (m <= n)%N) /\
       (forall d' o', asks_less d' o' d o ->
          exists n', relay_complexity S o' vals parse_weight twice_ln (ovisit_operation S d' o' vals) = CCost n' /\ (n' <= n)%N)).
Proof.
  intros S accepts se oo d o vals V Ho W NR NV kept calls depth.
  pose proof (conditions_unique S accepts se oo d o vals V Ho NR NV) as U. pose proof (leaves_ok S accepts se oo d o V Ho W) as HL.
  split; [apply query_depth_acyclic; auto; apply (vd_fragment_cycles _ _ _ _ _ V)|].
  split; [apply default_complexity_is_the_maximum; auto|].
  intros pw tl possible_costs. pose proof (relay_multipliers_same S accepts se oo d o vals V Ho tl) as HC. pose proof (relay_leaves S d o vals pw tl HL) as HV.
  destruct (complexity_is_the_maximum S d o vals U _ _ _ _ _ HC HV) as (n & E & P).
  destruct (complexity_bounds_every_execution S d o vals U _ _ _ _ _ HC HV) as (n' & E' & P').
  exists n. split; auto. split; auto. split; [rewrite E in E'; injection E' as <-; auto|].
  intros d' o' L. destruct (c85_complexity_partial S d' d o' o vals L U) as (G & _).
  destruct (G (option N) None relay_multiplier_for (relay_cost S pw) (relay_multipliers o vals tl)) as (m & m' & A & B & C); auto.
  rewrite E in B. injection B as <-. exists m. split; auto.
  assert (EM : relay_multipliers o' vals tl = relay_multipliers o vals tl).
  { unfold relay_multipliers, sizing_argument, evaluate_int. rewrite (al_vars _ _ _ _ L). reflexivity. }
  unfold relay_complexity. rewrite EM. exact A.
Qed.
Print Assumptions c86_analyses.

(** From texts: the query is accepted by the validator, and is not one of those for which acceptance does not mean validity (see C60). *)
Theorem c86_accepted_partial :
  forall so dor recover other_digit parse_f64 recover' other_digit' parse_f64' schema_text query_text S d,
    read_schema_with so dor recover other_digit parse_f64 schema_text = inl (inl S) ->
    parse_text recover' other_digit' parse_f64' query_text = inl d -> reads_numbers parse_f64' ->
  forall hook str_enum one_of ord, some_order ord ->
    nested_roots_single d -> fields_agree S d -> typename_plain S d -> listed_usages_allowed S d ->
    validate S hook str_enum one_of ord d = Some [] ->
  forall (requested : option name) (o : operation) (vals : list (name * value)),
    resolve_operation d requested = inl o -> conditions_not_repeatable S -> NoDup (map fst vals) ->
    let kept := not_excluded o vals in
    let calls := ovisit_operation S d o vals in
    let depth := query_depth calls in
    analyze S d requested vals = inl calls /\
    ((forall k, nested_included S d o vals (fun _ => True) k -> k <= depth) /\ (depth = 0 \/ nested_included S d o vals (fun _ => True) depth)) /\
    (forall parse_weight twice_ln,
     let possible_costs applies := possible_cost S d kept (option N) relay_multiplier_for (relay_cost S parse_weight) (relay_multipliers o vals twice_ln)
                                     applies (root_node S d o kept (option N) None relay_multiplier_for) in
     exists n, relay_complexity S o vals parse_weight twice_ln calls = CCost n /\ is_max (possible_costs (allowed_by_innermost S)) n /\
       (forall m, possible_costs (allowed_by_all S) m -> (m <= n)%N)).
Proof.
  intros so dor rc od pf rc' od' pf' st qt S d HS HQ HP hook se oo ord Hord H1 H2 H3 H4 HV requested o vals HR NR NV kept calls depth.
  pose proof (accepted_texts_valid_partial _ _ _ _ _ _ _ _ _ _ _ _ HS HQ HP hook se oo ord Hord H1 H2 H3 H4 HV) as V.
  assert (Ho : In o (doc_ops d)).
  { unfold resolve_operation in HR. destruct requested as [n|].
    - destruct (find _ (doc_ops d)) as [o1|] eqn:E; [|discriminate]. injection HR as <-. apply find_some in E. tauto.
    - destruct (doc_ops d) as [|o1 [|? ?]]; try discriminate. injection HR as <-. left; auto. }
  destruct (c86_analyses S _ _ _ d o vals V Ho (rs_wf _ (read_schema_resolved _ _ _ _ _ _ _ HS)) NR NV) as (A & _ & B).
  split; [unfold analyze; rewrite HR; reflexivity|]. split; [exact A|].
  intros pw tl possible_costs. destruct (B pw tl) as (n & E1 & E2 & E3 & _). exists n. auto.
Qed.
Print Assumptions c86_accepted_partial.

(** ** A concrete case *)
(** the query of [ex_pets_valid], with variable values of which one leaves out the selection of [id] *)
Definition pets_op : operation := Eval vm_compute in match doc_ops pets_doc with o :: _ => o | [] => ex_cost_op end.
Definition pets_vals : list (name * value) := [(tx "n", VInt 3); (tx "k", VEnum (tx "CAT")); (tx "withId", VBool false)].
Example c86_case :
  valid_document pets (fun n x => any_value n x = None) false true pets_doc /\ In pets_op (doc_ops pets_doc) /\ wf_schema pets /\
  conditions_not_repeatable pets /\ NoDup (map fst pets_vals) /\ resolve_operation pets_doc (Some (tx "Q")) = inl pets_op /\
  query_depth (ovisit_operation pets pets_doc pets_op pets_vals) = 2 /\
  default_complexity pets (ovisit_operation pets pets_doc pets_op pets_vals) = CCost 4 /\
  default_complexity pets (ovisit_operation pets pets_doc pets_op [(tx "k", VEnum (tx "CAT"))]) = CCost 5.
Proof.
  split; [exact ex_pets_valid|]. split; [left; reflexivity|]. split; [exact (rs_wf _ (read_schema_resolved _ _ _ _ _ _ _ pets_read))|].
  split.
  - unfold conditions_not_repeatable. assert (H : forallb (fun dd => negb (dd_repeatable dd)) (s_ddefs pets) = true) by (vm_compute; reflexivity).
    rewrite forallb_forall in H. intros dd Hd _. apply negb_true_iff, H, Hd.
  - split; [repeat constructor; cbn; intuition discriminate|]. repeat split; vm_compute; reflexivity.
Qed.
