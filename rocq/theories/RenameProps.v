(** The names of fragments and of operations do not matter (C89). *)
From Verif Require Import Base Ast Examples CoercionTypes Coercion CoercionSpec Graph Maps Doc DocSpec DocProofs DocRules DocRulesSpec DocRulesProofs DocTypingProofs DocRulesProps
  DocVariables DocVariablesSpec DocVariablesProofs DocVariablesProps FragmentsSpec FragmentCycles CyclesProps ValueEqSpec Merging MergingSpec MergingProps MergingComplete MergingCheck MergingCases
  Lexer LexerSpec Parser ParserProps DefParser DefParserProps Resolve ResolveProps Validator ValiditySpec ValidatorProofs EndToEndProofs ValidatorProps TypegenSpec TypegenInputCases ValidatorCases
  Operation OperationProofs OperationProps Complexity InliningProps TrimProofs RenameSpec RenameProofs.
Local Open Scope string_scope.
Local Open Scope list_scope.

(** * C89: validity *)
(** [f] and [g] undo each other *)
Definition undo (f g : name -> name) : Prop := (forall n, g (f n) = n) /\ (forall n, f (g n) = n).
Theorem c89_valid :
  forall (S : schema) (accepts : name -> value -> Prop) (str_enum one_of : bool) (fragment_name fragment_back operation_name operation_back : name -> name) (d d' : document),
    undo fragment_name fragment_back -> undo operation_name operation_back -> renamed fragment_name operation_name d d' ->
    (valid_document S accepts str_enum one_of d <-> valid_document S accepts str_enum one_of d').
Proof.
  intros S acc se oo f f' g g' d d' (F1 & F2) (G1 & G2) R. split; intros V.
  - apply (renamed_valid S acc se oo f' f g' g F2 G2 d' d); auto. apply (renamed_back f f' g g'); auto.
  - apply (renamed_valid S acc se oo f f' g g' F1 G1 d d'); auto.
Qed.
Print Assumptions c89_valid.

(** From texts, for the validator. Left to show: the same of queries for which acceptance is not known to be validity (see C60). *)
Definition acceptance_is_validity (S : schema) (d : document) : Prop :=
  nested_roots_single d /\ several_roots_differ d /\ spreads_simple S d /\ typename_plain S d /\ listed_usages_allowed S d.
Theorem c89_accepted_partial :
  forall so dor recover other_digit parse_f64 recover' other_digit' parse_f64' schema_text query_text query_text' S d d',
    read_schema_with so dor recover other_digit parse_f64 schema_text = inl (inl S) ->
    parse_text recover' other_digit' parse_f64' query_text = inl d -> parse_text recover' other_digit' parse_f64' query_text' = inl d' -> reads_numbers parse_f64' ->
  forall fragment_name fragment_back operation_name operation_back,
    undo fragment_name fragment_back -> undo operation_name operation_back -> renamed fragment_name operation_name d d' ->
    acceptance_is_validity S d -> acceptance_is_validity S d' ->
  forall hook str_enum one_of ord ord', some_order ord -> some_order ord' ->
    (validate S hook str_enum one_of ord d = Some [] <-> validate S hook str_enum one_of ord' d' = Some []).
Proof.
  intros so dor rc od pf rc' od' pf' st qt qt' S d d' HS HD HD' HN f f' g g' F G R (A1 & A2 & A3 & A4 & A5) (B1 & B2 & B3 & B4 & B5) hook se oo ord ord' Ho Ho'.
  pose proof (c89_valid S (fun n x => hook n x = None) se oo f f' g g' d d' F G R) as V. split; intros H.
  - apply (valid_texts_accepted_partial _ _ _ _ _ _ _ _ _ _ _ _ HS HD' HN hook se oo ord' Ho'); auto. apply V.
    apply (accepted_texts_valid_partial _ _ _ _ _ _ _ _ _ _ _ _ HS HD HN hook se oo ord Ho); auto. apply spreads_simple_agree. auto.
  - apply (valid_texts_accepted_partial _ _ _ _ _ _ _ _ _ _ _ _ HS HD HN hook se oo ord Ho); auto. apply V.
    apply (accepted_texts_valid_partial _ _ _ _ _ _ _ _ _ _ _ _ HS HD' HN hook se oo ord' Ho'); auto. apply spreads_simple_agree. auto.
Qed.
Print Assumptions c89_accepted_partial.

(** * The document with new names written in it *)
Lemma rename_like rho : forall s, like rho s (rename_selection rho s).
Proof.
  fix F 1. intros [al n args ds sub|n ds|c ds sub]; cbn; constructor.
  - intros s' Hs'. induction sub as [|x sub IH]; [destruct Hs'|]. destruct Hs' as [<-|Hs']; [exists x; split; [left; reflexivity|apply F]|].
    destruct (IH Hs') as (s & Hs & P). exists s. split; [right; exact Hs|exact P].
  - intros s Hs. induction sub as [|x sub IH]; [destruct Hs|]. destruct Hs as [<-|Hs]; [eexists; split; [left; reflexivity|apply F]|].
    destruct (IH Hs) as (s' & Hs' & P). exists s'. split; [right; exact Hs'|exact P].
  - intros s Hs. induction sub as [|x sub IH]; [destruct Hs|]. destruct Hs as [<-|Hs]; [eexists; split; [left; reflexivity|apply F]|].
    destruct (IH Hs) as (s' & Hs' & P). exists s'. split; [right; exact Hs'|exact P].
  - intros s' Hs'. induction sub as [|x sub IH]; [destruct Hs'|]. destruct Hs' as [<-|Hs']; [exists x; split; [left; reflexivity|apply F]|].
    destruct (IH Hs') as (s & Hs & P). exists s. split; [right; exact Hs|exact P].
Qed.
Lemma rename_likes rho sels : likes rho sels (map (rename_selection rho) sels).
Proof.
  split.
  - intros s Hs. exists (rename_selection rho s). split; [apply List.in_map; auto|apply rename_like].
  - intros s' Hs'. apply in_map_iff in Hs' as (s & <- & Hs). exists s. split; [auto|apply rename_like].
Qed.
Lemma rename_document_renamed rho sigma d : renamed rho sigma d (rename_document rho sigma d).
Proof.
  split; cbn.
  - induction (doc_ops d) as [|o l IH]; constructor; auto. split; cbn; auto using rename_likes.
  - induction (doc_frags d) as [|f l IH]; constructor; auto. split; cbn; auto using rename_likes.
Qed.

(** ** Acceptance *)
Section Settled.
  Variable S : schema.
  Variables rho rho' sigma sigma' : name -> name.
  Hypothesis I : forall n, rho' (rho n) = n.
  Hypothesis J : forall n, sigma' (sigma n) = n.
  Variable d : document.
  Notation d' := (rename_document rho sigma d).
  Lemma rename_selection_back s : rename_selection rho' (rename_selection rho s) = s.
  Proof using I.
    induction s as [al n args ds sub IH|n ds|c ds sub IH] using selection_ind'; cbn; f_equal; auto; rewrite Forall_forall in IH; rewrite map_map; rewrite <- (map_id sub) at 2;
      apply map_ext_in; auto.
  Qed.
  Lemma rename_selections_back l : map (rename_selection rho') (map (rename_selection rho) l) = l.
  Proof using I. rewrite map_map. rewrite <- (map_id l) at 2. apply map_ext. apply rename_selection_back. Qed.
  Lemma rename_document_back : rename_document rho' sigma' d' = d.
  Proof using I J.
    destruct d as [ops frags]. unfold rename_document. cbn. f_equal; rewrite map_map.
    - rewrite <- (map_id ops) at 2. apply map_ext. intros [ex ty nm vs ds sel]. unfold rename_operation. cbn. rewrite rename_selections_back. f_equal. destruct nm; cbn; rewrite ?J; auto.
    - rewrite <- (map_id frags) at 2. apply map_ext. intros [nm c ds sel]. unfold rename_fragment. cbn. rewrite rename_selections_back, I. auto.
  Qed.
  Hypothesis ND' : NoDup (map fr_name (doc_frags d')).
  Let R : renamed rho sigma d d' := rename_document_renamed rho sigma d.
  Let R' : renamed rho' sigma' d' d := renamed_back rho rho' sigma sigma' d d' I J R.
  Let ND : NoDup (map fr_name (doc_frags d)) := names_once rho sigma d d' R ND'.
  Lemma field_new s : (exists al n args ds sub, rename_selection rho s = SField al n args ds sub) -> exists al n args ds sub, s = SField al n args ds sub.
  Proof using. intros (al & n & args & ds & sub & H). destruct s; try discriminate H. repeat eexists. Qed.
  Lemma defines_new n f : defines d n f -> defines d' (rho n) (rename_fragment rho f).
  Proof using ND'.
    intros H. apply (defines_in_iff d n f ND) in H as (Hi & E). apply (defines_in_iff d' (rho n) (rename_fragment rho f) ND'). split; [apply List.in_map; auto|cbn; rewrite E; auto].
  Qed.
  Lemma counted_new o sels : counted d o sels -> counted d' (rename_operation rho sigma o) (map (rename_selection rho) sels).
  Proof using ND'.
    intros [K|c ds l K|n ds f K Hf].
    - apply (cn_root d' (rename_operation rho sigma o)). intros s Es. cbn in Es. destruct (op_sel o) as [|s0 [|s1 l]]; try discriminate Es. injection Es as <-.
      destruct (K _ eq_refl) as (al & n & args & ds & sub & ->). cbn. repeat eexists.
    - apply (cn_inline d' (rename_operation rho sigma o) c ds). cbn. rewrite K. auto.
    - apply (cn_spread d' (rename_operation rho sigma o) (rho n) ds (rename_fragment rho f)); [cbn; rewrite K; auto|apply defines_new; auto].
  Qed.
  Lemma responses_new o y : root_response d' (op_sel (rename_operation rho sigma o)) y <-> root_response d (op_sel o) y.
  Proof using I J ND'.
    pose proof (rename_likes rho (op_sel o)) as L. split; intros H.
    - apply (root_response_more rho' sigma' d' d R' ND _ _ H). exact (proj1 (likes_back _ _ I _ _ L)).
    - apply (root_response_more rho sigma d d' R ND' _ _ H). exact (proj1 L).
  Qed.
  Lemma settled_new : acceptance_is_validity S d' -> acceptance_is_validity S d.
  Proof using I J ND'.
    intros (A1 & A2 & A3 & A4 & A5). split; [|split; [|split; [|split]]].
    - intros o sels s Ho Et Hc Hs. assert (Ho' : In (rename_operation rho sigma o) (doc_ops d')) by (apply List.in_map; auto).
      assert (Es : map (rename_selection rho) sels = [rename_selection rho s]) by (rewrite Hs; reflexivity).
      destruct (A1 _ _ _ Ho' Et (counted_new _ _ Hc) Es) as [K|(x & K)]; [left; apply field_new; auto|].
      right. exists x. intros y. rewrite <- K. symmetry. apply responses_new.
    - intros o sels Ho Et Hc Hl. assert (Ho' : In (rename_operation rho sigma o) (doc_ops d')) by (apply List.in_map; auto).
      destruct (A2 _ _ Ho' Et (counted_new _ _ Hc)) as (x & y & Hx & Hy & N); [rewrite map_length; auto|]. exists x, y. split; [|split; auto]; apply responses_new; auto.
    - intros r t n ds f t1 Hs Hd Ht. destruct (sel_more S rho sigma d d' R _ _ _ Hs) as (s' & Hs' & P). inversion P; subst.
      destruct (A3 r t _ ds _ t1 Hs' (defines_new _ _ Hd) Ht) as [K|(K1 & K2 & K3)]; auto. right. split; [auto|]. split.
      + intros s Hin. apply field_new. apply K2. apply List.in_map. auto.
      + intros al m args ds' sub fd Hin. apply (List.in_map (rename_selection rho)) in Hin. apply (K3 _ _ _ _ _ fd Hin).
    - intros r t al n args ds sub Hs. destruct (sel_more S rho sigma d d' R _ _ _ Hs) as (s' & Hs' & P). inversion P as [? ? ? ? ? sub' B F| |]; subst.
      destruct (A4 _ _ _ _ _ _ _ Hs') as (K1 & K2). split; [auto|]. intros H. destruct (K2 H) as (E1 & E2 & E3 & E4). split; auto. split; auto. split; auto.
      destruct sub as [|s sub]; auto. destruct (F s (or_introl eq_refl)) as (s' & Hin & _). rewrite E4 in Hin. destruct Hin.
    - intros i o r a iv v t df Ho Hr Hv Ha Hl Hu.
      apply (A5 i (rename_operation rho sigma o) r a iv v t df); auto.
      + exact (map_nth_error _ _ _ Ho).
      + exact (refers_more S rho sigma d d' R ND' _ _ Hr).
      + exact (argument_more S rho sigma d d' R _ _ _ Ha).
  Qed.
End Settled.
Lemma settled_written S rho rho' sigma sigma' d : undo rho rho' -> undo sigma sigma' -> NoDup (map fr_name (doc_frags d)) ->
  acceptance_is_validity S d -> acceptance_is_validity S (rename_document rho sigma d).
Proof.
  intros (I & I') (J & J') ND A. pose proof (rename_document_back rho rho' sigma sigma' I J d) as E.
  apply (settled_new S rho' rho sigma' sigma I' J'); rewrite E; auto.
Qed.
Lemma accepted_fragment_names so dor recover other_digit parse_f64 recover' other_digit' parse_f64' schema_text query_text S d :
  read_schema_with so dor recover other_digit parse_f64 schema_text = inl (inl S) -> parse_text recover' other_digit' parse_f64' query_text = inl d ->
  forall hook str_enum one_of ord, validate S hook str_enum one_of ord d = Some [] -> NoDup (map fr_name (doc_frags d)).
Proof.
  intros HS HQ hook se oo ord HV. pose proof (read_schema_resolved _ _ _ _ _ _ _ HS) as [R1 R2 _ _].
  apply validate_silent in HV as (_ & Q). destruct Q.
  assert (Hok : document_ok S d).
  { apply selections_match_schema; auto. intros o Ho E. apply (wp_implicit d (parsed_document _ _ _ _ _ HQ) o Ho E). }
  apply (proj1 (fragment_rules_on_text S d Hok) (conj si_fragment_names (conj si_fragment_targets si_fragment_used))).
Qed.
(** Where only the names are changed nothing needs to be known of the query under the new names. *)
Theorem c89_written_accepted_partial :
  forall so dor recover other_digit parse_f64 recover' other_digit' parse_f64' schema_text query_text query_text' S d,
  forall fragment_name fragment_back operation_name operation_back,
    read_schema_with so dor recover other_digit parse_f64 schema_text = inl (inl S) ->
    parse_text recover' other_digit' parse_f64' query_text = inl d ->
    parse_text recover' other_digit' parse_f64' query_text' = inl (rename_document fragment_name operation_name d) -> reads_numbers parse_f64' ->
    undo fragment_name fragment_back -> undo operation_name operation_back -> acceptance_is_validity S d ->
  forall hook str_enum one_of ord ord', some_order ord -> some_order ord' ->
    (validate S hook str_enum one_of ord d = Some [] <-> validate S hook str_enum one_of ord' (rename_document fragment_name operation_name d) = Some []).
Proof.
  intros so dor rc od pf rc' od' pf' st qt qt' S d f f' g g' HS HD HD' HN F G A hook se oo ord ord' Ho Ho'.
  pose proof (rename_document_renamed f g d) as R. pose proof (c89_valid S (fun n x => hook n x = None) se oo f f' g g' _ _ F G R) as V. destruct A as (A1 & A2 & A3 & A4 & A5).
  assert (W : NoDup (map fr_name (doc_frags d)) -> acceptance_is_validity S (rename_document f g d))
    by (intros ND; apply (settled_written S f f' g g' d F G ND); split; auto).
  split; intros H.
  - assert (Vd : valid_document S (fun n x => hook n x = None) se oo d)
      by (apply (accepted_texts_valid_partial _ _ _ _ _ _ _ _ _ _ _ _ HS HD HN hook se oo ord Ho); auto; apply spreads_simple_agree; auto).
    destruct (W (vd_fragment_names _ _ _ _ _ Vd)) as (B1 & B2 & B3 & B4 & B5).
    apply (valid_texts_accepted_partial _ _ _ _ _ _ _ _ _ _ _ _ HS HD' HN hook se oo ord' Ho'); auto. apply V. auto.
  - assert (ND' : NoDup (map fr_name (doc_frags (rename_document f g d)))) by (eapply accepted_fragment_names; eauto).
    destruct (W (names_once _ _ _ _ R ND')) as (B1 & B2 & B3 & B4 & B5).
    apply (valid_texts_accepted_partial _ _ _ _ _ _ _ _ _ _ _ _ HS HD HN hook se oo ord Ho); auto. apply V.
    apply (accepted_texts_valid_partial _ _ _ _ _ _ _ _ _ _ _ _ HS HD' HN hook se oo ord' Ho'); auto. apply spreads_simple_agree. auto.
Qed.
Print Assumptions c89_written_accepted_partial.

(** ** The analyses *)
Lemma flat_same {A B} (f : B -> list oevent) (g : A -> list oevent) (h : A -> B) l :
  (forall x, map forget_below (f (h x)) = map forget_below (g x)) -> map forget_below (flat_map f (map h l)) = map forget_below (flat_map g l).
Proof. intros H. induction l as [|x l IH]; auto. cbn. rewrite !map_app, H, IH. auto. Qed.
Section Analyses.
  Variable S : schema.
  Variables rho sigma : name -> name.
  Hypothesis inj : forall a b, rho a = rho b -> a = b.
  Variable d : document.
  Variable o : operation.
  Variable vals : list (name * value).
  Notation d' := (rename_document rho sigma d).
  Notation o' := (rename_operation rho sigma o).
  Lemma teqb_new a b : teqb (rho a) (rho b) = teqb a b.
  Proof using inj.
    destruct (teqb_spec a b) as [E|N]; destruct (teqb_spec (rho a) (rho b)) as [E'|N']; auto; [destruct N'; congruence|destruct N; auto].
  Qed.
  Lemma tmem_new n l : tmem (rho n) (map rho l) = tmem n l.
  Proof using inj. unfold tmem. induction l as [|a l IH]; cbn; auto. rewrite teqb_new, IH. auto. Qed.
  Lemma cached_new n : cached_fragment d' (rho n) = option_map (rename_fragment rho) (cached_fragment d n).
  Proof using inj.
    unfold cached_fragment. cbn [rename_document doc_frags]. induction (doc_frags d) as [|f l IH]; auto. cbn [map assoc_last].
    rewrite IH. destruct (assoc_last n (map (fun f => (fr_name f, f)) l)); auto. cbn [option_map rename_fragment fr_name]. rewrite teqb_new.
    destruct (teqb _ _); auto.
  Qed.
  Lemma included_new ds : selection_included o' vals ds = selection_included o vals ds.
  Proof using. reflexivity. Qed.
  Lemma visits_new fuel : forall s act t b,
    map forget_below (ovisit S d' o' vals fuel (map rho act) t b (rename_selection rho s)) = map forget_below (ovisit S d o vals fuel act t b s).
  Proof using inj.
    induction fuel as [fuel IHf] using lt_wf_ind.
    assert (Hset : forall act t b sub, Forall (fun s => forall act t b,
        map forget_below (ovisit S d' o' vals fuel (map rho act) t b (rename_selection rho s)) = map forget_below (ovisit S d o vals fuel act t b s)) sub ->
        map forget_below (ovisit_set S d' o' vals fuel (map rho act) t b (map (rename_selection rho) sub)) = map forget_below (ovisit_set S d o vals fuel act t b sub)).
    { intros act t b sub H. unfold ovisit_set. induction H as [|x sub Hx _ IH]; auto. cbn [map flat_map]. rewrite !map_app, Hx, IH. auto. }
    induction s as [al n args ds sub IH|n ds|c ds sub IH] using selection_ind'; intros act t b; cbn [rename_selection].
    - rewrite !ovisit_field. destruct (get_field (td_fields t) n) as [fd|]; auto. rewrite !map_app. f_equal. cbn [map forget_below]. rewrite included_new. f_equal.
      rewrite !map_app. f_equal. f_equal. destruct sub as [|x sub]; auto. destruct (get_type S (tref_base (fd_type fd))) as [t'|]; auto. apply (Hset act t' _ (x :: sub) IH).
    - rewrite !ovisit_spread. rewrite tmem_new, cached_new. rewrite !map_app. f_equal. destruct (tmem n act); auto. destruct (cached_fragment d n) as [f|]; auto.
      cbn [option_map rename_fragment fr_cond fr_sel]. destruct (get_type S (fr_cond f)) as [t'|]; auto. destruct fuel as [|fuel]; auto.
      rewrite included_new. change (rho n :: map rho act) with (map rho (n :: act)). apply flat_same. intros x. apply IHf. auto.
    - rewrite !ovisit_inline. rewrite !map_app. f_equal. destruct (match c with Some c => get_type S c | None => Some t end) as [t'|]; auto.
  Qed.
  Lemma calls_new : map forget_below (ovisit_operation S d' o' vals) = map forget_below (ovisit_operation S d o vals).
  Proof using inj.
    unfold ovisit_operation. cbn [rename_operation rename_document op_type op_dirs op_vars op_sel doc_frags]. rewrite !map_app. f_equal. f_equal.
    destruct (op_root_name S (op_type o)) as [n|]; auto. destruct (get_type S n) as [t|]; auto. rewrite map_length. apply flat_same. intros x.
    apply (visits_new (length (doc_frags d)) x []).
  Qed.
End Analyses.
Lemma resolve_new rho sigma d requested : (forall a b, sigma a = sigma b -> a = b) ->
  resolve_operation (rename_document rho sigma d) (option_map sigma requested) =
  match resolve_operation d requested with
  | inl o => inl (rename_operation rho sigma o)
  | inr (NoOperationWithName n) => inr (NoOperationWithName (sigma n))
  | inr e => inr e
  end.
Proof.
  intros inj. unfold resolve_operation. destruct requested as [n|]; cbn [option_map rename_document doc_ops].
  - induction (doc_ops d) as [|o l IH]; auto. cbn [map find rename_operation op_name]. destruct (op_name o) as [m|]; cbn [option_map]; auto.
    rewrite (teqb_new sigma inj). destruct (teqb m n); auto.
  - destruct (doc_ops d) as [|o [|o2 l]]; auto.
Qed.

(** Valid or not, under names that stay distinct: the operation of the new name is found if and only if that of the old name is, and every
    analysis of it gives the same result. *)
Theorem c89_analyses :
  forall (S : schema) (fragment_name operation_name : name -> name) (d : document) (requested : option name) (vals : list (name * value)),
    (forall a b, fragment_name a = fragment_name b -> a = b) -> (forall a b, operation_name a = operation_name b -> a = b) ->
    match resolve_operation d requested, resolve_operation (rename_document fragment_name operation_name d) (option_map operation_name requested) with
    | inl o, inl o' =>
        let calls := ovisit_operation S d o vals in
        let calls' := ovisit_operation S (rename_document fragment_name operation_name d) o' vals in
        query_depth calls' = query_depth calls /\
        (forall mx, input_size_offenders mx vals (op_vars o') calls' = input_size_offenders mx vals (op_vars o) calls) /\
        (forall hook str_enum one_of,
           variable_value_errors S hook str_enum one_of vals calls' = variable_value_errors S hook str_enum one_of vals calls) /\
        (forall strings, deprecations S vals strings calls' = deprecations S vals strings calls) /\
        default_complexity S calls' = default_complexity S calls /\
        (forall parse_weight twice_ln,
           relay_complexity S o' vals parse_weight twice_ln calls' = relay_complexity S o vals parse_weight twice_ln calls) /\
        (forall M mdefault multiplier_for cost_of multipliers_of,
           (forall m al n args ds sub, multiplier_for m (SField al n args ds sub) = multiplier_for m (SField al n args ds [])) ->
           (forall fd al n args ds sub, multipliers_of fd (SField al n args ds sub) = multipliers_of fd (SField al n args ds [])) ->
           complexity S M mdefault multiplier_for cost_of multipliers_of calls' =
           complexity S M mdefault multiplier_for cost_of multipliers_of calls)
    | inr (NoOperationWithName n), inr e' => e' = NoOperationWithName (operation_name n)
    | inr AnonymousNotEligible, inr e' => e' = AnonymousNotEligible
    | _, _ => False
    end.
Proof.
  intros S rho sigma d requested vals I J. rewrite (resolve_new rho sigma d requested J).
  destruct (resolve_operation d requested) as [o|[n|]]; auto. set (o' := rename_operation rho sigma o). set (d' := rename_document rho sigma d). intros calls calls'.
  assert (E : map forget_below calls' = map forget_below calls) by (apply calls_new; auto). assert (Hv : op_vars o' = op_vars o) by reflexivity.
  assert (EC : forall M mdefault multiplier_for cost_of multipliers_of,
           (forall m al n args ds sub, multiplier_for m (SField al n args ds sub) = multiplier_for m (SField al n args ds [])) ->
           (forall fd al n args ds sub, multipliers_of fd (SField al n args ds sub) = multipliers_of fd (SField al n args ds [])) ->
           complexity S M mdefault multiplier_for cost_of multipliers_of calls' =
           complexity S M mdefault multiplier_for cost_of multipliers_of calls).
  { intros * H1 H2. rewrite <- (complexity_forget _ _ _ _ _ _ calls'), <- (complexity_forget _ _ _ _ _ _ calls), E; auto. }
  split; [rewrite <- (depth_forget calls'), <- (depth_forget calls), E; auto|].
  split; [intros mx; rewrite Hv, <- (input_size_forget _ _ _ calls'), <- (input_size_forget _ _ _ calls), E; auto|].
  split; [intros; rewrite <- (variable_values_forget _ _ _ _ _ calls'), <- (variable_values_forget _ _ _ _ _ calls), E; auto|].
  split; [intros; rewrite <- (deprecations_forget _ _ _ calls'), <- (deprecations_forget _ _ _ calls), E; auto|].
  split; [apply EC; auto|]. split; [|exact EC].
  intros pw tl. unfold relay_complexity. change (relay_multipliers o' vals tl) with (relay_multipliers o vals tl). apply EC; auto.
Qed.
Print Assumptions c89_analyses.

(** ** A concrete case: the query of [ex_pets_valid] with other names for its fragment and one of its operations *)
Definition swap (a b : name) (n : name) : name := if teqb n a then b else if teqb n b then a else n.
Lemma swap_undo a b : undo (swap a b) (swap a b).
Proof.
  assert (K : forall n, swap a b (swap a b n) = n); [|split; auto]. intros n. unfold swap.
  destruct (teqb_spec n a) as [->|N]; [rewrite teqb_refl; destruct (teqb_spec b a); auto|].
  destruct (teqb_spec n b) as [->|N']; [rewrite teqb_refl; auto|]. destruct (teqb_spec n a); [contradiction|]. destruct (teqb_spec n b); [contradiction|auto].
Qed.
Definition named_query : string :=
  "query Everything($n: Int, $name: String, $k: Kind!, $withId: Boolean! = true) {
     pets(first: $n, where: {name: $name, kinds: [DOG, $k], not: {kinds: []}}) { ...petParts ... on Dog { b: barks name } __typename }
   }
   subscription S($k: Kind!, $withId: Boolean!) { petAdded(kind: $k) { ...petParts } }
   fragment petParts on Pet { id @include(if: $withId) name }".
Definition named_doc : document := Eval vm_compute in document_in named_query.
Lemma named_doc_eq : document_in named_query = named_doc. Proof. vm_compute. reflexivity. Qed.
Lemma named_parsed : read (tx named_query) = inl named_doc.
Proof. rewrite <- named_doc_eq. apply read_document_in. vm_compute. reflexivity. Qed.
Definition new_fragment := swap (tx "P") (tx "petParts").
Definition new_operation := swap (tx "Q") (tx "Everything").
Lemma pets_settled : acceptance_is_validity pets pets_doc.
Proof.
  split; [exact pets_subscriptions|]. split; [exact pets_several|]. split; [exact pets_simple|]. split.
  - apply typename_ok_plain. vm_compute. reflexivity.
  - apply lists_plain_document. vm_compute. reflexivity.
Qed.
Lemma named_settled : acceptance_is_validity pets named_doc.
Proof.
  split; [|split; [|split; [|split]]].
  - intros o sels s Ho E Hc Hs. left. cbn [doc_ops named_doc] in Ho. destruct Ho as [<-|[<-|[]]]; [discriminate E|].
    destruct Hc as [K|c ds sels K|n ds f K _]; [cbn in Hs; injection Hs as <-; repeat eexists|discriminate K|discriminate K].
  - intros o sels Ho E Hc Hs. cbn [doc_ops named_doc] in Ho. destruct Ho as [<-|[<-|[]]]; [discriminate E|].
    destruct Hc as [K|c ds sels K|n ds f K _]; [cbn in Hs; lia|discriminate K|discriminate K].
  - apply spread_ok_simple. vm_compute. reflexivity.
  - apply typename_ok_plain. vm_compute. reflexivity.
  - apply lists_plain_document. vm_compute. reflexivity.
Qed.
Example c89_case :
  undo new_fragment new_fragment /\ undo new_operation new_operation /\ rename_document new_fragment new_operation pets_doc = named_doc /\
  renamed new_fragment new_operation pets_doc named_doc /\
  valid_document pets (fun n x => any_value n x = None) false true pets_doc /\ valid_document pets (fun n x => any_value n x = None) false true named_doc /\
  acceptance_is_validity pets pets_doc /\ acceptance_is_validity pets named_doc /\
  (forall ord, some_order ord -> validate pets any_value false true ord named_doc = Some []) /\
  (exists o o', resolve_operation pets_doc (Some (tx "Q")) = inl o /\ resolve_operation named_doc (Some (tx "Everything")) = inl o' /\
     query_depth (ovisit_operation pets named_doc o' []) = 2).
Proof.
  assert (E : rename_document new_fragment new_operation pets_doc = named_doc) by (vm_compute; reflexivity).
  assert (R : renamed new_fragment new_operation pets_doc named_doc) by (rewrite <- E; apply rename_document_renamed).
  split; [apply swap_undo|]. split; [apply swap_undo|]. split; [exact E|]. split; [exact R|]. split; [exact ex_pets_valid|].
  split; [apply (c89_valid pets _ false true new_fragment new_fragment new_operation new_operation _ _ (swap_undo _ _) (swap_undo _ _) R), ex_pets_valid|].
  split; [exact pets_settled|]. split; [exact named_settled|].
  split.
  { intros ord Ho. apply (c89_accepted_partial _ _ _ _ _ _ _ _ _ _ _ _ _ _ pets_read pets_parsed named_parsed no_floats_numbers _ _ _ _ (swap_undo _ _) (swap_undo _ _) R
      pets_settled named_settled any_value false true in_order ord in_order_ok Ho). apply ex_pets_accepted, in_order_ok. }
  eexists. eexists. split; [vm_compute; reflexivity|]. split; vm_compute; reflexivity.
Qed.
