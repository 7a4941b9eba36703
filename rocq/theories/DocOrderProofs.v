(** The operations and the fragments of a document in another order: what the rules see. *)
From Coq Require Import Permutation.
From Verif Require Import Base Ast Graph Maps Doc DocSpec DocProofs CoercionTypes CoercionSpec DocRules DocRulesSpec DocRulesProofs DocTypingProofs DocRulesProps
  DocVariables DocVariablesSpec DocVariablesProps DocVariablesProofs VariableUsageProps FragmentsSpec FragmentCycles FragmentCyclesProofs CyclesProps ValueEqSpec Merging MergingSpec MergingTermination MergingProps
  Validator ValiditySpec ValidatorProofs.

(** an event without its root *)
Definition erase (ev : event) : event :=
  match ev with
  | EField _ al n args ds sub fd => EField (ROp 0) al n args ds sub fd
  | ESpread _ n ds t => ESpread (ROp 0) n ds t
  | EVarArg _ a i => EVarArg (ROp 0) a i
  | _ => ev
  end.

Section Events.
  Variable S : schema.
  Lemma var_args_erase r r' args defs : map erase (var_args r args defs) = map erase (var_args r' args defs).
  Proof. unfold var_args. induction args as [|a args IH]; cbn; [reflexivity|]. rewrite !map_app, IH. destruct (get_ivd defs (fst a)); reflexivity. Qed.
  Lemma var_directives_erase r r' ds loc : map erase (var_directives S r ds loc) = map erase (var_directives S r' ds loc).
  Proof.
    unfold var_directives. destruct ds as [|x ds]; [reflexivity|]. cbn [map]. f_equal. generalize (x :: ds) as l. induction l as [|y l IH]; cbn [flat_map]; [reflexivity|].
    rewrite !map_app, IH. f_equal. unfold var_directive. cbn [map]. f_equal. destruct (get_ddef S (dir_name y)); [apply var_args_erase|reflexivity].
  Qed.
  Lemma visit_selection_erase r r' s : forall t, map erase (visit_selection S r t s) = map erase (visit_selection S r' t s).
  Proof.
    induction s as [al n args ds sub IH|n ds|c ds sub IH] using selection_ind'; intros t; cbn [visit_selection].
    - destruct (get_field (td_fields t) n) as [fd|]; [|reflexivity]. cbn [map erase]. f_equal. rewrite !map_app. f_equal; [apply var_directives_erase|]. f_equal; [apply var_args_erase|].
      destruct sub as [|s0 sub0]; [reflexivity|]. destruct (get_type S (tref_base (fd_type fd))) as [t'|]; [|reflexivity]. cbn [map]. f_equal. inversion_clear IH as [|? ? IH0 IHs]. rewrite !map_app. f_equal; [apply IH0|]. revert IHs.
      induction sub0 as [|x l IHl]; intros F; [reflexivity|]. inversion_clear F. rewrite !map_app. f_equal; auto.
    - rewrite !map_app. f_equal. apply var_directives_erase.
    - rewrite !map_app. f_equal; [apply var_directives_erase|]. f_equal. destruct (match c with Some c => get_type S c | None => Some t end) as [t'|]; [|reflexivity]. cbn [map]. f_equal. revert IH.
      induction sub as [|x l IHl]; intros F; [reflexivity|]. inversion_clear F. rewrite !map_app. f_equal; auto.
  Qed.
  Lemma visit_set_erase r r' t sels : map erase (visit_selection_set S r t sels) = map erase (visit_selection_set S r' t sels).
  Proof. unfold visit_selection_set. cbn [map]. f_equal. induction sels as [|s sels IH]; cbn [flat_map]; [reflexivity|]. rewrite !map_app, IH. f_equal. apply visit_selection_erase. Qed.
  Lemma visit_operation_erase i j o : map erase (visit_operation S i o) = map erase (visit_operation S j o).
  Proof.
    unfold visit_operation. cbn [map]. f_equal. rewrite !map_app. f_equal; [apply var_directives_erase|]. f_equal.
    destruct (op_root_name S (op_type o)) as [n|]; [|reflexivity]. destruct (get_type S n); [apply visit_set_erase|reflexivity].
  Qed.
  Lemma visit_fragment_erase i j f : map erase (visit_fragment S i f) = map erase (visit_fragment S j f).
  Proof.
    unfold visit_fragment. rewrite !map_app. f_equal; [|f_equal; apply var_directives_erase]. destruct (get_type S (fr_cond f)); [apply visit_set_erase|reflexivity].
  Qed.
  Lemma visit_erase d ev : In ev (map erase (visit S d)) <->
    (exists o, In o (doc_ops d) /\ In ev (map erase (visit_operation S 0 o))) \/ (exists f, In f (doc_frags d) /\ In ev (map erase (visit_fragment S 0 f))).
  Proof.
    unfold visit. rewrite map_app, in_app_iff, !concat_map. unfold mapi. split; (intros [H|H]; [left|right]).
    - apply in_concat in H as (l & Hl & H). apply in_map_iff in Hl as (l0 & <- & Hl). apply mapi_from_In in Hl as (j & o & Ho & ->). exists o. split; [now apply nth_error_In in Ho|].
      now rewrite (visit_operation_erase 0 (0 + j)).
    - apply in_concat in H as (l & Hl & H). apply in_map_iff in Hl as (l0 & <- & Hl). apply mapi_from_In in Hl as (j & o & Ho & ->). exists o. split; [now apply nth_error_In in Ho|].
      now rewrite (visit_fragment_erase 0 (0 + j)).
    - destruct H as (o & Ho & H). apply In_nth_error in Ho as (j & Ho). apply in_concat. exists (map erase (visit_operation S (0 + j) o)). split; [|now rewrite (visit_operation_erase (0 + j) 0)].
      apply in_map, mapi_from_In. eauto.
    - destruct H as (o & Ho & H). apply In_nth_error in Ho as (j & Ho). apply in_concat. exists (map erase (visit_fragment S (0 + j) o)). split; [|now rewrite (visit_fragment_erase (0 + j) 0)].
      apply in_map, mapi_from_In. eauto.
  Qed.
End Events.

Lemma perm_filter_fr {A} (p : A -> bool) l l' : Permutation l l' -> Permutation (filter p l) (filter p l').
Proof.
  induction 1 as [|x l l' H IH|x y l|l l' l'' H IH H' IH']; cbn; auto.
  - destruct (p x); auto.
  - destruct (p x), (p y); auto. apply perm_swap.
  - etransitivity; eassumption.
Qed.

Section Reordered.
  Variable S : schema.
  Variables d d' : document.
  Hypothesis ops : Permutation (doc_ops d) (doc_ops d').
  Hypothesis frags : Permutation (doc_frags d) (doc_frags d').

  Lemma events_same ev : In ev (map erase (visit S d)) <-> In ev (map erase (visit S d')).
  Proof.
    rewrite !visit_erase. split; (intros [(o & I & H)|(f & I & H)]; [left; exists o|right; exists f]); (split; [|exact H]).
    all: eapply Permutation_in; [|exact I]; auto using Permutation_sym.
  Qed.
  (** a rule that looks at one event at a time, and not at the root *)
  Lemma flat_rule {B} (f g : event -> list B) : (forall ev, f (erase ev) = f ev) -> (forall ev, f ev = g ev) -> flat_map f (visit S d) = [] -> flat_map g (visit S d') = [].
  Proof.
    intros E G H. apply flat_map_nil'. intros ev I. rewrite <- G, <- E. assert (K : In (erase ev) (map erase (visit S d))) by (apply events_same, in_map, I).
    apply in_map_iff in K as (ev0 & K & I0). rewrite <- K, E. destruct (f ev0) as [|b l] eqn:Eb; [reflexivity|]. assert (X : In b (flat_map f (visit S d))) by (apply in_flat_map; exists ev0; split; [exact I0|rewrite Eb; now left]).
    rewrite H in X. destruct X.
  Qed.
  Hypothesis names : NoDup (map fr_name (doc_frags d)).
  Lemma names' : NoDup (map fr_name (doc_frags d')).
  Proof. eapply Permutation_NoDup; [apply Permutation_map, frags|exact names]. Qed.
  Lemma defines_iff e n f : NoDup (map fr_name (doc_frags e)) -> (defines e n f <-> In f (doc_frags e) /\ fr_name f = n).
  Proof.
    intros ND. split.
    - intros (b & a & E & N & _). split; [|exact N]. rewrite E. apply in_elt.
    - intros (I & N). apply in_split in I as (b & a & E). exists b, a. split; [exact E|]. split; [exact N|]. rewrite E, map_app in ND. cbn in ND. apply NoDup_remove_2 in ND.
      intros K. apply ND, in_app_iff. right. now rewrite N.
  Qed.
  Lemma defines_same n f : defines d n f <-> defines d' n f.
  Proof. rewrite (defines_iff d) by exact names. rewrite (defines_iff d') by exact names'. split; intros (I & N); (split; [|exact N]); eapply Permutation_in; [|exact I| |exact I]; auto using Permutation_sym. Qed.
  Lemma cached_same n : cached_fragment d n = cached_fragment d' n.
  Proof.
    unfold cached_fragment. pose proof (defines_assoc (fun f => f) d n) as A. pose proof (defines_assoc (fun f => f) d' n) as A'.
    destruct (assoc_last n (map (fun f => (fr_name f, f)) (doc_frags d))) as [f|].
    - symmetry. apply A'. destruct (proj1 (A f) eq_refl) as (g & G & <-). exists g. split; [now apply defines_same|reflexivity].
    - destruct (assoc_last n (map (fun f => (fr_name f, f)) (doc_frags d'))) as [f|]; [|reflexivity]. apply A. destruct (proj1 (A' f) eq_refl) as (g & G & <-). exists g. split; [now apply defines_same|reflexivity].
  Qed.
  Lemma find_filter {A} (p : A -> bool) l : find p l = hd_error (filter p l).
  Proof. induction l as [|x l IH]; cbn; [reflexivity|]. destruct (p x); [reflexivity|exact IH]. Qed.
  Lemma found_same n : find (fun f => teqb (fr_name f) n) (doc_frags d) = find (fun f => teqb (fr_name f) n) (doc_frags d').
  Proof.
    rewrite !find_filter. assert (L := proj1 (NoDup_keys fr_name (doc_frags d)) names n). assert (P : Permutation (filter (fun f => teqb (fr_name f) n) (doc_frags d)) (filter (fun f => teqb (fr_name f) n) (doc_frags d'))).
    { apply perm_filter_fr, frags. }
    destruct (filter (fun f => teqb (fr_name f) n) (doc_frags d)) as [|x [|y l]]; [|apply Permutation_length_1_inv in P as ->; reflexivity|cbn in L; lia].
    apply Permutation_nil in P as ->. reflexivity.
  Qed.

  Inductive same_root : root -> root -> Prop :=
  | same_op i j o : nth_error (doc_ops d) i = Some o -> nth_error (doc_ops d') j = Some o -> same_root (ROp i) (ROp j)
  | same_frag i j f : nth_error (doc_frags d) i = Some f -> nth_error (doc_frags d') j = Some f -> same_root (RFrag i) (RFrag j).
  Lemma top_same r r' t sels : same_root r r' -> top S d r t sels -> top S d' r' t sels.
  Proof.
    intros R T. destruct R as [i j o H H'|i j f H H']; inversion T; subst; match goal with A : nth_error ?l ?i = Some ?a, B : nth_error ?l ?i = Some ?b |- _ => assert (a = b) by congruence; subst end; constructor; auto.
  Qed.
  Lemma sel_at_same r r' t s : same_root r r' -> sel_at S d r t s -> sel_at S d' r' t s.
  Proof. intros R (sels & (t0 & sels0 & T & W) & I). exists sels. split; [|exact I]. exists t0, sels0. split; [|exact W]. eapply top_same; eauto. Qed.
  Lemma directives_at_same r r' ds loc : same_root r r' -> directives_at S d r ds loc -> directives_at S d' r' ds loc.
  Proof.
    intros R T. inversion T; subst.
    1,2: inversion R; subst; match goal with A : nth_error ?l ?i = Some ?a, B : nth_error ?l ?i = Some ?b |- _ => assert (a = b) by congruence; subst end; constructor; auto.
    - eapply dirs_field; eauto. eapply sel_at_same; eauto.
    - eapply dirs_spread; eauto. eapply sel_at_same; eauto.
    - eapply dirs_inline; eauto. eapply sel_at_same; eauto.
  Qed.
  Lemma argument_at_same r r' a i : same_root r r' -> argument_at S d r a i -> argument_at S d' r' a i.
  Proof.
    intros R T. inversion T; subst.
    - eapply arg_field; eauto. eapply sel_at_same; eauto.
    - eapply arg_directive; eauto. eapply directives_at_same; eauto.
  Qed.
  Lemma op_there i o : nth_error (doc_ops d) i = Some o -> exists j, nth_error (doc_ops d') j = Some o.
  Proof. intros H. apply nth_error_In in H. apply (Permutation_in _ ops), In_nth_error in H. exact H. Qed.
  Lemma frag_there i o : nth_error (doc_frags d) i = Some o -> exists j, nth_error (doc_frags d') j = Some o.
  Proof. intros H. apply nth_error_In in H. apply (Permutation_in _ frags), In_nth_error in H. exact H. Qed.
  Lemma root_there r t sels : top S d r t sels -> exists r', same_root r r'.
  Proof. intros [i o t' H _|i f t' H _]; [destruct (op_there _ _ H) as (j & J); exists (ROp j)|destruct (frag_there _ _ H) as (j & J); exists (RFrag j)]; econstructor; eauto. Qed.
  Lemma set_at_there r t sels : set_at S d r t sels -> exists r', set_at S d' r' t sels.
  Proof. intros (t0 & sels0 & T & W). destruct (root_there _ _ _ T) as (r' & R). exists r', t0, sels0. split; [|exact W]. eapply top_same; eauto. Qed.
  Lemma sel_at_there r t s : sel_at S d r t s -> exists r', sel_at S d' r' t s.
  Proof. intros (sels & A & I). destruct (set_at_there _ _ _ A) as (r' & A'). exists r', sels. auto. Qed.
  Lemma refers_same r r' r1 : same_root r r' -> refers S d r r1 -> exists r1', same_root r1 r1' /\ refers S d' r' r1'.
  Proof.
    intros R Q. inversion Q as [r0 t n ds j A (f & F & N & _) E1 E2]. subst r0 r1. clear Q. destruct (frag_there _ _ F) as (j' & F'). exists (RFrag j'). split; [econstructor; eauto|]. apply refers_intro with (t := t) (n := n) (ds := ds); [eapply sel_at_same; eauto|].
    exists f. split; [exact F'|]. split; [exact N|]. intros k g G E. enough (k = j') by lia. pose proof names' as ND. rewrite NoDup_nth_error in ND. apply ND.
    - rewrite map_length. apply nth_error_Some. congruence.
    - rewrite !nth_error_map, G, F'. cbn. congruence.
  Qed.
  Lemma star_same r r1 : star (refers S d) r r1 -> forall r', same_root r r' -> exists r1', same_root r1 r1' /\ star (refers S d') r' r1'.
  Proof.
    induction 1 as [r|r r2 r1 H H' IH]; intros r' R; [exists r'; split; [exact R|constructor]|]. destruct (refers_same _ _ _ R H) as (r2' & R2 & A). destruct (IH r2' R2) as (r1' & R1 & B).
    exists r1'. split; [exact R1|]. econstructor; eauto.
  Qed.
  Lemma operation_uses_same i j o x : nth_error (doc_ops d) i = Some o -> nth_error (doc_ops d') j = Some o -> operation_uses S d i x -> operation_uses S d' j x.
  Proof.
    intros H H' (r & A & a & iv & B & C). destruct (star_same _ _ A (ROp j) (same_op i j o H H')) as (r' & R & A'). exists r'. split; [exact A'|]. exists a, iv. split; [|exact C]. eapply argument_at_same; eauto.
  Qed.

  Lemma collected_same t sels x : collected S d t sels x -> collected S d' t sels x.
  Proof.
    induction 1; [eapply col_field|eapply col_inline|eapply col_inline_on|eapply col_spread]; eauto. now apply defines_same.
  Qed.
  Lemma below_same x y : below S d x y -> below S d' x y.
  Proof. intros (t & H & C). exists t. split; [exact H|]. now apply collected_same. Qed.
  Lemma merged_same x y x' y' : merged S d x y x' y' -> merged S d' x y x' y'.
  Proof. intros (A & B & C). split; [|split; [|exact C]]; [destruct A|destruct B]; auto using below_same. Qed.
  Lemma shapes_same x y : shapes_conflict S d x y -> shapes_conflict S d' x y.
  Proof. induction 1; [now apply sc_type|]. eapply sc_below; eauto. now apply merged_same. Qed.
  Lemma selections_same meet x y : selections_conflict S d meet x y -> selections_conflict S d' meet x y.
  Proof. induction 1; [now apply fc_name|now apply fc_args|]. eapply fc_below; eauto. now apply merged_same. Qed.
  Lemma fragment_uses_same a b : fragment_uses d a b -> fragment_uses d' a b.
  Proof. intros (f & D & U). exists f. split; [now apply defines_same|exact U]. Qed.
  Lemma cycle_same n : on_a_cycle d n -> on_a_cycle d' n.
  Proof. unfold on_a_cycle. generalize n at 1 3 as m. intros m H. induction H; [apply plus_one|eapply plus_step]; eauto using fragment_uses_same. Qed.
  Lemma occurs_there s r : occurs_in d s r -> exists r', occurs_in d' s r'.
  Proof. intros [i o H O|i f H O]; [destruct (op_there _ _ H) as (j & J); exists (ROp j)|destruct (frag_there _ _ H) as (j & J); exists (RFrag j)]; econstructor; eauto. Qed.
End Reordered.

Section Verdict.
  Variable S : schema.
  Variable hook : name -> value -> option text.
  Variable str_enum one_of : bool.
  Variables ord ord' : nat -> list (list fctx) -> list (list fctx).
  Variables d d' : document.
  Hypothesis ops : Permutation (doc_ops d) (doc_ops d').
  Hypothesis frags : Permutation (doc_frags d) (doc_frags d').

  Lemma merge_same meet : NoDup (map fr_name (doc_frags d)) -> document_can_merge S d meet -> document_can_merge S d' meet.
  Proof.
    intros ND H r t sels A x y X Y K. pose proof (Permutation_sym ops) as ops'. pose proof (Permutation_sym frags) as frags'. pose proof (names' _ _ frags ND) as ND'.
    destruct (set_at_there S d' d ops' frags' _ _ _ A) as (r0 & A0). destruct (H r0 t sels A0 x y (collected_same S d' d frags' ND' _ _ _ X) (collected_same S d' d frags' ND' _ _ _ Y) K) as (H1 & H2).
    split; intros C; [apply H1|apply H2]; [now apply (shapes_same S d' d frags' ND')|now apply (selections_same S d' d frags' ND')].
  Qed.
  Lemma simple_same : NoDup (map fr_name (doc_frags d)) -> spreads_simple S d -> spreads_simple S d'.
  Proof.
    intros ND H r t n ds f t1 A D G. destruct (sel_at_there S d' d (Permutation_sym ops) (Permutation_sym frags) _ _ _ A) as (r0 & A0). eapply H; eauto. now apply (defines_same d d' frags ND).
  Qed.
  Lemma acyclic_same : NoDup (map fr_name (doc_frags d)) -> acyclic d -> acyclic d'.
  Proof. intros ND H n C. apply (H n). now apply (cycle_same d' d (Permutation_sym frags) (names' _ _ frags ND)). Qed.
  Lemma numbers_same : plain_numbers d -> plain_numbers d'.
  Proof. intros H r al n args ds sub O. destruct (occurs_there d' d (Permutation_sym ops) (Permutation_sym frags) _ _ O) as (r0 & O0). eapply H; eauto. Qed.

  Variables subs merge : bool.
  Hypothesis mergeable : merge = true -> some_order ord /\ some_order ord' /\ plain_numbers d /\ spreads_simple S d.
  Lemma silent_reordered : silent S hook str_enum one_of ord d subs merge -> silent S hook str_enum one_of ord' d' subs merge.
  Proof.
    intros Q. destruct Q as [si_operation_names0 si_lone_anonymous0 si_subscriptions0 si_fields0 si_merging0 si_operation_types0 si_leafs0 si_argument_names0 si_argument_unique0 si_argument_required0 si_fragment_names0 si_fragment_types0 si_fragment_composite0 si_fragment_used0 si_fragment_targets0 si_fragment_cycles0 si_possible0 si_values0 si_directive_defined0 si_directive_places0 si_directive_unique0 si_variable_names0 si_variable_types0 si_variable_defined0 si_variable_used0 si_variable_usages0]. assert (ND : NoDup (map fr_name (doc_frags d))).
    { unfold fragment_name_errors in si_fragment_names0. rewrite visit_proj_frags in si_fragment_names0. now apply duplicates_nil in si_fragment_names0. }
    pose proof (Permutation_sym ops) as ops'. pose proof (Permutation_sym frags) as frags'. pose proof (names' _ _ frags ND) as ND'.
    assert (HA : acyclic d).
    { destruct (fragment_cycles_detected_exactly d) as (errs & E & H & _). assert (errs = []) as -> by congruence. intros n Hn.
      assert (Hd : exists f, defines d n f). { inversion Hn as [? ? (f & Hf & _)|? ? ? (f & Hf & _)]; subst; eauto. }
      destruct Hd as (f & Hf). assert (fr_name f = n) as <- by (destruct Hf as (? & ? & _ & ? & _); auto). apply (H f). auto. }
    constructor.
    - assert (X : forall e, operation_name_errors (visit S e) = duplicates fst (flat_map (fun o => if op_explicit o then match op_name o with Some n => [(n, o)] | None => [] end else []) (doc_ops e))).
      { intros e. unfold operation_name_errors. f_equal. apply visit_proj_ops; [reflexivity|]. intros [] H; try reflexivity. exfalso. eapply H. reflexivity. }
      rewrite X in *.
      apply duplicates_nil. apply duplicates_nil in si_operation_names0. eapply Permutation_NoDup; [|exact si_operation_names0]. apply Permutation_map, Permutation_flat_map, ops.
    - assert (X : forall e, flat_map (fun ev => match ev with EOp o => match op_name o with None => [o] | Some _ => [] end | _ => [] end) (visit S e) = flat_map (fun o => match op_name o with None => [o] | Some _ => [] end) (doc_ops e)).
      { intros e. apply visit_proj_ops; [reflexivity|]. intros [] H; try reflexivity. exfalso. eapply H. reflexivity. }
      unfold lone_anonymous_errors in *. rewrite X in *.
      rewrite <- (Permutation_length ops). assert (P : Permutation (flat_map (fun o => match op_name o with None => [o] | Some _ => [] end) (doc_ops d)) (flat_map (fun o => match op_name o with None => [o] | Some _ => [] end) (doc_ops d'))) by apply Permutation_flat_map, ops.
      destruct (negb (length (doc_ops d) =? 1)); [|reflexivity]. cbn [andb] in *. destruct (flat_map _ (doc_ops d)) as [|o l]; [|discriminate si_lone_anonymous0]. apply Permutation_nil in P as ->. reflexivity.
    - intros E. apply (flat_rule S d d' ops frags) with (f := fun ev => match ev with EOp o => if subscription_root_invalid d o then [o] else [] | _ => [] end); [intros []; reflexivity| |exact (si_subscriptions0 E)].
      intros []; try reflexivity. unfold subscription_root_invalid. destruct (op_type o); try reflexivity. destruct (op_sel o) as [|s [|]]; try reflexivity. destruct s; try reflexivity. now rewrite (found_same d d' frags ND).
    - apply (flat_rule S d d' ops frags) with (3 := si_fields0); intros []; reflexivity.
    - intros E. destruct (mergeable E) as (O & O' & NU & SI). apply merging_exact_partial; [exact O'|apply acyclic_same; auto|apply numbers_same; auto|apply simple_same; auto|].
      apply merge_same; [exact ND|]. apply (merging_exact_partial S d ord); auto.
    - apply (flat_rule S d d' ops frags) with (3 := si_operation_types0); intros []; reflexivity.
    - apply (flat_rule S d d' ops frags) with (3 := si_leafs0); intros []; reflexivity.
    - apply (flat_rule S d d' ops frags) with (3 := si_argument_names0); intros []; reflexivity.
    - apply (flat_rule S d d' ops frags) with (3 := si_argument_unique0); intros []; reflexivity.
    - apply (flat_rule S d d' ops frags) with (3 := si_argument_required0); intros []; reflexivity.
    - unfold fragment_name_errors. rewrite visit_proj_frags. now apply duplicates_nil.
    - apply (flat_rule S d d' ops frags) with (3 := si_fragment_types0); intros []; reflexivity.
    - apply (flat_rule S d d' ops frags) with (3 := si_fragment_composite0); intros []; reflexivity.
    - apply none_in. intros f H. apply unused_fragments_reported_exactly in H as (D & N). assert (K : In f (unused_fragment_errors d (visit S d))); [|rewrite si_fragment_used0 in K; destruct K].
      apply unused_fragments_reported_exactly. split; [now apply (defines_same d d' frags ND)|]. intros r t ds A. destruct (sel_at_there S d d' ops frags _ _ _ A) as (r' & A'). exact (N _ _ _ A').
    - apply none_in. intros n H. apply undefined_spreads_reported_exactly in H as ((r & t & ds & A) & N). assert (K : In n (spread_target_errors d (visit S d))); [|rewrite si_fragment_targets0 in K; destruct K].
      apply undefined_spreads_reported_exactly. destruct (sel_at_there S d' d ops' frags' _ _ _ A) as (r' & A'). split; [eauto|]. intros f I. apply N. now apply (Permutation_in _ frags).
    - destruct (fragment_cycles_detected_exactly d') as (errs & E & H & _). rewrite E. f_equal. apply none_in. intros f I. apply H in I as (_ & C). exact (acyclic_same ND HA _ C).
    - apply (flat_rule S d d' ops frags) with (3 := si_possible0); intros []; try reflexivity. now rewrite (cached_same d d' frags ND).
    - apply (flat_rule S d d' ops frags) with (3 := si_values0); intros []; reflexivity.
    - apply (flat_rule S d d' ops frags) with (3 := si_directive_defined0); intros []; reflexivity.
    - apply (flat_rule S d d' ops frags) with (3 := si_directive_places0); intros []; reflexivity.
    - apply (flat_rule S d d' ops frags) with (3 := si_directive_unique0); intros []; reflexivity.
    - apply (flat_rule S d d' ops frags) with (3 := si_variable_names0); intros []; reflexivity.
    - apply (flat_rule S d d' ops frags) with (3 := si_variable_types0); intros []; reflexivity.
    - destruct (undefined_variable_uses_reported_exactly S d) as (errs & E & H). destruct (undefined_variable_uses_reported_exactly S d') as (errs' & E' & H'). rewrite E'. f_equal. apply none_in. intros [j x] I.
      apply H' in I as (o & O & U & N). destruct (op_there d' d ops' _ _ O) as (i & O'). assert (K : In (i, x) errs); [|assert (errs = []) as -> by congruence; destruct K]. apply H. exists o. split; [exact O'|]. split; [|exact N].
      exact (operation_uses_same S d' d frags' ND' j i o x O O' U).
    - destruct (unused_variables_reported_exactly S d) as (errs & E & H). destruct (unused_variables_reported_exactly S d') as (errs' & E' & H'). rewrite E'. f_equal. apply none_in. intros [j x] I.
      apply H' in I as (o & O & U & N). destruct (op_there d' d ops' _ _ O) as (i & O'). assert (K : In (i, x) errs); [|assert (errs = []) as -> by congruence; destruct K]. apply H. exists o. split; [exact O'|]. split; [exact U|].
      intros V. apply N. exact (operation_uses_same S d d' frags ND i j o _ O' O V).
    - destruct (disallowed_usages_reported_exactly S d) as (errs & E & H). destruct (disallowed_usages_reported_exactly S d') as (errs' & E' & H'). rewrite E'. f_equal. apply none_in. intros [j [[x vd] l]] I.
      destruct (proj1 (H' j x vd (loc_type l) (loc_default l)) (ex_intro _ l (conj I (conj eq_refl eq_refl)))) as (o & r & a & iv & O & A & B & C & D & F & G).
      destruct (op_there d' d ops' _ _ O) as (i & O'). destruct (star_same S d' d frags' ND' _ _ A (ROp i) (same_op _ _ j i o O O')) as (r' & R & A').
      assert (K : exists l', In (i, (x, vd, l')) errs /\ loc_type l' = loc_type l /\ loc_default l' = loc_default l).
      { apply H. exists o, r', a, iv. split; [exact O'|]. split; [exact A'|]. split; [exact (argument_at_same S d' d _ _ _ _ R B)|]. auto. }
      destruct K as (l' & K & _). assert (errs = []) as -> by congruence. destruct K.
  Qed.
End Verdict.
