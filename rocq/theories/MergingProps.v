(** Property theorems on field selection merging (C26). *)
From Coq Require Import Permutation.
From Verif Require Import Base Ast Graph Maps Doc DocSpec DocProofs DocTypingProofs DocRulesSpec FragmentsSpec FragmentCyclesProofs ValueEq ValueEqSpec ValueEqProofs
  Merging MergingSpec MergingTermination MergingProofs MergingSound MergingComplete.

(** The rule iterates over hash maps. [ord] says in which order: the k-th iteration over the groups [l] visits [ord k l]. *)
Definition some_order (ord : nat -> list (list fctx) -> list (list fctx)) : Prop := forall k l, Permutation (ord k l) l.
Lemma some_order_In ord : some_order ord -> forall k l g, In g (ord k l) <-> In g l.
Proof. intros H k l g. split; apply Permutation_in; [|apply Permutation_sym]; apply H. Qed.

(** The selection sets the rule is run on are those the visitor passes to it, in that order. *)
Definition passed_sets (es : list event) : list (list selection * tdef) :=
  flat_map (fun e => match e with ESelSet sels t => [(sels, t)] | _ => [] end) es.

Section Erasure.
  Variable S : schema.
  Definition forget (e : set_id * list selection * tdef) : list selection * tdef := (snd (fst e), snd e).
  Lemma passed_app a b : passed_sets (a ++ b) = passed_sets a ++ passed_sets b.
  Proof. apply flat_map_app. Qed.
  Lemma passed_none l : (forall e, In e l -> match e with ESelSet _ _ => False | _ => True end) -> passed_sets l = [].
  Proof.
    induction l as [|e l IH]; intros H; auto. rewrite (passed_app [e] l : passed_sets (e :: l) = _). pose proof (H e (or_introl eq_refl)) as He.
    rewrite IH by (intros; apply H; right; auto). destruct e; auto; contradiction.
  Qed.
  Lemma passed_var_directives r ds loc : passed_sets (var_directives S r ds loc) = [].
  Proof.
    apply passed_none. intros e He. unfold var_directives in He. destruct ds as [|x ds]; [destruct He|]. destruct He as [<-|He]; [exact I|].
    apply in_flat_map in He as (y & _ & He). unfold var_directive in He. destruct He as [<-|He]; [exact I|]. destruct (get_ddef _ _); [|destruct He].
    unfold var_args in He. apply in_flat_map in He as (a & _ & He). destruct (get_ivd _ _); [|destruct He]. destruct He as [<-|[]]. exact I.
  Qed.
  Lemma passed_var_args r args defs : passed_sets (var_args r args defs) = [].
  Proof.
    apply passed_none. intros e He. unfold var_args in He. apply in_flat_map in He as (a & _ & He). destruct (get_ivd _ _); [|destruct He]. destruct He as [<-|[]]. exact I.
  Qed.
  Lemma passed_variable_definitions vs : passed_sets (visit_variable_definitions S vs) = [].
  Proof.
    apply passed_none. intros e He. unfold visit_variable_definitions in He. destruct vs as [|x vs]; [destruct He|]. destruct He as [<-|He]; [exact I|].
    apply in_flat_map in He as (y & _ & He). apply in_app_iff in He as [He|[<-|[]]]; [|exact I]. unfold const_directives in He. destruct (vd_dirs y) as [|z ds]; [destruct He|].
    destruct He as [<-|He]; [exact I|]. apply in_flat_map in He as (w & _ & He). destruct He as [<-|He]; [exact I|]. destruct (get_ddef _ _); [|destruct He].
    unfold const_args in He. apply in_flat_map in He as (a & _ & He). destruct (get_ivd _ _); [|destruct He]. destruct He as [<-|[]]. exact I.
  Qed.
  Lemma passed_cons e l : match e with ESelSet _ _ => False | _ => True end -> passed_sets (e :: l) = passed_sets l.
  Proof. intros H. destruct e; try reflexivity. destruct H. Qed.

  Definition erases (s : selection) : Prop := forall r id t j, map forget (sets_in S id t j s) = passed_sets (visit_selection S r t s).
  Lemma passed_set sub : Forall erases sub -> forall r id t,
    map forget (sets_of S id t sub) = passed_sets (visit_selection_set S r t sub).
  Proof.
    intros F r id t. unfold sets_of, visit_selection_set.
    change (passed_sets (ESelSet sub t :: flat_map (visit_selection S r t) sub)) with ((sub, t) :: passed_sets (flat_map (visit_selection S r t) sub)).
    cbn [map forget fst snd]. f_equal. generalize 0. induction F as [|s sub Hs F IH]; intros i; auto.
    cbn [sets_from flat_map]. rewrite map_app, passed_app, (Hs r), IH. reflexivity.
  Qed.
  Lemma visit_selection_field r t al n args ds sub :
    visit_selection S r t (SField al n args ds sub) =
    match get_field (td_fields t) n with
    | None => []
    | Some fd => EField r al n args ds sub fd :: var_directives S r ds LField ++ var_args r args (fd_args fd) ++
        match sub with [] => [] | _ => match get_type S (tref_base (fd_type fd)) with Some t' => visit_selection_set S r t' sub | None => [] end end
    end.
  Proof.
    reflexivity.
  Qed.
  Lemma visit_selection_inline r t c ds sub :
    visit_selection S r t (SInline c ds sub) =
    var_directives S r ds LInlineFragment ++
    match (match c with Some c => get_type S c | None => Some t end) with Some t' => visit_selection_set S r t' sub | None => [] end ++ [EInline c ds sub t].
  Proof. reflexivity. Qed.
  Lemma erasure s : erases s.
  Proof.
    induction s as [al n args ds sub IH|n ds|c ds sub IH] using selection_ind'; intros r id t j.
    - rewrite visit_selection_field, sets_in_field. destruct (get_field (td_fields t) n) as [fd|]; auto.
      rewrite passed_cons, !passed_app, passed_var_directives, passed_var_args by exact I. cbn [app]. destruct sub as [|s sub]; auto.
      destruct (get_type S _) as [t'|]; auto. apply passed_set; auto.
    - cbn [sets_in visit_selection]. rewrite passed_app, passed_var_directives. reflexivity.
    - rewrite visit_selection_inline, sets_in_inline, !passed_app, passed_var_directives. cbn [app].
      destruct (match c with Some c => get_type S c | None => Some t end) as [t'|]; [|reflexivity].
      rewrite (passed_set sub IH r). cbn. rewrite app_nil_r. reflexivity.
  Qed.
End Erasure.

Theorem merging_visits_all_sets S d : map forget (document_sets S d) = passed_sets (visit S d).
Proof.
  unfold document_sets, visit. rewrite map_app, passed_app. f_equal.
  - unfold mapi. generalize 0. induction (doc_ops d) as [|o l IH]; intros i; auto. rewrite !mapi_from_cons. cbn [concat]. rewrite map_app, passed_app, IH. f_equal.
    unfold visit_operation. rewrite passed_cons, !passed_app, passed_var_directives, passed_variable_definitions by exact I. cbn [app].
    destruct (op_root_name S (op_type o)) as [n|]; auto. destruct (get_type S n) as [t|]; auto. apply passed_set. apply Forall_forall. intros s _. apply erasure.
  - unfold mapi. generalize 0. induction (doc_frags d) as [|f l IH]; intros i; auto. rewrite !mapi_from_cons. cbn [concat]. rewrite map_app, passed_app, IH. f_equal.
    unfold visit_fragment. rewrite !passed_app, passed_var_directives. cbn [passed_sets flat_map app]. rewrite app_nil_r.
    destruct (get_type S (fr_cond f)) as [t|]; auto. apply passed_set. apply Forall_forall. intros s _. apply erasure.
Qed.

(** * C26: the rule gives a result for every document, fragment cycles included, in whatever order the groups are visited. *)
Theorem merging_terminates S d ord : some_order ord -> exists es, merging_errors S d ord = Some es.
Proof.
  intros H. unfold merging_errors. destruct (merging_run_total S d ord (some_order_In ord H)) as [st E]. rewrite E. eauto.
Qed.

(** * C26: if the rule passes, fields can be merged. *)
Theorem merging_sound_partial S d ord : some_order ord -> acyclic d -> plain_numbers d -> fields_agree S d ->
  merging_errors S d ord = Some [] -> document_can_merge S d can_meet_not_union.
Proof. intros H H1 H2 H3 E. apply (rule_sound_document S d ord (some_order_In ord H) H1 H2 H3 E). Qed.

Section Typename.
  Variable S : schema.
  Variable d : document.
  (** the field is selected somewhere in the document *)
  Definition written (x : sfield) : Prop :=
    exists r ds, sel_at S d r (sf_parent x) (SField (sf_alias x) (sf_name x) (sf_args x) ds (sf_sub x)) /\ has_field (sf_parent x) (sf_name x) (sf_def x).
  Lemma within_trans t1 s1 t2 s2 t3 s3 : within S t1 s1 t2 s2 -> within S t2 s2 t3 s3 -> within S t1 s1 t3 s3.
  Proof. intros H K. induction H; eauto using within. Qed.
  Lemma set_at_within r t1 s1 t2 s2 : set_at S d r t1 s1 -> within S t1 s1 t2 s2 -> set_at S d r t2 s2.
  Proof. intros (t0 & s0 & Ht & Hw) H. exists t0, s0. split; auto. eapply within_trans; eauto. Qed.
  Lemma collected_written t sels x : collected S d t sels x -> forall r, set_at S d r t sels -> written x.
  Proof.
    induction 1 as [t sels al n args ds sub fd Hi Hf|t sels ds sub x Hi H IH|t sels c ds sub t1 x Hi Ht H IH|t sels n ds f t1 x Hi Hd Ht H IH]; intros r Hr.
    - exists r, ds. split; auto. exists sels. auto.
    - apply (IH r). eapply set_at_within; eauto. eapply within_inline; eauto. constructor.
    - apply (IH r). eapply set_at_within; eauto. eapply within_inline_on; eauto. constructor.
    - destruct Hd as (b & a & E & _ & _). assert (Hn : nth_error (doc_frags d) (length b) = Some f) by (rewrite E, nth_error_app2, Nat.sub_diag; auto).
      apply (IH (RFrag (length b))). exists t1, (fr_sel f). split; [constructor; auto|constructor].
  Qed.
  Lemma below_written x y : written x -> below S d x y -> written y.
  Proof.
    intros (r & ds & (sels & Hs & Hi) & Hf) (t & Ht & Hc). apply (collected_written t (sf_sub x) y Hc r). eapply set_at_within; eauto.
    eapply within_field; eauto; [|constructor]. intros E. rewrite E in Hc. inversion Hc; subst; match goal with H : In _ [] |- _ => destruct H end.
  Qed.

  Hypothesis plain : typename_plain S d.
  Lemma union_alike x y : written x -> written y -> sf_key x = sf_key y -> is_union (sf_parent x) ->
    sf_name x = sf_name y /\ sf_args x = [] /\ sf_args y = [] /\ sf_sub x = [] /\ sf_sub y = [].
  Proof using plain.
    intros (r & ds & Hx & _) (r' & ds' & Hy & _) Hk Hu. destruct (plain _ _ _ _ _ _ _ Hx) as [H1 H2]. destruct (plain _ _ _ _ _ _ _ Hy) as [_ H3].
    destruct H2 as (Nx & Ax & Gx & Sx); auto. unfold sf_key in Hk. rewrite Ax, Nx in Hk.
    destruct H3 as (Ny & _ & Gy & Sy); [destruct (sf_alias y); [right; congruence|left; congruence]|]. repeat split; congruence.
  Qed.
  Lemma below_none x y : sf_sub x = [] -> ~ below S d x y.
  Proof. intros E (t & _ & H). rewrite E in H. inversion H; subst; match goal with H : In _ [] |- _ => destruct H end. Qed.
  Lemma conflict_not_union x y : written x -> written y -> sf_key x = sf_key y ->
    selections_conflict S d can_meet x y -> selections_conflict S d can_meet_not_union x y.
  Proof using plain.
    intros Wx Wy Hk H. induction H as [x y Hm H|x y Hm H|x y x' y' Hm Hmg H IH].
    - apply fc_name; auto. split; auto. split; intros U; apply H; [|symmetry]; apply union_alike; auto.
    - apply fc_args; auto. split; auto. assert (K : same_value (VObj []) (VObj [])) by (apply same_refl; repeat constructor).
      split; intros U; apply H; [destruct (union_alike x y) as (_ & -> & -> & _)|destruct (union_alike y x) as (_ & -> & -> & _)]; auto.
    - assert (Hnu : ~ is_union (sf_parent x) /\ ~ is_union (sf_parent y)).
      { destruct Hmg as (Hb & _ & _). split; intros U; [destruct (union_alike x y) as (_ & _ & _ & E1 & E2)|destruct (union_alike y x) as (_ & _ & _ & E1 & E2)]; auto;
          destruct Hb as [Hb|Hb]; revert Hb; apply below_none; auto. }
      eapply fc_below; [split; [exact Hm|exact Hnu]|exact Hmg|]. destruct Hmg as ([Hb|Hb] & [Hb'|Hb'] & Hk'); apply IH; auto; (eapply below_written; [|eassumption]; assumption).
  Qed.
End Typename.

(** The whole of FieldsInSetCanMerge, if __typename is not renamed. *)
Theorem merging_sound_graphql_partial S d ord : some_order ord -> acyclic d -> plain_numbers d -> fields_agree S d -> typename_plain S d ->
  merging_errors S d ord = Some [] -> document_can_merge S d can_meet.
Proof.
  intros Ho Ha Hn Hf Ht E r t sels Hs x y Hx Hy Hk. destruct (merging_sound_partial S d ord Ho Ha Hn Hf E r t sels Hs x y Hx Hy Hk) as [N1 N2]. split; auto.
  intros K. apply N2. apply conflict_not_union; auto; eapply collected_written; eauto.
Qed.

Lemma sel_at_occurs S d r t s : sel_at S d r t s -> occurs_in d s r.
Proof. intros (sels & (t0 & s0 & Htop & Hw) & Hin). inversion Htop; subst; econstructor; eauto; eapply within_occurs; eauto. Qed.

(** * C26: and then fields executed at the same response path of the same concrete types agree. *)
Lemma shape_dec S a b : same_shape_type S a b \/ ~ same_shape_type S a b.
Proof.
  destruct (same_type_shape S a b) eqn:E; [left; apply same_type_shape_iff; auto|]. right. intros K. apply same_type_shape_iff in K. congruence.
Qed.
Lemma executed_written S d o p x : In o (doc_ops d) -> executed_at S d o p x -> written S d x.
Proof.
  intros Ho. apply In_nth_error in Ho as [i Hi]. induction 1 as [t x T Hr Hc Hp|p y x T He IH Hb Hp]; [|eapply below_written; eauto].
  apply (collected_written S d t (op_sel o) x Hc (ROp i)). exists t, (op_sel o). split; [constructor; auto|constructor].
Qed.
Lemma possible_object S t n : possible S t n -> is_object t -> td_name t = n.
Proof. intros H. destruct H; cbn; tauto. Qed.
Lemma possible_meet S x y n : possible S (sf_parent x) n -> possible S (sf_parent y) n -> can_meet x y.
Proof.
  intros Hx Hy. unfold can_meet. destruct (sf_parent x) eqn:Ex, (sf_parent y) eqn:Ey; cbn; auto.
  left. apply possible_object in Hx; [|exact I]. apply possible_object in Hy; [|exact I]. cbn in Hx, Hy. congruence.
Qed.
Lemma executed_possible S d o p x : executed_at S d o p x -> exists k T q, p = (k, T) :: q /\ k = sf_key x /\ possible S (sf_parent x) T.
Proof. intros H. inversion H; subst; eauto 10. Qed.
Lemma executed_no_conflict S d o : document_can_merge S d can_meet -> In o (doc_ops d) -> forall p x y, executed_at S d o p x -> executed_at S d o p y ->
  ~ shapes_conflict S d x y /\ ~ selections_conflict S d can_meet x y.
Proof.
  intros Hm Ho p x y H. revert y. apply In_nth_error in Ho as [i Hi].
  induction H as [t x T Hr Hc Hp|p a x T He IH Hb Hp]; intros y Hy.
  - remember [(sf_key x, T)] as q eqn:Eq. destruct Hy as [t' y T' Hr' Hc' Hp'|q b y T' He' Hb' Hp'].
    + injection Eq as Hk ->. rewrite (root_type_fun _ _ _ _ Hr' Hr) in Hc'. apply (Hm (ROp i) t (op_sel o)); auto. exists t, (op_sel o). split; [constructor; auto|constructor].
    + exfalso. injection Eq as _ _ ->. inversion He'.
  - remember ((sf_key x, T) :: p) as q eqn:Eq. destruct Hy as [t' y T' Hr' Hc' Hp'|q b y T' He' Hb' Hp'].
    + exfalso. injection Eq as _ _ <-. inversion He.
    + injection Eq as Hk -> ->. destruct (IH b He') as [N1 N2].
      assert (Hg : merged S d a b x y) by (split; [auto|split; [auto|congruence]]).
      destruct (executed_possible _ _ _ _ _ He) as (k1 & T1 & q1 & E1 & _ & P1). destruct (executed_possible _ _ _ _ _ He') as (k2 & T2 & q2 & E2 & _ & P2).
      assert (T1 = T2) as -> by congruence. pose proof (possible_meet S a b T2 P1 P2) as Hmt. split; intros K.
      * apply N1. eapply sc_below; eauto.
      * apply N2. eapply fc_below; eauto.
Qed.
Theorem merging_executed_partial S d ord o p x y : some_order ord -> acyclic d -> plain_numbers d -> fields_agree S d -> typename_plain S d ->
  merging_errors S d ord = Some [] -> In o (doc_ops d) -> executed_at S d o p x -> executed_at S d o p y ->
  sf_name x = sf_name y /\ same_value (VObj (sf_args x)) (VObj (sf_args y)) /\ same_shape_type S (fd_type (sf_def x)) (fd_type (sf_def y)).
Proof.
  intros Hord Ha Hn Hf Ht E Ho Hx Hy. pose proof (merging_sound_graphql_partial S d ord Hord Ha Hn Hf Ht E) as Hm.
  destruct (executed_no_conflict S d o Hm Ho p x y Hx Hy) as [N1 N2].
  destruct (executed_possible _ _ _ _ _ Hx) as (k1 & T1 & q1 & E1 & _ & P1). destruct (executed_possible _ _ _ _ _ Hy) as (k2 & T2 & q2 & E2 & _ & P2).
  assert (T1 = T2) as -> by congruence. pose proof (possible_meet S x y T2 P1 P2) as Hmt.
  assert (Hargs : forall z, written S d z -> f64s (VObj (sf_args z))).
  { intros z (r & ds & Hz & _). apply (Hn r (sf_alias z) (sf_name z) (sf_args z) ds (sf_sub z)). eapply sel_at_occurs; eauto. }
  pose proof (executed_written S d o p x Ho Hx) as Wx. pose proof (executed_written S d o p y Ho Hy) as Wy. split; [|split].
  - destruct (teqb (sf_name x) (sf_name y)) eqn:En; [apply teqb_eq; auto|]. exfalso. apply N2. apply fc_name; auto. apply teqb_neq; auto.
  - destruct (value_eqb (VObj (sf_args x)) (VObj (sf_args y))) eqn:Ev; [apply value_eqb_same; auto|]. exfalso. apply N2. apply fc_args; auto.
    intros K. apply value_eqb_same in K; auto. congruence.
  - destruct (shape_dec S (fd_type (sf_def x)) (fd_type (sf_def y))) as [|K]; auto. exfalso. apply N1. apply sc_type; auto.
Qed.

(** * C26: if fields can be merged, the rule passes. *)
Lemma conflict_weaken S d (m m' : sfield -> sfield -> Prop) x y : (forall a b, m a b -> m' a b) -> selections_conflict S d m x y -> selections_conflict S d m' x y.
Proof. intros H K. induction K; [apply fc_name|apply fc_args|eapply fc_below]; eauto. Qed.
Lemma can_merge_weaken S d : document_can_merge S d can_meet -> document_can_merge S d can_meet_not_union.
Proof.
  intros H r t sels Hs x y Hx Hy Hk. destruct (H r t sels Hs x y Hx Hy Hk) as [N1 N2]. split; auto.
  intros K. apply N2. eapply conflict_weaken; [|exact K]. intros a b (Hab & _). exact Hab.
Qed.
Theorem merging_complete_partial S d ord : some_order ord -> plain_numbers d -> spreads_simple S d ->
  document_can_merge S d can_meet -> merging_errors S d ord = Some [].
Proof. intros Ho Hn Hs Hm. apply rule_complete_document; auto using can_merge_weaken, some_order_In. Qed.
(** And every error reported names two fields which have to be merged, and which differ as it says; the selection set it names is
    in the operation or fragment in which they have to be. *)
Theorem merging_errors_real_partial S d ord es : some_order ord -> plain_numbers d -> spreads_simple S d -> merging_errors S d ord = Some es ->
  (forall id a b, In (IncompatibleTypes id a b) es ->
     have_to_merge S d (fun _ _ => True) (fst id) (sf_of a) (sf_of b) /\ ~ same_shape_type S (fd_type (cx_def a)) (fd_type (cx_def b))) /\
  (forall id a b, In (DifferingNames id a b) es -> have_to_merge S d can_meet (fst id) (sf_of a) (sf_of b) /\ cx_name a <> cx_name b) /\
  (forall id a b, In (DifferingArguments id a b) es ->
     have_to_merge S d can_meet (fst id) (sf_of a) (sf_of b) /\ cx_name a = cx_name b /\ ~ same_value (VObj (cx_args a)) (VObj (cx_args b))).
Proof.
  intros Ho Hn Hs E. assert (K : forall e, In e es -> exists id, real_error S d id e) by (intros e He; eapply errors_real; eauto using some_order_In).
  assert (W : forall r a b, have_to_merge S d can_meet_not_union r a b -> have_to_merge S d can_meet r a b).
  { intros r a b (t & sels & x & y & a' & b' & H1 & H2 & H3 & H4 & Hr & H5). exists t, sels, x, y, a', b'. do 4 (split; auto). split; auto.
    clear -Hr. induction Hr as [x y [Hm _]|x y x' y' a b [Hm _] Hg Hr IH]; [apply re_here; auto|eapply re_below; eauto]. }
  split; [|split]; intros id a b Hin; destruct (K _ Hin) as (id' & H); inversion H; subst; auto.
Qed.

(** both: the rule decides exactly this, for every iteration order *)
Theorem merging_exact_partial S d ord : some_order ord -> acyclic d -> plain_numbers d -> spreads_simple S d ->
  (merging_errors S d ord = Some [] <-> document_can_merge S d can_meet_not_union).
Proof.
  intros Ho Ha Hn Hs. split; intros H.
  - eapply merging_sound_partial; eauto using spreads_simple_agree.
  - apply rule_complete_document; auto using some_order_In.
Qed.
Theorem merging_exact_graphql_partial S d ord : some_order ord -> acyclic d -> plain_numbers d -> spreads_simple S d -> typename_plain S d ->
  (merging_errors S d ord = Some [] <-> document_can_merge S d can_meet).
Proof.
  intros Ho Ha Hn Hs Ht. split; intros H.
  - eapply merging_sound_graphql_partial; eauto using spreads_simple_agree.
  - apply merging_complete_partial; auto.
Qed.

Print Assumptions merging_visits_all_sets.
Print Assumptions merging_terminates.
Print Assumptions merging_sound_partial.
Print Assumptions merging_sound_graphql_partial.
Print Assumptions merging_executed_partial.
Print Assumptions merging_complete_partial.
Print Assumptions merging_errors_real_partial.
Print Assumptions merging_exact_partial.
Print Assumptions merging_exact_graphql_partial.

