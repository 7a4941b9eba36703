(** Leaving out what is skipped changes neither depth nor cost (C92). *)
From Verif Require Import Base Ast Examples Maps Graph Doc DocRules DocVariablesSpec OperationSpec Operation OperationProofs OperationProps Complexity ValidatorCases ValidAnalysisProps
  WrittenOutSpec WrittenOutProps SkippedSpec.
Local Open Scope string_scope.
Local Open Scope list_scope.

(** what depth and complexity look at: the fields that are included. Their selection sets are replaced by the empty one. *)
Definition bare (s : selection) : selection := match s with SField al n args ds _ => SField al n args ds [] | _ => s end.
Definition counted (e : oevent) : list oevent :=
  match e with
  | OEnter al n args ds _ fd t true => [OEnter al n args ds [] fd t true]
  | OLeave true => [OLeave true]
  | _ => []
  end.
Definition counts (evs : list oevent) : list oevent := flat_map counted evs.
Lemma counts_app a b : counts (a ++ b) = counts a ++ counts b.
Proof. apply flat_map_app. Qed.
Lemma counts_cons e l : counts (e :: l) = counted e ++ counts l.
Proof. reflexivity. Qed.
Lemma counts_flat {A} (f : A -> list oevent) l : counts (flat_map f l) = flat_map (fun x => counts (f x)) l.
Proof. induction l as [|x l IH]; auto. cbn [flat_map]. rewrite counts_app, IH. auto. Qed.
Lemma counts_args args defs : counts (oargs args defs) = [].
Proof. unfold oargs. rewrite counts_flat. induction args as [|a args IH]; auto. cbn [flat_map]. destruct (get_ivd defs (fst a)); auto. Qed.
Lemma counts_dirs S ds : counts (odirectives S ds) = [].
Proof. unfold odirectives. rewrite counts_flat. induction ds as [|x ds IH]; auto. cbn [flat_map]. rewrite IH. destruct (get_ddef S (dir_name x)); auto. rewrite counts_args. auto. Qed.
Lemma counts_vars l : counts (map OVarDef l) = [].
Proof. induction l; auto. Qed.

Lemma depth_counts evs : query_depth (counts evs) = query_depth evs.
Proof.
  unfold query_depth. f_equal. generalize (0, 0). induction evs as [|e evs IH]; auto. intros [cur mx]. cbn [counts flat_map]. rewrite fold_left_app. fold (counts evs).
  destruct e as [| |al n args ds sub fd t [|]|[|]| |]; cbn; auto.
Qed.
Lemma complexity_counts S M mdefault multiplier_for cost_of multipliers_of evs :
  (forall m f, multiplier_for m (bare f) = multiplier_for m f) -> (forall fd f, multipliers_of fd (bare f) = multipliers_of fd f) ->
  complexity S M mdefault multiplier_for cost_of multipliers_of (counts evs) = complexity S M mdefault multiplier_for cost_of multipliers_of evs.
Proof.
  intros H1 H2. unfold complexity. match goal with |- context [fold_left ?f (counts evs) ?a] => assert (E : forall st, fold_left f (counts evs) st = fold_left f evs st) end; [|rewrite E; auto].
  induction evs as [|e evs IH]; auto. intros st. cbn [counts flat_map]. rewrite fold_left_app. fold (counts evs). rewrite IH. cbn [fold_left]. f_equal.
  destruct st as [[A stk]|]; [|destruct e as [| |al n args ds sub fd t [|]|[|]| |]; auto]. destruct e as [| |al n args ds sub fd t [|]|[|]| |]; auto.
  cbn [counted fold_left complexity_step]. unfold enter_field. destruct ((_ =? 0)%N && _); auto. destruct stk as [|[i|] stk]; auto. destruct (nth_error A i) as [c|]; auto.
  pose proof (H1 (cs_fm M c) (SField al n args ds sub)) as E1. pose proof (H2 fd (SField al n args ds sub)) as E2. cbn [bare] in E1, E2. rewrite E1, E2. auto.
Qed.

Section Skipped.
  Variable S : schema.
  Variable d d' : document.
  Variable o o' : operation.
  Variable vals : list (name * value).
  Hypothesis same_vars : op_vars o' = op_vars o.
  Hypothesis vars_once : NoDup (map vd_name (op_vars o)).
  Hypothesis vals_once : NoDup (map fst vals).
  Hypothesis frags : Forall2 (left_out_fragment o vals) (doc_frags d) (doc_frags d').
  Notation visits d o fuel act t b s := (counts (ovisit S d o vals fuel act t b s)).

  Lemma included_same ds : selection_included o' vals ds = selection_included o vals ds.
  Proof using same_vars. unfold selection_included, directive_bool, evaluate_bool. rewrite same_vars. auto. Qed.
  (** nothing below an excluded selection is counted *)
  Lemma excluded_counts fuel : forall s act t, visits d o fuel act t false s = [].
  Proof using.
    induction fuel as [fuel IHf] using lt_wf_ind. induction s as [al n args ds sub IH|n ds|c ds sub IH] using selection_ind'; intros act t.
    - rewrite ovisit_field. destruct (get_field (td_fields t) n) as [fd|]; auto. cbn [andb]. rewrite counts_app, counts_dirs, counts_cons, !counts_app, counts_args, counts_cons.
      cbn [counted app]. change (counts []) with (@nil oevent). rewrite app_nil_r. destruct sub as [|x sub]; auto.
      destruct (get_type S (tref_base (fd_type fd))) as [t'|]; auto. unfold ovisit_set; rewrite counts_flat. rewrite Forall_forall in IH.
      assert (E : forall l, (forall y, In y l -> In y (x :: sub)) -> flat_map (fun y => visits d o fuel act t' false y) l = []); [|apply E; auto].
      induction l as [|y l IHl]; auto. intros H. cbn [flat_map]. rewrite IH by (apply H; left; auto). apply IHl. intros; apply H; right; auto.
    - rewrite ovisit_spread, counts_app, counts_dirs. cbn [app andb]. destruct (tmem n act); auto. destruct (cached_fragment d n) as [f|]; auto.
      destruct (get_type S (fr_cond f)) as [t'|]; auto. destruct fuel as [|fuel]; auto. unfold ovisit_set; rewrite counts_flat. induction (fr_sel f) as [|y l IHl]; auto. cbn [flat_map]. rewrite IHf, IHl; auto.
    - rewrite ovisit_inline, counts_app, counts_dirs. cbn [app andb]. destruct (match c with Some c => get_type S c | None => Some t end) as [t'|]; auto.
      unfold ovisit_set; rewrite counts_flat. rewrite Forall_forall in IH. induction sub as [|y l IHl]; auto. cbn [flat_map]. rewrite IH by (left; auto). apply IHl. intros; apply IH; right; auto.
  Qed.
  Lemma skipped_counts fuel s act t b : excluded o vals (sel_dirs s) -> conditions_once (sel_dirs s) -> visits d o fuel act t b s = [].
  Proof using vars_once vals_once.
    intros X C. assert (E : selection_included o vals (sel_dirs s) = false).
    { destruct (selection_included o vals (sel_dirs s)) eqn:E; auto. apply included_iff in E; auto. contradiction. }
    assert (F : ovisit S d o vals fuel act t b s = ovisit S d o vals fuel act t false s).
    { destruct s; cbn [sel_dirs] in E; [rewrite !ovisit_field|rewrite !ovisit_spread|rewrite !ovisit_inline]; rewrite E, ?Bool.andb_false_r; auto. }
    rewrite F. apply excluded_counts.
  Qed.
  Lemma cached_left n : match cached_fragment d n, cached_fragment d' n with
                        | Some f, Some f' => left_out_fragment o vals f f'
                        | None, None => True
                        | _, _ => False
                        end.
  Proof using frags.
    unfold cached_fragment. induction frags as [|f f' l l' H HF IH]; cbn [map assoc_last]; auto.
    destruct (assoc_last n (map (fun f => (fr_name f, f)) l)), (assoc_last n (map (fun f => (fr_name f, f)) l')); auto; try contradiction.
    pose proof H as (E & _). rewrite E. destruct (teqb n (fr_name f)); auto.
  Qed.
  Lemma visits_left fuel : forall l l', left_out o vals l l' -> forall act t b,
    flat_map (fun s => visits d' o' fuel act t b s) l' = flat_map (fun s => visits d o fuel act t b s) l.
  Proof using same_vars vars_once vals_once frags.
    induction fuel as [fuel IHf] using lt_wf_ind.
    induction 1 as [|s l l' X C H IH|al n args ds sub sub' l l' H1 IH1 H IH|c ds sub sub' l l' H1 IH1 H IH|n ds l l' H IH]; intros act t b; cbn [flat_map]; auto.
    - rewrite skipped_counts by auto. apply IH.
    - rewrite IH. f_equal. rewrite !ovisit_field. destruct (get_field (td_fields t) n) as [fd|]; auto. rewrite included_same, !counts_app, !counts_dirs. cbn [app].
      set (b' := b && selection_included o vals ds).
      assert (G : counts (match sub' with [] => [] | _ => match get_type S (tref_base (fd_type fd)) with Some t' => flat_map (ovisit S d' o' vals fuel act t' b') sub' | None => [] end end) =
                  counts (match sub with [] => [] | _ => match get_type S (tref_base (fd_type fd)) with Some t' => flat_map (ovisit S d o vals fuel act t' b') sub | None => [] end end)).
      { assert (N : forall (d : document) (o : operation) sub, match sub with [] => [] | _ => match get_type S (tref_base (fd_type fd)) with Some t' => flat_map (ovisit S d o vals fuel act t' b') sub | None => [] end end =
            match get_type S (tref_base (fd_type fd)) with Some t' => flat_map (ovisit S d o vals fuel act t' b') sub | None => [] end)
          by (intros ? ? u; destruct u; auto; destruct (get_type S (tref_base (fd_type fd))); auto).
        rewrite !N. destruct (get_type S (tref_base (fd_type fd))) as [t'|]; auto. unfold ovisit_set; rewrite !counts_flat. apply IH1. }
      rewrite !counts_cons. f_equal. unfold ovisit_set. rewrite !counts_app, G. auto.
    - rewrite IH. f_equal. rewrite !ovisit_inline, included_same, !counts_app, !counts_dirs. cbn [app].
      destruct (match c with Some c => get_type S c | None => Some t end) as [t'|]; auto. unfold ovisit_set; rewrite !counts_flat. apply IH1.
    - rewrite IH. f_equal. rewrite !ovisit_spread, included_same, !counts_app, !counts_dirs. cbn [app]. destruct (tmem n act); auto. pose proof (cached_left n) as K.
      destruct (cached_fragment d n) as [f|], (cached_fragment d' n) as [f'|]; auto; try contradiction. destruct K as (_ & E & _ & K). rewrite E.
      destruct (get_type S (fr_cond f)) as [t'|]; auto. destruct fuel as [|fuel]; auto. unfold ovisit_set; rewrite !counts_flat. apply IHf; auto.
  Qed.
End Skipped.
Lemma calls_left S vals d o d' o' : NoDup (map vd_name (op_vars o)) -> NoDup (map fst vals) -> left_out_query vals d o d' o' ->
  counts (ovisit_operation S d' o' vals) = counts (ovisit_operation S d o vals).
Proof.
  intros N1 N2 (F & E1 & _ & E2 & E3 & L). unfold ovisit_operation. rewrite E1, E3, !counts_app, !counts_dirs, !counts_vars. f_equal. f_equal.
  destruct (op_root_name S (op_type o)) as [n|]; auto. destruct (get_type S n) as [t|]; auto. unfold ovisit_set; rewrite !counts_flat.
  assert (E : length (doc_frags d') = length (doc_frags d)) by (clear -F; induction F; cbn; auto). rewrite E. apply visits_left; auto.
Qed.

(** * C92 *)
Theorem c92_left_out :
  forall (S : schema) (d d' : document) (o o' : operation) (vals : list (name * value)),
    NoDup (map vd_name (op_vars o)) -> NoDup (map fst vals) -> left_out_query vals d o d' o' ->
    let calls := ovisit_operation S d o vals in
    let calls' := ovisit_operation S d' o' vals in
    query_depth calls' = query_depth calls /\
    default_complexity S calls' = default_complexity S calls /\
    (forall parse_weight twice_ln, relay_complexity S o' vals parse_weight twice_ln calls' = relay_complexity S o vals parse_weight twice_ln calls) /\
    (forall M mdefault multiplier_for cost_of multipliers_of,
       (forall m al n args ds sub, multiplier_for m (SField al n args ds sub) = multiplier_for m (SField al n args ds [])) ->
       (forall fd al n args ds sub, multipliers_of fd (SField al n args ds sub) = multipliers_of fd (SField al n args ds [])) ->
       complexity S M mdefault multiplier_for cost_of multipliers_of calls' = complexity S M mdefault multiplier_for cost_of multipliers_of calls).
Proof.
  intros S d d' o o' vals N1 N2 L calls calls'. assert (E : counts calls' = counts calls) by (apply calls_left; auto).
  assert (G : forall M mdefault multiplier_for cost_of multipliers_of,
       (forall m al n args ds sub, multiplier_for m (SField al n args ds sub) = multiplier_for m (SField al n args ds [])) ->
       (forall fd al n args ds sub, multipliers_of fd (SField al n args ds sub) = multipliers_of fd (SField al n args ds [])) ->
       complexity S M mdefault multiplier_for cost_of multipliers_of calls' = complexity S M mdefault multiplier_for cost_of multipliers_of calls).
  { intros M md mf co mo H1 H2. rewrite <- (complexity_counts S M md mf co mo calls'), E; [apply complexity_counts|..]; intros ? f; destruct f; cbn [bare]; auto. }
  split; [rewrite <- depth_counts, E; apply depth_counts|]. split; [apply G; auto|]. split; [|exact G].
  intros pw tl. transitivity (relay_complexity S o vals pw tl calls'); [|apply G; auto].
  destruct L as (_ & _ & _ & E2 & _). unfold relay_complexity. f_equal. unfold relay_multipliers, sizing_argument, evaluate_int. rewrite E2. auto.
Qed.
Print Assumptions c92_left_out.

Lemma left_out_refl o vals : forall l, left_out o vals l l.
Proof.
  assert (H : forall s, forall l, left_out o vals l l -> left_out o vals (s :: l) (s :: l)).
  { induction s as [al n args ds sub IH|n ds|c ds sub IH] using selection_ind'; intros l Hl; [apply lo_field|apply lo_spread|apply lo_inline]; auto;
      (induction sub as [|x sub IHs]; [constructor|]; inversion IH; subst; auto). }
  induction l as [|s l IH]; [constructor|auto].
Qed.
(** Oversized lists are also looked for in what is skipped: { f(a: [1, 2, 3]) @skip(if: true) g: f } and { g: f }. *)
Theorem c92_input_sizes_refuted :
  exists (S : schema) (d d' : document) (o o' : operation) (mx : nat),
    In o (doc_ops d) /\ In o' (doc_ops d') /\ NoDup (map vd_name (op_vars o)) /\ left_out_query [] d o d' o' /\
    input_size_offenders mx [] (op_vars o) (ovisit_operation S d o []) <> [] /\
    input_size_offenders mx [] (op_vars o') (ovisit_operation S d' o' []) = [].
Proof.
  set (g := SField (Some (tx "g")) (tx "f") [] [] []).
  set (o := op_query None [] [SField None (tx "f") [(tx "a", int_list [1; 2; 3]%Z)] [{| dir_name := tx "skip"; dir_args := [(tx "if", VBool true)] |}] []; g]).
  set (o' := op_query None [] [g]).
  exists ex_size_schema, (doc_of o), (doc_of o'), o, o', 2%nat.
  split; [left; reflexivity|]. split; [left; reflexivity|]. split; [constructor|]. split; [|split; [vm_compute; discriminate|vm_compute; reflexivity]].
  split; [constructor|]. split; [reflexivity|]. split; [reflexivity|]. split; [reflexivity|]. split; [reflexivity|]. cbn [o o' op_query op_sel].
  apply lo_skipped; [|apply once_all|apply left_out_refl].
  - eexists. eexists. split; [left; reflexivity|]. split; [left; reflexivity|]. left. split; [reflexivity|constructor].
  - repeat constructor. intros [].
  - intros x [<-|[]]. repeat constructor. intros [].
Qed.
Print Assumptions c92_input_sizes_refuted.

(** ** A concrete case: [pets_query] without the [id] that [@include(if: $withId)] excludes *)
Definition without_id : document :=
  {| doc_ops := doc_ops pets_doc; doc_frags := map (fun f => {| fr_name := fr_name f; fr_cond := fr_cond f; fr_dirs := fr_dirs f; fr_sel := tl (fr_sel f) |}) (doc_frags pets_doc) |}.
Example c92_case :
  In pets_op (doc_ops pets_doc) /\ NoDup (map vd_name (op_vars pets_op)) /\ NoDup (map fst pets_values) /\
  left_out_query pets_values pets_doc pets_op without_id pets_op /\ without_id <> pets_doc /\
  default_complexity pets (ovisit_operation pets without_id pets_op pets_values) = CCost 4 /\
  default_complexity pets (ovisit_operation pets pets_doc pets_op pets_values) = CCost 4 /\
  default_complexity pets (ovisit_operation pets pets_doc pets_op []) = CCost 5.
Proof.
  destruct c91_case as (C1 & (C2 & _) & _).
  split; [exact C1|]. split; [exact C2|]. split; [repeat constructor; cbn; intros K; repeat (destruct K as [K|K]; [discriminate K|]); destruct K|].
  split; [|split; [intros K; apply (f_equal doc_frags) in K; vm_compute in K; discriminate|vm_compute; auto]].
  split; [|repeat (split; [reflexivity|]); apply left_out_refl]. unfold without_id. cbn [doc_frags]. unfold pets_doc at 1 2. cbn [doc_frags map].
  constructor; [|constructor]. split; [reflexivity|]. split; [reflexivity|]. split; [reflexivity|]. cbn [fr_sel tl].
  apply lo_skipped; [|apply once_all|apply left_out_refl].
  - eexists. eexists. split; [left; reflexivity|]. split; [left; reflexivity|]. right. split; [reflexivity|].
    eapply cond_provided; [right; right; right; left; reflexivity|reflexivity|reflexivity|right; right; left; reflexivity].
  - repeat constructor. intros [].
  - intros x [<-|[]]. repeat constructor. intros [].
Qed.
