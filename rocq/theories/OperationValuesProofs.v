(** Lemmas about the analyzers that look at input values. *)
From Verif Require Import Base Ast Graph Maps Doc DocSpec DocRules DocVariablesSpec FragmentsSpec FragmentCyclesProofs CoercionTypes Coercion
  Operation OperationSpec OperationProofs.

(** * input size *)
Section Size.
  Variable mx : nat.
  Lemma dotted_cons nm x q : dotted nm (x :: q) = dotted (dot nm x) q.
  Proof. reflexivity. Qed.

  Definition go_items (f : text -> value -> list (nat * text)) (nm : text) :=
    fix go (i : nat) (l : list value) : list (nat * text) :=
      match l with [] => [] | x :: l' => f (dot nm (show_nat i)) x ++ go (Datatypes.S i) l' end.
  Definition go_entries (f : text -> value -> list (nat * text)) (nm : text) :=
    fix go (l : list (name * value)) : list (nat * text) :=
      match l with [] => [] | (k, x) :: l' => f (dot nm k) x ++ go l' end.
  Lemma in_go_items f nm r l : forall i, In r (go_items f nm i l) <-> exists j x, nth_error l j = Some x /\ In r (f (dot nm (show_nat (i + j))) x).
  Proof.
    induction l as [|y l IH]; intros i; cbn [go_items].
    - split; [intros []|]. intros ([] & x & H & _); discriminate.
    - rewrite in_app_iff, IH. split.
      + intros [H|(j & x & E & H)].
        * exists 0, y. rewrite Nat.add_0_r. auto.
        * exists (Datatypes.S j), x. replace (i + Datatypes.S j) with (Datatypes.S i + j) by lia. auto.
      + intros ([|j] & x & E & H); cbn in E.
        * left. injection E as ->. rewrite Nat.add_0_r in H. auto.
        * right. exists j, x. replace (Datatypes.S i + j) with (i + Datatypes.S j) by lia. auto.
  Qed.
  Lemma in_go_entries f nm r l : In r (go_entries f nm l) <-> exists k x, In (k, x) l /\ In r (f (dot nm k) x).
  Proof.
    induction l as [|[k y] l IH]; cbn [go_entries].
    - split; [intros []|]. intros (? & ? & [] & _).
    - rewrite in_app_iff, IH. split.
      + intros [H|(k' & x & Hin & H)]; [exists k, y; split; auto; left; auto|exists k', x; split; auto; right; auto].
      + intros (k' & x & [E|Hin] & Hr); [left; injection E as -> ->; auto|right; eauto].
  Qed.
  Lemma const_offenders_list nm vs : const_offenders mx nm (VList vs) =
    if Nat.ltb mx (length vs) then [(length vs, nm)] else go_items (const_offenders mx) nm 0 vs.
  Proof. reflexivity. Qed.
  Lemma const_offenders_obj nm es : const_offenders mx nm (VObj es) = go_entries (const_offenders mx) nm es.
  Proof. reflexivity. Qed.

  Definition reported (v : value) (nm : text) (r : nat * text) : Prop :=
    exists q n, oversized mx v q n /\ r = (n, dotted nm q).
  Lemma reported_list vs nm r : reported (VList vs) nm r <->
    (mx < length vs /\ r = (length vs, nm)) \/
    (length vs <= mx /\ exists j x, nth_error vs j = Some x /\ reported x (dot nm (show_nat j)) r).
  Proof.
    split.
    - intros (q & n & H & ->). inversion H; subst; [left; auto|right]. split; auto. eexists; eexists; split; eauto. eexists; eexists; split; eauto.
    - intros [(L & ->)|(L & j & x & E & q & n & H & ->)].
      + exists [], (length vs). split; auto. constructor; auto.
      + exists (show_nat j :: q), n. split; auto. eapply ov_item; eauto.
  Qed.
  Lemma reported_obj es nm r : reported (VObj es) nm r <-> exists k x, In (k, x) es /\ reported x (dot nm k) r.
  Proof.
    split.
    - intros (q & n & H & ->). inversion H; subst. eexists; eexists; split; eauto. eexists; eexists; split; eauto.
    - intros (k & x & E & q & n & H & ->). exists (k :: q), n. split; auto. eapply ov_field; eauto.
  Qed.

  Lemma const_offenders_iff v : forall nm r, In r (const_offenders mx nm v) <-> reported v nm r.
  Proof.
    induction v as [x|z|b|s|b| |x|vs IH|es IH] using value_ind'; intros nm r;
      try (cbn; split; [intros []|intros (q & n & H & _); inversion H]; fail).
    - rewrite const_offenders_list, reported_list. destruct (Nat.ltb_spec mx (length vs)) as [L|L].
      + cbn. split; [intros [<-|[]]; auto|]. intros [(_ & ->)|(L' & _)]; [auto|lia].
      + rewrite in_go_items. rewrite Forall_forall in IH. split.
        * intros (j & x & E & H). right. split; [lia|]. exists j, x. split; auto. apply IH; auto. eapply nth_error_In; eauto.
        * intros [(L' & _)|(_ & j & x & E & H)]; [lia|]. exists j, x. split; auto. apply IH; auto. eapply nth_error_In; eauto.
    - rewrite const_offenders_obj, reported_obj, in_go_entries. rewrite Forall_forall in IH. split.
      + intros (k & x & Hin & H). exists k, x. split; auto. apply (IH (k, x) Hin). auto.
      + intros (k & x & Hin & H). exists k, x. split; auto. apply (IH (k, x) Hin). auto.
  Qed.

  Variable vals : list (name * value).
  Variable vdefs : list vardef.
  Definition var_offenders (nm : text) (x : name) : list (nat * text) := arg_offenders mx vals vdefs nm (VVar x).
  Lemma arg_offenders_list nm vs : arg_offenders mx vals vdefs nm (VList vs) =
    if Nat.ltb mx (length vs) then [(length vs, nm)] else go_items (arg_offenders mx vals vdefs) nm 0 vs.
  Proof. reflexivity. Qed.
  Lemma arg_offenders_obj nm es : arg_offenders mx vals vdefs nm (VObj es) = go_entries (arg_offenders mx vals vdefs) nm es.
  Proof. reflexivity. Qed.

  Lemma arg_offenders_iff env v : forall nm,
    (forall q x, inside_value v q (VVar x) -> forall r, In r (var_offenders (dotted nm q) x) <-> reported (env x) (dotted nm q) r) ->
    forall r, In r (arg_offenders mx vals vdefs nm v) <-> reported (subst env v) nm r.
  Proof.
    induction v as [x|z|b|s|b| |x|vs IH|es IH] using value_ind'; intros nm HV r;
      try (cbn; split; [intros []|intros (q & n & H & _); inversion H]; fail).
    - cbn [subst]. apply (HV [] x); constructor.
    - rewrite arg_offenders_list. cbn [subst]. rewrite reported_list, map_length. rewrite Forall_forall in IH.
      assert (IH' : forall j x, nth_error vs j = Some x -> forall r, In r (arg_offenders mx vals vdefs (dot nm (show_nat j)) x) <-> reported (subst env x) (dot nm (show_nat j)) r).
      { intros j x E. apply IH; [eapply nth_error_In; eauto|]. intros q y Hy. apply (HV (show_nat j :: q)). eapply iv_item; eauto. }
      destruct (Nat.ltb_spec mx (length vs)) as [L|L].
      + cbn. split; [intros [<-|[]]; auto|]. intros [(_ & ->)|(L' & _)]; [auto|lia].
      + rewrite in_go_items. split.
        * intros (j & x & E & H). right. split; [lia|]. exists j, (subst env x). split; [rewrite nth_error_map, E; auto|].
          apply IH'; auto.
        * intros [(L' & _)|(_ & j & x & E & H)]; [lia|]. rewrite nth_error_map in E. destruct (nth_error vs j) as [y|] eqn:Ey; [|discriminate].
          injection E as <-. exists j, y. split; auto. apply IH'; auto.
    - rewrite arg_offenders_obj. cbn [subst]. rewrite reported_obj, in_go_entries. rewrite Forall_forall in IH.
      assert (IH' : forall k x, In (k, x) es -> forall r, In r (arg_offenders mx vals vdefs (dot nm k) x) <-> reported (subst env x) (dot nm k) r).
      { intros k x Hin. apply (IH (k, x) Hin). intros q y Hy. apply (HV (k :: q)). eapply iv_field; eauto. }
      split.
      + intros (k & x & Hin & H). exists k, (subst env x). split; [apply in_map_iff; exists (k, x); auto|]. apply IH'; auto.
      + intros (k & x & Hin & H). apply in_map_iff in Hin as ([k' y] & [= -> <-] & Hin). exists k, y. split; auto. apply IH'; auto.
  Qed.
  Lemma var_offenders_provided x w nm r : assoc x vals = Some w -> In r (var_offenders nm x) <-> reported w nm r.
  Proof. intros E. unfold var_offenders. cbn. rewrite E. apply const_offenders_iff. Qed.
End Size.

(** a variable inside a value, with and without its position *)
Lemma inside_var_in : forall v q x, inside_value v q (VVar x) -> var_in x v.
Proof.
  assert (G : forall v q w, inside_value v q w -> forall x, w = VVar x -> var_in x v).
  { induction 1 as [v0|vs i x q w E H IH|es k x q w Hin H IH]; intros y ->.
    - constructor.
    - eapply vi_list; [eapply nth_error_In; eauto|]. apply IH; auto.
    - eapply vi_obj; [eauto|]. apply IH; auto. }
  intros; eapply G; eauto.
Qed.

(** * variable values *)
Lemma fold_no_vardef {St} (f : St -> vardef -> St) evs st : (forall v, ~ In (OVarDef v) evs) ->
  fold_left (fun st ev => match ev with OVarDef v => f st v | _ => st end) evs st = st.
Proof.
  revert st. induction evs as [|e l IH]; intros st H; auto. cbn.
  rewrite IH by (intros v Hv; eapply H; right; eauto).
  destruct e; auto. exfalso. eapply H. left; reflexivity.
Qed.
Lemma fold_vardefs {St} (f : St -> vardef -> St) S d o vals st :
  fold_left (fun st ev => match ev with OVarDef v => f st v | _ => st end) (ovisit_operation S d o vals) st =
  fold_left f (op_vars o) st.
Proof.
  assert (G : exists pre, ovisit_operation S d o vals = pre ++ map OVarDef (op_vars o) /\ forall v, ~ In (OVarDef v) pre).
  { unfold ovisit_operation. rewrite app_assoc. eexists; split; [reflexivity|]. intros v Hv.
    apply in_app_or in Hv as [Hv|Hv]; [apply in_odirectives in Hv as (? & ? & ? & ? & ? & _); discriminate|].
    destruct (op_root_name S (op_type o)) as [m|] eqn:E1; [|destruct Hv].
    destruct (get_type S m) as [t0|] eqn:E2; [|destruct Hv as [Hv|[]]; discriminate].
    assert (H0 : root_type S (op_type o) t0) by (apply op_root_type; eauto).
    assert (Hev' : In (OVarDef v) (visit_at S d o vals [] t0 (op_sel o))).
    { unfold visit_at, fuel_at. cbn. rewrite Nat.sub_0_r. exact Hv. }
    apply visit_explained in Hev'; [|constructor; auto|constructor]. inversion Hev'. }
  destruct G as (pre & -> & Hpre). rewrite fold_left_app, (fold_no_vardef f pre st Hpre). clear.
  revert st. induction (op_vars o) as [|v l IH]; intros st; auto. cbn. apply IH.
Qed.

Lemma remove_key_In k l e : In e (remove_key k l) <-> In e l /\ fst e <> k.
Proof.
  unfold remove_key. rewrite filter_In. destruct (teqb_spec (fst e) k); cbn; split; intros (A & B); split; auto; try discriminate; contradiction.
Qed.
Lemma remove_key_notin k l : ~ In k (map fst l) -> remove_key k l = l.
Proof.
  induction l as [|[a b] l IH]; cbn; auto. intros H. unfold remove_key in *. cbn.
  destruct (teqb_spec a k) as [->|]; [exfalso; auto|]. cbn. rewrite IH; auto.
Qed.
Lemma assoc_remove_key k k' l : k <> k' -> assoc k (remove_key k' l) = assoc k l.
Proof.
  intros H. induction l as [|[a b] l IH]; cbn; auto. unfold remove_key in *. cbn [filter fst].
  destruct (teqb_spec a k') as [->|]; cbn [negb]; cbn [assoc].
  - destruct (teqb_spec k k'); [contradiction|]. exact IH.
  - destruct (teqb k a); auto.
Qed.
Lemma index_values_id vals : NoDup (map fst vals) -> index_values vals = vals.
Proof.
  unfold index_values.
  assert (G : forall l m, NoDup (map fst (m ++ l)) -> fold_left (fun m e => remove_key (fst e) m ++ [e]) l m = m ++ l).
  { induction l as [|e l IH]; intros m H; cbn; [rewrite app_nil_r; auto|].
    rewrite remove_key_notin.
    - rewrite IH by (rewrite <- app_assoc; auto). rewrite <- app_assoc. reflexivity.
    - rewrite map_app in H. apply NoDup_remove_2 in H. intros Hin. apply H. apply in_or_app; auto. }
  apply (G vals []).
Qed.

Section VarValues.
  Variable S : schema.
  Variable hook : name -> value -> option text.
  Variable str_enum one_of : bool.
  Definition variable_errors (vals : list (name * value)) (v : vardef) : list variable_value_error :=
    if has_input_type S (vd_type v) then
      match assoc (vd_name v) vals with
      | Some x => match coerce_value hook str_enum one_of S (vd_type v) x [] with [] => [] | es => [InvalidValue v x es] end
      | None => if vd_required v then [MissingValue v] else []
      end
    else [].
  Lemma fold_check vs : forall m errs, NoDup (map vd_name vs) ->
    exists m', fold_left (check_variable S hook str_enum one_of) vs (m, errs) = (m', errs ++ flat_map (variable_errors m) vs) /\
      forall e, In e m' <-> In e m /\ ~ In (fst e) (map vd_name vs).
  Proof.
    induction vs as [|v vs IH]; intros m errs H.
    - exists m. cbn. rewrite app_nil_r. split; auto. intros e; split; [auto|tauto].
    - inversion H; subst. cbn [fold_left check_variable].
      destruct (IH (remove_key (vd_name v) m) (errs ++ variable_errors m v)) as (m' & E & K); auto.
      exists m'. change (fold_left (check_variable S hook str_enum one_of) vs (remove_key (vd_name v) m, errs ++ variable_errors m v) = (m', errs ++ flat_map (variable_errors m) (v :: vs)) /\ (forall e, In e m' <-> In e m /\ ~ In (fst e) (map vd_name (v :: vs)))).
      rewrite E. split.
      + f_equal. cbn [flat_map]. rewrite app_assoc. f_equal.
        clear -H2. induction vs as [|w vs IH]; auto. cbn [flat_map map In] in *.
        rewrite IH by tauto. f_equal. unfold variable_errors. rewrite assoc_remove_key; auto.
      + intros e. rewrite K, remove_key_In. cbn [map In]. split; [intros ((A & B) & C); split; auto; intros [D|D]; auto|].
        intros (A & B). split; [split; auto|]; auto.
  Qed.
  Lemma variable_value_errors_iff d o vals e : NoDup (map vd_name (op_vars o)) -> NoDup (map fst vals) ->
    In e (variable_value_errors S hook str_enum one_of vals (ovisit_operation S d o vals)) <->
    (exists v, In v (op_vars o) /\ In e (variable_errors vals v)) \/
    (exists k x, e = UnusedValue k x /\ In (k, x) vals /\ ~ In k (map vd_name (op_vars o))).
  Proof.
    intros Hv Hk. unfold variable_value_errors. rewrite fold_vardefs, index_values_id by auto.
    destruct (fold_check (op_vars o) vals [] Hv) as (m' & E & K). rewrite E. rewrite in_app_iff. cbn [app]. rewrite in_flat_map, in_map_iff.
    split; (intros [H|H]; [left; exact H|right]).
    - destruct H as ((k, x) & <- & H). apply K in H as (A & B). eauto.
    - destruct H as (k & x & -> & A & B). exists (k, x). split; auto. apply K; auto.
  Qed.
End VarValues.

(** * deprecation *)
(** no element is deprecated twice *)
Definition deprecated_once (ds : list directive) : Prop :=
  (forall x y, In x ds -> In y ds -> dir_name x = tx "deprecated" -> dir_name y = tx "deprecated" -> x = y) /\
  (forall x, In x ds -> dir_name x = tx "deprecated" -> NoDup (map fst (dir_args x))).
Lemma deprecation_reason_iff ds r : deprecated_once ds -> deprecation_reason ds = Some r <-> deprecated ds r.
Proof.
  intros (H1 & H2). unfold deprecation_reason, deprecated. split.
  - destruct (find _ ds) as [x|] eqn:E; [|discriminate]. apply find_some in E as (Hx & E). apply teqb_eq in E.
    intros [= <-]. exists x. split; auto. split; auto. specialize (H2 x Hx E).
    match goal with |- context [find ?g (dir_args x)] => destruct (find g (dir_args x)) as [[k c]|] eqn:Ef end.
    + apply find_some in Ef as (Hc & Ek). apply teqb_eq in Ek. unfold fst in Ek; subst k.
      destruct c as [| | |s| | | | |]; try (right; split; [|reflexivity]; intros s0 Hs0;
        assert (Q := NoDup_find fst (dir_args x) (tx "reason", VStr s0) (tx "reason") H2 Hs0 eq_refl);
        assert (Q' := NoDup_find fst (dir_args x) _ (tx "reason") H2 Hc eq_refl); congruence).
      left. exact Hc.
    + right. split; auto. intros s Hs. apply (find_none _ _ Ef) in Hs. unfold fst in Hs. rewrite teqb_refl in Hs. discriminate.
  - intros (x & Hx & E & K).
    assert (Ef : find (fun x => teqb (dir_name x) (tx "deprecated")) ds = Some x).
    { destruct (find _ ds) as [y|] eqn:Ey.
      - apply find_some in Ey as (Hy & Ey). apply teqb_eq in Ey. f_equal. apply H1; auto.
      - exfalso. apply (find_none _ _ Ey) in Hx. rewrite E, teqb_refl in Hx. discriminate. }
    rewrite Ef. f_equal. specialize (H2 x Hx E). destruct K as [Hs|(Hn & ->)].
    + rewrite (NoDup_find fst (dir_args x) (tx "reason", VStr r) (tx "reason") H2 Hs eq_refl). reflexivity.
    + match goal with |- context [find ?g (dir_args x)] => destruct (find g (dir_args x)) as [[k c]|] eqn:Ef' end; auto.
      apply find_some in Ef' as (Hc & Ek). apply teqb_eq in Ek. unfold fst in Ek; subst k.
      destruct c; auto. exfalso. eapply Hn; eauto.
Qed.

(** objects inside a value do not repeat keys *)
Inductive unique_keys : value -> Prop :=
| uk_list vs : (forall v, In v vs -> unique_keys v) -> unique_keys (VList vs)
| uk_obj es : NoDup (map fst es) -> (forall k v, In (k, v) es -> unique_keys v) -> unique_keys (VObj es)
| uk_var x : unique_keys (VVar x) | uk_int z : unique_keys (VInt z) | uk_float b : unique_keys (VFloat b)
| uk_str s : unique_keys (VStr s) | uk_bool b : unique_keys (VBool b) | uk_null : unique_keys VNull
| uk_enum x : unique_keys (VEnum x).
(** enum members and the deprecation of members and input fields are unambiguous *)
Definition unambiguous (S : schema) : Prop :=
  (forall n en, get_type S n = Some (DEnum en) ->
     NoDup (map ev_name (en_values en)) /\ forall e, In e (en_values en) -> deprecated_once (ev_dirs e)) /\
  (forall n io, get_type S n = Some (DInput io) -> forall f, In f (io_fields io) -> deprecated_once (iv_dirs f)).

Section Deprecations.
  Variable S : schema.
  Hypothesis U : unambiguous S.
  Variable strings : bool.
  Variable nm : name.
  Notation vdep := (value_deprecations S strings nm).

  Definition dep_fields (es : list (name * value)) (fs : list ivd) : list deprecation :=
    flat_map (fun f => match assoc (iv_name f) es with
                       | Some x => match deprecation_reason (iv_dirs f) with
                                   | Some r => [{| dp_reason := r; dp_type := UInputField; dp_name := iv_name f |}]
                                   | None => []
                                   end ++ vdep x (iv_type f)
                       | None => [] end) fs.
  Definition dep_base (v : value) (n : name) : list deprecation :=
    match get_type S n with
    | Some (DEnum en) => deprecated_enum strings en v nm
    | Some (DInput io) => match v with VObj es => dep_fields es (io_fields io) | _ => [] end
    | _ => []
    end.
  Lemma look_assoc f es :
    (fix look (l : list (name * value)) : list deprecation :=
       match l with
       | [] => []
       | (k, x) :: l' =>
           if teqb k (iv_name f)
           then match deprecation_reason (iv_dirs f) with
                | Some r => [{| dp_reason := r; dp_type := UInputField; dp_name := iv_name f |}]
                | None => []
                end ++ vdep x (iv_type f)
           else look l'
       end) es =
    match assoc (iv_name f) es with
    | Some x => match deprecation_reason (iv_dirs f) with
                | Some r => [{| dp_reason := r; dp_type := UInputField; dp_name := iv_name f |}]
                | None => []
                end ++ vdep x (iv_type f)
    | None => [] end.
  Proof.
    induction es as [|[k x] es IH]; auto. cbn [assoc]. rewrite (teqb_sym k (iv_name f)).
    destruct (teqb (iv_name f) k); auto.
  Qed.
  Lemma vdep_base v n r : vdep v (TBase n r) = dep_base v n.
  Proof.
    unfold dep_base. destruct v; cbn [value_deprecations]; destruct (get_type S n) as [[]|]; auto.
    unfold dep_fields. apply flat_map_ext. intros f. apply look_assoc.
  Qed.
  Lemma vdep_single v inner r : (forall vs, v <> VList vs) -> vdep v (TList inner r) = vdep v inner.
  Proof.
    intros H.
    assert (G : forall t, vdep v t = dep_base v (strip t)).
    { intros [n rq|i rq]; [rewrite vdep_base; auto|]. rewrite <- (vdep_base v (strip (TList i rq)) false).
      destruct v; try reflexivity. exfalso; eapply H; eauto. }
    rewrite !G. reflexivity.
  Qed.
  Lemma vdep_list vs inner r dp : In dp (vdep (VList vs) (TList inner r)) <-> exists v, In v vs /\ In dp (vdep v inner).
  Proof.
    cbn [value_deprecations]. induction vs as [|x l IH]; cbn.
    - split; [intros []|intros (v & [] & _)].
    - rewrite in_app_iff. rewrite IH. split.
      + intros [H|(v & A & B)]; [exists x; auto|exists v; auto].
      + intros (v & [<-|A] & B); eauto.
  Qed.

  (** what is reported *)
  Definition dep_ok (t : tref) (v : value) (dp : deprecation) : Prop :=
    (exists r, uses_deprecated_enum_value S strings t v r /\ dp = {| dp_reason := r; dp_type := UEnumValue; dp_name := nm |}) \/
    (exists f r, uses_deprecated_input_field S t v f r /\ dp = {| dp_reason := r; dp_type := UInputField; dp_name := f |}).
  Lemma dep_ok_step t v t1 v1 dp :
    (forall t' w, stands_in S t1 v1 t' w -> stands_in S t v t' w) -> dep_ok t1 v1 dp -> dep_ok t v dp.
  Proof.
    intros H [(r & (n & rq & en & e & w & A & B) & ->)|(f & r & (n & rq & io & es & f' & x & A & B) & ->)].
    - left. exists r. split; auto. exists n, rq, en, e, w. split; auto.
    - right. exists f, r. split; auto. exists n, rq, io, es, f', x. split; auto.
  Qed.
  Lemma dep_ok_single v inner r dp : (forall vs, v <> VList vs) -> dep_ok (TList inner r) v dp <-> dep_ok inner v dp.
  Proof.
    intros H. split.
    - intros [(rs & (n & rq & en & e & w & A & B) & ->)|(f & rs & (n & rq & io & es & f' & x & A & B) & ->)].
      + left. exists rs. split; auto. exists n, rq, en, e, w. split; auto. inversion A; subst; auto. exfalso; eapply H; eauto.
      + right. exists f, rs. split; auto. exists n, rq, io, es, f', x. split; auto. inversion A; subst; auto; exfalso; eapply H; eauto.
    - apply dep_ok_step. intros. apply si_single; auto.
  Qed.
  Lemma dep_ok_list vs inner r dp : dep_ok (TList inner r) (VList vs) dp <-> exists v, In v vs /\ dep_ok inner v dp.
  Proof.
    split.
    - intros [(rs & (n & rq & en & e & w & A & B) & ->)|(f & rs & (n & rq & io & es & f' & x & A & B) & ->)].
      + inversion A; subst.
        * eexists. split; [eassumption|]. left. exists rs. split; auto. exists n, rq, en, e, w. split; auto.
        * match goal with K : forall _, VList _ <> VList _ |- _ => destruct (K _ eq_refl) end.
      + inversion A; subst.
        * eexists. split; [eassumption|]. right. exists (iv_name f'), rs. destruct B as (B1 & B2 & B3 & B4 & B5). subst. split; auto.
          exists n, rq, io, es, f', x. split; auto.
        * match goal with K : forall _, VList _ <> VList _ |- _ => destruct (K _ eq_refl) end.
    - intros (v & Hv & H). revert H. apply dep_ok_step. intros. eapply si_item; eauto.
  Qed.
  Lemma deprecated_enum_iff n en v dp : get_type S n = Some (DEnum en) ->
    In dp (deprecated_enum strings en v nm) <->
    exists e r, In e (en_values en) /\ (v = VEnum (ev_name e) \/ (strings = true /\ v = VStr (ev_name e))) /\ deprecated (ev_dirs e) r /\
      dp = {| dp_reason := r; dp_type := UEnumValue; dp_name := nm |}.
  Proof.
    intros E. destruct (proj1 U _ _ E) as (Hnd & Hdep). unfold deprecated_enum. split.
    - destruct (match v with VEnum x => Some x | VStr x => if strings then Some x else None | _ => None end) as [x|] eqn:Ex; [|intros []].
      destruct (find _ (en_values en)) as [e|] eqn:Ef; [|intros []]. apply find_some in Ef as (He & Ee). apply teqb_eq in Ee.
      destruct (deprecation_reason (ev_dirs e)) as [r|] eqn:Er; [|intros []]. intros [<-|[]]. exists e, r. split; auto. split.
      + destruct v; try discriminate; [right; destruct strings; [|discriminate]; split; auto|left]; congruence.
      + split; auto. apply deprecation_reason_iff; auto.
    - intros (e & r & He & Hv & Hd & ->).
      replace (match v with VEnum x => Some x | VStr x => if strings then Some x else None | _ => None end) with (Some (ev_name e)).
      2:{ destruct Hv as [->|(-> & ->)]; auto. }
      rewrite (NoDup_find ev_name (en_values en) e (ev_name e)); auto.
      apply deprecation_reason_iff in Hd; auto. rewrite Hd. left; auto.
  Qed.
  Lemma dep_ok_base v n r dp : dep_ok (TBase n r) v dp <->
    (exists en, get_type S n = Some (DEnum en) /\ In dp (deprecated_enum strings en v nm)) \/
    (exists io es f x, get_type S n = Some (DInput io) /\ v = VObj es /\ In f (io_fields io) /\ In (iv_name f, x) es /\
       ((exists rs, deprecated (iv_dirs f) rs /\ dp = {| dp_reason := rs; dp_type := UInputField; dp_name := iv_name f |}) \/
        dep_ok (iv_type f) x dp)).
  Proof.
    split.
    - intros [(rs & (n' & rq & en & e & w & A & B & C & D & F) & ->)|(f & rs & (n' & rq & io & es & f' & x & A & B & C & D & F & G) & ->)].
      + inversion A; subst.
        * left. exists en. split; auto. apply (deprecated_enum_iff _ _ _ _ B). exists e, rs. auto.
        * right. do 4 eexists. split; [eassumption|]. split; [reflexivity|]. split; [eassumption|]. split; [eassumption|].
          right. left. exists rs. split; auto. exists n', rq, en, e, w. auto.
      + inversion A; subst.
        * right. exists io, es, f', x. split; auto. split; auto. split; auto. split; auto. left. exists rs. auto.
        * right. do 4 eexists. split; [eassumption|]. split; [reflexivity|]. split; [eassumption|]. split; [eassumption|].
          right. right. exists (iv_name f'), rs. split; auto. exists n', rq, io, es, f', x. auto 10.
    - intros [(en & E & H)|(io & es & f & x & E & -> & Hf & Hx & [(rs & Hd & ->)|H])].
      + apply (deprecated_enum_iff _ _ _ _ E) in H as (e & rs & A & B & C & ->). left. exists rs. split; auto.
        exists n, r, en, e, v. split; [constructor|]. auto.
      + right. exists (iv_name f), rs. split; auto. exists n, r, io, es, f, x. split; [constructor|]. auto.
      + revert H. apply dep_ok_step. intros. eapply si_field; eauto.
  Qed.

  Lemma vdep_not_object v n r dp : (forall es, v <> VObj es) -> In dp (vdep v (TBase n r)) <-> dep_ok (TBase n r) v dp.
  Proof.
    intros Ho. rewrite vdep_base, dep_ok_base. unfold dep_base. split.
    - destruct (get_type S n) as [td|] eqn:En; [|intros []]. destruct td as [b|sd|od|io|en|un|fd]; try (intros []; fail).
      + destruct v; try (intros []; fail). exfalso; eapply Ho; eauto.
      + intros H. left. eauto.
    - intros [(en & E & H)|(io & es & f & x & E & Ev & _)]; [rewrite E; exact H|exfalso; eapply Ho; eauto].
  Qed.
  Lemma vdep_scalar v : (forall es, v <> VObj es) -> (forall vs, v <> VList vs) -> forall t dp, In dp (vdep v t) <-> dep_ok t v dp.
  Proof.
    intros Ho Hl t. induction t as [n r|i IHt r]; intros dp; [apply vdep_not_object; auto|].
    rewrite vdep_single, dep_ok_single by auto. apply IHt.
  Qed.
  Lemma vdep_iff v : unique_keys v -> forall t dp, In dp (vdep v t) <-> dep_ok t v dp.
  Proof.
    induction v as [y|z|b|s|b| |y|vs IH|es IH] using value_ind'; intros HU.
    1-7: (apply vdep_scalar; intros; discriminate).
    - inversion HU as [? Huv| | | | | | | |]; subst.
      intros t. destruct t as [n r|inner r].
      + intros dp. apply vdep_not_object. discriminate.
      + intros dp. rewrite vdep_list, dep_ok_list. rewrite Forall_forall in IH. split; intros (v & Hv & H); exists v; (split; [auto|]); apply IH; auto.
    - inversion HU as [|? Hnd Huv| | | | | | |]; subst. rewrite Forall_forall in IH.
      assert (G : forall n r dp, In dp (vdep (VObj es) (TBase n r)) <-> dep_ok (TBase n r) (VObj es) dp).
      { intros n r dp. rewrite vdep_base, dep_ok_base. unfold dep_base. destruct (get_type S n) as [td|] eqn:En.
        2:{ split; [intros []|]. intros [(en & E & _)|(io & es' & f & x & E & _)]; discriminate. }
        destruct td as [b|sd|od|io|en|un|fd]; try (split; [intros []|intros [(en & E & _)|(io & es' & f & x & E & _)]; discriminate]; fail).
        2:{ split; [intros H; left; eauto|]. intros [(en' & E & H)|(io & es' & f & x & E & _)]; [injection E as <-; auto|discriminate]. }
        unfold dep_fields. rewrite in_flat_map. split.
        - intros (f & Hf & H). destruct (assoc (iv_name f) es) as [x|] eqn:Ea; [|destruct H]. apply assoc_In in Ea.
          right. exists io, es, f, x. split; auto. split; auto. split; auto. split; auto. apply in_app_or in H as [H|H].
          + destruct (deprecation_reason (iv_dirs f)) as [rs|] eqn:Er; [|destruct H]. destruct H as [<-|[]]. left. exists rs. split; auto.
            apply deprecation_reason_iff; auto. eapply (proj2 U); eauto.
          + right. apply (IH (_, x) Ea); auto. eapply Huv; eauto.
        - intros [(en & E & _)|(io' & es' & f & x & E & [= <-] & Hf & Hx & H)]; [discriminate|]. injection E as <-.
          exists f. split; auto. rewrite (assoc_NoDup (iv_name f) es x) by auto. apply in_or_app. destruct H as [(rs & Hd & ->)|H].
          + left. apply deprecation_reason_iff in Hd; [|eapply (proj2 U); eauto]. rewrite Hd. left; auto.
          + right. apply (IH (_, x) Hx); auto. eapply Huv; eauto. }
      intros t; induction t as [n r|i IHt r]; [apply G|]. intros dp. rewrite vdep_single, dep_ok_single by (intros; discriminate). apply IHt.
  Qed.
End Deprecations.
