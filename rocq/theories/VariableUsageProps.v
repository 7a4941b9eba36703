(** C25: exactly which uses of variables are reported. *)
From Verif Require Import Base Ast Graph Doc DocSpec DocRules DocRulesSpec DocVariables DocVariablesSpec DocProofs DocVariablesProofs DocVariablesProps Examples.
Local Open Scope string_scope.
Local Open Scope list_scope.

(** * Specification *)
(** Where the rule looks for variables: as [located], but it does not enter an input object literal that is directly an item of a
    list literal. [item] says whether the value is such an item. *)
Inductive looked_at (S : schema) : bool -> tref -> option value -> value -> name -> tref -> option value -> Prop :=
| la_here item t df x : looked_at S item t df (VVar x) x t df
| la_item item inner r df vs v x t' df' :
    In v vs -> looked_at S true inner None v x t' df' -> looked_at S item (TList inner r) df (VList vs) x t' df'
| la_field t df io es k v f x t' df' :
    get_type S (tref_base t) = Some (DInput io) -> In (k, v) es -> get_ivd (io_fields io) k = Some f ->
    looked_at S false (iv_type f) (iv_default f) v x t' df' -> looked_at S false t df (VObj es) x t' df'.

(** * Proofs *)
Lemma looked_located S item t df v x t' df' : looked_at S item t df v x t' df' -> located S t df v x t' df'.
Proof. induction 1; econstructor; eauto. Qed.
Lemma located_looked S t df v x t' df' : located S t df v x t' df' -> ~ in_object_in_list x v ->
  forall item, (item = true -> forall es, v <> VObj es) -> looked_at S item t df v x t' df'.
Proof.
  induction 1 as [t df x|inner r df vs v x t' df' Hv Hl IH|t df io es k v f x t' df' Hg Hv Hf Hl IH]; intros Hn item Hi.
  - constructor.
  - econstructor; [exact Hv|]. apply IH; [intros K; apply Hn; eapply oil_list; eauto|]. intros _ es ->. apply Hn. eapply oil_here; eauto. eapply located_var_in; eauto.
  - destruct item; [destruct (Hi eq_refl es eq_refl)|]. econstructor; eauto. apply IH; [intros K; apply Hn; eapply oil_obj; eauto|discriminate].
Qed.
Lemma value_usages_iff S v : forall l x t df,
  (exists l', In (x, l') (value_usages S l v) /\ loc_type l' = t /\ loc_default l' = df) <->
  looked_at S (match loc_ivd l with Some _ => false | None => true end) (loc_type l) (loc_default l) v x t df.
Proof.
  induction v as [n| | | | | | |vs IH|es IH] using value_ind'; intros l x t df; cbn [value_usages];
    try (split; [intros (l' & [] & _)|inversion 1]; fail).
  - split.
    + intros (l' & [[= <- <-]|[]] & <- & <-). constructor.
    + inversion 1; subst. exists l. split; [left; reflexivity|auto].
  - rewrite Forall_forall in IH. destruct (loc_type l) as [nm r|inner r] eqn:El.
    + split; [intros (l' & [] & _)|inversion 1].
    + assert (G : forall l', In (x, l') ((fix go (vs : list value) := match vs with [] => [] | x :: vs' => value_usages S (LocItem inner) x ++ go vs' end) vs) <->
        exists v, In v vs /\ In (x, l') (value_usages S (LocItem inner) v)).
      { intros l'. clear. induction vs as [|v vs IHv]; [split; [intros []|intros (? & [] & _)]|]. rewrite in_app_iff, IHv. split.
        - intros [H|(w & Hw & H)]; [exists v; split; [left|]; auto|exists w; split; [right|]; auto].
        - intros (w & [<-|Hw] & H); [auto|right; eauto]. }
      split.
      * intros (l' & H & E1 & E2). apply G in H as (v & Hv & H'). econstructor; [exact Hv|]. apply (IH v Hv (LocItem inner)). eauto.
      * intros HL; inversion HL as [|? ? ? ? ? v ? ? ? Hv Hl|]; subst. apply (IH v Hv (LocItem inner)) in Hl as (l' & Hl & E1 & E2). exists l'. split; [apply G; eauto|auto].
  - rewrite Forall_forall in IH. destruct (loc_ivd l) as [i|] eqn:El; [|split; [intros (l' & [] & _)|inversion 1]].
    assert (Et : iv_type i = loc_type l) by (destruct l; cbn in El; try discriminate; injection El as ->; auto). rewrite Et.
    destruct (get_type S (tref_base (loc_type l))) as [[| | |io| | |]|] eqn:Eg;
      try (split; [intros (l' & [] & _)|inversion 1; congruence]; fail).
    assert (G : forall l', In (x, l') ((fix go (es : list (name * value)) :=
                   match es with [] => [] | (k, x) :: es' => match get_ivd (io_fields io) k with Some f => value_usages S (LocField f) x | None => [] end ++ go es' end) es) <->
        exists k v f, In (k, v) es /\ get_ivd (io_fields io) k = Some f /\ In (x, l') (value_usages S (LocField f) v)).
    { intros l'. clear. induction es as [|[k v] es IHv]; [split; [intros []|intros (? & ? & ? & [] & _)]|]. rewrite in_app_iff, IHv. split.
      - intros [H|(k' & w & f & Hw & H)]; [|exists k', w, f; split; [right|]; auto].
        destruct (get_ivd (io_fields io) k) as [f|] eqn:E; [|destruct H]. exists k, v, f. split; [left|]; auto.
      - intros (k' & w & f & [E0|Hw] & Hf & HX); [left; injection E0 as -> ->; rewrite Hf; auto|right; eauto 10]. }
    split.
    + intros (l' & H & E1 & E2). apply G in H as (k & v & f & Hv & Hf & H'). econstructor; eauto. apply (IH (k, v) Hv (LocField f)). eauto.
    + intros HL; inversion HL as [| |? ? io' ? k v f ? ? ? Hg Hv Hf Hl]; subst. rewrite Eg in Hg. injection Hg as <-.
      apply (IH (k, v) Hv (LocField f)) in Hl as (l' & Hl & E1 & E2). exists l'. split; [apply G; eauto 10|auto].
Qed.

(** * The theorem *)
(** A use is reported exactly if it is not allowed and stands where the rule looks. *)
Theorem disallowed_usages_reported_exactly : forall (S : schema) (d : document),
  exists errs, disallowed_usage_errors S d (visit S d) = Some errs /\
  forall i x vd t df,
    (exists l, In (i, (x, vd, l)) errs /\ loc_type l = t /\ loc_default l = df) <->
    exists o r a iv, nth_error (doc_ops d) i = Some o /\ star (refers S d) (ROp i) r /\ argument_at S d r a iv /\
      looked_at S false (iv_type iv) (iv_default iv) (snd a) x t df /\
      find (fun v => teqb (vd_name v) x) (op_vars o) = Some vd /\
      (exists td, get_type S (tref_base (vd_type vd)) = Some td /\ td_is_input td = true) /\
      ~ usage_ok (vd_type vd) (vd_default vd) t df.
Proof.
  intros S d. destruct (disallowed_iff S d) as (errs & He & Hin). exists errs. split; auto.
  intros i x vd t df. split.
  - intros (l & H & <- & <-). apply Hin in H as (o & r & Ho & Hs & (a & iv & Ha & Hu) & Hd & Hi & Hn).
    exists o, r, a, iv. split; [exact Ho|]. split; [exact Hs|]. split; [exact Ha|]. split; [|auto].
    apply (value_usages_iff S (snd a) (LocArg iv)). eauto.
  - intros (o & r & a & iv & Ho & Hs & Ha & Hl & Hd & Hi & Hn). apply (value_usages_iff S (snd a) (LocArg iv)) in Hl as (l & Hl & <- & <-).
    exists l. split; [|auto]. apply Hin. exists o, r. split; [exact Ho|]. split; [exact Hs|]. split; [eauto|auto].
Qed.
Print Assumptions disallowed_usages_reported_exactly.
(** Everything that is not in an object in a list is looked at. *)
Theorem looked_at_outside_lists : forall S t df v x t' df',
  ~ in_object_in_list x v -> (looked_at S false t df v x t' df' <-> located S t df v x t' df').
Proof.
  intros S t df v x t' df' Hn. split; [apply looked_located|]. intros H. apply located_looked; auto. discriminate.
Qed.
Print Assumptions looked_at_outside_lists.
(** Concrete case: [$z] of [ex_doc_usages] is looked at and reported; [$x] of [ex_doc_hole] is in an object in a list. *)
Example ex_usage_reported : exists errs, disallowed_usage_errors ex_schema ex_doc_usages (visit ex_schema ex_doc_usages) = Some errs /\
  exists i vd l, In (i, (tx "z", vd, l)) errs /\ loc_type l = ty_req "Int".
Proof. eexists. split; [vm_compute; reflexivity|]. do 3 eexists. split; [left; reflexivity|vm_compute; reflexivity]. Qed.
