(** C23, C24, C25: variables are defined, used, and used where their type allows. *)
From Verif Require Import Base Ast Graph Maps Doc DocSpec DocProofs DocRules DocRulesSpec FragmentsSpec DocRulesProofs DocTypingProofs DocVariables DocVariablesSpec DocVariablesProofs CoercionTypes Coercion CoercionSpec CoercionProofs Examples DocRulesProps.
Local Open Scope string_scope.
Local Open Scope list_scope.

(** * C23 *)
Theorem undefined_variable_uses_reported_exactly : forall (S : schema) (d : document),
  exists errs, undefined_variable_errors d (visit S d) = Some errs /\
  forall i x, In (i, x) errs <->
    exists o, nth_error (doc_ops d) i = Some o /\ operation_uses S d i x /\ ~ In x (map vd_name (op_vars o)).
Proof. apply undefined_iff. Qed.
Print Assumptions undefined_variable_uses_reported_exactly.

(** * C24 *)
Theorem unused_variables_reported_exactly : forall (S : schema) (d : document),
  exists errs, unused_variable_errors d (visit S d) = Some errs /\
  forall i v, In (i, v) errs <->
    exists o, nth_error (doc_ops d) i = Some o /\ In v (op_vars o) /\ ~ operation_uses S d i (vd_name v).
Proof. apply unused_iff. Qed.
Print Assumptions unused_variables_reported_exactly.

(** For documents that the rules on selections, arguments and directives accept, "uses" is what one reads in the text. *)
Lemma uses_written S d : document_ok S d -> argument_name_errors S (visit S d) = [] -> directive_defined_errors S (visit S d) = [] ->
  forall r x, uses_at S d r x <-> written_in d x r.
Proof.
  intros Hok Ha Hd r x. assert (Hocc := occurs_sel_at S d Hok).
  rewrite no_nil in Ha. rewrite no_nil in Hd.
  assert (Harg : forall o args defs a, args_at S d o args defs -> In a args -> exists i, get_ivd defs (fst a) = Some i).
  { intros o args defs a H1 H2. destruct (get_ivd defs (fst a)) eqn:E; eauto. exfalso. apply (Ha (o, a)).
    apply unknown_arguments_iff. exists args, defs. split; auto. split; auto. apply get_ivd_None. auto. }
  assert (Hdir : forall ds loc y, directives_at S d r ds loc -> In y ds -> var_in_args x (dir_args y) -> uses_at S d r x).
  { intros ds loc y H1 H2 (a & H3 & H4).
    destruct (get_ddef S (dir_name y)) as [dd|] eqn:E.
    - destruct (Harg (OwnDirective dd) (dir_args y) (dd_args dd) a) as (i & Hi); auto; [econstructor 2; eauto|].
      exists a, i. split; auto. econstructor 2; eauto.
    - exfalso. apply (Hd y). apply undefined_directives_iff. split; [exists loc; econstructor 1; eauto|].
      intros dd Hdd E'. unfold get_ddef in E. eapply find_none in E; eauto. cbn in E. apply teqb_neq in E. auto. }
  split.
  - intros (a & i & H & Hv). inversion H as [? t al n args ds sub fd ? ? Hs Hf Hin Hg|? ds loc y dd ? ? Hds Hy Hg Hin Hi]; subst.
    + eapply wr_sel; [apply Hocc; eauto|]. left. exists a. auto.
    + assert (Hx : var_in_dirs x ds) by (exists y; split; auto; exists a; auto).
      inversion Hds; subst; try (eapply wr_sel; [apply Hocc; eauto|]; cbn; auto; fail).
      * eapply wr_op; eauto.
      * eapply wr_frag; eauto.
  - assert (Hne : forall ds, var_in_dirs x ds -> ds <> []) by (intros ds (y & Hy & _) ->; destruct Hy).
    intros H. inversion H as [? s Hs Hv|i o Ho Hv|i f Hf Hv]; subst.
    + apply Hocc in Hs as (t & Hs). assert (Hsok := doc_ok_sel S d Hok _ _ _ Hs). destruct s as [al n args ds sub|n ds|c ds sub]; cbn in Hv.
      * assert (Hfd : exists fd, has_field t n fd) by (inversion Hsok; subst; unfold has_field; eauto). destruct Hfd as (fd & Hfd).
        destruct Hv as [(a & Hin & Hv)|(y & Hy & Hv)].
        -- destruct (Harg (OwnField fd) args (fd_args fd) a) as (i & Hi); auto; [econstructor 1; eauto|].
           exists a, i. split; auto. econstructor 1; eauto.
        -- eapply Hdir; eauto. eapply dirs_field; eauto. intros ->. destruct Hy.
      * destruct Hv as (y & Hy & Hv). eapply Hdir; eauto. eapply dirs_spread; eauto. intros ->. destruct Hy.
      * destruct Hv as (y & Hy & Hv). eapply Hdir; eauto. eapply dirs_inline; eauto. intros ->. destruct Hy.
    + assert (Hv' := Hv). destruct Hv as (y & Hy & Hv). eapply Hdir; eauto. eapply dirs_op; eauto.
    + assert (Hv' := Hv). destruct Hv as (y & Hy & Hv). eapply Hdir; eauto. eapply dirs_frag; eauto.
Qed.
Theorem uses_are_read_off_the_text : forall (S : schema) (d : document),
  document_ok S d -> argument_name_errors S (visit S d) = [] -> directive_defined_errors S (visit S d) = [] ->
  forall i x, operation_uses S d i x <-> operation_writes d i x.
Proof.
  intros S d H1 H2 H3 i x. assert (Hu := uses_written S d H1 H2 H3). assert (Hocc := occurs_sel_at S d H1).
  assert (Hr : forall a b, refers S d a b <-> spreads_text d a b).
  { intros a b. split.
    - inversion 1; subst. econstructor; eauto. apply Hocc. eauto.
    - inversion 1 as [? n ds j Hs Hd]; subst. apply Hocc in Hs as (t & Hs). econstructor; eauto. }
  split; intros (r & Hs & Hx); exists r; (split; [|apply Hu; auto]); revert Hs; apply star_impl; intros; apply Hr; auto.
Qed.
Print Assumptions uses_are_read_off_the_text.

(** query Q($a: ID!, $b: Int) { dog(id: $c) { name ...F } } fragment F on Dog { friend @skip(if: $d) { name } ...F } *)
Definition ex_doc_vars : document :=
  {| doc_ops := [op_query (Some (tx "Q")) [mk_var "a" (ty_req "ID") None; mk_var "b" (ty "Int") None]
                   [fld "dog" [(tx "id", VVar (tx "c"))] [fld "name" [] []; spr "F"]]];
     doc_frags := [mk_frag "F" "Dog" [SField None (tx "friend") [] [{| dir_name := tx "skip"; dir_args := [(tx "if", VVar (tx "d"))] |}] [fld "name" [] []];
                                      spr "F"]] |}.
Example variables_ex :
  undefined_variable_errors ex_doc_vars (visit ex_schema ex_doc_vars) = Some [(0, tx "c"); (0, tx "d")] /\
  option_map (map (fun e => vd_name (snd e))) (unused_variable_errors ex_doc_vars (visit ex_schema ex_doc_vars)) = Some [tx "a"; tx "b"] /\
  undefined_variable_errors ex_doc (visit ex_schema ex_doc) = Some [] /\ unused_variable_errors ex_doc (visit ex_schema ex_doc) = Some [] /\
  argument_name_errors ex_schema (visit ex_schema ex_doc) = [] /\ directive_defined_errors ex_schema (visit ex_schema ex_doc) = [].
Proof. vm_compute. auto 10. Qed.

(** * C25 *)
(** No false alarm: every report is about a variable used, in an operation that reaches the place, where the
    specification forbids it. *)
Theorem disallowed_usages_reported_soundly : forall (S : schema) (d : document),
  exists errs, disallowed_usage_errors S d (visit S d) = Some errs /\
  forall i x vd l, In (i, (x, vd, l)) errs ->
    exists o r t df, nth_error (doc_ops d) i = Some o /\ star (refers S d) (ROp i) r /\
      find (fun v => teqb (vd_name v) x) (op_vars o) = Some vd /\
      used_as S d r x t df /\ ~ usage_ok (vd_type vd) (vd_default vd) t df.
Proof.
  intros S d. destruct (disallowed_iff S d) as (errs & He & Hin). exists errs. split; auto.
  intros i x vd l H. apply Hin in H as (o & r & Ho & Hs & (a & iv & Ha & Hu) & Hd & Hi & Hn).
  exists o, r, (loc_type l), (loc_default l). split; auto. split; auto. split; auto. split; auto.
  exists a, iv. split; auto. apply (value_usages_sound S) in Hu. exact Hu.
Qed.
Print Assumptions disallowed_usages_reported_soundly.
(** Completeness, except for variables inside an object literal that is an item of a list literal (see the refuted
    statement below). The missing part: [in_object_in_list]. *)
Theorem disallowed_usages_all_reported_partial : forall (S : schema) (d : document),
  exists errs, disallowed_usage_errors S d (visit S d) = Some errs /\
  forall i o r a iv x vd t df,
    nth_error (doc_ops d) i = Some o -> star (refers S d) (ROp i) r ->
    find (fun v => teqb (vd_name v) x) (op_vars o) = Some vd ->
    (exists td, get_type S (tref_base (vd_type vd)) = Some td /\ td_is_input td = true) ->
    argument_at S d r a iv -> located S (iv_type iv) (iv_default iv) (snd a) x t df -> ~ in_object_in_list x (snd a) ->
    ~ usage_ok (vd_type vd) (vd_default vd) t df ->
    exists l, In (i, (x, vd, l)) errs /\ loc_type l = t.
Proof.
  intros S d. destruct (disallowed_iff S d) as (errs & He & Hin). exists errs. split; auto.
  intros i o r a iv x vd t df Ho Hs Hf Hi Ha Hl Hno Hn.
  destruct (value_usages_complete S _ _ _ _ _ _ Hl Hno (LocArg iv)) as (l & H1 & H2 & H3); auto; [cbn; discriminate|].
  exists l. split; auto. apply Hin. exists o, r. split; auto. split; auto. split; [eauto|]. split; auto. split; auto.
  rewrite H2, H3. auto.
Qed.
Print Assumptions disallowed_usages_all_reported_partial.
(** The hole: query($x: String) { dog(id: 1, opts: {a: 1, b: [{a: $x}]}) { name } } puts a nullable String where Int! is
    expected and none of the rules on variables reports it. *)
Definition ex_doc_hole : document :=
  {| doc_ops := [op_query None [mk_var "x" (ty "String") None]
       [fld "dog" [(tx "id", VInt 1); (tx "opts", VObj [(tx "a", VInt 1); (tx "b", VList [VObj [(tx "a", VVar (tx "x"))]])])] [fld "name" [] []]]];
     doc_frags := [] |}.
Theorem disallowed_usages_all_reported_refuted :
  exists (S : schema) (d : document) (o : operation) (r : root) (vd : vardef) (x : name) (t : tref) (df : option value),
    document_ok S d /\ nth_error (doc_ops d) 0 = Some o /\ star (refers S d) (ROp 0) r /\
    find (fun v => teqb (vd_name v) x) (op_vars o) = Some vd /\
    used_as S d r x t df /\ ~ usage_ok (vd_type vd) (vd_default vd) t df /\
    disallowed_usage_errors S d (visit S d) = Some [] /\
    undefined_variable_errors d (visit S d) = Some [] /\ unused_variable_errors d (visit S d) = Some [] /\
    value_errors S (fun _ _ => None) false true (visit S d) = [].
Proof.
  exists ex_schema, ex_doc_hole, (op_query None [mk_var "x" (ty "String") None] (op_sel (hd (op_query None [] []) (doc_ops ex_doc_hole)))), (ROp 0),
    (mk_var "x" (ty "String") None), (tx "x"), (ty_req "Int"), None.
  split.
  { apply selections_match_schema; [apply ex_schema_wf|apply ex_roots|cbn; intros o [<-|[]]; discriminate|vm_compute; auto 10]. }
  split; [reflexivity|]. split; [constructor|]. split; [reflexivity|]. split.
  { exists (tx "opts", VObj [(tx "a", VInt 1); (tx "b", VList [VObj [(tx "a", VVar (tx "x"))]])]), (mk_iv "opts" (ty "Opts") None). split.
    - eapply arg_field.
      + eexists. split; [eexists _, _; split; [eapply (top_op _ _ 0); [reflexivity|vm_compute; reflexivity]|constructor]|left; reflexivity].
      + vm_compute. reflexivity.
      + right. left. reflexivity.
      + vm_compute. reflexivity.
    - cbn [snd iv_type iv_default mk_iv]. eapply loc_field; [vm_compute; reflexivity|right; left; reflexivity|vm_compute; reflexivity|].
      cbn. eapply loc_item; [left; reflexivity|]. eapply loc_field; [vm_compute; reflexivity|left; reflexivity|vm_compute; reflexivity|]. constructor. }
  split.
  { intros [H|(_ & [(v & [=] & _)|(v & [=] & _)] & _)]. inversion H. }
  vm_compute. auto.
Qed.
Print Assumptions disallowed_usages_all_reported_refuted.

(** What the rule is for: a value of the variable's type may stand where the use is allowed, except null where a default
    takes over. *)
Theorem allowed_usage_is_type_safe :
  forall (S : schema) (accepts : name -> value -> Prop) (str_enum one_of : bool)
         (vt : tref) (vdef : option value) (lt : tref) (ldef : option value) (v : value),
  usage_ok vt vdef lt ldef -> conforms accepts str_enum one_of S vt v ->
  conforms accepts str_enum one_of S lt v \/
  (v = VNull /\ tref_required lt = true /\ (has_non_null_value vdef \/ has_non_null_value ldef)).
Proof. intros. eapply usage_ok_safe; eauto. Qed.
Print Assumptions allowed_usage_is_type_safe.

(** End to end: in an operation about which the rule reports nothing, an argument whose literal is accepted stays acceptable when
    variables are replaced by values of their types. Hypotheses: no variable of the argument in an object in a list (the hole above); values
    are coerced (a single value for a list type is already a list), null only where null is accepted; scalar types
    do not look at variables; for oneOf objects, no null. *)
Theorem accepted_arguments_stay_valid_partial :
  forall (S : schema) (d : document) (accepts : name -> value -> Prop) (str_enum one_of : bool) (env : name -> value),
  (forall n io i, get_type S n = Some (DInput io) -> In i (io_fields io) -> get_ivd (io_fields io) (iv_name i) = Some i) ->
  (forall n v, accepts n v -> accepts n (subst env v)) ->
  disallowed_usage_errors S d (visit S d) = Some [] ->
  forall i o, nth_error (doc_ops d) i = Some o ->
  (forall x vd, find (fun v => teqb (vd_name v) x) (op_vars o) = Some vd ->
     (exists td, get_type S (tref_base (vd_type vd)) = Some td /\ td_is_input td = true) /\
     conforms accepts str_enum one_of S (vd_type vd) (env x) /\ no_promotion (vd_type vd) (env x)) ->
  forall r a iv, star (refers S d) (ROp i) r -> argument_at S d r a iv ->
  (forall x, var_in x (snd a) -> exists vd, find (fun v => teqb (vd_name v) x) (op_vars o) = Some vd) ->
  (forall x, ~ in_object_in_list x (snd a)) ->
  (forall x t df, located S (iv_type iv) (iv_default iv) (snd a) x t df -> tref_required t = true -> env x <> VNull) ->
  (one_of = true -> forall x, var_in x (snd a) -> env x <> VNull) ->
  conforms accepts str_enum one_of S (iv_type iv) (snd a) ->
  conforms accepts str_enum one_of S (iv_type iv) (subst env (snd a)).
Proof.
  intros S d accepts str_enum one_of env Huniq Hsc Herr i o Ho Henv r a iv Hs Ha Hdef Hhole Hnull Hone Hconf.
  eapply (subst_conforms S); eauto. intros x t df Hl.
  destruct (Hdef x) as (vd & Hvd); [eapply located_var_in; eauto|]. destruct (Henv _ _ Hvd) as (Hi & Hc & Hp).
  destruct (disallowed_usages_all_reported_partial S d) as (errs & He & Hall). rewrite Herr in He. injection He as <-.
  assert (Hok : ~ ~ usage_ok (vd_type vd) (vd_default vd) t df).
  { intros Hn. destruct (Hall i o r a iv x vd t df Ho Hs Hvd Hi Ha Hl (Hhole x) Hn) as (l & [] & _). }
  assert (Hdec : usage_ok (vd_type vd) (vd_default vd) t df).
  { assert (Hb := usage_allowed_iff S vd (LocField {| iv_name := []; iv_desc := None; iv_type := t; iv_default := df; iv_dirs := [] |})).
    cbn in Hb. unfold loc_default in Hb. cbn in Hb.
    destruct (usage_allowed S vd (LocField {| iv_name := []; iv_desc := None; iv_type := t; iv_default := df; iv_dirs := [] |})) eqn:E.
    - apply Hb; auto.
    - exfalso. apply Hok. intros H. assert (false = true) by (apply Hb; auto). discriminate. }
  split.
  - destruct (usage_ok_safe S accepts str_enum one_of _ _ _ _ _ Hdec Hc) as [H|(H1 & H2 & _)]; auto. exfalso. eapply Hnull; eauto.
  - destruct Hdec as [H|(_ & _ & H)].
    + eapply no_promotion_shape; eauto.
    + assert (H' := no_promotion_shape _ _ _ H Hp). destruct t; cbn in *; auto.
Qed.
Print Assumptions accepted_arguments_stay_valid_partial.

(** query($y: ID = 1, $z: Int) { dog(id: $y, opts: {a: $z}) { name } }: $z is reported, $y is not. *)
Definition ex_doc_usages : document :=
  {| doc_ops := [op_query None [mk_var "y" (ty "ID") (Some (VInt 1)); mk_var "z" (ty "Int") None]
       [fld "dog" [(tx "id", VVar (tx "y")); (tx "opts", VObj [(tx "a", VVar (tx "z"))])] [fld "name" [] []]]];
     doc_frags := [] |}.
Example usages_ex :
  option_map (map (fun e => (fst (fst (snd e)), loc_type (snd (snd e))))) (disallowed_usage_errors ex_schema ex_doc_usages (visit ex_schema ex_doc_usages))
    = Some [(tx "z", ty_req "Int")] /\
  disallowed_usage_errors ex_schema ex_doc (visit ex_schema ex_doc) = Some [].
Proof. vm_compute. auto. Qed.

(** With $id = "k" and $o = 7, the arguments of [ex_doc] meet the hypotheses. *)
Example accepted_arguments_ex :
  let env := fun x => if teqb x (tx "id") then VStr (tx "k") else VInt 7 in
  conforms (fun _ _ => True) false true ex_schema (ty "Opts") (subst env (VObj [(tx "a", VVar (tx "o"))])).
Proof.
  intros env.
  assert (Hg : exists t, get_type ex_schema (tx "Query") = Some t /\ get_field (td_fields t) (tx "dog") = Some (mk_fd "dog" [mk_iv "id" (ty_req "ID") None; mk_iv "opts" (ty "Opts") None] (ty "Dog")))
    by (eexists; split; vm_compute; reflexivity).
  destruct Hg as (q & Hq & Hdog).
  apply (accepted_arguments_stay_valid_partial ex_schema ex_doc (fun _ _ => True) false true env)
    with (i := 0) (o := hd (op_query None [] []) (doc_ops ex_doc)) (r := ROp 0) (a := (tx "opts", VObj [(tx "a", VVar (tx "o"))])) (iv := mk_iv "opts" (ty "Opts") None).
  - intros n io i Hn Hi. apply get_type_Some in Hn as [Hn _]. cbn in Hn.
    repeat (destruct Hn as [Hn|Hn]; [first [discriminate Hn|injection Hn as <-; cbn in Hi]|]); [|destruct Hn].
    destruct Hi as [<-|[<-|[]]]; vm_compute; reflexivity.
  - auto.
  - vm_compute. reflexivity.
  - reflexivity.
  - intros x vd H. cbn [hd ex_doc doc_ops op_query op_vars find mk_var vd_name] in H.
    destruct (teqb (tx "id") x) eqn:E1; [apply teqb_eq in E1; subst; injection H as <-|].
    + split; [eexists; split; vm_compute; reflexivity|]. split; [|exact I]. eapply c_builtin; [vm_compute; reflexivity|]. right. eexists. vm_compute. reflexivity.
    + destruct (teqb (tx "o") x) eqn:E2; [apply teqb_eq in E2; subst; injection H as <-|discriminate].
      split; [eexists; split; vm_compute; reflexivity|]. split; [|exact I]. eapply c_builtin; [vm_compute; reflexivity|]. eexists. vm_compute. reflexivity.
  - constructor.
  - eapply arg_field with (t := q).
    + eexists. split; [eexists _, _; split; [eapply (top_op _ _ 0); [reflexivity|exact Hq]|constructor]|left; reflexivity].
    + exact Hdog.
    + right; left; reflexivity.
    + vm_compute; reflexivity.
  - cbn. intros x Hx. inversion Hx as [|? ? Hin|? ? ? Hin Hv]; subst. destruct Hin as [[= <- <-]|[]]. inversion Hv; subst. eexists. vm_compute. reflexivity.
  - cbn. intros x Hx. inversion Hx as [|? ? Hin|? ? ? Hin Hv]; subst. destruct Hin as [[= <- <-]|[]]. inversion Hv.
  - cbn. intros x t df _ _. unfold env. destruct (teqb x (tx "id")); discriminate.
  - intros _ x _. unfold env. destruct (teqb x (tx "id")); discriminate.
  - cbn. eapply c_object; [vm_compute; reflexivity|..].
    + repeat constructor. intros [].
    + intros k v [[= <- <-]|[]]. eexists. split; [left; reflexivity|reflexivity].
    + intros i v _ [[= _ <-]|[]]. constructor.
    + intros i [<-|[<-|[]]] Hr _; [eexists; left; reflexivity|discriminate].
    + intros (_ & x & [] & _).
Qed.
