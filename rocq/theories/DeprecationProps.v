(** Property theorems on the deprecation analysis (C48). *)
From Verif Require Import Base Ast Graph Maps Doc DocSpec DocRules DocRulesSpec DocVariablesSpec FragmentsSpec FragmentCyclesProofs
  CoercionTypes Coercion Operation OperationSpec OperationProofs OperationValuesProofs OperationProps Examples.
Local Open Scope string_scope.
Local Open Scope list_scope.

Section C48.
  Variable S : schema.
  Variable d : document.
  Variable o : operation.
  Variable vals : list (name * value).
  Variable strings : bool.   (* provided values write enum members as strings *)

  (** The enum values and input fields that the value [v] (expected type [t]) of argument or variable [nm] uses. *)
  Inductive value_use (str : bool) (nm : name) (t : tref) (v : value) : deprecation -> Prop :=
  | vu_enum r : uses_deprecated_enum_value S str t v r -> value_use str nm t v {| dp_reason := r; dp_type := UEnumValue; dp_name := nm |}
  | vu_field f r : uses_deprecated_input_field S t v f r -> value_use str nm t v {| dp_reason := r; dp_type := UInputField; dp_name := f |}.

  (** What an operation uses. [ok dss]: the uses at places below selections with directives [dss] count;
      [dflt v]: the default of the variable [v] counts. *)
  Inductive use (ok : list (list directive) -> Prop) (dflt : vardef -> Prop) : deprecation -> Prop :=
  | use_field p t al n args ds sub fd r :
      selected S d o p t (SField al n args ds sub) -> has_field t n fd -> path_included o vals ds p -> deprecated (fd_dirs fd) r ->
      use ok dflt {| dp_reason := r; dp_type := UField; dp_name := n |}
  | use_argument dss a i r :
      argument_used S d o dss a i -> ok dss -> deprecated (iv_dirs i) r ->
      use ok dflt {| dp_reason := r; dp_type := UArgument; dp_name := fst a |}
  | use_argument_value dss a i dp :
      argument_used S d o dss a i -> ok dss -> value_use false (fst a) (iv_type i) (snd a) dp -> use ok dflt dp
  | use_variable_value v x dp :
      In v (op_vars o) -> In (vd_name v, x) vals -> value_use strings (vd_name v) (vd_type v) x dp -> use ok dflt dp
  | use_variable_default v x dp :
      In v (op_vars o) -> dflt v -> vd_default v = Some x -> value_use false (vd_name v) (vd_type v) x dp -> use ok dflt dp.

  (** The included part of the operation: places below no excluded selection; defaults that are used because no value is
      provided. *)
  Definition included_use : deprecation -> Prop :=
    use (fun dss => forall ds, In ds dss -> ~ excluded o vals ds) (fun v => ~ In (vd_name v) (map fst vals)).
  (** Anywhere: arguments also below excluded selections, defaults also if a value is provided (fields still only if
      included). *)
  Definition any_use : deprecation -> Prop := use (fun _ => True) (fun _ => True).
  Definition reported_deprecation (dp : deprecation) : Prop := In dp (deprecations S vals strings (ovisit_operation S d o vals)).

  (** Nothing is ambiguous: names are unique and no definition is deprecated twice. *)
  Record analysable : Prop := {
    an_conditions : unique_conditions S d o vals;
    an_enums : unambiguous S;
    an_fields : forall t fd, In t (s_types S) -> In fd (td_fields t) ->
      deprecated_once (fd_dirs fd) /\ forall i, In i (fd_args fd) -> deprecated_once (iv_dirs i);
    an_directives : forall dd i, In dd (s_ddefs S) -> In i (dd_args dd) -> deprecated_once (iv_dirs i);
    an_keys : forall dss a i, argument_used S d o dss a i -> unique_keys (snd a);
    an_values : forall k x, In (k, x) vals -> unique_keys x;
    an_defaults : forall v x, In v (op_vars o) -> vd_default v = Some x -> unique_keys x;
    an_types : forall v, In v (op_vars o) -> input_typed S v
  }.

  Lemma reaches_type p t sels : reaches S d o p t sels -> In t (s_types S).
  Proof.
    induction 1 as [t Hr|p t sels al n args ds sub fd t1 H IH Hin Hf Hne Ht|p t sels ds sub H IH Hin
      |p t sels c ds sub t1 H IH Hin Ht|p t sels n ds f t1 H IH Hin Hd Ht]; auto; try (apply get_type_Some in Ht; tauto).
    apply op_root_type in Hr as (n & _ & Hr). apply get_type_Some in Hr; tauto.
  Qed.
  Lemma argument_once dss a i : analysable -> argument_used S d o dss a i -> deprecated_once (iv_dirs i).
  Proof.
    intros A H. inversion H as [p t al n args ds sub fd a' i' (sels & R & R') B C D|p t s x dd a' i' (sels & R & R') B C D E F|x dd a' i' R B C D]; subst.
    - apply get_ivd_Some in D as (D & _). apply get_field_Some in B as (B & _). eapply (an_fields A); eauto. eapply reaches_type; eauto.
    - apply get_ivd_Some in F as (F & _). unfold get_ddef in D. apply find_some in D as (D & _). eapply (an_directives A); eauto.
    - apply get_ivd_Some in D as (D & _). unfold get_ddef in B. apply find_some in B as (B & _). eapply (an_directives A); eauto.
  Qed.
  Lemma value_use_iff str nm t v dp : unambiguous S -> unique_keys v ->
    In dp (value_deprecations S str nm v t) <-> value_use str nm t v dp.
  Proof.
    intros U K. rewrite (vdep_iff S U str nm v K). unfold dep_ok. split.
    - intros [(r & H & ->)|(f & r & H & ->)]; constructor; auto.
    - intros H. inversion H; subst; [left|right]; eauto.
  Qed.

  (** The analysis reports exactly [any_use]. *)
  Theorem deprecations_reported_exactly : analysable -> forall dp, reported_deprecation dp <-> any_use dp.
  Proof.
    intros A dp. unfold reported_deprecation, deprecations. rewrite in_flat_map. split.
    - intros (ev & Hev & H). destruct ev as [| |al n args ds sub fd t b| |a i|v]; try (destruct H; fail).
      + destruct b; [|destruct H].
        assert (Hf : has_field t n fd) by (apply enter_iff in Hev as (p & _ & _ & Hf & _); auto).
        apply (skip_and_include_exclude_exactly S d o vals (an_conditions A) al n args ds sub fd t Hf) in Hev as (p & Hp & Hi).
        destruct (deprecation_reason (fd_dirs fd)) as [r|] eqn:E; [|destruct H]. destruct H as [<-|[]].
        apply deprecation_reason_iff in E; [eapply use_field; eauto|]. destruct Hp as (sels & Hp & _).
        assert (Hf' := Hf). apply get_field_Some in Hf' as (Hf' & _). apply (an_fields A t fd); auto. eapply reaches_type; eauto.
      + apply argument_used_iff in Hev as (dss & Ha). apply in_app_or in H as [H|H].
        * destruct (deprecation_reason (iv_dirs i)) as [r|] eqn:E; [|destruct H]. destruct H as [<-|[]].
          apply deprecation_reason_iff in E; [eapply use_argument; eauto; exact I|eapply argument_once; eauto].
        * apply value_use_iff in H; [eapply use_argument_value; eauto; exact I|apply A|eapply (an_keys A); eauto].
      + apply vardef_iff in Hev. destruct (match get_type S (tref_base (vd_type v)) with Some td => td_is_input td | None => false end); [|destruct H].
        apply in_app_or in H as [H|H].
        * destruct (assoc (vd_name v) vals) as [x|] eqn:E; [|destruct H]. apply assoc_In in E.
          apply value_use_iff in H; [eapply use_variable_value; eauto|apply A|eapply (an_values A); eauto].
        * destruct (vd_default v) as [x|] eqn:E; [|destruct H].
          apply value_use_iff in H; [eapply use_variable_default; eauto; exact I|apply A|eapply (an_defaults A); eauto].
    - intros H. destruct H as [p t al n args ds sub fd r Hp Hf Hi Hd|dss a i r Ha _ Hd|dss a i dp Ha _ Hu|v x dp Hv Hx Hu|v x dp Hv _ Hx Hu].
      + exists (OEnter al n args ds sub fd t true). split.
        * apply (skip_and_include_exclude_exactly S d o vals (an_conditions A) al n args ds sub fd t Hf). eauto.
        * apply deprecation_reason_iff in Hd; [rewrite Hd; left; auto|]. destruct Hp as (sels & Hp & _).
          apply get_field_Some in Hf as (Hf & _). apply (an_fields A t fd); auto. eapply reaches_type; eauto.
      + exists (OArg a i). split; [apply argument_used_iff; eauto|]. apply in_or_app; left.
        apply deprecation_reason_iff in Hd; [rewrite Hd; left; auto|eapply argument_once; eauto].
      + exists (OArg a i). split; [apply argument_used_iff; eauto|]. apply in_or_app; right.
        apply value_use_iff; auto; [apply A|eapply (an_keys A); eauto].
      + exists (OVarDef v). split; [apply vardef_iff; auto|].
        destruct (an_types A v Hv) as (td & -> & ->). apply in_or_app; left.
        rewrite (assoc_NoDup _ _ _ (proj1 (proj2 (an_conditions A))) Hx). apply value_use_iff; auto; [apply A|eapply (an_values A); eauto].
      + exists (OVarDef v). split; [apply vardef_iff; auto|].
        destruct (an_types A v Hv) as (td & -> & ->). apply in_or_app; right.
        rewrite Hx. apply value_use_iff; auto; [apply A|eapply (an_defaults A); eauto].
  Qed.

  (** Every deprecated element used by the included part is reported. *)
  Theorem included_deprecated_uses_all_reported : analysable -> forall dp, included_use dp -> reported_deprecation dp.
  Proof.
    intros A dp H. apply deprecations_reported_exactly; auto.
    destruct H; [eapply use_field|eapply use_argument|eapply use_argument_value|eapply use_variable_value|eapply use_variable_default]; eauto; exact I.
  Qed.

  (** The full property, proved when nothing is excluded and no variable with a default is given a value. Missing:
      arguments below excluded selections and overridden defaults, which are reported too (see the refutation). *)
  Theorem deprecations_of_included_part_partial : analysable ->
    (forall p t s, selected S d o p t s -> ~ excluded o vals (sel_dirs s)) ->
    (forall v x, In v (op_vars o) -> vd_default v = Some x -> ~ In (vd_name v) (map fst vals)) ->
    forall dp, reported_deprecation dp <-> included_use dp.
  Proof.
    intros A Hx Hd dp. split; [|apply included_deprecated_uses_all_reported; auto].
    intros H. apply deprecations_reported_exactly in H; auto.
    assert (Q : forall dss a i, argument_used S d o dss a i -> forall ds, In ds dss -> ~ excluded o vals ds).
    { intros dss a i Ha ds Hds.
      inversion Ha as [p t al n args ds' sub fd a' i' Hsel B C D|p t s x dd a' i' Hsel B C D E F|x dd a' i' R B C D]; subst.
      - destruct Hds as [<-|Hds]; [apply (Hx _ _ _ Hsel)|]. apply in_map_iff in Hds as (st & <- & Hst).
        destruct Hsel as (sels & R & _). destruct (step_selected _ _ _ _ _ _ R _ Hst) as (p' & t' & s' & Hs' & <-). eapply Hx; eauto.
      - destruct Hds as [<-|Hds]; [apply (Hx _ _ _ Hsel)|]. apply in_map_iff in Hds as (st & <- & Hst).
        destruct Hsel as (sels & R & _). destruct (step_selected _ _ _ _ _ _ R _ Hst) as (p' & t' & s' & Hs' & <-). eapply Hx; eauto.
      - destruct Hds. }
    destruct H; [eapply use_field|eapply use_argument|eapply use_argument_value|eapply use_variable_value|eapply use_variable_default]; eauto.
  Qed.
End C48.
Print Assumptions deprecations_reported_exactly.
Print Assumptions included_deprecated_uses_all_reported.
Print Assumptions deprecations_of_included_part_partial.

(** * An example and the refutation *)
Definition dep (reason : option string) : list directive :=
  [{| dir_name := tx "deprecated"; dir_args := match reason with Some r => [(tx "reason", VStr (tx r))] | None => [] end |}].
Definition ex_dep_schema : schema :=
  {| s_desc := None;
     s_types := [DBuiltin BInt; DBuiltin BBoolean;
       DEnum {| en_name := tx "Color"; en_desc := None; en_dirs := []; en_builtin := false;
                en_values := [{| ev_name := tx "RED"; ev_desc := None; ev_dirs := dep None |}; {| ev_name := tx "BLUE"; ev_desc := None; ev_dirs := [] |}] |};
       DInput {| io_name := tx "In"; io_desc := None; io_dirs := [];
                 io_fields := [{| iv_name := tx "old"; iv_desc := None; iv_type := TList (ty "Color") false; iv_default := None; iv_dirs := dep (Some "use new") |}] |};
       mk_obj "Query" [] [mk_fd "f" [{| iv_name := tx "a"; iv_desc := None; iv_type := ty "In"; iv_default := None; iv_dirs := dep (Some "no") |}] (ty "Int");
                          {| fd_name := tx "g"; fd_desc := None; fd_args := []; fd_type := ty "Int"; fd_dirs := dep (Some "gone"); fd_builtin := false |}]];
     s_ddefs := []; s_query := tx "Query"; s_mutation := None; s_subscription := None; s_dirs := [] |}.
(** query($c: Color = BLUE) { f(a: {old: RED}) g } *)
Definition ex_dep_op : operation :=
  op_query None [mk_var "c" (ty "Color") (Some (VEnum (tx "BLUE")))] [fld "f" [(tx "a", VObj [(tx "old", VEnum (tx "RED"))])] []; fld "g" [] []].
(** query($c: Color = RED) { f(a: {old: []}) @skip(if: true) } with c = BLUE *)
Definition ex_dep_skipped : operation :=
  op_query None [mk_var "c" (ty "Color") (Some (VEnum (tx "RED")))] [SField None (tx "f") [(tx "a", VObj [(tx "old", VList [])])] [sk (VBool true)] []].

Lemma dep_once r : deprecated_once (dep r).
Proof.
  split.
  - intros x y [<-|[]] [<-|[]] _ _. reflexivity.
  - intros x [<-|[]] _. destruct r; repeat constructor; intros [].
Qed.
Lemma nil_once : deprecated_once [].
Proof. split; intros x; [intros y|]; intros []. Qed.
Lemma flat_used S o dss a i : forallb (fun s => match s with SField _ _ _ _ [] => true | _ => false end) (op_sel o) = true -> op_dirs o = [] -> s_ddefs S = [] ->
  argument_used S (doc_of o) o dss a i ->
  exists al n args ds, In (SField al n args ds []) (op_sel o) /\ dss = [ds] /\ In a args /\ exists t fd, root_type S (op_type o) t /\ has_field t n fd /\ get_ivd (fd_args fd) (fst a) = Some i.
Proof.
  intros Es Ed Edd H. rewrite forallb_forall in Es.
  assert (R : forall p t sels, reaches S (doc_of o) o p t sels -> p = [] /\ sels = op_sel o /\ root_type S (op_type o) t).
  { induction 1 as [t Hr|p t sels al n args ds sub fd t1 H' IH Hin Hf Hne Ht|p t sels ds sub H' IH Hin
      |p t sels c ds sub t1 H' IH Hin Ht|p t sels n ds f t1 H' IH Hin Hd Ht]; auto; destruct IH as (-> & -> & Hr).
    - apply Es in Hin. destruct sub; [contradiction|discriminate].
    - apply Es in Hin. discriminate.
    - apply Es in Hin. discriminate.
    - apply Es in Hin. discriminate. }
  inversion H as [p t al n args' ds sub fd a' i' (sels & A & A') B C D|p t s x dd a' i' (sels & A & A') B C D E F|x dd a' i' A B C D]; subst.
  - destruct (R _ _ _ A) as (-> & -> & Hr). assert (Q := Es _ A'). destruct sub; [|discriminate].
    exists al, n, args', ds. split; auto. split; auto. split; auto. exists t, fd. auto.
  - unfold get_ddef in D. rewrite Edd in D. discriminate.
  - rewrite Ed in A. destruct A.
Qed.
Lemma ex_dep_unambiguous : unambiguous ex_dep_schema.
Proof.
  split.
  - intros n en H. apply get_type_Some in H as (H & _). cbn in H. repeat (destruct H as [H|H]; [first [discriminate H|injection H as <-]|]); [|destruct H].
    split; [apply nodup_text_NoDup; vm_compute; reflexivity|]. intros e [<-|[<-|[]]]; [apply dep_once|apply nil_once].
  - intros n io H f Hf. apply get_type_Some in H as (H & _). cbn in H. repeat (destruct H as [H|H]; [first [discriminate H|injection H as <-]|]); [|destruct H].
    destruct Hf as [<-|[]]. apply dep_once.
Qed.
Lemma ex_dep_analysable o vals : unique_check (doc_of o) o vals = true ->
  forallb (fun s => match s with SField _ _ _ _ [] => true | _ => false end) (op_sel o) = true -> op_dirs o = [] ->
  (forall al n args ds a, In (SField al n args ds []) (op_sel o) -> In a args -> unique_keys (snd a)) ->
  (forall k x, In (k, x) vals -> unique_keys x) ->
  (forall v x, In v (op_vars o) -> vd_default v = Some x -> unique_keys x) ->
  (forall v, In v (op_vars o) -> input_typed ex_dep_schema v) ->
  analysable ex_dep_schema (doc_of o) o vals.
Proof.
  intros U E1 E2 K1 K2 K3 K4. constructor; auto.
  - apply unique_check_ok; auto.
  - apply ex_dep_unambiguous.
  - intros t fd Ht Hf. cbn in Ht. destruct Ht as [<-|[<-|[<-|[<-|[<-|[]]]]]]; cbn in Hf; try (destruct Hf; fail).
    destruct Hf as [<-|[<-|[]]]; cbn.
    + split; [apply nil_once|]. intros i [<-|[]]. apply dep_once.
    + split; [apply (dep_once (Some "gone"))|]. intros i [].
  - intros dd i [].
  - intros dss a i Ha. apply flat_used in Ha as (al & n & args & ds & A & _ & B & _); auto. eapply K1; eauto.
Qed.
Example deprecations_ex :
  analysable ex_dep_schema (doc_of ex_dep_op) ex_dep_op [] /\
  map (fun x => (dp_type x, dp_name x, dp_reason x)) (deprecations ex_dep_schema [] true (ovisit_operation ex_dep_schema (doc_of ex_dep_op) ex_dep_op [])) =
    [(UArgument, tx "a", tx "no"); (UInputField, tx "old", tx "use new"); (UEnumValue, tx "a", tx "No longer supported."); (UField, tx "g", tx "gone")] /\
  (forall p t s, selected ex_dep_schema (doc_of ex_dep_op) ex_dep_op p t s -> ~ excluded ex_dep_op [] (sel_dirs s)).
Proof.
  split; [|split; [vm_compute; reflexivity|]].
  - apply ex_dep_analysable; try (vm_compute; reflexivity).
    + intros al n args ds a [H|[H|[]]] Ha; injection H as <- <- <- <-; [|destruct Ha]. destruct Ha as [<-|[]]. cbn [snd].
      constructor; [repeat constructor; intros []|]. intros k v [[= <- <-]|[]]. constructor.
    + intros k x [].
    + intros v x [<-|[]] [= <-]. constructor.
    + intros v [<-|[]]. eexists. split; vm_compute; reflexivity.
  - intros p t s (sels & H & Hin) (x & c & Hx & _).
    destruct (reaches_occurs _ _ _ _ _ _ H _ Hin) as [K|(f & [] & _)]. apply written_occurs in K. cbn in K. destruct K as [<-|[<-|[]]]; destruct Hx.
Qed.

(** The code reports the arguments of a skipped field, and the deprecated default of a variable that was given a value. *)
Theorem deprecations_of_included_part_refuted :
  exists S d o vals strings, analysable S d o vals /\
    (exists dp, dp_type dp = UArgument /\ reported_deprecation S d o vals strings dp /\ ~ included_use S d o vals strings dp) /\
    (exists dp, dp_type dp = UEnumValue /\ reported_deprecation S d o vals strings dp /\ ~ included_use S d o vals strings dp).
Proof.
  exists ex_dep_schema, (doc_of ex_dep_skipped), ex_dep_skipped, [(tx "c", VEnum (tx "BLUE"))], false.
  assert (Ex : excluded ex_dep_skipped [(tx "c", VEnum (tx "BLUE"))] [sk (VBool true)]).
  { eexists _, _. split; [left; reflexivity|]. split; [left; reflexivity|]. left. split; [reflexivity|constructor]. }
  assert (Arg : forall dss a i, argument_used ex_dep_schema (doc_of ex_dep_skipped) ex_dep_skipped dss a i -> ~ (forall ds, In ds dss -> ~ excluded ex_dep_skipped [(tx "c", VEnum (tx "BLUE"))] ds)).
  { intros dss a i Ha Hds. apply flat_used in Ha as (al & n & args & ds & A & -> & _); try reflexivity.
    destruct A as [A|[]]. injection A as <- <- <- <-. apply (Hds _ (or_introl eq_refl)). exact Ex. }
  split; [|split].
  - apply ex_dep_analysable; try (vm_compute; reflexivity).
    + intros al n args ds a [H|[]] Ha; injection H as <- <- <- <-. destruct Ha as [<-|[]]. cbn [snd].
      constructor; [repeat constructor; intros []|]. intros k v [[= <- <-]|[]]. constructor. intros v [].
    + intros k x [[= <- <-]|[]]. constructor.
    + intros v x [<-|[]] [= <-]. constructor.
    + intros v [<-|[]]. eexists. split; vm_compute; reflexivity.
  - exists {| dp_reason := tx "no"; dp_type := UArgument; dp_name := tx "a" |}. split; [reflexivity|]. split; [vm_compute; auto|].
    intros H. inversion H as [|dss a i r Ha Hok Hd|? ? ? ? ? ? Hu|? ? ? ? ? Hu|? ? ? ? ? ? Hu]; subst; try (inversion Hu; fail).
    eapply Arg; eauto.
  - exists {| dp_reason := tx "No longer supported."; dp_type := UEnumValue; dp_name := tx "c" |}. split; [reflexivity|]. split; [vm_compute; auto|].
    intros H. inversion H as [| |dss a i dp Ha Hok Hu|v x dp Hv Hx Hu|v x dp Hv Hdf Hx Hu]; subst.
    + eapply Arg; eauto.
    + destruct Hv as [<-|[]]. destruct Hx as [Hx|[]].
      assert (x = VEnum (tx "BLUE")) as -> by congruence.
      apply value_use_iff in Hu; [|apply ex_dep_unambiguous|constructor]. vm_compute in Hu. exact Hu.
    + destruct Hv as [<-|[]]. apply Hdf. left. reflexivity.
Qed.
Print Assumptions deprecations_of_included_part_refuted.
