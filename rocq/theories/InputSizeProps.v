(** C36: what the input size analysis reports, for all operations and variables. *)
From Verif Require Import Base Ast Graph Maps Doc DocSpec DocRules DocRulesSpec DocVariablesSpec FragmentsSpec FragmentCyclesProofs
  CoercionTypes Coercion CoercionSpec CoercionProps Operation OperationSpec OperationProofs OperationValuesProofs OperationProps Examples.
Local Open Scope string_scope.
Local Open Scope list_scope.

(** * Specification *)
(** [variable_stands mx v q x]: the variable [x] stands at [q] in [v], not inside a list of more than [mx] items *)
Inductive variable_stands (mx : nat) : value -> list text -> name -> Prop :=
| vs_here x : variable_stands mx (VVar x) [] x
| vs_item vs i y q x : length vs <= mx -> nth_error vs i = Some y -> variable_stands mx y q x -> variable_stands mx (VList vs) (show_nat i :: q) x
| vs_field es k y q x : In (k, y) es -> variable_stands mx y q x -> variable_stands mx (VObj es) (k :: q) x.
(** What the analysis takes for the variable [x] at the place called [place]: the provided value, or else the default of the
    variable that has the name of the place. (It should be the default of [x].) *)
Definition taken_for (o : operation) (vals : list (name * value)) (place : text) (x : name) (w : value) : Prop :=
  In (x, w) vals \/ (~ In x (map fst vals) /\ exists vd, In vd (op_vars o) /\ vd_name vd = place /\ vd_default vd = Some w).
(** The analysis reports a list of [n] items at [place] for the argument [a]: it is written there, or in the value taken for a variable. *)
Inductive size_reported (mx : nat) (o : operation) (vals : list (name * value)) (a : name * value) : nat -> text -> Prop :=
| sr_written q n : oversized mx (snd a) q n -> size_reported mx o vals a n (dotted (fst a) q)
| sr_variable q x w q' n : variable_stands mx (snd a) q x -> taken_for o vals (dotted (fst a) q) x w -> oversized mx w q' n ->
    size_reported mx o vals a n (dotted (dotted (fst a) q) q').

(** * Proofs *)
Section Offenders.
  Variable mx : nat.
  Variable o : operation.
  Variable vals : list (name * value).
  Hypothesis Hv : NoDup (map vd_name (op_vars o)).
  Hypothesis Hk : NoDup (map fst vals).
  Definition found (v : value) (nm : text) (r : nat * text) : Prop :=
    (exists q n, oversized mx v q n /\ r = (n, dotted nm q)) \/
    (exists q x w q' n, variable_stands mx v q x /\ taken_for o vals (dotted nm q) x w /\ oversized mx w q' n /\ r = (n, dotted (dotted nm q) q')).
  Lemma found_list vs nm r : found (VList vs) nm r <->
    (mx < length vs /\ r = (length vs, nm)) \/ (length vs <= mx /\ exists j x, nth_error vs j = Some x /\ found x (dot nm (show_nat j)) r).
  Proof.
    split.
    - intros [(q & n & H & ->)|(q & x & w & q' & n & H & T & B & ->)]; inversion H; subst; auto.
      + right. split; auto. do 2 eexists. split; eauto. left. eauto.
      + right. split; auto. do 2 eexists. split; eauto. right. do 5 eexists. repeat split; eauto.
    - intros [(L & ->)|(L & j & x & E & [(q & n & H & ->)|(q & y & w & q' & n & H & T & B & ->)])].
      + left. exists [], (length vs). split; auto. constructor; auto.
      + left. exists (show_nat j :: q), n. split; auto. eapply ov_item; eauto.
      + right. exists (show_nat j :: q), y, w, q', n. split; [eapply vs_item; eauto|]. auto.
  Qed.
  Lemma found_obj es nm r : found (VObj es) nm r <-> exists k x, In (k, x) es /\ found x (dot nm k) r.
  Proof.
    split.
    - intros [(q & n & H & ->)|(q & x & w & q' & n & H & T & B & ->)]; inversion H; subst.
      + do 2 eexists. split; eauto. left. eauto.
      + do 2 eexists. split; eauto. right. do 5 eexists. repeat split; eauto.
    - intros (k & x & E & [(q & n & H & ->)|(q & y & w & q' & n & H & T & B & ->)]).
      + left. exists (k :: q), n. split; auto. eapply ov_field; eauto.
      + right. exists (k :: q), y, w, q', n. split; [eapply vs_field; eauto|]. auto.
  Qed.
  Lemma found_var x nm r : In r (arg_offenders mx vals (op_vars o) nm (VVar x)) <-> found (VVar x) nm r.
  Proof.
    cbn [arg_offenders]. split.
    - intros H. right.
      assert (K : exists w, taken_for o vals nm x w /\ In r (const_offenders mx nm w)).
      { destruct (assoc x vals) as [w|] eqn:E; [exists w; split; auto; left; apply assoc_In; auto|].
        destruct (find _ (op_vars o)) as [vd|] eqn:Ef; [|destruct H]. destruct (vd_default vd) as [w|] eqn:Ed; [|destruct H].
        exists w. split; auto. right. split; [apply assoc_None; auto|]. apply find_some in Ef as (Hin & Ef). apply teqb_eq in Ef. eauto. }
      destruct K as (w & T & K). apply const_offenders_iff in K as (q' & n & B & ->). exists [], x, w, q', n. split; [constructor|]. auto.
    - intros [(q & n & H & _)|(q & y & w & q' & n & H & T & B & ->)]; inversion H; subst. cbn [dotted fold_left] in *.
      assert (K : In (n, dotted nm q') (const_offenders mx nm w)) by (apply const_offenders_iff; exists q', n; auto).
      change (dotted nm []) with nm in T. change (dotted nm []) with nm.
      destruct T as [T|(T & vd & Hin & En & Ed)].
      + apply (assoc_NoDup y vals w Hk) in T. rewrite T. exact K.
      + apply assoc_None in T. rewrite T. rewrite (NoDup_find vd_name (op_vars o) vd nm Hv Hin En), Ed. exact K.
  Qed.
  Lemma arg_found v : forall nm r, In r (arg_offenders mx vals (op_vars o) nm v) <-> found v nm r.
  Proof.
    induction v as [x|z|b|s|b| |x|vs IH|es IH] using value_ind'; intros nm r; try apply found_var;
      try (cbn; split; [intros []|intros [(q & n & H & _)|(q & y & w & q' & n & H & _)]; inversion H]; fail).
    - rewrite arg_offenders_list, found_list. rewrite Forall_forall in IH. destruct (Nat.ltb_spec mx (length vs)) as [L|L].
      + cbn. split; [intros [<-|[]]; auto|]. intros [(_ & ->)|(L' & _)]; [auto|lia].
      + rewrite in_go_items. split.
        * intros (j & x & E & H). right. split; [lia|]. exists j, x. split; auto. apply IH; auto. eapply nth_error_In; eauto.
        * intros [(L' & _)|(_ & j & x & E & H)]; [lia|]. exists j, x. split; auto. apply IH; auto. eapply nth_error_In; eauto.
    - rewrite arg_offenders_obj, found_obj, in_go_entries. rewrite Forall_forall in IH. split.
      + intros (k & x & Hin & H). exists k, x. split; auto. apply (IH (k, x) Hin). auto.
      + intros (k & x & Hin & H). exists k, x. split; auto. apply (IH (k, x) Hin). auto.
  Qed.
End Offenders.

(** * The theorem *)
(** Exactly what is reported, for every schema, document, operation and variables (names of variables given once, which the
    validator checks and hash maps ensure). *)
Theorem input_sizes_reported_exactly :
  forall (S : schema) (d : document) (o : operation) (vals : list (name * value)) (mx : nat),
    NoDup (map vd_name (op_vars o)) -> NoDup (map fst vals) ->
    forall n place, In (n, place) (input_size_offenders mx vals (op_vars o) (ovisit_operation S d o vals)) <->
      exists dss a i, argument_used S d o dss a i /\ size_reported mx o vals a n place.
Proof.
  intros S d o vals mx Hv Hk n place. unfold input_size_offenders. rewrite in_flat_map. split.
  - intros (ev & Hev & Hr). destruct ev as [| | | |a i|]; try (destruct Hr; fail).
    apply argument_used_iff in Hev as (dss & Ha). exists dss, a, i. split; [exact Ha|].
    apply (arg_found mx o vals Hv Hk) in Hr as [(q & k & B & [= -> ->])|(q & x & w & q' & k & H1 & H2 & H3 & [= -> ->])]; econstructor; eauto.
  - intros (dss & a & i & Ha & H). exists (OArg a i). split; [apply argument_used_iff; eauto|].
    apply (arg_found mx o vals Hv Hk). inversion H as [q k B|q x w q' k H1 H2 H3]; subst; [left; eauto|right; do 5 eexists; repeat split; eauto].
Qed.
Print Assumptions input_sizes_reported_exactly.

(** Concrete cases: the two operations of [input_sizes_exact_refuted], which the theorem covers. *)
Example ex_sizes_reported :
  NoDup (map vd_name (op_vars ex_size_missed)) /\ NoDup (map vd_name (op_vars ex_size_spurious)) /\
  input_size_offenders 2 [] (op_vars ex_size_missed) (ovisit_operation ex_size_schema (doc_of ex_size_missed) ex_size_missed []) = [] /\
  input_size_offenders 2 [(tx "a", VList [])] (op_vars ex_size_spurious)
    (ovisit_operation ex_size_schema (doc_of ex_size_spurious) ex_size_spurious [(tx "a", VList [])]) = [(3, tx "a")].
Proof.
  split; [repeat constructor; intros []|]. split; [repeat constructor; [intros [H|[]]; vm_compute in H; discriminate|intros []]|].
  split; vm_compute; reflexivity.
Qed.
