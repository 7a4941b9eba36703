(** Property theorems on the complexity cost of operations (C35). *)
From Coq Require Import Permutation.
From Verif Require Import Base Ast Graph Maps Doc DocSpec DocRules DocRulesSpec DocVariablesSpec FragmentsSpec FragmentCyclesProofs
  CoercionTypes Coercion Operation OperationSpec OperationProofs OperationProps Complexity ComplexitySpec ComplexityProofs Examples.
Local Open Scope string_scope.
Local Open Scope list_scope.

(** A selection is kept if it is neither skipped nor not included. *)
Definition not_excluded (o : operation) (vals : list (name * value)) (ds : list directive) : Prop := ~ excluded o vals ds.

Section Transfer.
  Variable S : schema.
  Variable d : document.
  Variable o : operation.
  Variable M : Type.
  Variable mdefault : M.
  Variable multiplier_for : M -> selection -> N.
  Variable multipliers_of : fdef -> selection -> M.
  Notation root k := (root_node S d o k M mdefault multiplier_for).
  Notation child k := (child_node S d k M multiplier_for multipliers_of).
  Notation opn k := (op_node S d o k M mdefault multiplier_for multipliers_of).
  Notation same k := (same_scope S d o k M mdefault multiplier_for multipliers_of).

  Definition placed (x : node) : Prop := (exists p, selected S d o p (nd_type x) (nd_field x)) /\ has_field (nd_type x) (nd_name x) (nd_def x) /\
    get_type S (td_name (nd_type x)) = Some (nd_type x).
  Definition agree (k k' : list directive -> Prop) : Prop := forall p t s, selected S d o p t s -> k (sel_dirs s) -> k' (sel_dirs s).

  Lemma get_type_self n t : get_type S n = Some t -> get_type S (td_name t) = Some t.
  Proof. intros E. destruct (get_type_Some _ _ _ E) as (_ & ->). auto. Qed.
  Lemma root_type_self ty t : root_type S ty t -> get_type S (td_name t) = Some t.
  Proof. intros H. apply op_root_type in H as (n & _ & H). eapply get_type_self; eauto. Qed.
  Lemma in_set_transfer k k' act t ts sels act' t' ts' f : agree k k' -> in_set S d k act t ts sels act' t' ts' f ->
    forall p, reaches S d o p t sels -> get_type S (td_name t) = Some t ->
      in_set S d k' act t ts sels act' t' ts' f /\ (exists p, selected S d o p t' f) /\ get_type S (td_name t') = Some t'.
  Proof.
    intros Ha. induction 1 as [act t ts sels al n args ds sub Hi Hk|act t ts sels ds sub act' t' ts' f Hi Hk Hin IH
      |act t ts sels c ds sub t1 act' t' ts' f Hi Hk Ht Hin IH|act t ts sels n ds fr t1 act' t' ts' f Hi Hk Hn Hd Ht Hin IH]; intros p Hr Hg.
    - assert (Hs : selected S d o p t (SField al n args ds sub)) by (exists sels; auto).
      split; [|split; eauto]. apply is_field; auto. apply (Ha _ _ _ Hs Hk).
    - assert (Hs : selected S d o p t (SInline None ds sub)) by (exists sels; auto).
      destruct (IH _ (r_inline _ _ _ _ _ _ _ _ Hr Hi) Hg) as (A & B). split; auto. eapply is_inline; eauto. apply (Ha _ _ _ Hs Hk).
    - assert (Hs : selected S d o p t (SInline (Some c) ds sub)) by (exists sels; auto).
      destruct (IH _ (r_inline_on _ _ _ _ _ _ _ _ _ _ Hr Hi Ht) (get_type_self _ _ Ht)) as (A & B). split; auto. eapply is_inline_on; eauto. apply (Ha _ _ _ Hs Hk).
    - assert (Hs : selected S d o p t (SSpread n ds)) by (exists sels; auto).
      destruct (IH _ (r_spread _ _ _ _ _ _ _ _ _ _ Hr Hi Hd Ht) (get_type_self _ _ Ht)) as (A & B). split; auto. eapply is_spread; eauto. apply (Ha _ _ _ Hs Hk).
  Qed.
  Lemma root_transfer k k' x : agree k k' -> root k x -> root k' x /\ placed x.
  Proof.
    intros Ha (t & Hr & Hin & Hf & Hm). destruct (in_set_transfer _ _ _ _ _ _ _ _ _ _ Ha Hin [] (r_root _ _ _ _ Hr) (root_type_self _ _ Hr)) as (A & B & C).
    split; [exists t; split; auto; split; auto|split; auto].
  Qed.
  Lemma child_transfer k k' x y : agree k k' -> placed x -> child k x y -> child k' x y /\ placed y.
  Proof.
    intros Ha ((p & sels & Hr & Hi) & Hf & _) (t & Ht & Hin & Hf' & Hm).
    assert (Hne : nd_sub x <> []).
    { intros E. rewrite E in Hin. inversion Hin; subst; match goal with H : In _ [] |- _ => destruct H end. }
    destruct (in_set_transfer _ _ _ _ _ _ _ _ _ _ Ha Hin _ (r_field _ _ _ _ _ _ _ _ _ _ _ _ _ Hr Hi Hf Hne Ht) (get_type_self _ _ Ht)) as (A & B & C).
    split; [exists t; split; auto; split; auto|split; auto].
  Qed.
  Lemma op_transfer k k' x : agree k k' -> opn k x -> opn k' x /\ placed x.
  Proof.
    intros Ha. induction 1 as [x Hr|x y Hx (IH & Hp) Hc].
    - destruct (root_transfer _ _ _ Ha Hr) as (A & B). split; auto. apply on_root; auto.
    - destruct (child_transfer _ _ _ _ Ha Hp Hc) as (A & B). split; auto. eapply on_child; eauto.
  Qed.
  Lemma same_transfer k k' x y : agree k k' -> same k x y -> same k' x y /\ placed x /\ placed y.
  Proof.
    intros Ha. induction 1 as [x y Hx Hy Et Ek|x y x' y' Hs (IH & Px & Py) Hx Hy Et Ek].
    - destruct (root_transfer _ _ _ Ha Hx), (root_transfer _ _ _ Ha Hy). split; auto. apply ss_root; auto.
    - destruct (child_transfer _ _ _ _ Ha Px Hx), (child_transfer _ _ _ _ Ha Py Hy). split; auto. eapply ss_child; eauto.
  Qed.
  Lemma agree_refl k : agree k k. Proof. intros p t s _ H; auto. Qed.
End Transfer.

Lemma keeps_iff S d o vals p t s : unique_conditions S d o vals -> selected S d o p t s ->
  (keeps o vals (sel_dirs s) <-> not_excluded o vals (sel_dirs s)).
Proof.
  intros (Hv & Hk & Hu) Hs. unfold keeps, not_excluded. apply included_iff; eauto.
Qed.

Section Theorems.
  Variable S : schema.
  Variable d : document.
  Variable o : operation.
  Variable vals : list (name * value).
  Hypothesis U : unique_conditions S d o vals.
  Variable M : Type.
  Variable mdefault : M.
  Variable multiplier_for : M -> selection -> N.
  Variable cost_of : fdef -> N.
  Variable multipliers_of : fdef -> selection -> M.
  Notation kept := (not_excluded o vals).
  Notation root := (root_node S d o kept M mdefault multiplier_for).
  Notation possible_costs applies := (possible_cost S d kept M multiplier_for cost_of multipliers_of applies root).
  Notation result := (complexity S M mdefault multiplier_for cost_of multipliers_of (ovisit_operation S d o vals)).

  Lemma agree_to : agree S d o (keeps o vals) kept.
  Proof using U. intros p t s Hs. apply (keeps_iff S d o vals p t s U Hs). Qed.
  Lemma agree_from : agree S d o kept (keeps o vals).
  Proof using U. intros p t s Hs. apply (keeps_iff S d o vals p t s U Hs). Qed.
  Lemma pc_kept applies n : possible_cost S d (keeps o vals) M multiplier_for cost_of multipliers_of applies (root_node S d o (keeps o vals) M mdefault multiplier_for) n <->
    possible_costs applies n.
  Proof using U.
    split; intros H; eapply (pc_transfer S d M multiplier_for cost_of multipliers_of _ _ _ _ (placed S d o)); try exact H; try reflexivity.
    - intros x y Hx. split; apply child_transfer with (o := o); auto using agree_to, agree_from.
    - intros x y Hx Hc. eapply child_transfer in Hc; [apply Hc|exact agree_to|exact Hx].
    - intros x Hx. apply (root_transfer S d o M mdefault multiplier_for _ _ _ agree_to Hx).
    - intros x _. split; intros Hr; [apply (root_transfer S d o M mdefault multiplier_for _ _ _ agree_to Hr)|apply (root_transfer S d o M mdefault multiplier_for _ _ _ agree_from Hr)].
    - intros x y Hx. split; apply child_transfer with (o := o); auto using agree_to, agree_from.
    - intros x y Hx Hc. eapply child_transfer in Hc; [apply Hc|exact agree_from|exact Hx].
    - intros x Hx. apply (root_transfer S d o M mdefault multiplier_for _ _ _ agree_from Hx).
    - intros x _. split; intros Hr; [apply (root_transfer S d o M mdefault multiplier_for _ _ _ agree_from Hr)|apply (root_transfer S d o M mdefault multiplier_for _ _ _ agree_to Hr)].
  Qed.

  (** For every cost computer that treats fields merged into one alike, and every operation in which nothing is selected
      below free leaves: the result is the greatest possible cost, where a field counts for a concrete type if the type
      condition directly around it allows that type. *)
  Theorem complexity_is_the_maximum :
    consistent_multipliers S d o kept M mdefault multiplier_for multipliers_of ->
    leaves_have_no_selections S d o kept M mdefault multiplier_for cost_of multipliers_of ->
    exists n, result = CCost n /\ is_max (possible_costs (allowed_by_innermost S)) n.
  Proof using U.
    intros HC HL. destruct (complexity_ok S d o vals M mdefault multiplier_for cost_of multipliers_of) as (n & E & P & B & _).
    - intros x y Hs. apply HC. apply (same_transfer S d o M mdefault multiplier_for multipliers_of _ _ _ _ agree_to Hs).
    - intros x y Hx Hn Hc. destruct (op_transfer S d o M mdefault multiplier_for multipliers_of _ _ _ agree_to Hx) as (Hx' & Hp).
      apply (HL x y Hx' Hn). eapply child_transfer in Hc; [apply Hc|exact agree_to|exact Hp].
    - exists n. split; auto. split; [apply pc_kept; auto|]. intros m Hm. apply (B (allowed_by_innermost S)); auto. apply pc_kept; auto.
  Qed.
  (** It is never less than what an execution can cost, where a field is part of the result only if all the type
      conditions around it allow the concrete type ... *)
  Theorem complexity_bounds_every_execution :
    consistent_multipliers S d o kept M mdefault multiplier_for multipliers_of ->
    leaves_have_no_selections S d o kept M mdefault multiplier_for cost_of multipliers_of ->
    exists n, result = CCost n /\ forall m, possible_costs (allowed_by_all S) m -> (m <= n)%N.
  Proof using U.
    intros HC HL. destruct (complexity_ok S d o vals M mdefault multiplier_for cost_of multipliers_of) as (n & E & P & B & _).
    - intros x y Hs. apply HC. apply (same_transfer S d o M mdefault multiplier_for multipliers_of _ _ _ _ agree_to Hs).
    - intros x y Hx Hn Hc. destruct (op_transfer S d o M mdefault multiplier_for multipliers_of _ _ _ agree_to Hx) as (Hx' & Hp).
      apply (HL x y Hx' Hn). eapply child_transfer in Hc; [apply Hc|exact agree_to|exact Hp].
    - exists n. split; auto. intros m Hm. apply (B (allowed_by_all S)); [intros T x (H & _); exact H|]. apply pc_kept; auto.
  Qed.
  (** ... and it is the greatest cost of an execution if a type condition inside another never allows types that the
      outer one (or the enclosing field's type) does not. *)
  Theorem complexity_exact_partial :
    consistent_multipliers S d o kept M mdefault multiplier_for multipliers_of ->
    leaves_have_no_selections S d o kept M mdefault multiplier_for cost_of multipliers_of ->
    (forall x T t, op_node S d o kept M mdefault multiplier_for multipliers_of x -> possible S (nd_type x) T -> In t (nd_outer x) -> possible S t T) ->
    exists n, result = CCost n /\ is_max (possible_costs (allowed_by_all S)) n.
  Proof using U.
    intros HC HL HN. destruct (complexity_is_the_maximum HC HL) as (n & E & P & B). exists n. split; auto.
    assert (G : forall m, possible_costs (allowed_by_innermost S) m <-> possible_costs (allowed_by_all S) m).
    { intros m. split; intros H; (eapply (pc_transfer S d M multiplier_for cost_of multipliers_of kept kept _ _
        (op_node S d o kept M mdefault multiplier_for multipliers_of)); [| | |exact H| |]; try tauto; try (intros; apply on_root; auto; fail); try (intros; eapply on_child; eauto; fail)).
      - intros T x Hx. unfold allowed_by_innermost, allowed_by_all. split; [|tauto]. intros Hp. split; auto. intros t Ht. eauto.
      - intros T x Hx. unfold allowed_by_innermost, allowed_by_all. split; [tauto|]. intros Hp. split; [tauto|]. intros t Ht. eapply HN; eauto. }
    split; [apply G; auto|]. intros m Hm. apply B, G; auto.
  Qed.
End Theorems.
Print Assumptions complexity_is_the_maximum.
Print Assumptions complexity_bounds_every_execution.
Print Assumptions complexity_exact_partial.

(** * The default cost computer: every field costs 1 *)
(** The analysis never panics, and the result is the greatest possible number of fields (each response key of each object
    counted once). *)
Theorem default_complexity_is_the_maximum :
  forall (S : schema) (d : document) (o : operation) (vals : list (name * value)), unique_conditions S d o vals ->
  let kept := not_excluded o vals in
  let possible_costs applies := possible_cost S d kept unit (fun _ _ => 1%N) (fun _ => 1%N) (fun _ _ => tt) applies
                                  (root_node S d o kept unit tt (fun _ _ => 1%N)) in
  exists n, default_complexity S (ovisit_operation S d o vals) = CCost n /\
    is_max (possible_costs (allowed_by_innermost S)) n /\
    (forall m, possible_costs (allowed_by_all S) m -> (m <= n)%N).
Proof.
  intros S d o vals U kept possible_costs.
  assert (HC : consistent_multipliers S d o kept unit tt (fun _ _ => 1%N) (fun _ _ => tt)) by (intros x y _; auto).
  assert (HL : leaves_have_no_selections S d o kept unit tt (fun _ _ => 1%N) (fun _ => 1%N) (fun _ _ => tt)).
  { intros x y _ Hn. exfalso. apply Hn. left. discriminate. }
  destruct (complexity_is_the_maximum S d o vals U unit tt (fun _ _ => 1%N) (fun _ => 1%N) (fun _ _ => tt) HC HL) as (n & E & P).
  destruct (complexity_bounds_every_execution S d o vals U unit tt (fun _ _ => 1%N) (fun _ => 1%N) (fun _ _ => tt) HC HL) as (n' & E' & P').
  exists n. split; auto. split; auto. rewrite E in E'. injection E' as <-. auto.
Qed.
Print Assumptions default_complexity_is_the_maximum.

(** * The Relay cost computer *)
(** Fields of leaf types have no selections (as in a document which passes validation). *)
Definition leaves_are_leaves (S : schema) (d : document) (o : operation) : Prop :=
  forall p t al n args ds sub fd ft, selected S d o p t (SField al n args ds sub) -> has_field t n fd ->
    get_type S (tref_base (fd_type fd)) = Some ft -> td_composite ft = false -> sub = [].

Section RelayTheorem.
  Variable S : schema.
  Variable d : document.
  Variable o : operation.
  Variable vals : list (name * value).
  Variable parse_weight : text -> option N.
  Variable twice_ln : N -> N.
  Notation kept := (not_excluded o vals).
  Notation mults := (relay_multipliers o vals twice_ln).
  Notation cost := (relay_cost S parse_weight).
  Notation same := (same_scope S d o kept (option N) None relay_multiplier_for mults).
  Notation opn := (op_node S d o kept (option N) None relay_multiplier_for mults).
  (** Fields which are merged are the same field with the same arguments in some order (as in a document which passes
      validation). *)
  Definition merged_fields_agree : Prop :=
    forall x y, same x y -> nd_name x = nd_name y /\ NoDup (map fst (nd_args x)) /\ Permutation (nd_args x) (nd_args y).

  Lemma find_perm (an : name) (l l' : list argument) : NoDup (map fst l) -> Permutation l l' ->
    find (fun a => teqb (fst a) an) l = find (fun a => teqb (fst a) an) l'.
  Proof.
    intros Hn Hp. assert (Hn' : NoDup (map fst l')) by (eapply Permutation_NoDup; [apply Permutation_map; eauto|auto]).
    destruct (find (fun a => teqb (fst a) an) l) as [a|] eqn:E.
    - apply find_some in E as (Hi & E). apply teqb_eq in E. symmetry. apply (NoDup_find fst l' a an); auto. eapply Permutation_in; eauto.
    - destruct (find (fun a => teqb (fst a) an) l') as [a|] eqn:E'; auto. apply find_some in E' as (Hi & E').
      assert (Hl : In a l) by (eapply Permutation_in; [symmetry|]; eauto). apply (find_none _ _ E) in Hl. cbn beta in Hl. rewrite E' in Hl. discriminate.
  Qed.
  Lemma relay_consistent : merged_fields_agree -> consistent_multipliers S d o kept (option N) None relay_multiplier_for mults.
  Proof.
    intros H x y Hs. destruct (H x y Hs) as (En & Hn & Hp).
    assert (Ed : nd_def x = nd_def y).
    { assert (Et : td_name (nd_type x) = td_name (nd_type y)) by (destruct Hs; auto).
      destruct (same_transfer S d o _ _ _ _ _ _ _ _ (agree_refl S d o kept) Hs) as (_ & (_ & Fx & Gx) & (_ & Fy & Gy)).
      rewrite Et in Gx. rewrite Gx in Gy. injection Gy as E. unfold has_field in *. rewrite E, En, Fy in Fx. injection Fx; auto. }
    rewrite Ed. unfold nd_field, relay_multipliers, relay_multiplier_for, sizing_argument. rewrite En.
    rewrite (find_perm (tx "first") _ _ Hn Hp), (find_perm (tx "last") _ _ Hn Hp). split; auto.
  Qed.
  Lemma relay_leaves : leaves_are_leaves S d o -> leaves_have_no_selections S d o kept (option N) None relay_multiplier_for cost mults.
  Proof.
    intros H x y Hx Hn Hc. destruct (op_transfer S d o _ _ _ _ _ _ _ (agree_refl S d o kept) Hx) as (_ & (p & Hs) & Hf & _).
    destruct Hc as (t & Ht & Hin & _).
    assert (E : nd_sub x = []).
    { eapply H; eauto. destruct (td_composite t) eqn:Ec; auto. exfalso. apply Hn. right. intros Hl. rewrite (Hl t Ht) in Ec. discriminate. }
    rewrite E in Hin. inversion Hin; subst; match goal with H : In _ [] |- _ => destruct H end.
  Qed.
End RelayTheorem.

Theorem relay_complexity_is_the_maximum :
  forall (S : schema) (d : document) (o : operation) (vals : list (name * value)) (parse_weight : text -> option N) (twice_ln : N -> N),
  unique_conditions S d o vals -> leaves_are_leaves S d o -> merged_fields_agree S d o vals twice_ln ->
  let kept := not_excluded o vals in
  let possible_costs applies := possible_cost S d kept (option N) relay_multiplier_for (relay_cost S parse_weight) (relay_multipliers o vals twice_ln)
                                  applies (root_node S d o kept (option N) None relay_multiplier_for) in
  exists n, relay_complexity S o vals parse_weight twice_ln (ovisit_operation S d o vals) = CCost n /\
    is_max (possible_costs (allowed_by_innermost S)) n /\
    (forall m, possible_costs (allowed_by_all S) m -> (m <= n)%N).
Proof.
  intros S d o vals pw tl U HL HM kept possible_costs.
  apply (relay_leaves S d o vals pw tl) in HL. apply (relay_consistent S d o vals tl) in HM.
  destruct (complexity_is_the_maximum S d o vals U _ _ _ _ _ HM HL) as (n & E & P).
  destruct (complexity_bounds_every_execution S d o vals U _ _ _ _ _ HM HL) as (n' & E' & P').
  exists n. split; auto. split; auto. rewrite E in E'. injection E' as <-. auto.
Qed.
Print Assumptions relay_complexity_is_the_maximum.

(** ** What the Relay computer charges *)
(** the declared weight, or else 1 for fields with selections *)
Theorem relay_cost_of_field :
  forall (S : schema) (parse_weight : text -> option N) (fd : fdef),
    (* without a weight *)
    ((forall x, In x (fd_dirs fd) -> dir_name x = tx "cost" -> ~ In (tx "weight") (map fst (dir_args x))) ->
      (forall t, get_type S (tref_base (fd_type fd)) = Some t -> td_composite t = true -> relay_cost S parse_weight fd = 1%N) /\
      (leaf_definition S fd -> relay_cost S parse_weight fd = 0%N)) /\
    (* with a weight *)
    (forall x w n, NoDup (map dir_name (fd_dirs fd)) -> In x (fd_dirs fd) -> dir_name x = tx "cost" -> NoDup (map fst (dir_args x)) ->
       In (tx "weight", VStr w) (dir_args x) -> parse_weight w = Some n -> relay_cost S parse_weight fd = n).
Proof.
  intros S pw fd. unfold relay_cost, cost_argument. split.
  - intros H.
    assert (E : match match find (fun x => teqb (dir_name x) (tx "cost")) (fd_dirs fd) with
                      | Some x => match find (fun a => teqb (fst a) (tx "weight")) (dir_args x) with Some (_, VStr s) => Some s | _ => None end
                      | None => None end with Some s => pw s | None => None end = None).
    { destruct (find _ (fd_dirs fd)) as [x|] eqn:Ef; auto. apply find_some in Ef as (Hx & En). apply teqb_eq in En. specialize (H x Hx En).
      destruct (find (fun a => teqb (fst a) (tx "weight")) (dir_args x)) as [[k c]|] eqn:Ea; auto. apply find_some in Ea as (Ha & Ek). apply teqb_eq in Ek.
      exfalso. apply H. rewrite <- Ek. apply in_map; auto. }
    rewrite E. unfold base_composite. split.
    + intros t Ht Hc. rewrite Ht, Hc. auto.
    + intros Hl. destruct (get_type S (tref_base (fd_type fd))) as [t|] eqn:Et; auto. rewrite (Hl t Et). auto.
  - intros x w n Hd Hx En Ha Hw Hp. rewrite (NoDup_find dir_name (fd_dirs fd) x (tx "cost")); auto.
    rewrite (NoDup_find fst (dir_args x) (tx "weight", VStr w)); auto. rewrite Hp. auto.
Qed.
Print Assumptions relay_cost_of_field.

(** [sized o vals args an n]: the argument [an] asks for [n] elements: a literal, or an Int variable with that value,
    provided or by default; less than 0 counts as 0. *)
Inductive sized (o : operation) (vals : list (name * value)) (args : list argument) (an : name) : N -> Prop :=
| sz_literal z : In (an, VInt z) args -> sized o vals args an (Z.to_N z)
| sz_provided x v r z : In (an, VVar x) args -> In v (op_vars o) -> vd_name v = x -> vd_type v = TBase (tx "Int") r ->
    In (x, VInt z) vals -> sized o vals args an (Z.to_N z)
| sz_default x v r z : In (an, VVar x) args -> In v (op_vars o) -> vd_name v = x -> vd_type v = TBase (tx "Int") r ->
    ~ In x (map fst vals) -> vd_default v = Some (VInt z) -> sized o vals args an (Z.to_N z).

Lemma evaluate_int_iff o vals x z : NoDup (map vd_name (op_vars o)) -> NoDup (map fst vals) ->
  evaluate_int o vals x = Some z <->
  exists v r, In v (op_vars o) /\ vd_name v = x /\ vd_type v = TBase (tx "Int") r /\
    (In (x, VInt z) vals \/ (~ In x (map fst vals) /\ vd_default v = Some (VInt z))).
Proof.
  intros Hv Hk. unfold evaluate_int. split.
  - destruct (find _ (op_vars o)) as [v|] eqn:E; [|discriminate]. apply find_some in E as (Hi & E). apply andb_true_iff in E as (E1 & E2).
    apply teqb_eq in E1. unfold is_named in E2. destruct (vd_type v) as [n r|] eqn:Et; [|discriminate]. apply teqb_eq in E2. subst n.
    intros H. exists v, r. split; auto. split; auto. split; auto.
    destruct (assoc x vals) as [c|] eqn:Ea.
    + left. apply assoc_In in Ea. destruct c; try discriminate H. injection H as ->. auto.
    + right. split; [apply assoc_None; auto|]. destruct (vd_default v) as [c|]; [|discriminate]. destruct c; try discriminate H. injection H as ->. auto.
  - intros (v & r & Hi & En & Et & H).
    assert (E : find (fun v => teqb (vd_name v) x && is_named (tx "Int") (vd_type v)) (op_vars o) = Some v).
    { destruct (find _ (op_vars o)) as [w|] eqn:E.
      - apply find_some in E as (Hw & E). apply andb_true_iff in E as (E & _). apply teqb_eq in E. f_equal.
        assert (F := NoDup_find vd_name (op_vars o) w x Hv Hw E). rewrite (NoDup_find vd_name (op_vars o) v x Hv Hi En) in F. injection F; auto.
      - apply (find_none _ _ E) in Hi. cbn beta in Hi. rewrite En, teqb_refl, Et in Hi. unfold is_named in Hi. rewrite teqb_refl in Hi. discriminate. }
    rewrite E. destruct H as [H|(H & Hd)].
    + rewrite (assoc_NoDup x vals (VInt z)); auto.
    + destruct (assoc x vals) as [c|] eqn:Ea; [|rewrite Hd; reflexivity]. exfalso. apply H. apply assoc_In in Ea. apply (in_map fst) in Ea. auto.
Qed.
Lemma sizing_iff o vals args an n : NoDup (map vd_name (op_vars o)) -> NoDup (map fst vals) -> NoDup (map fst args) ->
  sizing_argument o vals args an = Some n <-> sized o vals args an n.
Proof.
  intros Hv Hk Ha. unfold sizing_argument. split.
  - destruct (find (fun a => teqb (fst a) an) args) as [[k c]|] eqn:E; [|discriminate]. apply find_some in E as (Hi & E). apply teqb_eq in E.
    unfold fst in E. subst k. destruct c as [x|z| | | | | | |]; try discriminate.
    + destruct (evaluate_int o vals x) as [z|] eqn:Ez; [|discriminate]. intros H. injection H as <-.
      apply evaluate_int_iff in Ez as (v & r & Hi' & En & Et & [H|(H & Hd)]); auto; [eapply sz_provided|eapply sz_default]; eauto.
    + intros H. injection H as <-. apply sz_literal; auto.
  - intros H. destruct H as [z Hi|x v r z Hi Hi' En Et H|x v r z Hi Hi' En Et H Hd]; rewrite (NoDup_find fst args _ an Ha Hi eq_refl); auto.
    + assert (E : evaluate_int o vals x = Some z) by (apply evaluate_int_iff; auto; exists v, r; auto 10). rewrite E. auto.
    + assert (E : evaluate_int o vals x = Some z) by (apply evaluate_int_iff; auto; exists v, r; auto 10). rewrite E. auto.
Qed.
Definition connection_field (fd : fdef) : Prop :=
  exists x, In x (fd_dirs fd) /\ dir_name x = tx "cost" /\ In (tx "kind", VStr (tx "connection")) (dir_args x).

(** The fields [edges] and [nodes] of a connection are multiplied by [floor(2 ln(n))], where [n >= 2] is the number of
    elements asked for by [first] or [last] (the greater one), and by 0 if none are asked for. All other fields are
    multiplied by 1. *)
Theorem relay_multiplier_of_field :
  forall (o : operation) (vals : list (name * value)) (twice_ln : N -> N) (fd : fdef) al fn (args : list argument) ds sub,
  NoDup (map vd_name (op_vars o)) -> NoDup (map fst vals) -> NoDup (map fst args) ->
  NoDup (map dir_name (fd_dirs fd)) -> (forall x, In x (fd_dirs fd) -> NoDup (map fst (dir_args x))) ->
  let multiplier al' n' args' ds' sub' :=
    relay_multiplier_for (relay_multipliers o vals twice_ln fd (SField al fn args ds sub)) (SField al' n' args' ds' sub') in
  let asked n := sized o vals args (tx "first") n \/ sized o vals args (tx "last") n in
  forall al' n' args' ds' sub',
    ((connection_field fd /\ (n' = tx "edges" \/ n' = tx "nodes")) ->
       (forall n, is_max asked n -> (n > 0)%N -> multiplier al' n' args' ds' sub' = twice_ln (N.max 2 n)) /\
       (forall n, is_max asked n -> n = 0%N -> multiplier al' n' args' ds' sub' = 0%N) /\
       ((forall n, ~ asked n) -> multiplier al' n' args' ds' sub' = 0%N)) /\
    (~ (connection_field fd /\ (n' = tx "edges" \/ n' = tx "nodes")) -> multiplier al' n' args' ds' sub' = 1%N).
Proof.
  intros o vals tl fd al fn args ds sub Hv Hk Ha Hd Hda multiplier asked al' n' args' ds' sub'.
  assert (Hc : cost_argument (tx "kind") (fd_dirs fd) = Some (tx "connection") <-> connection_field fd).
  { unfold cost_argument, connection_field. split.
    - destruct (find _ (fd_dirs fd)) as [x|] eqn:E; [|discriminate]. apply find_some in E as (Hx & En). apply teqb_eq in En.
      destruct (find (fun a => teqb (fst a) (tx "kind")) (dir_args x)) as [[k c]|] eqn:Ef; [|discriminate]. apply find_some in Ef as (Hi & Ek). apply teqb_eq in Ek.
      unfold fst in Ek. subst k. destruct c; try discriminate. intros H. injection H as ->. exists x. auto.
    - intros (x & Hx & En & Hi). rewrite (NoDup_find dir_name (fd_dirs fd) x (tx "cost")); auto.
      rewrite (NoDup_find fst (dir_args x) (tx "kind", VStr (tx "connection"))); auto. }
  set (size := match sizing_argument o vals args (tx "first"), sizing_argument o vals args (tx "last") with
               | Some a, Some b => N.max a b | Some a, None | None, Some a => a | None, None => 0%N end).
  assert (S1 := fun n => sizing_iff o vals args (tx "first") n Hv Hk Ha). assert (S2 := fun n => sizing_iff o vals args (tx "last") n Hv Hk Ha).
  assert (Hsize : (exists n, asked n) -> is_max asked size).
  { unfold asked, size. intros (n & Hn). rewrite <- S1, <- S2 in Hn.
    destruct (sizing_argument o vals args (tx "first")) as [a|]; destruct (sizing_argument o vals args (tx "last")) as [b|].
    - split; [rewrite <- S1, <- S2; destruct (N.max_spec a b) as [(_ & ->)|(_ & ->)]; auto|]. intros k Hk'. rewrite <- S1, <- S2 in Hk'. destruct Hk' as [Hk'|Hk']; injection Hk' as ->; lia.
    - split; [left; apply S1; auto|]. intros k Hk'. rewrite <- S1, <- S2 in Hk'. destruct Hk' as [Hk'|Hk']; [injection Hk' as ->; lia|discriminate].
    - split; [right; apply S2; auto|]. intros k Hk'. rewrite <- S1, <- S2 in Hk'. destruct Hk' as [Hk'|Hk']; [discriminate|injection Hk' as ->; lia].
    - destruct Hn; discriminate. }
  assert (Hm : connection_field fd -> n' = tx "edges" \/ n' = tx "nodes" -> multiplier al' n' args' ds' sub' = if (0 <? size)%N then tl (N.max 2 size) else 0%N).
  { intros Hf Hn. apply Hc in Hf. unfold multiplier, relay_multipliers. rewrite Hf, teqb_refl. fold size. unfold relay_multiplier_for.
    assert (E : teqb n' (tx "edges") || teqb n' (tx "nodes") = true) by (destruct Hn as [->| ->]; rewrite teqb_refl, ?orb_true_r; auto). rewrite E. auto. }
  split.
  - intros (Hf & Hn). rewrite (Hm Hf Hn). split; [|split].
    + intros n Hmax Hpos. rewrite (is_max_unique _ _ _ (Hsize (ex_intro _ n (proj1 Hmax))) Hmax). destruct (N.ltb_spec 0 n); auto; lia.
    + intros n Hmax E0. rewrite (is_max_unique _ _ _ (Hsize (ex_intro _ n (proj1 Hmax))) Hmax). subst n. auto.
    + intros Hnone. assert (E : size = 0%N); [|rewrite E; auto]. unfold size, asked in *.
      destruct (sizing_argument o vals args (tx "first")) as [a|]; [exfalso; apply (Hnone a); left; apply S1; auto|].
      destruct (sizing_argument o vals args (tx "last")) as [b|]; [exfalso; apply (Hnone b); right; apply S2; auto|]. auto.
  - intros Hn. unfold multiplier, relay_multipliers.
    destruct (cost_argument (tx "kind") (fd_dirs fd)) as [k|] eqn:Ek; auto.
    destruct (teqb_spec k (tx "connection")) as [E|E]; auto. subst k. unfold relay_multiplier_for.
    destruct (teqb_spec n' (tx "edges")) as [E1|E1]; [exfalso; apply Hn; split; [apply Hc|]; auto|].
    destruct (teqb_spec n' (tx "nodes")) as [E2|E2]; [exfalso; apply Hn; split; [apply Hc|]; auto|]. auto.
Qed.
Print Assumptions relay_multiplier_of_field.
(** Concrete cases: ComplexityCases.v *)
