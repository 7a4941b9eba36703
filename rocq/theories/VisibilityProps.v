(** Properties C40, C41, C42, C43: a schema seen through a warden. *)
From Coq Require Import String Sorted.
From Verif Require Import Base Ast Maps DocRules DefParser Resolve ResolveSpec ResolveProofs ResolveProps Visibility VisibilitySpec VisibilityProofs CompareProps.
From Coq Require Import Lia.
Local Open Scope string_scope.
Local Open Scope list_scope.

Set Default Proof Using "Type".
Notation run := Visibility.run.

(** The schemas that resolution gives are proper if no type has two fields with one name. *)
Theorem resolved_proper : forall d s w, resolve d = inl s ->
  (forall t, In t (s_types s) -> NoDup (map fd_name (td_fields t))) ->
  (forall n t, In t (w_candidates w n) <-> get_type s n = Some t) -> (forall t, w_equal w t t = true) -> proper s w.
Proof.
  intros d s w R F C E. pose proof (proj1 (c14_schemas d s) R) as H. constructor; auto.
  - apply sorted_NoDup, H.
  - apply sorted_NoDup, H.
  - now apply (c13_references d).
  - now apply (c14_roots d).
Qed.
Lemma null_candidates s n t : In t (w_candidates (null_warden s) n) <-> get_type s n = Some t.
Proof. cbn. destruct (get_type s n) as [u|]; cbn; [|split; [tauto|discriminate]]. split; [intros [->|[]]; auto | intros [= ->]; auto]. Qed.
Lemma null_equal s t : w_equal (null_warden s) t t = true.
Proof. cbn. apply teqb_refl. Qed.

Section Theorems.
  Variables (S : schema) (W : warden).
  Hypothesis P : proper S W.

  Lemma shown_of n t : visible_type S W n = Some t -> shown_type S W n t.
  Proof using P. intros H. apply visible_type_Some in H as (I & E & V); auto. split; auto. split; auto. Qed.
  Lemma shown_ddef_of n t : visible_ddef S W n = Some t -> shown_ddef S W n t.
  Proof using P. intros H. apply visible_ddef_Some in H as (I & E & V); auto. split; auto. Qed.
  Lemma shown_object_of n o : visible_object S W n = Some o -> shown_type S W n (DObject o).
  Proof using P. intros H. apply visible_object_Some in H as (I & E & V); auto. split; auto. split; auto. Qed.
  Lemma shown_ref_of r x : visible_ref S W r = Some x -> shown_ref S W r x.
  Proof using P. intros H. apply visible_ref_Some in H as (E & V). split; auto. now apply shown_of. Qed.
  Lemma shown_field_of t d x : visible_type S W t = Some d -> In x (visible_fields S W t (td_fields d)) -> shown_field S W t x.
  Proof using P.
    intros V I. apply visible_fields_In in I as (I & F & R). split; [exists d; split; auto; now apply shown_of|]. split; auto. now apply shown_ref_of.
  Qed.
  Lemma shown_inputs_of p l : inputs_at S W p l -> shown_inputs_at S W p l.
  Proof using P.
    intros [t f x (d & V & I & E)|t d V|d e V]; cbn.
    - exists x. split; auto. eapply shown_field_of; eauto.
    - exists d. split; auto. now apply shown_of.
    - exists e. split; auto. now apply shown_ddef_of.
  Qed.
  Lemma shown_input_of p l x : inputs_at S W p l -> In x (visible_inputs S W p l) -> shown_input S W p x.
  Proof using P.
    intros A I. apply visible_inputs_In in I as (I & F & R). split; [exists l; split; auto; now apply shown_inputs_of|]. split; auto. now apply shown_ref_of.
  Qed.
  Lemma shown_interface_of t d i : visible_type S W t = Some d -> In i (visible_interfaces S W t (td_interfaces d)) -> shown_interface S W t i.
  Proof using P.
    intros V I. apply visible_interfaces_In in I as (I & F & R); auto. apply visible_interface_Some in R as (J & _ & K); auto. split; [|split; [auto | split; auto]].
    exists d. split; [now apply shown_of | now destruct d].
  Qed.
  Lemma shown_value_of t d v : visible_type S W t = Some (DEnum d) -> In v (visible_values W t (en_values d)) -> shown_value S W t v.
  Proof using P. intros V I. apply filter_In in I as (I & F). split; [exists d; split; auto; now apply shown_of | auto]. Qed.
  Lemma shown_directive_of p l x : directives_at S W p l -> In x (visible_directives S W l) -> shown_directive S W p x.
  Proof using P.
    intros D I. apply visible_directives_In in I as (I & E). split; [|now apply shown_ddef_of].
    destruct D as [|t d V|t f y (d & V & J & Q)|t d k v V N|q m k y A N]; auto.
    - exists d. split; auto. now apply shown_of.
    - exists y. split; auto. eapply shown_field_of; eauto.
    - exists v. apply nth_error_In in N. split; auto. eapply shown_value_of; eauto.
    - exists y. apply nth_error_In in N. split; auto. eapply shown_input_of; eauto.
  Qed.
  Lemma answers_nothing_hidden o a : answers S W o a -> nothing_hidden S W o a.
  Proof using P.
    intros H. destruct H as [n|n|l H|l H| | | |t d V|t d n V|t d V|t d V|t d V|t l A|t f l A|d l A|i|p l D|p l k x A N|p l k x D N]; cbn [nothing_hidden].
    - intros t E. now apply shown_of.
    - intros t E. now apply shown_ddef_of.
    - intros t I. apply (proj2 H) in I. apply in_schema_reached in I; auto. cbn in I. apply shown_of in I. apply I.
    - intros t I. apply (proj2 H) in I. apply in_schema_reached in I; auto. now apply shown_ddef_of.
    - intros o E. now apply shown_object_of.
    - intros o E. destruct (s_mutation S) as [n|]; [|discriminate]. exists n. split; auto. now apply shown_object_of.
    - intros o E. destruct (s_subscription S) as [n|]; [|discriminate]. exists n. split; auto. now apply shown_object_of.
    - intros x I. eapply shown_field_of; eauto.
    - intros x E. apply find_some in E as (I & E). apply teqb_eq in E. split; auto. eapply shown_field_of; eauto.
    - intros x I. eapply shown_interface_of; eauto.
    - intros m I. apply visible_members_In in I as (I & F & R). split; [exists d; split; auto; now apply shown_of|]. split; auto. now apply shown_object_of.
    - intros v I. eapply shown_value_of; eauto.
    - intros x I. eapply shown_input_of; eauto.
    - intros x I. eapply shown_input_of; eauto.
    - intros x I. eapply shown_input_of; eauto.
    - intros o I. apply visible_implementors_In in I as (I & _ & V & j & J & E); auto. split; [split; auto|]. exists j. split; auto.
      apply (shown_interface_of (ob_name o) (DObject o)); auto. now apply visible_type_Some.
    - intros x I. eapply shown_directive_of; eauto.
    - apply nth_error_In in N. exists x. split; auto. eapply shown_input_of; eauto.
    - apply nth_error_In in N. exists x. split; auto. eapply shown_directive_of; eauto.
  Qed.

  (** ** C40 *)
  (** Whatever has been looked up before, an answer has in it only what the warden shows, of types that it shows, and found in what
      it shows. *)
  Theorem c40_no_leak : forall r c o a c', history S W r c -> run S W r o c = Some (Ok a c') -> nothing_hidden S W o a.
  Proof using P.
    intros r c o a c' H E. apply answers_nothing_hidden. apply history_Inv in H as (K & I); auto. exact (proj2 (run_gives S W P r o c _ K I E)).
  Qed.
  (** And it has in it all that is shown: the answer is the definition's list with the hidden part left out. *)
  Theorem c40_exact : forall r c o a c', history S W r c -> run S W r o c = Some (Ok a c') -> answers S W o a.
  Proof using P. intros r c o a c' H E. apply history_Inv in H as (K & I); auto. exact (proj2 (run_gives S W P r o c _ K I E)). Qed.
  (** Making the scoped schema fails exactly if the query root is hidden. *)
  Theorem c40_query_root : match new_schema S W fresh with
    | Ok (Some r) _ => visible_object S W (s_query S) = Some (r_query r)
    | Ok None _ => visible_object S W (s_query S) = None
    | _ => False
    end.
  Proof using P.
    pose proof (new_schema_gives S W P False fresh (fresh_Inv S W)) as H. destruct (new_schema S W fresh) as [[r|] c| |]; auto; [apply (k_query _ _ _ (proj2 H)) | apply H].
  Qed.

  (** ** C41 *)
  (** Two histories give the same answer. *)
  Theorem c41_history_independent : forall r r' c1 c2 o a1 a2 d1 d2, history S W r c1 -> history S W r' c2 ->
    run S W r o c1 = Some (Ok a1 d1) -> run S W r' o c2 = Some (Ok a2 d2) -> a1 = a2.
  Proof using P. intros r r' c1 c2 o a1 a2 d1 d2 H1 H2 E1 E2. exact (answers_unique S W P o _ _ (c40_exact _ _ _ _ _ H1 E1) (c40_exact _ _ _ _ _ H2 E2)). Qed.
  (** No lookup panics, except that of the directives of the schema itself, which resolution does not check (C13). *)
  Theorem c41_no_panic : forall r c o m, history S W r c -> run S W r o c = Some m -> o <> ODirectives OnSchema -> exists a c', m = Ok a c'.
  Proof using P.
    intros r c o m H E N. apply history_Inv in H as (K & I); auto. pose proof (run_gives S W P r o c m K I E) as R. destruct m; try contradiction. eauto.
  Qed.

  (** ** C43 *)
  (** The types are listed by name, no name twice: exactly the reachable ones. *)
  Theorem c43_types : forall r c, history S W r c -> exists l c', run S W r OTypes c = Some (Ok (ATypes l) c') /\
    StronglySorted tlt (map td_name l) /\ NoDup (map td_name l) /\ forall t, In t l <-> reached S W (inl t).
  Proof using P.
    intros r c H. destruct (c41_no_panic r c OTypes _ H eq_refl) as (a & c' & E); [discriminate|].
    assert (E' : run S W r OTypes c = Some (Ok a c')) by (cbn [run]; now rewrite E). pose proof (c40_exact _ _ _ _ _ H E') as A. inversion A as [| |l (So & L)| | | | | | | | | | | | | | | |]; subst.
    exists l, c'. split; auto. split; auto. split; auto. now apply sorted_NoDup.
  Qed.
  Theorem c43_directives : forall r c, history S W r c -> exists l c', run S W r ODirectiveDefs c = Some (Ok (ADirectiveDefs l) c') /\
    StronglySorted tlt (map dd_name l) /\ NoDup (map dd_name l) /\ forall d, In d l <-> reached S W (inr d).
  Proof using P.
    intros r c H. destruct (c41_no_panic r c ODirectiveDefs _ H eq_refl) as (a & c' & E); [discriminate|].
    assert (E' : run S W r ODirectiveDefs c = Some (Ok a c')) by (cbn [run]; now rewrite E). pose proof (c40_exact _ _ _ _ _ H E') as A. inversion A as [| | |l (So & L)| | | | | | | | | | | | | | |]; subst.
    exists l, c'. split; auto. split; auto. split; auto. now apply sorted_NoDup.
  Qed.
  (** What is reachable is shown. *)
  Theorem c43_reached_shown : forall x, reached S W x -> match x with inl t => shown S W t | inr d => shown_ddef S W (dd_name d) d end.
  Proof using P.
    intros [t|d] H; apply in_schema_reached in H; auto; cbn in H; [apply shown_of in H; apply H | now apply shown_ddef_of].
  Qed.
  (** The lists are closed: whatever the answer to a lookup on a listed type or directive leads to is listed, except through the
      fields of a union. *)
  Definition leads_to (a : answer) (x : node) : Prop :=
    match a with
    | AFields l => exists y, In y l /\ x = inl (snd (snd y))
    | AField o => exists y, o = Some y /\ x = inl (snd (snd y))
    | AInterfaces l => exists i, In i l /\ x = inl (DInterface i)
    | AMembers l => exists m, In m l /\ x = inl (DObject (snd m))
    | AInputs l => exists y, In y l /\ x = inl (snd (snd y))
    | AObjects l => exists o, In o l /\ x = inl (DObject o)
    | ADirectives l => exists y, In y l /\ x = inr (snd y)
    | _ => False
    end.
  Definition asked_of_place (p : place) (x : node) : Prop :=
    match p, x with PArgument t _, inl d | PInputField t, inl d => td_name d = t | PDirectiveArgument n, inr d => dd_name d = n | _, _ => False end.
  Definition asked_of (o : op) (x : node) : Prop :=
    match o, x with
    | OFields t, inl d | OField t _, inl d | OInterfaces t, inl d | OMembers t, inl d | OInputFields t, inl d | OArguments t _, inl d | OImplementors t, inl d => td_name d = t
    | ODirectiveArguments n, inr d => dd_name d = n
    | ODirectives (OnType t), inl d | ODirectives (OnField t _), inl d | ODirectives (OnValue t _), inl d => td_name d = t
    | ODirectives (OnInput p _), x => asked_of_place p x
    | _, _ => False
    end.
  Definition is_union (x : node) : Prop := match x with inl (DUnion _) => True | _ => False end.
  Definition through_fields (o : op) : Prop :=
    match o with OFields _ | OField _ _ | OArguments _ _ | ODirectives (OnField _ _) | ODirectives (OnInput (PArgument _ _) _) => True | _ => False end.
  Lemma same_type t d : visible_type S W t = Some d -> forall x, reached S W (inl x) -> td_name x = t -> d = x.
  Proof using P. intros V x R E. apply in_schema_reached in R; auto. cbn in R. rewrite E in R. congruence. Qed.
  Lemma same_ddef t d : visible_ddef S W t = Some d -> forall x, reached S W (inr x) -> dd_name x = t -> d = x.
  Proof using P. intros V x R E. apply in_schema_reached in R; auto. cbn in R. rewrite E in R. congruence. Qed.
  Lemma fields_reached t d z : reached S W (inl d) -> td_name d = t -> ~ is_union (inl d) -> field_of S W t (td_fields d) z -> reached S W z.
  Proof using P.
    intros R E U F. eapply re_step; [exact R|]. destruct d; cbn [td_fields td_name is_union] in *; subst t; try (now constructor); try tauto.
    all: destruct F as [x z I _|x z I _|x I]; destruct I.
  Qed.
  Lemma inputs_reached p l z x : inputs_at S W p l -> reached S W x -> asked_of_place p x -> (match p with PArgument _ _ => ~ is_union x | _ => True end) ->
    input_of S W p l z -> reached S W z.
  Proof using P.
    intros A R Q U F. destruct A as [t f y (d & V & I & E)|t d V|d e V]; destruct x as [u|u]; cbn in Q; try contradiction.
    - pose proof (same_type _ _ V _ R Q). subst d. apply (fields_reached t u); auto. eapply fo_argument; eauto. now rewrite E.
    - pose proof (same_type _ _ V _ R Q). subst u. subst t. eapply re_step; [exact R|]. now constructor.
    - pose proof (same_ddef _ _ V _ R Q). subst u. subst d. eapply re_step; [exact R|]. now constructor.
  Qed.
  Theorem c43_closed : forall r c o a c' x y, history S W r c -> run S W r o c = Some (Ok a c') ->
    reached S W x -> asked_of o x -> (through_fields o -> ~ is_union x) -> leads_to a y -> reached S W y.
  Proof using P.
    intros r c o a c' x y H E R Q U L. pose proof (c40_exact _ _ _ _ _ H E) as A. clear H E.
    destruct A as [n|n|l H|l H| | | |t d V|t d n V|t d V|t d V|t d V|t l A|t f l A|d l A|i|p l D|p l k z A N|p l k z D N]; cbn [leads_to] in L; try contradiction;
      try (lazymatch type of Q with asked_of (ODirectives _) _ => idtac | _ => destruct x as [u|u]; cbn in Q; try contradiction end).
    - destruct L as (z & I & ->). pose proof (same_type _ _ V _ R Q). subst d. apply (fields_reached t u); auto; [now apply U|]. now apply fo_type.
    - destruct L as (z & F & ->). apply find_some in F as (I & _). pose proof (same_type _ _ V _ R Q). subst d. apply (fields_reached t u); auto; [now apply U|]. now apply fo_type.
    - destruct L as (i & I & ->). pose proof (same_type _ _ V _ R Q). subst d. eapply re_step; [exact R|]. apply mn_interface. now rewrite Q.
    - destruct L as (m & I & ->). pose proof (same_type _ _ V _ R Q). subst u. subst t. eapply re_step; [exact R|]. now apply mn_member.
    - destruct L as (z & I & ->). eapply inputs_reached; [exact A|exact R|exact Q|exact Logic.I|]. now apply io_type.
    - destruct L as (z & I & ->). eapply inputs_reached; [exact A|exact R|exact Q|now apply U|]. now apply io_type.
    - destruct L as (z & I & ->). eapply inputs_reached; [exact A|exact R|exact Q|exact Logic.I|]. now apply io_type.
    - destruct L as (o & I & ->). pose proof I as I'. apply visible_implementors_In in I' as (_ & _ & _ & j & J & F); auto.
      apply visible_interfaces_In in J as (_ & _ & J); auto. apply visible_interface_Some in J as (J & _ & V'); auto.
      assert (V : visible_type S W (if_name j) = Some (DInterface j)) by now apply visible_type_Some.
      rewrite F in V. pose proof (same_type _ _ V _ R Q). subst u. eapply re_step; [exact R|]. apply mn_implementor. now rewrite F.
    - destruct L as (z & I & ->). assert (DO : directive_of S W l (inr (snd z))) by (destruct z; econstructor; exact I).
      destruct D as [|t d V|t f w (d & V & J & F)|t d k v V N|q m k w A N].
      + contradiction.
      + cbn in Q. destruct x as [u|u]; [|contradiction]. pose proof (same_type _ _ V _ R Q). subst d. eapply re_step; [exact R|]. now apply mn_directive.
      + cbn in Q. destruct x as [u|u]; [|contradiction]. pose proof (same_type _ _ V _ R Q). subst d. apply (fields_reached t u); auto; [now apply U|]. eapply fo_directive; eauto.
      + cbn in Q. destruct x as [u|u]; [|contradiction]. pose proof (same_type _ _ V _ R Q). subst u. cbn in Q. subst t. eapply re_step; [exact R|]. apply nth_error_In in N. eapply mn_value; eauto.
      + apply nth_error_In in N. eapply inputs_reached; [exact A|exact R|destruct q, x; exact Q| |eapply io_directive; eauto]. destruct q; auto. now apply U.
  Qed.
End Theorems.

(** ** C42 *)
Section Null.
  Variable S : schema.
  Hypothesis P : proper S (null_warden S).
  Notation W := (null_warden S).
  Lemma null_type n : visible_type S W n = get_type S n.
  Proof. unfold visible_type. destruct (get_type S n) as [t|]; auto. now destruct t. Qed.
  Lemma null_ddef n : visible_ddef S W n = get_ddef S n.
  Proof. unfold visible_ddef. now destruct (get_ddef S n). Qed.
  Lemma filter_map_all {A B} (g : A -> option B) (k : B -> A) l : (forall x, In x l -> exists y, g x = Some y /\ k y = x) -> map k (filter_map g l) = l.
  Proof.
    induction l as [|x l IH]; cbn; intros H; auto. destruct (H x (or_introl eq_refl)) as (y & E & F). rewrite E. cbn. rewrite F, IH; auto.
  Qed.
  Lemma null_ref r : (exists u, In u (s_types S) /\ td_name u = tref_base r) -> exists u, visible_ref S W r = Some (r, u).
  Proof using P. intros (u & I & E). exists u. unfold visible_ref. rewrite null_type, <- E, (get_type_In S W P _ I). reflexivity. Qed.
  Lemma null_fields t d : In d (s_types S) -> map fst (visible_fields S W t (td_fields d)) = td_fields d.
  Proof using P.
    intros I. apply filter_map_all. intros f J. cbn [w_field null_warden]. destruct (ro_fields _ _ (p_references _ _ P) d f I J) as (u & Iu & E & _).
    destruct (null_ref (fd_type f)) as (v & Q); [eauto|]. rewrite Q. cbn. eauto.
  Qed.
  Lemma null_inputs p l : (forall i, In i l -> value_defined (s_types S) (s_ddefs S) i) -> map fst (visible_inputs S W p l) = l.
  Proof using P.
    intros I. apply filter_map_all. intros f J. cbn [w_input null_warden]. destruct (ro_values _ _ (p_references _ _ P) f (I f J)) as (u & Iu & E & _).
    destruct (null_ref (iv_type f)) as (v & Q); [eauto|]. rewrite Q. cbn. eauto.
  Qed.
  Lemma null_interfaces t d : In d (s_types S) -> map if_name (visible_interfaces S W t (td_interfaces d)) = td_interfaces d.
  Proof using P.
    intros I. apply filter_map_all. intros n J. cbn [w_implements null_warden]. destruct (ro_interfaces _ _ (p_references _ _ P) d n I) as (i & Ii & <-).
    { now destruct d. }
    exists i. split; auto. now apply visible_interface_Some.
  Qed.
  Lemma null_members t d : In (DUnion d) (s_types S) -> map fst (visible_members S W t (un_members d)) = un_members d.
  Proof using P.
    intros I. apply filter_map_all. intros n J. cbn [w_member null_warden]. destruct (ro_members _ _ (p_references _ _ P) d n I J) as (o & Io & <-).
    exists (ob_name o, o). split; auto. assert (E : visible_object S W (ob_name o) = Some o) by now apply visible_object_Some. now rewrite E.
  Qed.
  Lemma filter_true {A} (l : list A) : filter (fun _ => true) l = l.
  Proof. induction l as [|x l IH]; cbn; congruence. Qed.
  Lemma null_implementors n : visible_implementors S W n = implementors S n.
  Proof using P.
    unfold visible_implementors. rewrite <- (map_id (filter_map _ _)). apply filter_map_all. intros o I. exists o. split; auto.
    apply implementors_In in I as (I & J). cbn [type_visible w_type null_warden andb].
    destruct (ro_interfaces _ _ (p_references _ _ P) (DObject o) n I J) as (i & Ii & <-).
    assert (E : existsb (fun i0 => teqb (if_name i0) (if_name i)) (visible_interfaces S W (ob_name o) (ob_ifaces o)) = true); [|now rewrite E].
    apply existsb_exists. exists i. rewrite teqb_refl. split; auto. apply visible_interfaces_In; auto. split; auto. split; auto. now apply visible_interface_Some.
  Qed.
  Lemma null_directives l : (forall d, In d l -> get_ddef S (dir_name d) <> None) -> map fst (visible_directives S W l) = l.
  Proof.
    intros H. apply filter_map_all. intros d I. rewrite null_ddef. specialize (H d I). destruct (get_ddef S (dir_name d)) as [e|]; [|congruence]. exists (d, e). auto.
  Qed.
  Lemma get_field_In fs f : NoDup (map fd_name fs) -> In f fs -> get_field fs (fd_name f) = Some f.
  Proof.
    intros N I. unfold get_field. destruct (find _ fs) as [g|] eqn:E.
    - apply find_some in E as (J & E). apply teqb_eq in E. f_equal. now apply (NoDup_key_inj fd_name fs).
    - apply (find_none _ _ E) in I. cbn in I. now rewrite teqb_refl in I.
  Qed.
  Lemma plain_field t f x : visible_field S W t f x -> exists d, get_type S t = Some d /\ get_field (td_fields d) f = Some (fst x).
  Proof using P.
    intros (d & V & I & <-). rewrite null_type in V. exists d. split; auto. apply visible_fields_In in I as (I & _). apply get_type_Some in V as (V & _).
    apply get_field_In; auto. now apply (p_fields _ _ P).
  Qed.
  Lemma plain_inputs p l : inputs_at S W p l -> plain_inputs_at S p = Some l.
  Proof using P.
    intros [t f x F|t d V|d e V]; cbn.
    - apply plain_field in F as (d & -> & ->). reflexivity.
    - rewrite null_type in V. now rewrite V.
    - rewrite null_ddef in V. now rewrite V.
  Qed.
  Lemma plain_directives p l : directives_at S W p l -> plain_directives_at S p = Some l.
  Proof using P.
    intros [|t d V|t f x F|t d k v V N|q m k x A N]; cbn.
    - reflexivity.
    - rewrite null_type in V. now rewrite V.
    - apply plain_field in F as (d & -> & ->). reflexivity.
    - rewrite null_type in V. rewrite V. unfold visible_values in N. cbn [w_value null_warden] in N. rewrite filter_true in N. now rewrite N.
    - rewrite (plain_inputs _ _ A). assert (M : map fst (visible_inputs S W q m) = m) by (apply null_inputs; intros i; now apply (inputs_at_defined S W P q)).
      apply (map_nth_error fst) in N. rewrite M in N. now rewrite N.
  Qed.
  Lemma same_ref_of r x : visible_ref S W r = Some x -> same_ref S r x.
  Proof. intros H. apply visible_ref_Some in H as (E & V). rewrite null_type in V. split; auto. Qed.
  Lemma same_inputs_of p l : inputs_at S W p l -> same_inputs S (visible_inputs S W p l) l.
  Proof using P.
    intros A. split; [apply null_inputs; intros i; now apply (inputs_at_defined S W P p)|]. intros x I. apply visible_inputs_In in I as (_ & _ & R). now apply same_ref_of.
  Qed.
  Lemma null_object n : object_named (s_types S) n -> option_map DObject (visible_object S W n) = get_type S n.
  Proof using P.
    intros (o & I & <-). assert (V : visible_object S W (ob_name o) = Some o) by now apply visible_object_Some. rewrite V. cbn.
    symmetry. exact (get_type_In S W P _ I).
  Qed.
  Lemma find_map_fst {A B} (f : A -> bool) (l : list (A * B)) : option_map fst (find (fun x => f (fst x)) l) = find f (map fst l).
  Proof. induction l as [|x l IH]; cbn; auto. now destruct (f (fst x)). Qed.
  (** With a warden that shows everything, every answer has the members of the schema, in the order of the schema. *)
  Theorem c42_nothing_missing : forall r c o a c', history S W r c -> run S W r o c = Some (Ok a c') -> nothing_missing S W o a.
  Proof using P.
    intros r c o a c' H E. pose proof (c40_exact S W P _ _ _ _ _ H E) as A. clear H E.
    destruct (p_roots _ _ P) as (RQ & RM & RS).
    destruct A as [n|n|l H|l H| | | |t d V|t d n V|t d V|t d V|t d V|t l A|t f l A|d l A|i|p l D|p l k x A N|p l k x D N]; cbn [nothing_missing].
    - apply null_type.
    - apply null_ddef.
    - exact H.
    - exact H.
    - pose proof (null_object _ RQ) as Q. destruct RQ as (o & I & F). assert (V : visible_object S W (s_query S) = Some o) by now apply visible_object_Some.
      rewrite V in *. exists o. split; auto.
    - destruct (s_mutation S) as [n|]; [|reflexivity]. apply null_object. now apply RM.
    - destruct (s_subscription S) as [n|]; [|reflexivity]. apply null_object. now apply RS.
    - rewrite null_type in V. exists d. split; auto. split; [apply null_fields; now apply get_type_Some in V|]. intros x I. apply visible_fields_In in I as (_ & _ & R). now apply same_ref_of.
    - rewrite null_type in V. exists d. split; auto. rewrite (find_map_fst (fun f => teqb (fd_name f) n)), null_fields; [reflexivity | now apply get_type_Some in V].
    - rewrite null_type in V. exists d. split; auto. split; [apply null_interfaces; now apply get_type_Some in V|]. intros x I. apply visible_interfaces_In in I as (_ & _ & R); auto.
      unfold visible_interface in R. rewrite null_type in R. destruct (get_type S (if_name x)) as [u|]; [|discriminate]. destruct u; congruence.
    - rewrite null_type in V. exists d. split; auto. split; [apply null_members; now apply get_type_Some in V|]. intros x I. apply visible_members_In in I as (_ & _ & R).
      unfold visible_object in R. rewrite null_type in R. destruct (get_type S (fst x)) as [u|]; [|discriminate]. destruct u; congruence.
    - rewrite null_type in V. exists d. split; auto. unfold visible_values. cbn [w_value null_warden]. apply filter_true.
    - exists l. split; [now apply plain_inputs | now apply same_inputs_of].
    - exists l. split; [now apply plain_inputs | now apply same_inputs_of].
    - exists l. split; [now apply plain_inputs | now apply same_inputs_of].
    - apply null_implementors.
    - exists l. split; [now apply plain_directives|]. split; [apply null_directives|]. intros x I. apply visible_directives_In in I as (_ & I). now rewrite null_ddef in I.
    - pose proof (same_inputs_of p l A) as (M & _). apply (map_nth_error fst) in N. rewrite M in N. exists l, (fst x). split; [now apply plain_inputs|]. auto.
    - exists l, (fst x). split; [now apply plain_directives|]. split; [|split; [apply nth_error_In, visible_directives_In in N; apply N | reflexivity]].
      intros Np. apply (map_nth_error fst) in N. rewrite null_directives in N; auto. intros d I F. destruct (directives_at_used S W P _ _ d D Np I) as (e & Q). congruence.
  Qed.
  (** and the scoped schema can be made *)
  Theorem c42_new : exists r c, new_schema S W fresh = Ok (Some r) c.
  Proof using P.
    pose proof (c40_query_root S W P) as H. destruct (new_schema S W fresh) as [[r|] c| |]; try contradiction; eauto. exfalso.
    destruct (p_roots _ _ P) as ((o & I & E) & _). assert (V : visible_object S W (s_query S) = Some o) by now apply visible_object_Some. congruence.
  Qed.
End Null.

(** ** Examples *)
Definition hidden (l : list (string * string)) (t f : name) : bool := existsb (fun p => teqb (tx (fst p)) t && teqb (tx (snd p)) f) l.
(** a warden that hides the types named in [ts] and the members (fields, values, implementations, members) and the input fields in [ms] *)
Definition hiding (ts : list string) (ms : list (string * string)) (s : schema) : warden :=
  let w := null_warden s in
  {| w_type := fun t => negb (tmem (td_name t) (map tx ts)); w_field := fun t f => negb (hidden ms t (fd_name f));
     w_input := fun p i => match p with PInputField t => negb (hidden ms t (iv_name i)) | _ => true end;
     w_value := fun t v => negb (hidden ms t (ev_name v)); w_member := fun t n => negb (hidden ms t n); w_implements := fun t n => negb (hidden ms t n);
     w_ddef := fun d => negb (hidden ms (tx "@") (dd_name d));
     w_default := w_default w; w_arguments := w_arguments w; w_candidates := w_candidates w; w_equal := w_equal w |}.
(** [seen text w k]: the text is read as a schema, whose scoped version can be made *)
Definition seen (t : string) (w : schema -> warden) (k : schema -> warden -> roots -> cache -> Prop) : Prop :=
  exists s r c, ResolveProps.run t = inl (inl s) /\ new_schema s (w s) fresh = Ok (Some r) c /\ k s (w s) r c.
Definition fields_once (s : schema) : bool := forallb (fun t => unique (map fd_name (td_fields t))) (s_types s).
Lemma text_proper t s w : ResolveProps.run t = inl (inl s) -> fields_once s = true ->
  (forall n t, In t (w_candidates w n) <-> get_type s n = Some t) -> (forall t, w_equal w t t = true) -> proper s w.
Proof.
  unfold ResolveProps.run, read_schema_with. destruct (parse_schema_text _ _ _ _ _ _) as [d|]; [|discriminate]. destruct (resolve d) as [s'|] eqn:E; [|discriminate].
  intros [= ->] F C Q. eapply resolved_proper; eauto. intros u I. unfold fields_once in F. rewrite forallb_forall in F. apply unique_NoDup. now apply F.
Qed.
Definition finds (w : schema -> warden) : Prop := forall s, (forall n t, In t (w_candidates (w s) n) <-> get_type s n = Some t) /\ forall t, w_equal (w s) t t = true.
Lemma null_finds : finds null_warden.
Proof. intros s. split; intros; [apply null_candidates | apply null_equal]. Qed.
Lemma hiding_finds ts ms : finds (hiding ts ms).
Proof. intros s. split; intros; [apply (null_candidates s) | apply (null_equal s)]. Qed.
Definition look {A} (t : string) (w : schema -> warden) (f : schema -> warden -> roots -> cache -> A) : option (bool * A) :=
  match ResolveProps.run t with
  | inl (inl s) => match new_schema s (w s) fresh with Ok (Some r) c => Some (fields_once s, f s (w s) r c) | _ => None end
  | _ => None
  end.
Lemma look_seen {A} t w (f : schema -> warden -> roots -> cache -> A) b x (k : schema -> warden -> roots -> cache -> Prop) :
  finds w -> look t w f = Some (b, x) ->
  (forall s r c, (b = true -> proper s (w s)) -> history s (w s) r c -> f s (w s) r c = x -> k s (w s) r c) -> seen t w k.
Proof.
  unfold look. intros F L K. destruct (ResolveProps.run t) as [[s|]|] eqn:E; try discriminate.
  destruct (new_schema s (w s) fresh) as [[r|] c| |] eqn:N; try discriminate. injection L as <- <-.
  exists s, r, c. split; auto. split; auto. apply K; auto.
  - intros Q. eapply text_proper; eauto; apply F.
  - now apply h_new.
Qed.
Ltac look f FW := eapply (look_seen _ _ f); [exact FW | vm_compute; reflexivity |].
Fixpoint asks (s : schema) (w : warden) (r : roots) (os : list op) (c : cache) : list answer * cache :=
  match os with
  | [] => ([], c)
  | o :: os' => match run s w r o c with Some (Ok a c') => let (l, c'') := asks s w r os' c' in (a :: l, c'') | _ => ([], c) end
  end.
Lemma asks_history s w r os c : history s w r c -> history s w r (snd (asks s w r os c)).
Proof.
  revert c. induction os as [|o os IH]; intros c H; cbn [asks]; auto. destruct (run s w r o c) as [[a c'| |]|] eqn:E; auto.
  specialize (IH c' (h_step _ _ _ _ _ _ _ H E)). destruct (asks s w r os c'). exact IH.
Qed.
Definition answer_names (a : answer) : list name :=
  match a with
  | AType o => match o with Some t => [td_name t] | None => [] end
  | ADirectiveDef o => match o with Some t => [dd_name t] | None => [] end
  | ATypes l => map td_name l | ADirectiveDefs l => map dd_name l
  | AObject o => match o with Some t => [ob_name t] | None => [] end
  | AFields l => map (fun x => fd_name (fst x)) l
  | AField o => match o with Some x => [fd_name (fst x)] | None => [] end
  | AInterfaces l => map if_name l | AMembers l => map fst l | AValues l => map ev_name l | AInputs l => map (fun x => iv_name (fst x)) l
  | AObjects l => map ob_name l | ADirectives l => map (fun x => dir_name (fst x)) l
  | AValue _ => [] | AArguments l => map fst l
  end.
(** introspection hidden *)
Definition plain : list (string * string) := [("Query", "__schema"); ("Query", "__type")].
Definition world : string := "interface N { id: ID! } type Query implements N { id: ID! s: Secret f(a: I, b: H): U e(x: E = Y): E } type Secret { x: Int @d }
  input I { p: H q: Int } input H { z: Int } union U = Query | Secret | A type A implements N { id: ID! } enum E { X @d Y } type Lost { l: Float } directive @d(i: I) on FIELD_DEFINITION".
Definition veil : schema -> warden := hiding ["Secret"; "H"] (("E", "Y") :: ("A", "N") :: plain).
Definition questions : list op :=
  [OType (tx "Secret"); OFields (tx "Query"); OField (tx "Query") (tx "s"); OField (tx "Query") (tx "f"); OType (tx "Lost"); OType (tx "U"); OMembers (tx "U"); OType (tx "N");
   OImplementors (tx "N"); OType (tx "E"); OValues (tx "E"); ODirectives (OnValue (tx "E") 0); OArguments (tx "Query") (tx "f"); OTypes; ODirectiveDefs;
   OArguments (tx "Query") (tx "e"); ODefault (PArgument (tx "Query") (tx "e")) 0].
Example visibility_case : seen world veil (fun s w r c => proper s w /\ history s w r c /\
  map answer_names (fst (asks s w r questions c)) = map (map tx)
    [[]; ["__typename"; "id"; "f"; "e"]; []; ["f"]; ["Lost"]; ["U"]; ["Query"; "A"]; ["N"]; ["Query"]; ["E"]; ["X"]; ["d"]; ["a"];
     ["A"; "Boolean"; "E"; "I"; "ID"; "Int"; "N"; "Query"; "String"; "U"]; ["d"; "deprecated"; "include"; "oneOf"; "skip"; "specifiedBy"]; ["x"]; []]).
Proof.
  look (fun s w r c => map answer_names (fst (asks s w r questions c))) (hiding_finds ["Secret"; "H"] (("E", "Y") :: ("A", "N") :: plain)).
  intros s r c P H E. split; [now apply P | now split].
Qed.
(** the warden that shows everything *)
Definition more_questions : list op := [OFields (tx "Query"); OType (tx "U"); OMembers (tx "U"); OType (tx "N"); OImplementors (tx "N"); OType (tx "I"); OInputFields (tx "I")].
Example c42_case : seen world null_warden (fun s w r c => proper s w /\ history s w r c /\
  map answer_names (fst (asks s w r more_questions c)) =
  map (map tx) [["__typename"; "id"; "s"; "f"; "e"; "__schema"; "__type"]; ["U"]; ["Query"; "Secret"; "A"]; ["N"]; ["A"; "Query"]; ["I"]; ["p"; "q"]]).
Proof. look (fun s w r c => map answer_names (fst (asks s w r more_questions c))) null_finds. intros s r c P H E. split; [now apply P | now split]. Qed.

(** ** Where the claims are false *)
(** C40: the default methods of a warden do not look into default values and directive arguments: a hidden enum value can be seen there. *)
Theorem c40_default_value_refuted : seen world veil (fun s w r c =>
  proper s w /\ exists c0 vs c1 c2, history s w r c0 /\ run s w r (OValues (tx "E")) c0 = Some (Ok (AValues vs) c1) /\ ~ In (tx "Y") (map ev_name vs) /\
  run s w r (ODefault (PArgument (tx "Query") (tx "e")) 0) c0 = Some (Ok (AValue (Some (VEnum (tx "Y")))) c2)).
Proof.
  look (fun s w r c => let c0 := snd (asks s w r [OType (tx "E"); OField (tx "Query") (tx "e"); OArguments (tx "Query") (tx "e")] c) in
    (match run s w r (OValues (tx "E")) c0 with Some (Ok (AValues vs) _) => Some (map ev_name vs) | _ => None end,
     match run s w r (ODefault (PArgument (tx "Query") (tx "e")) 0) c0 with Some (Ok (AValue v) _) => v | _ => None end)) (hiding_finds ["Secret"; "H"] (("E", "Y") :: ("A", "N") :: plain)).
  intros s r c P H E. split; [now apply P|]. cbv zeta in E. revert E.
  pose proof (asks_history s (veil s) r [OType (tx "E"); OField (tx "Query") (tx "e"); OArguments (tx "Query") (tx "e")] c H) as H'. revert H'.
  generalize (snd (asks s (veil s) r [OType (tx "E"); OField (tx "Query") (tx "e"); OArguments (tx "Query") (tx "e")] c)). intros c0 H' E. pose proof (f_equal fst E) as E1. pose proof (f_equal snd E) as E2. clear E. cbn [fst snd] in E1, E2. exists c0.
  destruct (run s (veil s) r (OValues (tx "E")) c0) as [[a c1| |]|]; try discriminate. destruct a as [| | | | | | | | |vs| | | | |]; cbv beta iota in E1; try discriminate. injection E1 as E1.
  destruct (run s (veil s) r (ODefault (PArgument (tx "Query") (tx "e")) 0) c0) as [[a' c2| |]|]; try discriminate. destruct a'; cbv beta iota in E2; try discriminate.
  exists vs, c1, c2. split; auto. split; auto. rewrite E1, E2. split; [|reflexivity]. intros I. apply tmem_In in I. vm_compute in I. discriminate.
Qed.
(** C41: if a type has two fields with one name, the answer does depend on what was asked before: the first of the two has a hidden
    type; asking for the field by its name makes the list of fields give the second one. *)
Theorem c41_same_names_refuted : seen "type Hidden { x: Int } type Query { a: Hidden a: Int b: Int }" (hiding ["Hidden"] plain) (fun s w r c =>
  map answer_names (fst (asks s w r [OFields (tx "Query")] c)) = map (map tx) [["__typename"; "a"; "b"]] /\
  map answer_names (fst (asks s w r [OField (tx "Query") (tx "a"); OFields (tx "Query")] c)) = map (map tx) [["a"]; ["__typename"; "a"; "a"; "b"]]).
Proof.
  look (fun s w r c => (map answer_names (fst (asks s w r [OFields (tx "Query")] c)), map answer_names (fst (asks s w r [OField (tx "Query") (tx "a"); OFields (tx "Query")] c))))
    (hiding_finds ["Hidden"] plain). intros s r c _ _ E. injection E as E1 E2. now split.
Qed.
(** C41: a directive on the schema definition that is not defined makes the lookup of the schema's directives panic. *)
Theorem c41_schema_directives_refuted : seen "schema @nowhere { query: A } type A { x: Int }" null_warden (fun s w r c =>
  proper s w /\ run s w r (ODirectives OnSchema) c = Some Panic).
Proof.
  look (fun s w r c => match run s w r (ODirectives OnSchema) c with Some Panic => true | _ => false end) null_finds. intros s r c P _ E. split; [now apply P|].
  destruct (run s (null_warden s) r (ODirectives OnSchema) c) as [[| |]|]; congruence.
Qed.
(** C43: the types of the fields of a union ([__typename]) need not be listed. *)
Definition blind (s : schema) : warden := hiding [] (("A", "__typename") :: ("Query", "__typename") :: ("@", "deprecated") :: ("@", "specifiedBy") :: plain) s.
Theorem c43_union_typename_refuted : seen "type Query { u: U } union U = A type A { x: Int }" blind (fun s w r c =>
  map answer_names (fst (asks s w r [OTypes; OFields (tx "U")] c)) = map (map tx) [["A"; "Boolean"; "Int"; "Query"; "U"]; ["__typename"]]).
Proof.
  look (fun s w r c => map answer_names (fst (asks s w r [OTypes; OFields (tx "U")] c)))
    (hiding_finds [] (("A", "__typename") :: ("Query", "__typename") :: ("@", "deprecated") :: ("@", "specifiedBy") :: plain)). intros s r c _ _ E. exact E.
Qed.
(** C43: a directive definition that is used only on the schema definition is not listed. *)
Theorem c43_schema_directive_refuted : seen "schema @d { query: Query } type Query { x: Int } directive @d on SCHEMA" null_warden (fun s w r c =>
  map answer_names (fst (asks s w r [ODirectives OnSchema; ODirectiveDefs] c)) = map (map tx) [["d"]; ["deprecated"; "include"; "oneOf"; "skip"; "specifiedBy"]]).
Proof. look (fun s w r c => map answer_names (fst (asks s w r [ODirectives OnSchema; ODirectiveDefs] c))) null_finds. intros s r c _ _ E. exact E. Qed.

Print Assumptions c40_no_leak. Print Assumptions c40_exact. Print Assumptions c40_query_root. Print Assumptions c41_history_independent.
Print Assumptions c41_no_panic. Print Assumptions c42_nothing_missing. Print Assumptions c42_new. Print Assumptions c43_types.
Print Assumptions c43_directives. Print Assumptions c43_reached_shown. Print Assumptions c43_closed. Print Assumptions c41_same_names_refuted.
