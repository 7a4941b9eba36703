(** Property C84: comparisons of three versions of a schema, and the same comparison the other way round. *)
From Coq Require Import String.
From Verif Require Import Base Ast Maps CoercionTypes ValueEq ValueEqSpec ValueEqProofs Compare CompareSpec CompareProofs ResolveProps CompareProps.
Local Open Scope string_scope.
Local Open Scope list_scope.

(** a comparison that finds nothing breaking; one that finds only safe changes *)
Definition nothing_breaking (old new : schema) : Prop := forall c, In c (compare old new) -> breaking c = false.
Definition only_safe (old new : schema) : Prop := forall c, In c (compare old new) -> non_breaking c = true.
(** an argument definition or input field on each side *)
Inductive common_input (old new : schema) : ivd -> ivd -> Prop :=
| ci_argument t f g a b : common_argument old new t f g a b -> common_input old new a b
| ci_input_field d e f g : common_input_field old new d e f g -> common_input old new f g
| ci_ddef_argument d e a b : common_ddef_argument old new d e a b -> common_input old new a b.
(** no non-null argument or input field loses its default value (a change that is called dangerous and not breaking) *)
Definition keeps_defaults (old new : schema) : Prop :=
  forall a b, common_input old new a b -> tref_required (iv_type b) = true -> iv_default a <> None -> iv_default b <> None.
(** no directive definition loses all its arguments (a change that is not reported) *)
Definition keeps_arguments (old new : schema) : Prop := forall d e, common_ddef old new d e -> dd_args d <> [] -> dd_args e <> [].

(** ** Changes of types add up *)
Lemma field_safe_trans : forall a b c, change_safe_for_field a b = true -> change_safe_for_field b c = true -> change_safe_for_field a c = true.
Proof.
  induction a as [n r|a IH r]; intros [m s|b s] [k u|c u]; cbn; try discriminate; rewrite !andb_true_iff; intros (H & K) (H' & K').
  - apply teqb_eq in K, K'. subst. split; [destruct r, s, u; auto|]. apply teqb_refl.
  - split; [destruct r, s, u; auto|]. eauto.
Qed.
Lemma input_safe_trans : forall a b c, change_safe_for_input a b = true -> change_safe_for_input b c = true -> change_safe_for_input a c = true.
Proof.
  induction a as [n r|a IH r]; intros [m s|b s] [k u|c u]; cbn; try discriminate; rewrite !andb_true_iff; intros (H & K) (H' & K').
  - apply teqb_eq in K, K'. subst. split; [destruct r, s, u; auto|]. apply teqb_refl.
  - split; [destruct r, s, u; auto|]. eauto.
Qed.
Lemma field_safe_refl a : change_safe_for_field a a = true.
Proof. induction a as [n r|a IH r]; cbn; rewrite ?teqb_refl, ?IH; destruct r; reflexivity. Qed.
Lemma input_safe_refl a : change_safe_for_input a a = true.
Proof. induction a as [n r|a IH r]; cbn; rewrite ?teqb_refl, ?IH; destruct r; reflexivity. Qed.
Lemma input_safe_required a b : change_safe_for_input a b = true -> tref_required b = true -> tref_required a = true.
Proof. destruct a, b; cbn; try discriminate; intros H ->; apply andb_true_iff in H as (H & _); rewrite orb_false_r in H; exact H. Qed.

Lemma found_or_only {A} (nm : A -> name) l l' x : In x l -> (exists y, both nm l l' x y) \/ only_in nm l l' x.
Proof.
  intros I. destruct (existsb (fun y => teqb (nm y) (nm x)) l') eqn:E.
  - apply existsb_exists in E as (y & Iy & E). apply teqb_eq in E. left. exists y. now repeat split.
  - right. split; [exact I|]. intros y Iy K. apply not_true_iff_false in E. apply E. apply existsb_exists. exists y. split; [exact Iy|]. now apply teqb_eq.
Qed.
Lemma only_after {A} (nm : A -> name) l l' l'' x y : both nm l l' x y -> only_in nm l l'' x -> only_in nm l' l'' y.
Proof. intros (_ & I & E) (_ & N). split; [exact I|]. intros z Iz. rewrite <- E. now apply N. Qed.
Lemma only_before {A} (nm : A -> name) l l' l'' x y : both nm l'' l' x y -> only_in nm l'' l x -> only_in nm l' l y.
Proof. intros (_ & I & E) (_ & N). split; [exact I|]. intros z Iz. rewrite <- E. now apply N. Qed.
Lemma both_sym {A} (nm : A -> name) l l' x y : both nm l l' x y -> both nm l' l y x.
Proof. intros (a & b & c). now repeat split. Qed.
Lemma name_dec' (a b : name) : {a = b} + {a <> b}.
Proof. apply list_eq_dec, N.eq_dec. Qed.

(** ** What is reported about directives and about the arguments of directive definitions *)
Section Reported.
  Variables old new : schema.
  Definition annotated_reported l m ds ds' : Prop := annotated old new l m ds ds' \/ annotated_schema old new l m ds ds'.
  Definition exactly (c : change) : Prop :=
    match c with
    | DirectiveAdded l m d => (exists ds ds', annotated_reported l m ds ds' /\ only_in dir_name ds' ds d) \/ misplaced old new c
    | DirectiveRemoved l m d => (exists ds ds', annotated_reported l m ds ds' /\ only_in dir_name ds ds' d) \/ misplaced old new c
    | DirectiveArgumentAdded _ _ | DirectiveArgumentRemoved _ _ | DirectiveArgumentValueChanged _ _ _ =>
        exists l m ds ds' d e, (annotated old new l m ds ds' \/ annotated_input_field old new l m ds ds') /\ both dir_name ds ds' d e /\ In c (directive_diff d e)
    | DirectiveDefinitionArgumentAdded e a => exists d, common_ddef old new d e /\ dd_args d <> [] /\ only_in iv_name (dd_args e) (dd_args d) a
    | DirectiveDefinitionArgumentRemoved e a => exists d, common_ddef old new d e /\ dd_args e <> [] /\ only_in iv_name (dd_args d) (dd_args e) a
    | _ => True
    end.
  Lemma exactly_added l m ds ds' c : annotated_reported l m ds ds' -> In c (directives_added l m ds ds') -> exactly c.
  Proof. intros H K. apply in_map_iff in K as (a & <- & K). apply absent_In in K. left. exists ds, ds'. auto. Qed.
  Lemma exactly_removed l m ds ds' c : annotated_reported l m ds ds' -> In c (directives_removed l m ds ds') -> exactly c.
  Proof. intros H K. apply in_map_iff in K as (a & <- & K). apply absent_In in K. left. exists ds, ds'. auto. Qed.
  Lemma exactly_common l m ds ds' c : annotated old new l m ds ds' \/ annotated_input_field old new l m ds ds' -> In c (common_directive_changes ds ds') -> exactly c.
  Proof.
    intros A K. apply common_sound in K as (d & e & B & K).
    assert (Y : exists l m ds ds' d e, (annotated old new l m ds ds' \/ annotated_input_field old new l m ds ds') /\ both dir_name ds ds' d e /\ In c (directive_diff d e)) by eauto 12.
    unfold directive_diff in K. rewrite !in_app_iff in K. destruct K as [K|[K|K]].
    - apply in_map_iff in K as (a & <- & _). exact Y.
    - apply in_map_iff in K as (a & <- & _). exact Y.
    - apply common_sound in K as (a & b & _ & K). apply when_In in K as (_ & ->). exact Y.
  Qed.
  Lemma exactly_added_to l m ds ds' c : annotated old new l m ds ds' -> In c (directives_added l m ds ds') -> exactly c.
  Proof. intros H. apply exactly_added. now left. Qed.
  Lemma exactly_removed_from l m ds ds' c : annotated old new l m ds ds' -> In c (directives_removed l m ds ds') -> exactly c.
  Proof. intros H. apply exactly_removed. now left. Qed.
  Lemma exactly_common_on l m ds ds' c : annotated old new l m ds ds' -> In c (common_directive_changes ds ds') -> exactly c.
  Proof. intros H. apply (exactly_common l m). now left. Qed.
  Lemma exactly_argument t f g a b c : common_argument old new t f g a b -> In c (argument_diff t f a b) -> exactly c.
  Proof.
    intros H K. assert (AN : annotated old new LArgumentDefinition (iv_name a) (iv_dirs a) (iv_dirs b)) by (eapply an_argument; eassumption).
    unfold argument_diff in K. rewrite !in_app_iff, !when_In in K.
    destruct K as [(_ & ->)|[(_ & ->)|[(_ & ->)|[K|[K|K]]]]]; try exact I; eauto using exactly_added_to, exactly_removed_from, exactly_common_on.
  Qed.
  Lemma exactly_field t f g c : common_field old new t f g -> In c (field_diff t f g) -> exactly c.
  Proof.
    intros H K. assert (AN : annotated old new LFieldDefinition (fd_name f) (fd_dirs f) (fd_dirs g)) by (eapply an_field; eassumption).
    unfold field_diff in K. rewrite !in_app_iff, !when_In in K.
    destruct K as [(_ & ->)|[(_ & ->)|[K|[K|[K|[K|[K|K]]]]]]]; try exact I; eauto using exactly_added_to, exactly_removed_from, exactly_common_on;
      try (apply in_map_iff in K as (a & <- & _); exact I).
    apply common_sound in K as (a & b & B & K). eapply exactly_argument; [split; eassumption|exact K].
  Qed.
  Lemma exactly_type t u c : common_type old new t u -> In c (type_diff t u) -> exactly c.
  Proof.
    intros H K. unfold type_diff in K. apply in_app_or in K as [K|K]; [|apply when_In in K as (_ & ->); exact I].
    destruct t as [b1|a|a|a|a|a|a], u as [b2|b|b|b|b|b|b]; try contradiction; try (destruct K as [<-|[]]; exact I).
    all: unfold object_diff, enum_diff, union_diff, interface_diff, input_diff in K; rewrite !in_app_iff in K.
    all: try (assert (AN : annotated old new LObject (ob_name a) (ob_dirs a) (ob_dirs b)) by (now constructor)).
    all: try (assert (AN : annotated old new LInterface (if_name a) (if_dirs a) (if_dirs b)) by (now constructor)).
    all: try (assert (AN : annotated old new LUnion (un_name a) (un_dirs a) (un_dirs b)) by (now constructor)).
    all: try (assert (AN : annotated old new LEnum (en_name a) (en_dirs a) (en_dirs b)) by (now constructor)).
    all: try (assert (AN : annotated old new LInputObject (io_name a) (io_dirs a) (io_dirs b)) by (now constructor)).
    all: repeat (destruct K as [K|K]); try (apply in_map_iff in K as (x & <- & _); exact I); eauto using exactly_added_to, exactly_removed_from, exactly_common_on.
    all: apply common_sound in K as (x & y & B & K).
    - assert (E : ob_name b = ob_name a) by (symmetry; apply H). rewrite E in K. eapply exactly_field; [|exact K]. exact (cfd_intro _ _ _ _ _ _ _ (cf_object _ _ _ _ H) B).
    - assert (CI : common_input_field old new a b x y) by (split; assumption). unfold input_field_diff in K. rewrite !in_app_iff, !when_In in K.
      destruct K as [(_ & ->)|[(_ & ->)|[(_ & ->)|[K|[K|K]]]]]; try exact I.
      + apply in_map_iff in K as (d & <- & K). apply absent_In in K. right. eapply mp_added; eassumption.
      + apply in_map_iff in K as (d & <- & K). apply absent_In in K. right. eapply mp_removed; eassumption.
      + eapply exactly_common; [right; econstructor; exact CI|exact K].
    - assert (AN2 : annotated old new LEnumValue (ev_name x) (ev_dirs x) (ev_dirs y)) by (eapply an_enum_value; split; eassumption).
      unfold enum_value_diff in K. rewrite !in_app_iff, !when_In in K.
      destruct K as [(_ & ->)|[K|[K|K]]]; try exact I; eauto using exactly_added_to, exactly_removed_from, exactly_common_on.
    - assert (E : if_name b = if_name a) by (symmetry; apply H). rewrite E in K. eapply exactly_field; [|exact K]. exact (cfd_intro _ _ _ _ _ _ _ (cf_interface _ _ _ _ H) B).
  Qed.
  Lemma reported_exactly c : In c (compare old new) -> exactly c.
  Proof.
    intros K. apply compare_In in K. unfold schema_diff in K. rewrite !in_app_iff in K.
    assert (AN : annotated_reported LSchema [] (s_dirs old) (s_dirs new)) by (right; constructor).
    destruct K as [K|[K|[K|[K|[K|[K|[K|K]]]]]]]; eauto using exactly_added, exactly_removed; try (apply in_map_iff in K as (x & <- & _); exact I).
    - apply common_sound in K as (t & u & B & K). eapply exactly_type; eassumption.
    - apply common_sound in K as (d & e & B & K). unfold ddef_diff in K. rewrite !in_app_iff, when_In in K.
      destruct K as [(_ & ->)|[K|[K|[K|[K|K]]]]]; try exact I; try (apply in_map_iff in K as (x & <- & _); exact I).
      + apply in_map_iff in K as (a & <- & K). unfold ddef_argument_additions in K. destruct (dd_args d) eqn:E; [contradiction|].
        rewrite <- E in K. apply absent_In in K. exists d. split; [exact B|]. split; [congruence|exact K].
      + apply in_map_iff in K as (a & <- & K). unfold ddef_argument_removals in K. destruct (dd_args e) eqn:E; [contradiction|].
        rewrite <- E in K. apply absent_In in K. exists d. split; [exact B|]. split; [congruence|exact K].
      + apply common_sound in K as (a & b & _ & K). unfold ddef_argument_diff in K. rewrite !in_app_iff, !when_In in K.
        destruct K as [(_ & ->)|[(_ & ->)|(_ & ->)]]; exact I.
  Qed.
  Lemma exactly_removed_somewhere l m d : exactly (DirectiveRemoved l m d) -> exists l m ds ds', annotated_reported l m ds ds' /\ only_in dir_name ds ds' d.
  Proof.
    intros [(ds & ds' & H & O)|M]; [eauto 8|]. inversion M as [|a b f g d' H O]. subst. do 4 eexists. split; [left; apply an_input; exact (proj1 H)|exact O].
  Qed.
  (** and the other way round *)
  Hypothesis U : names_once new.
  Lemma reported_directive_removed l m ds ds' d : annotated_reported l m ds ds' -> only_in dir_name ds ds' d -> In (DirectiveRemoved l m d) (compare old new).
  Proof. intros H K. apply compare_In. eapply annotated_removed; eauto. apply in_map. now apply absent_In. Qed.
  Lemma reported_ddef_argument_added d e a : common_ddef old new d e -> dd_args d <> [] -> only_in iv_name (dd_args e) (dd_args d) a ->
    In (DirectiveDefinitionArgumentAdded e a) (compare old new).
  Proof.
    intros H N K. apply compare_In. eapply ddef_complete; eauto. unfold ddef_diff. rewrite !in_app_iff. do 3 right. left. apply in_map. unfold ddef_argument_additions.
    destruct (dd_args d) eqn:E; [congruence|]. now apply absent_In.
  Qed.
  Lemma reported_ddef_argument_removed d e a : common_ddef old new d e -> dd_args e <> [] -> only_in iv_name (dd_args d) (dd_args e) a ->
    In (DirectiveDefinitionArgumentRemoved e a) (compare old new).
  Proof.
    intros H N K. apply compare_In. eapply ddef_complete; eauto. unfold ddef_diff. rewrite !in_app_iff. do 4 right. left. apply in_map. unfold ddef_argument_removals.
    destruct (dd_args e) eqn:E; [congruence|]. now apply absent_In.
  Qed.
End Reported.

(** ** Steps *)
Lemma iv_required_eq a : iv_required a = tref_required (iv_type a) && (match iv_default a with None => true | Some _ => false end).
Proof. unfold iv_required. destruct (iv_default a), (tref_required (iv_type a)); reflexivity. Qed.
Section Steps.
  Variables old mid new : schema.
  Hypothesis Fo : floats old.
  Hypothesis Fm : floats mid.
  Hypothesis Fn : floats new.
  Hypothesis Um : names_once mid.
  Hypothesis Un : names_once new.
  Hypothesis B1 : nothing_breaking old mid.
  Hypothesis B2 : nothing_breaking mid new.
  Hypothesis KA : keeps_arguments old mid.
  Hypothesis KD : keeps_defaults mid new.

  Lemma first c : real old mid c -> match c with DirectiveDefinitionArgumentAdded _ _ | DirectiveDefinitionArgumentRemoved _ _ | DirectiveRemoved _ _ _ => True | _ => breaking c = false end.
  Proof.
    intros R. pose proof (c45_existence_and_types old mid c Fo Fm Um R) as H. destruct c; try exact I; try (apply B1; exact H); reflexivity.
  Qed.
  Lemma second c : real mid new c -> match c with DirectiveDefinitionArgumentAdded _ _ | DirectiveDefinitionArgumentRemoved _ _ | DirectiveRemoved _ _ _ => True | _ => breaking c = false end.
  Proof.
    intros R. pose proof (c45_existence_and_types mid new c Fm Fn Un R) as H. destruct c; try exact I; try (apply B2; exact H); reflexivity.
  Qed.

  Lemma kept_type t u : common_type old new t u -> exists m, common_type old mid t m /\ common_type mid new m u /\ kind_of t = kind_of m /\ kind_of m = kind_of u.
  Proof.
    intros (It & Iu & E). destruct (found_or_only td_name (s_types old) (s_types mid) t It) as [(m & M)|O].
    - exists m. assert (M2 : common_type mid new m u) by (destruct M as (_ & Im & E2); repeat split; auto; congruence).
      repeat split; auto; try apply M; try apply M2.
      + destruct (kind_of t) eqn:K1, (kind_of m) eqn:K2; try reflexivity; exfalso; assert (R : kind_of t <> kind_of m) by congruence;
          pose proof (first _ (r_type_kind old mid t m M R)) as H; discriminate H.
      + destruct (kind_of m) eqn:K1, (kind_of u) eqn:K2; try reflexivity; exfalso; assert (R : kind_of m <> kind_of u) by congruence;
          pose proof (second _ (r_type_kind mid new m u M2 R)) as H; discriminate H.
    - pose proof (first _ (r_type_removed old mid t O)) as H. discriminate H.
  Qed.
  Ltac kept H := let m := fresh "m" in destruct (kept_type _ _ H) as (m & ? & ? & ? & ?); destruct m; try discriminate.
  Lemma kept_object a b : common_type old new (DObject a) (DObject b) -> exists m, common_type old mid (DObject a) (DObject m) /\ common_type mid new (DObject m) (DObject b).
  Proof. intros H. kept H. eauto. Qed.
  Lemma kept_interface a b : common_type old new (DInterface a) (DInterface b) -> exists m, common_type old mid (DInterface a) (DInterface m) /\ common_type mid new (DInterface m) (DInterface b).
  Proof. intros H. kept H. eauto. Qed.
  Lemma kept_union a b : common_type old new (DUnion a) (DUnion b) -> exists m, common_type old mid (DUnion a) (DUnion m) /\ common_type mid new (DUnion m) (DUnion b).
  Proof. intros H. kept H. eauto. Qed.
  Lemma kept_enum a b : common_type old new (DEnum a) (DEnum b) -> exists m, common_type old mid (DEnum a) (DEnum m) /\ common_type mid new (DEnum m) (DEnum b).
  Proof. intros H. kept H. eauto. Qed.
  Lemma kept_input a b : common_type old new (DInput a) (DInput b) -> exists m, common_type old mid (DInput a) (DInput m) /\ common_type mid new (DInput m) (DInput b).
  Proof. intros H. kept H. eauto. Qed.
  Lemma kept_fields n l l' : common_fields old new n l l' -> exists k, common_fields old mid n l k /\ common_fields mid new n k l'.
  Proof.
    intros H. destruct H as [a b H|a b H].
    - destruct (kept_object a b H) as (m & X & Y). exists (ob_fields m). assert (E : ob_name a = ob_name m) by apply X. split; [now constructor|].
      rewrite E. now constructor.
    - destruct (kept_interface a b H) as (m & X & Y). exists (if_fields m). assert (E : if_name a = if_name m) by apply X. split; [now constructor|].
      rewrite E. now constructor.
  Qed.
  Lemma kept_field n f g : common_field old new n f g -> exists m, common_field old mid n f m /\ common_field mid new n m g.
  Proof.
    intros [l l' H (If & Ig & E)]. destruct (kept_fields _ _ _ H) as (k & X & Y). destruct (found_or_only fd_name l k f If) as [(m & M)|O].
    - exists m. split; [econstructor; eassumption|]. econstructor; [exact Y|]. destruct M as (_ & Im & E2). repeat split; auto; congruence.
    - pose proof (first _ (r_field_removed old mid _ _ _ _ X O)) as K. unfold breaking, criticality_of in K. destruct (existsb _ _); discriminate K.
  Qed.
  Lemma kept_argument n f g a b : common_argument old new n f g a b -> exists h m, common_argument old mid n f h a m /\ common_argument mid new n h g m b.
  Proof.
    intros (H & Ia & Ib & E). destruct (kept_field _ _ _ H) as (h & X & Y). exists h. destruct (found_or_only iv_name (fd_args f) (fd_args h) a Ia) as [(m & M)|O].
    - exists m. split; [split; assumption|]. split; [exact Y|]. destruct M as (_ & Im & E2). repeat split; auto; congruence.
    - pose proof (first _ (r_arg_removed old mid _ _ _ _ X O)) as K. discriminate K.
  Qed.
  Lemma kept_input_field d e a b : common_input_field old new d e a b -> exists h m, common_input_field old mid d h a m /\ common_input_field mid new h e m b.
  Proof.
    intros (H & Ia & Ib & E). destruct (kept_input _ _ H) as (h & X & Y). exists h. destruct (found_or_only iv_name (io_fields d) (io_fields h) a Ia) as [(m & M)|O].
    - exists m. split; [split; assumption|]. split; [exact Y|]. destruct M as (_ & Im & E2). repeat split; auto; congruence.
    - pose proof (first _ (r_input_removed old mid _ _ _ X O)) as K. discriminate K.
  Qed.
  Lemma kept_enum_value d e a b : common_enum_value old new d e a b -> exists h m, common_enum_value old mid d h a m /\ common_enum_value mid new h e m b.
  Proof.
    intros (H & Ia & Ib & E). destruct (kept_enum _ _ H) as (h & X & Y). exists h. destruct (found_or_only ev_name (en_values d) (en_values h) a Ia) as [(m & M)|O].
    - exists m. split; [split; assumption|]. split; [exact Y|]. destruct M as (_ & Im & E2). repeat split; auto; congruence.
    - pose proof (first _ (r_value_removed old mid _ _ _ X O)) as K. discriminate K.
  Qed.
  Lemma kept_ddef d e : common_ddef old new d e -> exists m, common_ddef old mid d m /\ common_ddef mid new m e.
  Proof.
    intros (Id & Ie & E). destruct (found_or_only dd_name (s_ddefs old) (s_ddefs mid) d Id) as [(m & M)|O].
    - exists m. split; [exact M|]. destruct M as (_ & Im & E2). repeat split; auto; congruence.
    - pose proof (first _ (r_ddef_removed old mid _ O)) as K. discriminate K.
  Qed.
  Lemma kept_ddef_argument d e a b : common_ddef_argument old new d e a b -> exists h m, common_ddef_argument old mid d h a m /\ common_ddef_argument mid new h e m b.
  Proof.
    intros (H & Ia & Ib & E). destruct (kept_ddef _ _ H) as (h & X & Y). exists h. destruct (found_or_only iv_name (dd_args d) (dd_args h) a Ia) as [(m & M)|O].
    - exists m. split; [split; assumption|]. split; [exact Y|]. destruct M as (_ & Im & E2). repeat split; auto; congruence.
    - assert (N : dd_args h <> []) by (apply (KA d h X); intros Z; rewrite Z in Ia; contradiction).
      pose proof (B1 _ (reported_ddef_argument_removed old mid Um d h a X N O)) as K. discriminate K.
  Qed.
  Lemma kept_annotated l n ds ds' : annotated_reported old new l n ds ds' ->
    exists k l2 n2, annotated_reported old mid l n ds k /\ annotated_reported mid new l2 n2 k ds'.
  Proof.
    intros [H|H]; [destruct H as [a b H|a b H|a b H|a b H|a b H|t f g H|t f g a b H|d e v w H]|destruct H].
    - destruct (kept_object _ _ H) as (m & X & Y). do 3 eexists. split; left; [apply an_object in X|apply an_object in Y]; eassumption.
    - destruct (kept_interface _ _ H) as (m & X & Y). do 3 eexists. split; left; [apply an_interface in X|apply an_interface in Y]; eassumption.
    - destruct (kept_union _ _ H) as (m & X & Y). do 3 eexists. split; left; [apply an_union in X|apply an_union in Y]; eassumption.
    - destruct (kept_enum _ _ H) as (m & X & Y). do 3 eexists. split; left; [apply an_enum in X|apply an_enum in Y]; eassumption.
    - destruct (kept_input _ _ H) as (m & X & Y). do 3 eexists. split; left; [apply an_input in X|apply an_input in Y]; eassumption.
    - destruct (kept_field _ _ _ H) as (m & X & Y). do 3 eexists. split; left; [apply an_field in X|apply an_field in Y]; eassumption.
    - destruct (kept_argument _ _ _ _ _ H) as (h & m & X & Y). do 3 eexists. split; left; [apply an_argument in X|apply an_argument in Y]; eassumption.
    - destruct (kept_enum_value _ _ _ _ H) as (h & m & X & Y). do 3 eexists. split; left; [apply an_enum_value in X|apply an_enum_value in Y]; eassumption.
    - exists (s_dirs mid). do 2 eexists. split; right; constructor.
  Qed.

  (** type changes in the two steps *)
  Lemma tref_dec (a b : tref) : {a = b} + {a <> b}.
  Proof. decide equality; try apply bool_dec; apply name_dec'. Qed.
  Lemma argument_type s s' n f g a b : (forall c, real s s' c -> match c with DirectiveDefinitionArgumentAdded _ _ | DirectiveDefinitionArgumentRemoved _ _ | DirectiveRemoved _ _ _ => True | _ => breaking c = false end) ->
    common_argument s s' n f g a b -> change_safe_for_input (iv_type a) (iv_type b) = true.
  Proof.
    intros R H. destruct (tref_dec (iv_type a) (iv_type b)) as [E|N]; [rewrite E; apply input_safe_refl|].
    pose proof (R _ (r_arg_type s s' _ _ _ _ _ H N)) as K. unfold breaking, criticality_of in K. destruct (change_safe_for_input _ _); [reflexivity|discriminate K].
  Qed.
  Lemma input_field_type s s' d e a b : (forall c, real s s' c -> match c with DirectiveDefinitionArgumentAdded _ _ | DirectiveDefinitionArgumentRemoved _ _ | DirectiveRemoved _ _ _ => True | _ => breaking c = false end) ->
    common_input_field s s' d e a b -> change_safe_for_input (iv_type a) (iv_type b) = true.
  Proof.
    intros R H. destruct (tref_dec (iv_type a) (iv_type b)) as [E|N]; [rewrite E; apply input_safe_refl|].
    pose proof (R _ (r_input_type s s' _ _ _ _ H N)) as K. unfold breaking, criticality_of in K. destruct (change_safe_for_input _ _); [reflexivity|discriminate K].
  Qed.
  Lemma ddef_argument_type s s' d e a b : (forall c, real s s' c -> match c with DirectiveDefinitionArgumentAdded _ _ | DirectiveDefinitionArgumentRemoved _ _ | DirectiveRemoved _ _ _ => True | _ => breaking c = false end) ->
    common_ddef_argument s s' d e a b -> change_safe_for_input (iv_type a) (iv_type b) = true.
  Proof.
    intros R H. destruct (tref_dec (iv_type a) (iv_type b)) as [E|N]; [rewrite E; apply input_safe_refl|].
    pose proof (R _ (r_ddef_arg_type s s' _ _ _ _ H N)) as K. unfold breaking, criticality_of in K. destruct (change_safe_for_input _ _); [reflexivity|discriminate K].
  Qed.
  Lemma field_type s s' n f g : (forall c, real s s' c -> match c with DirectiveDefinitionArgumentAdded _ _ | DirectiveDefinitionArgumentRemoved _ _ | DirectiveRemoved _ _ _ => True | _ => breaking c = false end) ->
    common_field s s' n f g -> change_safe_for_field (fd_type f) (fd_type g) = true.
  Proof.
    intros R H. destruct (tref_dec (fd_type f) (fd_type g)) as [E|N]; [rewrite E; apply field_safe_refl|].
    pose proof (R _ (r_field_type s s' _ _ _ H N)) as K. unfold breaking, criticality_of in K. destruct (change_safe_for_field _ _); [reflexivity|discriminate K].
  Qed.
  (** what is required in the end was required in between *)
  Lemma required_before m b : change_safe_for_input (iv_type m) (iv_type b) = true -> common_input mid new m b -> iv_required b = true -> iv_required m = true.
  Proof.
    rewrite !iv_required_eq, !andb_true_iff. intros S C (T & D). split; [eapply input_safe_required; eassumption|].
    destruct (iv_default m) eqn:E; [|reflexivity]. exfalso. assert (X : iv_default b <> None) by (apply (KD m b C T); congruence).
    destruct (iv_default b); [discriminate D|now apply X].
  Qed.

  Lemma steps : nothing_breaking old new.
  Proof.
    intros c I. destruct (breaking c) eqn:BR; [exfalso|reflexivity]. pose proof (reported_exactly old new c I) as X.
    destruct (c45_real_partial old new c Fo Fn I) as [R|M].
    2:{ destruct c; try (inversion M; fail); try discriminate BR. apply exactly_removed_somewhere in X as (l' & m' & ds & ds' & A & O).
        destruct (kept_annotated _ _ _ _ A) as (k & l2 & n2 & A1 & A2). destruct (found_or_only dir_name ds k d (proj1 O)) as [(y & Y)|N].
        - pose proof (B2 _ (reported_directive_removed mid new Un _ _ _ _ _ A2 (only_after _ _ _ _ _ _ Y O))) as K. discriminate K.
        - pose proof (B1 _ (reported_directive_removed old mid Um _ _ _ _ _ A1 N)) as K. discriminate K. }
    destruct R as [t O|t O|t u C N|t u C N|n l l' f C O|n l l' f C O|n f g C N|n f g C N|n f g a C O|n f g a C O|n f g a b C N|n f g a b C N|n f g a b C N
      |a b i C J N|a b i C J N|a b v C O|a b v C O|a b v w C N|a b m C J N|a b m C J N|a b f C O|a b f C O|a b f g C N|a b f g C N|a b f g C N
      |d O|d O|d e l C J N|d e l C J N|d e C N|d e a C O|d e a C O|d e a b C N|d e a b C N|d e a b C N|l m ds ds' d A O|l m ds ds' d A O
      |l m ds ds' d e a A B O|l m ds ds' d e a A B O|l m ds ds' d e a b A B B' N]; try discriminate BR.
    - destruct (found_or_only td_name (s_types old) (s_types mid) t (proj1 O)) as [(m & M)|N].
      + pose proof (second _ (r_type_removed mid new m (only_after _ _ _ _ _ _ M O))) as K. discriminate K.
      + pose proof (first _ (r_type_removed old mid t N)) as K. discriminate K.
    - destruct (kept_type _ _ C) as (m & _ & _ & K1 & K2). congruence.
    - clear BR. destruct (kept_fields _ _ _ C) as (k & C1 & C2). destruct (found_or_only fd_name l k f (proj1 O)) as [(m & M)|N].
      + pose proof (second _ (r_field_removed mid new _ _ _ _ C2 (only_after _ _ _ _ _ _ M O))) as K. unfold breaking, criticality_of in K. destruct (existsb _ _); discriminate K.
      + pose proof (first _ (r_field_removed old mid _ _ _ _ C1 N)) as K. unfold breaking, criticality_of in K. destruct (existsb _ _); discriminate K.
    - destruct (kept_field _ _ _ C) as (m & C1 & C2). unfold breaking, criticality_of in BR.
      rewrite (field_safe_trans _ _ _ (field_type _ _ _ _ _ first C1) (field_type _ _ _ _ _ second C2)) in BR. discriminate BR.
    - assert (RQ : iv_required a = true).
      { rewrite iv_required_eq. unfold breaking, criticality_of in BR. destruct (tref_required (iv_type a) && _); [reflexivity|discriminate BR]. }
      assert (BQ : forall n0 f0 a0, iv_required a0 = true -> breaking (FieldArgumentAdded n0 f0 a0) = true).
      { intros n0 f0 a0 Q. rewrite iv_required_eq in Q. unfold breaking, criticality_of. now rewrite Q. }
      destruct (kept_field _ _ _ C) as (h & C1 & C2). destruct (found_or_only iv_name (fd_args g) (fd_args h) a (proj1 O)) as [(m & M)|N].
      + assert (CA : common_argument mid new n h g m a) by (split; [exact C2|now apply both_sym]).
        assert (Q : iv_required m = true) by (eapply required_before; [eapply argument_type; [exact second|exact CA]|eapply ci_argument; exact CA|exact RQ]).
        pose proof (first _ (r_arg_added old mid _ _ _ _ C1 (only_after _ _ _ _ _ _ M O))) as K. cbv beta iota in K. rewrite (BQ _ _ _ Q) in K. discriminate K.
      + pose proof (second _ (r_arg_added mid new _ _ _ _ C2 N)) as K. cbv beta iota in K. rewrite (BQ _ _ _ RQ) in K. discriminate K.
    - destruct (kept_field _ _ _ C) as (h & C1 & C2). destruct (found_or_only iv_name (fd_args f) (fd_args h) a (proj1 O)) as [(m & M)|N].
      + pose proof (second _ (r_arg_removed mid new _ _ _ _ C2 (only_after _ _ _ _ _ _ M O))) as K. discriminate K.
      + pose proof (first _ (r_arg_removed old mid _ _ _ _ C1 N)) as K. discriminate K.
    - destruct (kept_argument _ _ _ _ _ C) as (h & m & C1 & C2). unfold breaking, criticality_of in BR.
      rewrite (input_safe_trans _ _ _ (argument_type _ _ _ _ _ _ _ first C1) (argument_type _ _ _ _ _ _ _ second C2)) in BR. discriminate BR.
    - destruct (kept_object _ _ C) as (m & C1 & C2). destruct (in_dec name_dec' i (ob_ifaces m)) as [Y|Y].
      + pose proof (second _ (r_interface_removed mid new _ _ _ C2 Y N)) as K. discriminate K.
      + pose proof (first _ (r_interface_removed old mid _ _ _ C1 J Y)) as K. discriminate K.
    - destruct (kept_enum _ _ C) as (m & C1 & C2). destruct (found_or_only ev_name (en_values a) (en_values m) v (proj1 O)) as [(y & M)|N].
      + pose proof (second _ (r_value_removed mid new _ _ _ C2 (only_after _ _ _ _ _ _ M O))) as K. discriminate K.
      + pose proof (first _ (r_value_removed old mid _ _ _ C1 N)) as K. discriminate K.
    - destruct (kept_union _ _ C) as (x & C1 & C2). destruct (in_dec name_dec' m (un_members x)) as [Y|Y].
      + pose proof (second _ (r_member_removed mid new _ _ _ C2 Y N)) as K. discriminate K.
      + pose proof (first _ (r_member_removed old mid _ _ _ C1 J Y)) as K. discriminate K.
    - assert (RQ : iv_required f = true).
      { rewrite iv_required_eq. unfold breaking, criticality_of in BR. destruct (tref_required (iv_type f) && _); [reflexivity|discriminate BR]. }
      assert (BQ : forall d0 a0, iv_required a0 = true -> breaking (InputFieldAdded d0 a0) = true).
      { intros d0 a0 Q. rewrite iv_required_eq in Q. unfold breaking, criticality_of. now rewrite Q. }
      destruct (kept_input _ _ C) as (h & C1 & C2). destruct (found_or_only iv_name (io_fields b) (io_fields h) f (proj1 O)) as [(m & M)|N].
      + assert (CA : common_input_field mid new h b m f) by (split; [exact C2|now apply both_sym]).
        assert (Q : iv_required m = true) by (eapply required_before; [eapply input_field_type; [exact second|exact CA]|eapply ci_input_field; exact CA|exact RQ]).
        pose proof (first _ (r_input_added old mid _ _ _ C1 (only_after _ _ _ _ _ _ M O))) as K. cbv beta iota in K. rewrite (BQ _ _ Q) in K. discriminate K.
      + pose proof (second _ (r_input_added mid new _ _ _ C2 N)) as K. cbv beta iota in K. rewrite (BQ _ _ RQ) in K. discriminate K.
    - destruct (kept_input _ _ C) as (h & C1 & C2). destruct (found_or_only iv_name (io_fields a) (io_fields h) f (proj1 O)) as [(m & M)|N].
      + pose proof (second _ (r_input_removed mid new _ _ _ C2 (only_after _ _ _ _ _ _ M O))) as K. discriminate K.
      + pose proof (first _ (r_input_removed old mid _ _ _ C1 N)) as K. discriminate K.
    - destruct (kept_input_field _ _ _ _ C) as (h & m & C1 & C2). unfold breaking, criticality_of in BR.
      rewrite (input_safe_trans _ _ _ (input_field_type _ _ _ _ _ _ first C1) (input_field_type _ _ _ _ _ _ second C2)) in BR. discriminate BR.
    - destruct (found_or_only dd_name (s_ddefs old) (s_ddefs mid) d (proj1 O)) as [(m & M)|N].
      + pose proof (second _ (r_ddef_removed mid new m (only_after _ _ _ _ _ _ M O))) as K. discriminate K.
      + pose proof (first _ (r_ddef_removed old mid d N)) as K. discriminate K.
    - destruct (kept_ddef _ _ C) as (m & C1 & C2). destruct (in_dec dloc_dec l (dd_locs m)) as [Y|Y].
      + pose proof (second _ (r_location_removed mid new _ _ _ C2 Y N)) as K. discriminate K.
      + pose proof (first _ (r_location_removed old mid _ _ _ C1 J Y)) as K. discriminate K.
    - cbn in X. destruct X as (d' & C' & NE & O').
      assert (RQ : iv_required a = true) by (unfold breaking, criticality_of in BR; destruct (iv_required a); [reflexivity|discriminate BR]).
      destruct (kept_ddef _ _ C') as (h & C1 & C2). destruct (found_or_only iv_name (dd_args e) (dd_args h) a (proj1 O')) as [(m & M)|N].
      + assert (CA : common_ddef_argument mid new h e m a) by (split; [exact C2|now apply both_sym]).
        assert (Q : iv_required m = true) by (eapply required_before; [eapply ddef_argument_type; [exact second|exact CA]|eapply ci_ddef_argument; exact CA|exact RQ]).
        pose proof (B1 _ (reported_ddef_argument_added old mid Um _ _ _ C1 NE (only_after _ _ _ _ _ _ M O'))) as K. unfold breaking, criticality_of in K. rewrite Q in K. discriminate K.
      + pose proof (B2 _ (reported_ddef_argument_added mid new Un _ _ _ C2 (KA _ _ C1 NE) N)) as K. unfold breaking, criticality_of in K. rewrite RQ in K. discriminate K.
    - cbn in X. destruct X as (d' & C' & NE & O').
      destruct (kept_ddef _ _ C') as (h & C1 & C2). destruct (found_or_only iv_name (dd_args d') (dd_args h) a (proj1 O')) as [(m & M)|N].
      + pose proof (B2 _ (reported_ddef_argument_removed mid new Un _ _ _ C2 NE (only_after _ _ _ _ _ _ M O'))) as K. discriminate K.
      + assert (NE' : dd_args h <> []) by (apply (KA _ _ C1); intros Z; pose proof (proj1 O') as W; rewrite Z in W; contradiction).
        pose proof (B1 _ (reported_ddef_argument_removed old mid Um _ _ _ C1 NE' N)) as K. discriminate K.
    - destruct (kept_ddef_argument _ _ _ _ C) as (h & m & C1 & C2). unfold breaking, criticality_of in BR.
      rewrite (input_safe_trans _ _ _ (ddef_argument_type _ _ _ _ _ _ first C1) (ddef_argument_type _ _ _ _ _ _ second C2)) in BR. discriminate BR.
    - apply exactly_removed_somewhere in X as (l2 & m2 & es & es' & A2 & O2). destruct (kept_annotated _ _ _ _ A2) as (k & l3 & n3 & A3 & A4).
      destruct (found_or_only dir_name es k d (proj1 O2)) as [(y & Y)|N].
      + pose proof (B2 _ (reported_directive_removed mid new Un _ _ _ _ _ A4 (only_after _ _ _ _ _ _ Y O2))) as K. discriminate K.
      + pose proof (B1 _ (reported_directive_removed old mid Um _ _ _ _ _ A3 N)) as K. discriminate K.
  Qed.
End Steps.

(** ** C84 *)
(** If neither of two steps is found to be breaking, the whole is not found to be breaking either, provided that no directive
    definition loses all its arguments in the first step and no non-null argument or input field loses its default value in the second. *)
Theorem c84_steps_partial : forall old mid new, floats old -> floats mid -> floats new -> names_once mid -> names_once new ->
  nothing_breaking old mid -> nothing_breaking mid new -> keeps_arguments old mid -> keeps_defaults mid new -> nothing_breaking old new.
Proof. intros old mid new Fo Fm Fn Um Un B1 B2 KA KD. exact (steps old mid new Fo Fm Fn Um Un B1 B2 KA KD). Qed.

Lemma safe_not_breaking c : non_breaking c = true -> breaking c = false.
Proof. unfold non_breaking, breaking. now destruct (criticality_of c). Qed.
Lemma only_safe_breaking old new : only_safe old new -> nothing_breaking old new.
Proof. intros H c I. apply safe_not_breaking. now apply H. Qed.
Lemma safe_seen s s' : floats s -> floats s' -> names_once s' -> only_safe s s' -> forall c, real s s' c ->
  match c with DirectiveDefinitionArgumentAdded _ _ | DirectiveDefinitionArgumentRemoved _ _ | DirectiveRemoved _ _ _ => True | _ => non_breaking c = true end.
Proof.
  intros F F' U B c R. pose proof (c45_existence_and_types s s' c F F' U R) as H. destruct c; try exact I; try (apply B; exact H); reflexivity.
Qed.
Lemma safe_default s s' a b : floats s -> floats s' -> names_once s' -> only_safe s s' -> common_input s s' a b -> ~ default_differs (iv_default a) (iv_default b).
Proof.
  intros F F' U B C D. destruct C as [t f g a b C|d e a b C|d e a b C].
  - pose proof (safe_seen _ _ F F' U B _ (r_arg_default s s' _ _ _ _ _ C D)) as K. discriminate K.
  - pose proof (safe_seen _ _ F F' U B _ (r_input_default s s' _ _ _ _ C D)) as K. discriminate K.
  - pose proof (safe_seen _ _ F F' U B _ (r_ddef_arg_default s s' _ _ _ _ C D)) as K. discriminate K.
Qed.
Lemma safe_keeps_defaults s s' : floats s -> floats s' -> names_once s' -> only_safe s s' -> keeps_defaults s s'.
Proof.
  intros F F' U B a b C _ N E. apply (safe_default s s' a b F F' U B C). rewrite E. destruct (iv_default a); [exact I|now apply N].
Qed.
Lemma default_trans a b c : ~ default_differs a b -> ~ default_differs b c -> ~ default_differs a c.
Proof.
  destruct a as [v|], b as [w|], c as [u|]; cbn; try tauto. intros H K N. apply H. intros S1. apply K. intros S2. apply N. eapply same_trans; eassumption.
Qed.
(** If only safe changes are found in two steps, only safe changes are found in the whole, provided that no directive definition
    loses all its arguments in the first step. *)
Theorem c84_safe_steps_partial : forall old mid new, floats old -> floats mid -> floats new -> names_once mid -> names_once new ->
  only_safe old mid -> only_safe mid new -> keeps_arguments old mid -> only_safe old new.
Proof.
  intros old mid new Fo Fm Fn Um Un S1 S2 KA.
  assert (B1 := only_safe_breaking _ _ S1). assert (B2 := only_safe_breaking _ _ S2).
  assert (KD : keeps_defaults mid new) by now apply safe_keeps_defaults.
  assert (B := c84_steps_partial old mid new Fo Fm Fn Um Un B1 B2 KA KD).
  assert (first := safe_seen _ _ Fo Fm Um S1). assert (second := safe_seen _ _ Fm Fn Un S2).
  intros c I. specialize (B c I). destruct (c45_real_partial old new c Fo Fn I) as [R|M]; [|destruct M; [reflexivity|discriminate B]].
  destruct R as [t O|t O|t u C N|t u C N|n l l' f C O|n l l' f C O|n f g C N|n f g C N|n f g a C O|n f g a C O|n f g a b C N|n f g a b C N|n f g a b C N
    |a b i C J N|a b i C J N|a b v C O|a b v C O|a b v w C N|a b m C J N|a b m C J N|a b f C O|a b f C O|a b f g C N|a b f g C N|a b f g C N
    |d O|d O|d e l C J N|d e l C J N|d e C N|d e a C O|d e a C O|d e a b C N|d e a b C N|d e a b C N|l m ds ds' d A O|l m ds ds' d A O
    |l m ds ds' d e a A D O|l m ds ds' d e a A D O|l m ds ds' d e a b A D D' N]; try reflexivity; try discriminate B.
  - unfold breaking, criticality_of in B. destruct (existsb _ _); discriminate B.
  - clear - B; unfold breaking, non_breaking, criticality_of in *. destruct (change_safe_for_field _ _); [reflexivity|discriminate B].
  - clear - B; unfold breaking, non_breaking, criticality_of in *. destruct (_ && _); [discriminate B|reflexivity].
  - exfalso. destruct (kept_argument old mid new Fo Fm Fn Um Un B1 B2 _ _ _ _ _ C) as (h & m & C1 & C2). revert N.
    exact (default_trans _ _ _ (safe_default _ _ _ _ Fo Fm Um S1 (ci_argument _ _ _ _ _ _ _ C1)) (safe_default _ _ _ _ Fm Fn Un S2 (ci_argument _ _ _ _ _ _ _ C2))).
  - clear - B; unfold breaking, non_breaking, criticality_of in *. destruct (change_safe_for_input _ _); [reflexivity|discriminate B].
  - exfalso. destruct (kept_object old mid new Fo Fm Fn Um Un B1 B2 _ _ C) as (m & C1 & C2). destruct (in_dec name_dec' i (ob_ifaces m)) as [Y|Y].
    + pose proof (first _ (r_interface_added old mid _ _ _ C1 Y N)) as K. discriminate K.
    + pose proof (second _ (r_interface_added mid new _ _ _ C2 J Y)) as K. discriminate K.
  - exfalso. destruct (kept_enum old mid new Fo Fm Fn Um Un B1 B2 _ _ C) as (m & C1 & C2).
    destruct (found_or_only ev_name (en_values b) (en_values m) v (proj1 O)) as [(y & M)|N].
    + pose proof (first _ (r_value_added old mid _ _ _ C1 (only_after _ _ _ _ _ _ M O))) as K. discriminate K.
    + pose proof (second _ (r_value_added mid new _ _ _ C2 N)) as K. discriminate K.
  - exfalso. destruct (kept_union old mid new Fo Fm Fn Um Un B1 B2 _ _ C) as (x & C1 & C2). destruct (in_dec name_dec' m (un_members x)) as [Y|Y].
    + pose proof (first _ (r_member_added old mid _ _ _ C1 Y N)) as K. discriminate K.
    + pose proof (second _ (r_member_added mid new _ _ _ C2 J Y)) as K. discriminate K.
  - clear - B; unfold breaking, non_breaking, criticality_of in *. destruct (_ && _); [discriminate B|reflexivity].
  - clear - B; unfold breaking, non_breaking, criticality_of in *. destruct (change_safe_for_input _ _); [reflexivity|discriminate B].
  - exfalso. destruct (kept_input_field old mid new Fo Fm Fn Um Un B1 B2 _ _ _ _ C) as (h & m & C1 & C2). revert N.
    exact (default_trans _ _ _ (safe_default _ _ _ _ Fo Fm Um S1 (ci_input_field _ _ _ _ _ _ C1)) (safe_default _ _ _ _ Fm Fn Un S2 (ci_input_field _ _ _ _ _ _ C2))).
  - clear - B; unfold breaking, non_breaking, criticality_of in *. destruct (iv_required _); [discriminate B|reflexivity].
  - exfalso. destruct (kept_ddef_argument old mid new Fo Fm Um B1 KA _ _ _ _ C) as (h & m & C1 & C2). revert N.
    exact (default_trans _ _ _ (safe_default _ _ _ _ Fo Fm Um S1 (ci_ddef_argument _ _ _ _ _ _ C1)) (safe_default _ _ _ _ Fm Fn Un S2 (ci_ddef_argument _ _ _ _ _ _ C2))).
  - clear - B; unfold breaking, non_breaking, criticality_of in *. destruct (change_safe_for_input _ _); [reflexivity|discriminate B].
Qed.

(** *** The other way round *)
(** what undoes a change *)
Inductive undone : change -> change -> Prop :=
| ud_type_added t : undone (TypeAdded t) (TypeRemoved t)
| ud_type_removed t : undone (TypeRemoved t) (TypeAdded t)
| ud_type_kind t u : undone (TypeKindChanged t u) (TypeKindChanged u t)
| ud_type_desc t u : undone (TypeDescriptionChanged t u) (TypeDescriptionChanged u t)
| ud_field_added f n : undone (FieldAdded f n) (FieldRemoved f n)
| ud_field_removed f n : undone (FieldRemoved f n) (FieldAdded f n)
| ud_field_desc n f g : undone (FieldDescriptionChanged n f g) (FieldDescriptionChanged n g f)
| ud_field_type n f g : undone (FieldTypeChanged n f g) (FieldTypeChanged n g f)
| ud_arg_added n f a : undone (FieldArgumentAdded n f a) (FieldArgumentRemoved n f a)
| ud_arg_removed n f a : undone (FieldArgumentRemoved n f a) (FieldArgumentAdded n f a)
| ud_arg_desc n f g a b : fd_name f = fd_name g -> undone (FieldArgumentDescriptionChanged n f a b) (FieldArgumentDescriptionChanged n g b a)
| ud_arg_default n f g a b : fd_name f = fd_name g -> undone (FieldArgumentDefaultValueChanged n f a b) (FieldArgumentDefaultValueChanged n g b a)
| ud_arg_type n f g a b : fd_name f = fd_name g -> undone (FieldArgumentTypeChanged n f a b) (FieldArgumentTypeChanged n g b a)
| ud_interface_added a b i : ob_name a = ob_name b -> undone (ObjectInterfaceAddition a i) (ObjectInterfaceRemoval b i)
| ud_interface_removed a b i : ob_name a = ob_name b -> undone (ObjectInterfaceRemoval a i) (ObjectInterfaceAddition b i)
| ud_value_added d v : undone (EnumValueAdded d v) (EnumValueRemoved d v)
| ud_value_removed d v : undone (EnumValueRemoved d v) (EnumValueAdded d v)
| ud_value_desc d e v w : en_name d = en_name e -> undone (EnumValueDescriptionChanged d v w) (EnumValueDescriptionChanged e w v)
| ud_member_added a b m : un_name a = un_name b -> undone (UnionMemberAdded a m) (UnionMemberRemoved b m)
| ud_member_removed a b m : un_name a = un_name b -> undone (UnionMemberRemoved a m) (UnionMemberAdded b m)
| ud_input_added d f : undone (InputFieldAdded d f) (InputFieldRemoved d f)
| ud_input_removed d f : undone (InputFieldRemoved d f) (InputFieldAdded d f)
| ud_input_desc d e f g : io_name d = io_name e -> undone (InputFieldDescriptionChanged d f g) (InputFieldDescriptionChanged e g f)
| ud_input_type d e f g : io_name d = io_name e -> undone (InputFieldTypeChanged d f g) (InputFieldTypeChanged e g f)
| ud_input_default d e f g : io_name d = io_name e -> undone (InputFieldDefaultValueChanged d f g) (InputFieldDefaultValueChanged e g f)
| ud_ddef_added d : undone (DirectiveDefinitionAdded d) (DirectiveDefinitionRemoved d)
| ud_ddef_removed d : undone (DirectiveDefinitionRemoved d) (DirectiveDefinitionAdded d)
| ud_location_added d e l : dd_name d = dd_name e -> undone (DirectiveDefinitionLocationAdded d l) (DirectiveDefinitionLocationRemoved e l)
| ud_location_removed d e l : dd_name d = dd_name e -> undone (DirectiveDefinitionLocationRemoved d l) (DirectiveDefinitionLocationAdded e l)
| ud_ddef_desc d e : undone (DirectiveDefinitionDescriptionChanged d e) (DirectiveDefinitionDescriptionChanged e d)
| ud_ddef_arg_added d e a : dd_name d = dd_name e -> undone (DirectiveDefinitionArgumentAdded d a) (DirectiveDefinitionArgumentRemoved e a)
| ud_ddef_arg_removed d e a : dd_name d = dd_name e -> undone (DirectiveDefinitionArgumentRemoved d a) (DirectiveDefinitionArgumentAdded e a)
| ud_ddef_arg_desc d e a b : dd_name d = dd_name e ->
    undone (DirectiveDefinitionArgumentDescriptionChanged d a b) (DirectiveDefinitionArgumentDescriptionChanged e b a)
| ud_ddef_arg_default d e a b : dd_name d = dd_name e ->
    undone (DirectiveDefinitionArgumentDefaultValueChanged d a b) (DirectiveDefinitionArgumentDefaultValueChanged e b a)
| ud_ddef_arg_type d e a b : dd_name d = dd_name e ->
    undone (DirectiveDefinitionArgumentTypeChanged d a b) (DirectiveDefinitionArgumentTypeChanged e b a)
| ud_directive_added l m d : undone (DirectiveAdded l m d) (DirectiveRemoved l m d)
| ud_directive_removed l m d : undone (DirectiveRemoved l m d) (DirectiveAdded l m d)
| ud_directive_arg_added d a : undone (DirectiveArgumentAdded d a) (DirectiveArgumentRemoved d a)
| ud_directive_arg_removed d a : undone (DirectiveArgumentRemoved d a) (DirectiveArgumentAdded d a)
| ud_directive_arg_value d e a b : dir_name d = dir_name e -> undone (DirectiveArgumentValueChanged d a b) (DirectiveArgumentValueChanged e b a).
(** an argument is given to an applied directive that had none: what undoes that is not reported *)
Inductive first_argument (old new : schema) : change -> Prop :=
| fa_intro l m ds ds' d e a : anything_annotated old new l m ds ds' -> both dir_name ds ds' d e -> dir_args d = [] -> In a (dir_args e) ->
    first_argument old new (DirectiveArgumentAdded e a).
Definition applied_directive (c : change) : bool :=
  match c with
  | DirectiveAdded _ _ _ | DirectiveRemoved _ _ _ | DirectiveArgumentAdded _ _ | DirectiveArgumentRemoved _ _ | DirectiveArgumentValueChanged _ _ _ => true
  | _ => false
  end.

Section Reverse.
  Variables old new : schema.
  Lemma rev_type t u : common_type old new t u -> common_type new old u t.
  Proof. apply both_sym. Qed.
  Lemma rev_fields n l l' : common_fields old new n l l' -> common_fields new old n l' l.
  Proof.
    intros H. destruct H as [a b H|a b H].
    - assert (E : ob_name a = ob_name b) by apply H. rewrite E. constructor. now apply rev_type.
    - assert (E : if_name a = if_name b) by apply H. rewrite E. constructor. now apply rev_type.
  Qed.
  Lemma rev_field n f g : common_field old new n f g -> common_field new old n g f.
  Proof. intros [l l' H B]. econstructor; [now apply rev_fields in H; exact H|now apply both_sym]. Qed.
  Lemma rev_argument n f g a b : common_argument old new n f g a b -> common_argument new old n g f b a.
  Proof. intros (H & B). split; [now apply rev_field|now apply both_sym]. Qed.
  Lemma rev_input_field d e a b : common_input_field old new d e a b -> common_input_field new old e d b a.
  Proof. intros (H & B). split; [now apply rev_type|now apply both_sym]. Qed.
  Lemma rev_enum_value d e a b : common_enum_value old new d e a b -> common_enum_value new old e d b a.
  Proof. intros (H & B). split; [now apply rev_type|now apply both_sym]. Qed.
  Lemma rev_ddef d e : common_ddef old new d e -> common_ddef new old e d.
  Proof. apply both_sym. Qed.
  Lemma rev_ddef_argument d e a b : common_ddef_argument old new d e a b -> common_ddef_argument new old e d b a.
  Proof. intros (H & B). split; [now apply rev_ddef|now apply both_sym]. Qed.
  Lemma rev_annotated l m ds ds' : annotated old new l m ds ds' -> annotated new old l m ds' ds.
  Proof.
    intros H. destruct H as [a b H|a b H|a b H|a b H|a b H|t f g H|t f g a b H|d e v w H].
    - assert (E : ob_name a = ob_name b) by apply H. rewrite E. constructor. now apply rev_type.
    - assert (E : if_name a = if_name b) by apply H. rewrite E. constructor. now apply rev_type.
    - assert (E : un_name a = un_name b) by apply H. rewrite E. constructor. now apply rev_type.
    - assert (E : en_name a = en_name b) by apply H. rewrite E. constructor. now apply rev_type.
    - assert (E : io_name a = io_name b) by apply H. rewrite E. constructor. now apply rev_type.
    - assert (E : fd_name f = fd_name g) by (destruct H as [? ? ? B]; apply B). rewrite E. eapply an_field. apply rev_field. eassumption.
    - assert (E : iv_name a = iv_name b) by (destruct H as (_ & B); apply B). rewrite E. eapply an_argument. apply rev_argument. eassumption.
    - assert (E : ev_name v = ev_name w) by (destruct H as (_ & B); apply B). rewrite E. eapply an_enum_value. apply rev_enum_value. eassumption.
  Qed.
  Lemma rev_annotated_input_field l m ds ds' : annotated_input_field old new l m ds ds' -> annotated_input_field new old l m ds' ds.
  Proof.
    intros H. destruct H as [d e f g H]. assert (E : iv_name f = iv_name g) by (destruct H as (_ & B); apply B). rewrite E. econstructor. apply rev_input_field. eassumption.
  Qed.
  Lemma rev_reported l m ds ds' : annotated_reported old new l m ds ds' -> annotated_reported new old l m ds' ds.
  Proof. intros [H|H]; [left; now apply rev_annotated|right]. destruct H. constructor. Qed.
  Lemma differs_sym a b : default_differs a b -> default_differs b a.
  Proof. destruct a, b; cbn; auto. intros H S. apply H. now apply same_sym. Qed.
End Reverse.
Lemma seen_all s s' c : floats s -> floats s' -> names_once s' -> real s s' c ->
  match c with DirectiveDefinitionArgumentAdded _ _ | DirectiveDefinitionArgumentRemoved _ _ => True | _ => applied_directive c = false -> In c (compare s s') end.
Proof.
  intros F F' U R. destruct (c45_reported_partial s s' c F F' U R) as [O|W].
  - destruct O; try exact I; intros Q; discriminate Q.
  - destruct c; try exact I; intros _; exact W.
Qed.
(** A change found between two schemas is found undone when they are compared the other way round, unless it gives an argument to an
    applied directive that had none. *)
Theorem c84_reversed_partial : forall old new c, floats old -> floats new -> names_once old -> In c (compare old new) ->
  first_argument old new c \/ exists c', undone c c' /\ In c' (compare new old).
Proof.
  intros old new c Fo Fn Uo I. pose proof (reported_exactly old new c I) as X. destruct (applied_directive c) eqn:Q.
  { destruct c; try discriminate Q; clear Q; cbn [exactly] in X.
    - right. eexists. split; [apply ud_directive_added|]. destruct X as [(ds & ds' & A & O)|M].
      + exact (reported_directive_removed new old Uo _ _ _ _ _ (rev_reported _ _ _ _ _ _ A) O).
      + inversion M as [a b f g d' C O|]. subst. apply c45_misplaced; [exact Uo|].
        assert (E : iv_name f = iv_name g) by (destruct C as (_ & B); apply B). rewrite E. eapply mp_removed; [apply rev_input_field; exact C|exact O].
    - right. eexists. split; [apply ud_directive_removed|]. destruct X as [(ds & ds' & A & O)|M].
      + apply compare_In. eapply annotated_added; [exact Uo|apply rev_reported; exact A|]. apply in_map. now apply absent_In.
      + inversion M as [|a b f g d' C O]. subst. apply c45_misplaced; [exact Uo|].
        assert (E : iv_name f = iv_name g) by (destruct C as (_ & B); apply B). rewrite E. eapply mp_added; [apply rev_input_field; exact C|exact O].
    - destruct X as (l & m & ds & ds' & d0 & e & A & B & K). unfold directive_diff in K. rewrite !in_app_iff in K. destruct K as [K|[K|K]].
      + apply in_map_iff in K as (a0 & E & K). injection E as -> ->. apply absent_In in K.
        destruct (dir_args d0) as [|x r] eqn:Z.
        * left. apply (fa_intro _ _ l m ds ds' d0); [unfold anything_annotated; tauto|exact B|exact Z|apply K].
        * right. eexists. split; [apply ud_directive_arg_added|]. apply compare_In.
          eapply directive_complete; [exact Uo|destruct A as [A|A]; [left; apply rev_annotated; exact A|right; apply rev_annotated_input_field; exact A]|apply both_sym; exact B|].
          unfold directive_diff. rewrite !in_app_iff. right. left. apply in_map. unfold argument_removals. rewrite Z. apply absent_In. exact K.
      + apply in_map_iff in K as (a0 & E & _). discriminate E.
      + apply common_sound in K as (x & y & _ & K). apply when_In in K as (_ & E). discriminate E.
    - right. eexists. split; [apply ud_directive_arg_removed|]. destruct X as (l & m & ds & ds' & d0 & e & A & B & K).
      unfold directive_diff in K. rewrite !in_app_iff in K. destruct K as [K|[K|K]].
      + apply in_map_iff in K as (a0 & E & _). discriminate E.
      + apply in_map_iff in K as (a0 & E & K). injection E as -> ->. unfold argument_removals in K. destruct (dir_args e) as [|x r] eqn:Z; [contradiction|].
        rewrite <- Z in K. apply absent_In in K. apply compare_In.
        eapply directive_complete; [exact Uo|destruct A as [A|A]; [left; apply rev_annotated; exact A|right; apply rev_annotated_input_field; exact A]|apply both_sym; exact B|].
        unfold directive_diff. rewrite !in_app_iff. left. apply in_map. apply absent_In. exact K.
      + apply common_sound in K as (x & y & _ & K). apply when_In in K as (_ & E). discriminate E.
    - right. destruct X as (l & m & ds & ds' & d0 & e & A & B & K).
      unfold directive_diff in K. rewrite !in_app_iff in K. destruct K as [K|[K|K]].
      + apply in_map_iff in K as (a0 & E & _). discriminate E.
      + apply in_map_iff in K as (a0 & E & _). discriminate E.
      + apply common_sound in K as (x & y & BV & K). apply when_In in K as (V & E). injection E as -> -> ->.
        assert (A' : annotated new old l m ds' ds \/ annotated_input_field new old l m ds' ds)
          by (destruct A as [A|A]; [left; apply rev_annotated; exact A|right; apply rev_annotated_input_field; exact A]).
        exists (DirectiveArgumentValueChanged e y x). split; [apply ud_directive_arg_value; apply B|]. apply compare_In.
        eapply directive_complete; [exact Uo|exact A'|apply both_sym; exact B|]. unfold directive_diff. rewrite !in_app_iff. right. right.
        eapply common_complete; [|apply both_sym; exact BV|].
        * eapply (once_directive_arguments _ Uo); [|exact (proj1 B)]. apply (annotated_in old new l m ds ds'). unfold anything_annotated. tauto.
        * apply when_In. split; [|reflexivity].
          assert (W : ~ same_value (snd y) (snd x)).
          { intros S. apply same_sym in S. revert S. apply (directive_values old new Fo Fn l m ds ds' d0 e x y); [unfold anything_annotated; tauto|exact B|exact BV|exact V]. }
          apply (directive_values new old Fn Fo l m ds' ds e d0 y x); [unfold anything_annotated; tauto|now apply both_sym|now apply both_sym|exact W]. }
  right. destruct (c45_real_partial old new c Fo Fn I) as [R|M]; [|destruct M; discriminate Q].
  assert (seen := fun c' => seen_all new old c' Fn Fo Uo).
  destruct R as [t O|t O|t u C N|t u C N|n l l' f C O|n l l' f C O|n f g C N|n f g C N|n f g a C O|n f g a C O|n f g a b C N|n f g a b C N|n f g a b C N
    |a b i C J N|a b i C J N|a b v C O|a b v C O|a b v w C N|a b m C J N|a b m C J N|a b f C O|a b f C O|a b f g C N|a b f g C N|a b f g C N
    |d O|d O|d e l C J N|d e l C J N|d e C N|d e a C O|d e a C O|d e a b C N|d e a b C N|d e a b C N|l m ds ds' d A O|l m ds ds' d A O
    |l m ds ds' d e a A D O|l m ds ds' d e a A D O|l m ds ds' d e a b A D D' N]; try discriminate Q; clear I Q.
  - eexists. split; [apply ud_type_removed|]. exact (seen _ (r_type_added _ _ _ O) eq_refl).
  - eexists. split; [apply ud_type_added|]. exact (seen _ (r_type_removed _ _ _ O) eq_refl).
  - eexists. split; [apply ud_type_kind|]. apply not_eq_sym in N. exact (seen _ (r_type_kind _ _ _ _ (rev_type _ _ _ _ C) N) eq_refl).
  - eexists. split; [apply ud_type_desc|]. apply not_eq_sym in N. exact (seen _ (r_type_desc _ _ _ _ (rev_type _ _ _ _ C) N) eq_refl).
  - eexists. split; [apply ud_field_added|]. exact (seen _ (r_field_removed _ _ _ _ _ _ (rev_fields _ _ _ _ _ C) O) eq_refl).
  - eexists. split; [apply ud_field_removed|]. exact (seen _ (r_field_added _ _ _ _ _ _ (rev_fields _ _ _ _ _ C) O) eq_refl).
  - eexists. split; [apply ud_field_desc|]. apply not_eq_sym in N. exact (seen _ (r_field_desc _ _ _ _ _ (rev_field _ _ _ _ _ C) N) eq_refl).
  - eexists. split; [apply ud_field_type|]. apply not_eq_sym in N. exact (seen _ (r_field_type _ _ _ _ _ (rev_field _ _ _ _ _ C) N) eq_refl).
  - eexists. split; [apply ud_arg_added|]. exact (seen _ (r_arg_removed _ _ _ _ _ _ (rev_field _ _ _ _ _ C) O) eq_refl).
  - eexists. split; [apply ud_arg_removed|]. exact (seen _ (r_arg_added _ _ _ _ _ _ (rev_field _ _ _ _ _ C) O) eq_refl).
  - assert (E : fd_name f = fd_name g) by (destruct C as ([? ? ? B] & _); apply B). apply not_eq_sym in N.
    eexists. split; [apply (ud_arg_desc _ _ g); exact E|]. exact (seen _ (r_arg_desc _ _ _ _ _ _ _ (rev_argument _ _ _ _ _ _ _ C) N) eq_refl).
  - assert (E : fd_name f = fd_name g) by (destruct C as ([? ? ? B] & _); apply B). apply differs_sym in N.
    eexists. split; [apply (ud_arg_default _ _ g); exact E|]. exact (seen _ (r_arg_default _ _ _ _ _ _ _ (rev_argument _ _ _ _ _ _ _ C) N) eq_refl).
  - assert (E : fd_name f = fd_name g) by (destruct C as ([? ? ? B] & _); apply B). apply not_eq_sym in N.
    eexists. split; [apply (ud_arg_type _ _ g); exact E|]. exact (seen _ (r_arg_type _ _ _ _ _ _ _ (rev_argument _ _ _ _ _ _ _ C) N) eq_refl).
  - assert (E : ob_name a = ob_name b) by apply C.
    eexists. split; [apply (ud_interface_added _ b); exact E|]. exact (seen _ (r_interface_removed _ _ _ _ _ (rev_type _ _ _ _ C) J N) eq_refl).
  - assert (E : ob_name a = ob_name b) by apply C.
    eexists. split; [apply (ud_interface_removed _ b); exact E|]. exact (seen _ (r_interface_added _ _ _ _ _ (rev_type _ _ _ _ C) J N) eq_refl).
  - eexists. split; [apply ud_value_added|]. exact (seen _ (r_value_removed _ _ _ _ _ (rev_type _ _ _ _ C) O) eq_refl).
  - eexists. split; [apply ud_value_removed|]. exact (seen _ (r_value_added _ _ _ _ _ (rev_type _ _ _ _ C) O) eq_refl).
  - assert (E : en_name a = en_name b) by apply C. apply not_eq_sym in N.
    eexists. split; [apply (ud_value_desc _ b); exact E|]. exact (seen _ (r_value_desc _ _ _ _ _ _ (rev_enum_value _ _ _ _ _ _ C) N) eq_refl).
  - assert (E : un_name b = un_name a) by (symmetry; apply C).
    eexists. split; [apply (ud_member_added _ a); exact E|]. exact (seen _ (r_member_removed _ _ _ _ _ (rev_type _ _ _ _ C) J N) eq_refl).
  - assert (E : un_name b = un_name a) by (symmetry; apply C).
    eexists. split; [apply (ud_member_removed _ a); exact E|]. exact (seen _ (r_member_added _ _ _ _ _ (rev_type _ _ _ _ C) J N) eq_refl).
  - eexists. split; [apply ud_input_added|]. exact (seen _ (r_input_removed _ _ _ _ _ (rev_type _ _ _ _ C) O) eq_refl).
  - eexists. split; [apply ud_input_removed|]. exact (seen _ (r_input_added _ _ _ _ _ (rev_type _ _ _ _ C) O) eq_refl).
  - assert (E : io_name a = io_name b) by apply (proj1 C). apply not_eq_sym in N.
    eexists. split; [apply (ud_input_desc _ b); exact E|]. exact (seen _ (r_input_desc _ _ _ _ _ _ (rev_input_field _ _ _ _ _ _ C) N) eq_refl).
  - assert (E : io_name a = io_name b) by apply (proj1 C). apply not_eq_sym in N.
    eexists. split; [apply (ud_input_type _ b); exact E|]. exact (seen _ (r_input_type _ _ _ _ _ _ (rev_input_field _ _ _ _ _ _ C) N) eq_refl).
  - assert (E : io_name a = io_name b) by apply (proj1 C). apply differs_sym in N.
    eexists. split; [apply (ud_input_default _ b); exact E|]. exact (seen _ (r_input_default _ _ _ _ _ _ (rev_input_field _ _ _ _ _ _ C) N) eq_refl).
  - eexists. split; [apply ud_ddef_added|]. exact (seen _ (r_ddef_removed _ _ _ O) eq_refl).
  - eexists. split; [apply ud_ddef_removed|]. exact (seen _ (r_ddef_added _ _ _ O) eq_refl).
  - assert (E : dd_name e = dd_name d) by (symmetry; apply C).
    eexists. split; [apply (ud_location_added _ d); exact E|]. exact (seen _ (r_location_removed _ _ _ _ _ (rev_ddef _ _ _ _ C) J N) eq_refl).
  - assert (E : dd_name e = dd_name d) by (symmetry; apply C).
    eexists. split; [apply (ud_location_removed _ d); exact E|]. exact (seen _ (r_location_added _ _ _ _ _ (rev_ddef _ _ _ _ C) J N) eq_refl).
  - eexists. split; [apply ud_ddef_desc|]. apply not_eq_sym in N. exact (seen _ (r_ddef_desc _ _ _ _ (rev_ddef _ _ _ _ C) N) eq_refl).
  - cbn in X. destruct X as (d' & C' & NE & O'). eexists. split; [apply (ud_ddef_arg_added _ d'); symmetry; apply C'|].
    exact (reported_ddef_argument_removed new old Uo e d' a (rev_ddef _ _ _ _ C') NE O').
  - cbn in X. destruct X as (d' & C' & NE & O'). eexists. split; [apply (ud_ddef_arg_removed _ d'); symmetry; apply C'|].
    exact (reported_ddef_argument_added new old Uo e d' a (rev_ddef _ _ _ _ C') NE O').
  - assert (E : dd_name e = dd_name d) by (symmetry; apply (proj1 C)). apply not_eq_sym in N.
    eexists. split; [apply (ud_ddef_arg_desc _ d); exact E|]. exact (seen _ (r_ddef_arg_desc _ _ _ _ _ _ (rev_ddef_argument _ _ _ _ _ _ C) N) eq_refl).
  - assert (E : dd_name e = dd_name d) by (symmetry; apply (proj1 C)). apply differs_sym in N.
    eexists. split; [apply (ud_ddef_arg_default _ d); exact E|]. exact (seen _ (r_ddef_arg_default _ _ _ _ _ _ (rev_ddef_argument _ _ _ _ _ _ C) N) eq_refl).
  - assert (E : dd_name e = dd_name d) by (symmetry; apply (proj1 C)). apply not_eq_sym in N.
    eexists. split; [apply (ud_ddef_arg_type _ d); exact E|]. exact (seen _ (r_ddef_arg_type _ _ _ _ _ _ (rev_ddef_argument _ _ _ _ _ _ C) N) eq_refl).
Qed.

(** ** Cases *)
Definition compared3 (a b c : string) (k : schema -> schema -> schema -> Prop) : Prop :=
  exists s t u, run a = inl (inl s) /\ run b = inl (inl t) /\ run c = inl (inl u) /\ k s t u.
Ltac compared3 := do 3 eexists; split; [vm_compute; reflexivity|]; split; [vm_compute; reflexivity|]; split; [vm_compute; reflexivity|].
Lemma nothing_breaking_ok s t : forallb (fun c => negb (breaking c)) (compare s t) = true -> nothing_breaking s t.
Proof. rewrite forallb_forall. intros H c I. apply negb_true_iff. now apply H. Qed.
Lemma only_safe_ok s t : forallb non_breaking (compare s t) = true -> only_safe s t.
Proof. rewrite forallb_forall. intros H c I. now apply H. Qed.
Lemma keeps_arguments_ok s t :
  forallb (fun d => match dd_args d with [] => true | _ => forallb (fun e => negb (teqb (dd_name d) (dd_name e)) || match dd_args e with [] => false | _ => true end) (s_ddefs t) end)
    (s_ddefs s) = true -> keeps_arguments s t.
Proof.
  rewrite forallb_forall. intros H d e (Id & Ie & E) N. specialize (H d Id). destruct (dd_args d) eqn:A; [congruence|].
  rewrite forallb_forall in H. specialize (H e Ie). rewrite E, teqb_refl in H. intros Z. rewrite Z in H. discriminate H.
Qed.
Lemma common_input_In s t a b : common_input s t a b -> exists l l', inputs_in s l /\ inputs_in t l' /\ both iv_name l l' a b.
Proof.
  intros [n f g x y (H & B)|d e x y (H & B)|d e x y (H & B)].
  - exists (fd_args f), (fd_args g). destruct H as [l l' H (If & Ig & _)]. destruct H as [p q (Ip & Iq & _)|p q (Ip & Iq & _)].
    + split; [eapply ii_field; [eapply fi_object; exact Ip|exact If]|]. split; [eapply ii_field; [eapply fi_object; exact Iq|exact Ig]|exact B].
    + split; [eapply ii_field; [eapply fi_interface; exact Ip|exact If]|]. split; [eapply ii_field; [eapply fi_interface; exact Iq|exact Ig]|exact B].
  - exists (io_fields d), (io_fields e). destruct H as (Ip & Iq & _). split; [now constructor|]. split; [now constructor|exact B].
  - exists (dd_args d), (dd_args e). destruct H as (Ip & Iq & _). split; [now constructor|]. split; [now constructor|exact B].
Qed.
Lemma keeps_defaults_ok s t :
  forallb (fun l => forallb (fun a => match iv_default a with None => true
     | Some _ => forallb (fun l' => forallb (fun b => negb (teqb (iv_name a) (iv_name b)) || negb (tref_required (iv_type b)) || match iv_default b with None => false | Some _ => true end) l') (inputs_of t) end) l)
    (inputs_of s) = true -> keeps_defaults s t.
Proof.
  rewrite forallb_forall. intros H a b C R N Z. apply common_input_In in C as (l & l' & I & I' & Ia & Ib & E).
  apply inputs_of_In in I, I'. specialize (H l I). rewrite forallb_forall in H. specialize (H a Ia). destruct (iv_default a); [|congruence].
  rewrite forallb_forall in H. specialize (H l' I'). rewrite forallb_forall in H. specialize (H b Ib). rewrite E, teqb_refl, R, Z in H. discriminate H.
Qed.
(** three versions of a schema: something is added, then something is made non-null or gets a new default value *)
Definition version1 : string := "directive @d(x: Int) on OBJECT type Query @d { f(a: Int = 1): String g: E } input I { p: Int! } enum E { A }".
Definition version2 : string := "directive @d(x: Int, y: Int) on OBJECT | FIELD type Query @d { f(a: Int = 1, b: I! = {p: 1}): String! g: E } input I { p: Int q: Int! = 3 } enum E { A B }".
Definition version3 : string := "directive @d(x: Int, y: Int, z: Int) on OBJECT | FIELD type Query @d { f(a: Int = 2, b: I = {p: 1}): String! g: E! } input I { p: Int q: Int! = 4 } enum E { A B } union U = Query".
Example c84_steps_case : compared3 version1 version2 version3 (fun s t u =>
  (names_once s /\ names_once t /\ names_once u /\ floats s /\ floats t /\ floats u) /\ nothing_breaking s t /\ nothing_breaking t u /\ keeps_arguments s t /\ keeps_defaults t u /\
  nothing_breaking s u /\ map (fun l => List.length l) [compare s t; compare t u; compare s u] = [7; 6; 11]%nat).
Proof.
  compared3. match goal with |- (names_once ?s /\ names_once ?t /\ names_once ?u /\ _) /\ _ =>
    assert (C : checked s = true) by (vm_compute; reflexivity); assert (D : checked t = true) by (vm_compute; reflexivity); assert (E : checked u = true) by (vm_compute; reflexivity) end.
  apply checked_ok in C as (U & F & _). apply checked_ok in D as (U' & F' & _). apply checked_ok in E as (U'' & F'' & _).
  split; [repeat (split; [assumption|]); assumption|].
  split; [apply nothing_breaking_ok; vm_compute; reflexivity|]. split; [apply nothing_breaking_ok; vm_compute; reflexivity|].
  split; [apply keeps_arguments_ok; vm_compute; reflexivity|]. split; [apply keeps_defaults_ok; vm_compute; reflexivity|].
  split; [|vm_compute; reflexivity]. eapply c84_steps_partial; [exact F|exact F'|exact F''|exact U'|exact U''|..].
  - apply nothing_breaking_ok; vm_compute; reflexivity.
  - apply nothing_breaking_ok; vm_compute; reflexivity.
  - apply keeps_arguments_ok; vm_compute; reflexivity.
  - apply keeps_defaults_ok; vm_compute; reflexivity.
Qed.
Example c84_safe_steps_case : compared3 version1
  "directive @d(x: Int, y: Int) on OBJECT | FIELD type Query @d { f(a: Int = 1, b: I! = {p: 1}): String! g: E } input I { p: Int q: Int! = 3 } enum E { A }"
  "directive @d(x: Int, y: Int) on OBJECT | FIELD type Query @d { f(a: Int = 1, b: I = {p: 1}): String! g: E! } input I { p: Int q: Int = 3 } enum E { A } union U = Query" (fun s t u =>
  only_safe s t /\ only_safe t u /\ keeps_arguments s t /\ only_safe s u /\ map (fun l => List.length l) [compare s t; compare t u; compare s u] = [6; 4; 8]%nat).
Proof.
  compared3. split; [apply only_safe_ok; vm_compute; reflexivity|]. split; [apply only_safe_ok; vm_compute; reflexivity|].
  split; [apply keeps_arguments_ok; vm_compute; reflexivity|]. split; [|vm_compute; reflexivity].
  apply only_safe_ok; vm_compute; reflexivity.
Qed.
(** Without the condition on default values: a non-null argument is added with a default value, which is dropped later. Neither step is
    found to be breaking, but together they are. *)
Theorem c84_steps_refuted : compared3 "type Query { f: Int }" "type Query { f(a: Int! = 1): Int }" "type Query { f(a: Int!): Int }" (fun s t u =>
  names_once t /\ names_once u /\ floats s /\ floats t /\ floats u /\ nothing_breaking s t /\ nothing_breaking t u /\ keeps_arguments s t /\ ~ nothing_breaking s u).
Proof.
  compared3. match goal with |- names_once ?t /\ names_once ?u /\ floats ?s /\ _ =>
    assert (C : checked s = true) by (vm_compute; reflexivity); assert (D : checked t = true) by (vm_compute; reflexivity); assert (E : checked u = true) by (vm_compute; reflexivity) end.
  apply checked_ok in C as (U & F & _). apply checked_ok in D as (U' & F' & _). apply checked_ok in E as (U'' & F'' & _).
  split; [exact U'|]. split; [exact U''|]. split; [exact F|]. split; [exact F'|]. split; [exact F''|].
  split; [apply nothing_breaking_ok; vm_compute; reflexivity|]. split; [apply nothing_breaking_ok; vm_compute; reflexivity|].
  split; [apply keeps_arguments_ok; vm_compute; reflexivity|]. intros H.
  match type of H with nothing_breaking ?s ?u => let l := eval vm_compute in (filter breaking (compare s u)) in match l with ?c :: _ =>
    assert (I : In c (filter breaking (compare s u))) by (vm_compute; left; reflexivity); apply filter_In, proj1 in I; specialize (H c I); vm_compute in H; discriminate H end end.
Qed.
(** Without the condition on directive definitions: one loses all its arguments, then gets others. Nothing at all is reported for
    either step, but together they are breaking. *)
Theorem c84_safe_steps_refuted : compared3 "directive @d(x: Int) on FIELD type Query { f: Int }" "directive @d on FIELD type Query { f: Int }"
    "directive @d(y: Int) on FIELD type Query { f: Int }" (fun s t u =>
  names_once t /\ names_once u /\ floats s /\ floats t /\ floats u /\ compare s t = [] /\ compare t u = [] /\ ~ nothing_breaking s u).
Proof.
  compared3. match goal with |- names_once ?t /\ names_once ?u /\ floats ?s /\ _ =>
    assert (C : checked s = true) by (vm_compute; reflexivity); assert (D : checked t = true) by (vm_compute; reflexivity); assert (E : checked u = true) by (vm_compute; reflexivity) end.
  apply checked_ok in C as (U & F & _). apply checked_ok in D as (U' & F' & _). apply checked_ok in E as (U'' & F'' & _).
  split; [exact U'|]. split; [exact U''|]. split; [exact F|]. split; [exact F'|]. split; [exact F''|].
  split; [vm_compute; reflexivity|]. split; [vm_compute; reflexivity|]. intros H.
  match type of H with nothing_breaking ?s ?u => let l := eval vm_compute in (filter breaking (compare s u)) in match l with ?c :: _ =>
    assert (I : In c (filter breaking (compare s u))) by (vm_compute; left; reflexivity); apply filter_In, proj1 in I; specialize (H c I); vm_compute in H; discriminate H end end.
Qed.
(** the versions above, backwards: everything found is undone, with other criticality *)
Example c84_reversed_case : compared version1 version2 (fun s t => names_once s /\ floats s /\ floats t /\
  summary_of (compare s t) = expected [(2, "I.q"); (2, "Query.f"); (2, "Query.f.b"); (2, "@d"); (2, "@d.y"); (2, "I.p"); (1, "E.B")]%nat /\
  summary_of (compare t s) = expected [(0, "@d"); (0, "@d.y"); (0, "I.q"); (0, "E.B"); (0, "Query.f.b"); (0, "I.p"); (0, "Query.f")]%nat).
Proof.
  compared. match goal with |- names_once ?s /\ _ /\ floats ?t /\ _ => assert (C : checked s = true) by (vm_compute; reflexivity); assert (D : checked t = true) by (vm_compute; reflexivity) end.
  apply checked_ok in C as (U & F & _). apply checked_ok in D as (_ & F' & _). split; [exact U|]. split; [exact F|]. split; [exact F'|].
  split; [vm_compute; reflexivity|]. split; vm_compute; reflexivity.
Qed.

(** Without the exception: nothing is reported when the only argument of an applied directive goes away. *)
Theorem c84_reversed_refuted : compared "directive @d(a: Int) on OBJECT type Query @d { f: Int }" "directive @d(a: Int) on OBJECT type Query @d(a: 1) { f: Int }" (fun s t =>
  names_once s /\ floats s /\ floats t /\ summary_of (compare s t) = expected [(2%nat, "@d.a")] /\ compare t s = []).
Proof.
  compared. match goal with |- names_once ?s /\ _ /\ floats ?t /\ _ => assert (C : checked s = true) by (vm_compute; reflexivity); assert (D : checked t = true) by (vm_compute; reflexivity) end.
  apply checked_ok in C as (U & F & _). apply checked_ok in D as (_ & F' & _). split; [exact U|]. split; [exact F|]. split; [exact F'|].
  split; vm_compute; reflexivity.
Qed.

Print Assumptions c84_steps_partial.
Print Assumptions c84_safe_steps_partial.
Print Assumptions c84_reversed_partial.
Print Assumptions c84_reversed_refuted.
Print Assumptions c84_steps_refuted.
Print Assumptions c84_safe_steps_refuted.
