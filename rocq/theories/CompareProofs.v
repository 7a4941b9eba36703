(** Proofs about the comparison of two schemas. *)
From Coq Require Import Permutation Sorted.
From Verif Require Import Base Ast Maps CoercionTypes CoercionSpec ValueEq ValueEqSpec ValueEqProofs ValueEqProps Compare CompareSpec.

Lemma absent_In {A} (nm : A -> name) l l' x : In x (absent nm l l') <-> only_in nm l l' x.
Proof.
  unfold absent, only_in. rewrite filter_In, negb_true_iff, existsb_false. split.
  - intros (H & K). split; auto. intros y Hy E. specialize (K y Hy). apply teqb_neq in K. auto.
  - intros (H & K). split; auto. intros y Hy. apply teqb_neq. auto.
Qed.
Lemma common_sound {A} (nm : A -> name) old new diff c :
  In c (common nm old new diff) -> exists x y, both nm old new x y /\ In c (diff x y).
Proof.
  unfold common. rewrite in_flat_map. intros (x & Hx & H). destruct (find _ new) as [y|] eqn:E; [|contradiction].
  apply find_some in E as (Hy & E). apply teqb_eq in E. exists x, y. unfold both. auto.
Qed.
Lemma find_unique {A} (nm : A -> name) new x y :
  NoDup (map nm new) -> In y new -> nm x = nm y -> find (fun y => teqb (nm x) (nm y)) new = Some y.
Proof.
  intros ND Hy E. induction new as [|z new IH]; [contradiction|]. cbn in ND |- *. inversion_clear ND as [|? ? Hz ND'].
  destruct (teqb (nm x) (nm z)) eqn:Q.
  - apply teqb_eq in Q. destruct Hy as [->|Hy]; [reflexivity|]. exfalso. apply Hz. rewrite <- Q, E. now apply in_map.
  - destruct Hy as [->|Hy]; [apply teqb_neq in Q; congruence|]. auto.
Qed.
Lemma common_complete {A} (nm : A -> name) old new diff c x y :
  NoDup (map nm new) -> both nm old new x y -> In c (diff x y) -> In c (common nm old new diff).
Proof.
  intros ND (Hx & Hy & E) H. unfold common. apply in_flat_map. exists x. split; auto.
  now rewrite (find_unique nm new x y ND Hy E).
Qed.
Lemma when_In b c c' : In c (when b c') <-> b = true /\ c = c'.
Proof. unfold when. destruct b; cbn; intuition congruence. Qed.
Lemma opt_text_eqb_eq a b : opt_text_eqb a b = true <-> a = b.
Proof. destruct a, b; cbn; try rewrite teqb_eq; split; congruence. Qed.
Lemma negb_opt_text a b : negb (opt_text_eqb a b) = true <-> a <> b.
Proof. rewrite negb_true_iff, <- not_true_iff_false, opt_text_eqb_eq. tauto. Qed.
Lemma negb_tref a b : negb (tref_eqb a b) = true <-> a <> b.
Proof. rewrite negb_true_iff, <- not_true_iff_false, tref_eqb_eq. tauto. Qed.
Lemma negb_value v w : f64s v -> f64s w -> negb (value_eqb v w) = true <-> ~ same_value v w.
Proof. intros Hv Hw. rewrite negb_true_iff, <- not_true_iff_false, value_eqb_same by assumption. tauto. Qed.
Lemma default_changed_iff a b : (forall v, a = Some v -> f64s v) -> (forall v, b = Some v -> f64s v) ->
  default_changed a b = true <-> default_differs a b.
Proof.
  intros Ha Hb. destruct a as [v|], b as [w|]; cbn; try (split; auto; congruence).
  apply negb_value; auto.
Qed.
Lemma locations_In l others x : In x (locations_without l others) <-> In x l /\ ~ In x others.
Proof.
  unfold locations_without. rewrite filter_In, forallb_forall. split; intros (H & K); split; auto.
  - intros Hx. specialize (K x Hx). rewrite negb_true_iff in K. apply not_true_iff_false in K. apply K. now apply dloc_eqb_eq.
  - intros y Hy. apply negb_true_iff, not_true_iff_false. rewrite dloc_eqb_eq. intros ->. auto.
Qed.
Lemma only_id l l' (x : name) : only_in id l l' x <-> In x l /\ ~ In x l'.
Proof. unfold only_in, id. split; intros (H & K); split; auto. - intros Hx. now apply (K x). - intros y Hy ->. auto. Qed.

Section Pair.
  Variables old new : schema.
  Notation real := (real old new).
  Notation annotated := (annotated old new).
  Hypothesis Fo : floats old.
  Hypothesis Fn : floats new.

  Lemma common_fields_in t l l' : common_fields old new t l l' -> fields_in old l /\ fields_in new l'.
  Proof using Type. intros [a b (Ha & Hb & _)|a b (Ha & Hb & _)]; split; now constructor. Qed.
  Lemma common_field_in t f g : common_field old new t f g ->
    (exists l, fields_in old l /\ In f l) /\ (exists l, fields_in new l /\ In g l).
  Proof using Type. intros [l l' H (Hf & Hg & _)]. apply common_fields_in in H as (H & H'). split; eauto. Qed.
  Lemma common_argument_in t f g a b : common_argument old new t f g a b ->
    (exists l, inputs_in old l /\ In a l) /\ (exists l, inputs_in new l /\ In b l).
  Proof using Type.
    intros (H & Ha & Hb & _). apply common_field_in in H as ((l & H & K) & (l' & H' & K')).
    split; eauto using ii_field.
  Qed.
  Lemma common_input_field_in d e f g : common_input_field old new d e f g ->
    (exists l, inputs_in old l /\ In f l) /\ (exists l, inputs_in new l /\ In g l).
  Proof using Type. intros ((H & H' & _) & Ha & Hb & _). split; eauto using ii_object. Qed.
  Lemma common_ddef_argument_in d e f g : common_ddef_argument old new d e f g ->
    (exists l, inputs_in old l /\ In f l) /\ (exists l, inputs_in new l /\ In g l).
  Proof using Type. intros ((H & H' & _) & Ha & Hb & _). split; eauto using ii_directive. Qed.
  Lemma annotated_in l m ds ds' : anything_annotated old new l m ds ds' -> directives_in old ds /\ directives_in new ds'.
  Proof using Type.
    intros [H|[H|[H|[H|H]]]].
    - destruct H as [a b (H & H' & _)|a b (H & H' & _)|a b (H & H' & _)|a b (H & H' & _)|a b (H & H' & _)|t f g H|t f g a b H|d e v w ((H & H' & _) & K & K' & _)];
        try (split; econstructor; eassumption).
      + apply common_field_in in H as ((x & H & K) & (y & H' & K')). split; eapply di_field; eassumption.
      + apply common_argument_in in H as ((x & H & K) & (y & H' & K')). split; eapply di_ivd; eassumption.
    - destruct H. split; constructor.
    - destruct H as [d e f g H]. apply common_input_field_in in H as ((x & H & K) & (y & H' & K')). split; eapply di_ivd; eassumption.
    - destruct H as [a b (H & H' & _)]. split; econstructor; eassumption.
    - destruct H as [d e f g H]. apply common_ddef_argument_in in H as ((x & H & K) & (y & H' & K')). split; eapply di_ivd; eassumption.
  Qed.
  Lemma defaults_iff a b : (exists l, inputs_in old l /\ In a l) -> (exists l, inputs_in new l /\ In b l) ->
    default_changed (iv_default a) (iv_default b) = true <-> default_differs (iv_default a) (iv_default b).
  Proof using Fo Fn.
    intros (l & H & K) (l' & H' & K'). apply default_changed_iff; intros v E.
    - apply Fo. eapply vi_default; eassumption.
    - apply Fn. eapply vi_default; eassumption.
  Qed.

  (** ** directives *)
  Lemma directive_values l m ds ds' d e a b : anything_annotated old new l m ds ds' -> both dir_name ds ds' d e ->
    both fst (dir_args d) (dir_args e) a b -> negb (value_eqb (snd a) (snd b)) = true <-> ~ same_value (snd a) (snd b).
  Proof using Fo Fn.
    intros H (Hd & He & _) (Ha & Hb & _). apply annotated_in in H as (H & H'). destruct a as [k v], b as [k' w].
    apply negb_value; [apply Fo|apply Fn]; eapply vi_argument; eassumption.
  Qed.
  Lemma directives_sound l m ds ds' c : anything_annotated old new l m ds ds' ->
    In c (common_directive_changes ds ds') -> real c.
  Proof using Fo Fn.
    intros H K. apply common_sound in K as (d & e & B & K). unfold directive_diff in K. rewrite !in_app_iff in K.
    destruct K as [K|[K|K]].
    - apply in_map_iff in K as (a & <- & K). unfold argument_additions in K. apply absent_In in K. eapply r_directive_arg_added; eassumption.
    - apply in_map_iff in K as (a & <- & K). unfold argument_removals in K. destruct (dir_args e) eqn:E; [contradiction|].
      rewrite <- E in K. apply absent_In in K. eapply r_directive_arg_removed; eassumption.
    - apply common_sound in K as (a & b & B' & K). apply when_In in K as (K & ->).
      rewrite directive_values in K by eassumption. eapply r_directive_arg_value; eassumption.
  Qed.
  Lemma added_sound l m ds ds' c : anything_annotated old new l m ds ds' -> In c (directives_added l m ds ds') -> real c.
  Proof using Type.
    intros H K. apply in_map_iff in K as (a & <- & K). apply absent_In in K. eapply r_directive_added; eassumption.
  Qed.
  Lemma removed_sound l m ds ds' c : anything_annotated old new l m ds ds' -> In c (directives_removed l m ds ds') -> real c.
  Proof using Type.
    intros H K. apply in_map_iff in K as (a & <- & K). apply absent_In in K. eapply r_directive_removed; eassumption.
  Qed.

  (** ** soundness *)
  Lemma argument_sound t f g a b c : common_argument old new t f g a b -> In c (argument_diff t f a b) -> real c.
  Proof using Fo Fn.
    intros H K. assert (AN : anything_annotated old new LArgumentDefinition (iv_name a) (iv_dirs a) (iv_dirs b))
      by (left; eapply an_argument; eassumption).
    unfold argument_diff in K. rewrite !in_app_iff, !when_In, negb_opt_text, negb_tref in K.
    destruct (common_argument_in _ _ _ _ _ H) as (Ia & Ib). rewrite (defaults_iff a b Ia Ib) in K.
    destruct K as [(K & ->)|[(K & ->)|[(K & ->)|[K|[K|K]]]]];
      eauto using r_arg_desc, r_arg_type, r_arg_default, added_sound, removed_sound, directives_sound.
  Qed.
  Lemma field_sound t f g c : common_field old new t f g -> In c (field_diff t f g) -> real c.
  Proof using Fo Fn.
    intros H K. assert (AN : anything_annotated old new LFieldDefinition (fd_name f) (fd_dirs f) (fd_dirs g))
      by (left; eapply an_field; eassumption).
    unfold field_diff in K. rewrite !in_app_iff, !when_In, negb_opt_text, negb_tref in K.
    destruct K as [(K & ->)|[(K & ->)|[K|[K|[K|[K|[K|K]]]]]]];
      eauto using r_field_desc, r_field_type, added_sound, removed_sound, directives_sound.
    - apply in_map_iff in K as (a & <- & K). apply absent_In in K. eapply r_arg_added; eassumption.
    - apply in_map_iff in K as (a & <- & K). apply absent_In in K. eapply r_arg_removed; eassumption.
    - apply common_sound in K as (a & b & B & K). eapply argument_sound; [split; eassumption|exact K].
  Qed.
  Lemma object_sound a b c : common_type old new (DObject a) (DObject b) -> In c (object_diff a b) -> real c.
  Proof using Fo Fn.
    intros H K. assert (AN : anything_annotated old new LObject (ob_name a) (ob_dirs a) (ob_dirs b)) by (left; now constructor).
    pose proof (cf_object old new a b H) as CF. assert (E : ob_name b = ob_name a) by (symmetry; apply H).
    unfold object_diff in K. rewrite !in_app_iff in K. rewrite E in K.
    destruct K as [K|[K|[K|[K|[K|[K|[K|K]]]]]]]; eauto using added_sound, removed_sound, directives_sound.
    - apply in_map_iff in K as (i & <- & K). apply absent_In, only_id in K as (K & K'). eapply r_interface_added; eassumption.
    - apply in_map_iff in K as (i & <- & K). apply absent_In, only_id in K as (K & K'). eapply r_interface_removed; eassumption.
    - apply in_map_iff in K as (f & <- & K). apply absent_In in K. eapply r_field_added; eassumption.
    - apply in_map_iff in K as (f & <- & K). apply absent_In in K. eapply r_field_removed; eassumption.
    - apply common_sound in K as (f & g & B & K). eapply field_sound; [|exact K]. econstructor; eassumption.
  Qed.
  Lemma interface_sound a b c : common_type old new (DInterface a) (DInterface b) -> In c (interface_diff a b) -> real c.
  Proof using Fo Fn.
    intros H K. assert (AN : anything_annotated old new LInterface (if_name a) (if_dirs a) (if_dirs b)) by (left; now constructor).
    pose proof (cf_interface old new a b H) as CF. assert (E : if_name b = if_name a) by (symmetry; apply H).
    unfold interface_diff in K. rewrite !in_app_iff in K. rewrite E in K.
    destruct K as [K|[K|[K|[K|[K|K]]]]]; eauto using added_sound, removed_sound, directives_sound.
    - apply in_map_iff in K as (f & <- & K). apply absent_In in K. eapply r_field_added; eassumption.
    - apply in_map_iff in K as (f & <- & K). apply absent_In in K. eapply r_field_removed; eassumption.
    - apply common_sound in K as (f & g & B & K). eapply field_sound; [|exact K]. econstructor; eassumption.
  Qed.
  Lemma union_sound a b c : common_type old new (DUnion a) (DUnion b) -> In c (union_diff a b) -> real c.
  Proof using Fo Fn.
    intros H K. assert (AN : anything_annotated old new LUnion (un_name a) (un_dirs a) (un_dirs b)) by (left; now constructor).
    unfold union_diff in K. rewrite !in_app_iff in K.
    destruct K as [K|[K|[K|[K|K]]]]; eauto using added_sound, removed_sound, directives_sound.
    - apply in_map_iff in K as (i & <- & K). apply absent_In, only_id in K as (K & K'). eapply r_member_added; eassumption.
    - apply in_map_iff in K as (i & <- & K). apply absent_In, only_id in K as (K & K'). eapply r_member_removed; eassumption.
  Qed.
  Lemma enum_sound a b c : common_type old new (DEnum a) (DEnum b) -> In c (enum_diff a b) -> real c.
  Proof using Fo Fn.
    intros H K. assert (AN : anything_annotated old new LEnum (en_name a) (en_dirs a) (en_dirs b)) by (left; now constructor).
    unfold enum_diff in K. rewrite !in_app_iff in K.
    destruct K as [K|[K|[K|[K|[K|K]]]]]; eauto using added_sound, removed_sound, directives_sound.
    - apply in_map_iff in K as (i & <- & K). apply absent_In in K. eapply r_value_added; eassumption.
    - apply in_map_iff in K as (i & <- & K). apply absent_In in K. eapply r_value_removed; eassumption.
    - apply common_sound in K as (v & w & B & K). assert (CV : common_enum_value old new a b v w) by now split.
      assert (AV : anything_annotated old new LEnumValue (ev_name v) (ev_dirs v) (ev_dirs w)) by (left; eapply an_enum_value; eassumption).
      unfold enum_value_diff in K. rewrite !in_app_iff, when_In, negb_opt_text in K.
      destruct K as [(K & ->)|[K|[K|K]]]; eauto using r_value_desc, added_sound, removed_sound, directives_sound.
  Qed.
  Lemma input_sound a b c : common_type old new (DInput a) (DInput b) -> In c (input_diff a b) -> real c \/ misplaced old new c.
  Proof using Fo Fn.
    intros H K. assert (AN : anything_annotated old new LInputObject (io_name a) (io_dirs a) (io_dirs b)) by (left; now constructor).
    unfold input_diff in K. rewrite !in_app_iff in K.
    destruct K as [K|[K|[K|[K|[K|K]]]]]; eauto using added_sound, removed_sound, directives_sound.
    - apply in_map_iff in K as (i & <- & K). apply absent_In in K. left. eapply r_input_added; eassumption.
    - apply in_map_iff in K as (i & <- & K). apply absent_In in K. left. eapply r_input_removed; eassumption.
    - apply common_sound in K as (f & g & B & K). assert (CF : common_input_field old new a b f g) by now split.
      assert (AF : anything_annotated old new LInputFieldDefinition (iv_name f) (iv_dirs f) (iv_dirs g))
        by (right; right; left; econstructor; eassumption).
      unfold input_field_diff in K. rewrite !in_app_iff, !when_In, negb_opt_text, negb_tref in K.
      destruct (common_input_field_in _ _ _ _ CF) as (If & Ig). rewrite (defaults_iff f g If Ig) in K.
      destruct K as [(K & ->)|[(K & ->)|[(K & ->)|[K|[K|K]]]]]; eauto using r_input_desc, r_input_type, r_input_default, directives_sound.
      + apply in_map_iff in K as (d & <- & K). apply absent_In in K. right. econstructor; eassumption.
      + apply in_map_iff in K as (d & <- & K). apply absent_In in K. right. econstructor; eassumption.
  Qed.
  Lemma type_sound t u c : common_type old new t u -> In c (type_diff t u) -> real c \/ misplaced old new c.
  Proof using Fo Fn.
    intros H K. unfold type_diff in K. apply in_app_or in K as [K|K].
    - destruct t, u; try contradiction; eauto using object_sound, interface_sound, union_sound, enum_sound, input_sound;
        destruct K as [<-|[]]; left; apply r_type_kind; auto; discriminate.
    - apply when_In in K as (K & ->). apply negb_opt_text in K. left. now apply r_type_desc.
  Qed.
  Lemma ddef_sound d e c : common_ddef old new d e -> In c (ddef_diff d e) -> real c.
  Proof using Fo Fn.
    intros H K. unfold ddef_diff in K. rewrite !in_app_iff, when_In, negb_opt_text in K.
    destruct K as [(K & ->)|[K|[K|[K|[K|K]]]]].
    - now apply r_ddef_desc.
    - apply in_map_iff in K as (l & <- & K). apply locations_In in K as (K & K'). eapply r_location_added; eassumption.
    - apply in_map_iff in K as (l & <- & K). apply locations_In in K as (K & K'). eapply r_location_removed; eassumption.
    - apply in_map_iff in K as (a & <- & K). unfold ddef_argument_additions in K. destruct (dd_args d) eqn:E; [contradiction|].
      rewrite <- E in K. apply absent_In in K. eapply r_ddef_arg_added; eassumption.
    - apply in_map_iff in K as (a & <- & K). unfold ddef_argument_removals in K. destruct (dd_args e) eqn:E; [contradiction|].
      rewrite <- E in K. apply absent_In in K. eapply r_ddef_arg_removed; eassumption.
    - apply common_sound in K as (a & b & B & K). assert (CA : common_ddef_argument old new d e a b) by now split.
      unfold ddef_argument_diff in K. rewrite !in_app_iff, !when_In, negb_opt_text, negb_tref in K.
      destruct (common_ddef_argument_in _ _ _ _ CA) as (Ia & Ib). rewrite (defaults_iff a b Ia Ib) in K.
      destruct K as [(K & ->)|[(K & ->)|(K & ->)]]; eauto using r_ddef_arg_desc, r_ddef_arg_type, r_ddef_arg_default.
  Qed.
  Lemma schema_sound c : In c (schema_diff old new) -> real c \/ misplaced old new c.
  Proof using Fo Fn.
    intros K. unfold schema_diff in K. rewrite !in_app_iff in K.
    assert (AN : anything_annotated old new LSchema [] (s_dirs old) (s_dirs new)) by (right; left; constructor).
    destruct K as [K|[K|[K|[K|[K|[K|[K|K]]]]]]]; eauto using added_sound, removed_sound.
    - apply in_map_iff in K as (t & <- & K). apply absent_In in K. left. now constructor.
    - apply in_map_iff in K as (t & <- & K). apply absent_In in K. left. now constructor.
    - apply common_sound in K as (t & u & B & K). eapply type_sound; eassumption.
    - apply in_map_iff in K as (t & <- & K). apply absent_In in K. left. now constructor.
    - apply in_map_iff in K as (t & <- & K). apply absent_In in K. left. now constructor.
    - apply common_sound in K as (d & e & B & K). left. eapply ddef_sound; eassumption.
  Qed.

  (** ** completeness *)
  Hypothesis U : names_once new.

  Lemma type_complete t u c : common_type old new t u -> In c (type_diff t u) -> In c (schema_diff old new).
  Proof using U.
    intros H K. unfold schema_diff. rewrite !in_app_iff. right; right; left.
    eapply common_complete; [apply once_types; exact U|exact H|exact K].
  Qed.
  Lemma fields_complete t l l' f g c : common_fields old new t l l' -> both fd_name l l' f g -> In c (field_diff t f g) ->
    In c (schema_diff old new).
  Proof using U.
    intros H B K. assert (ND : NoDup (map fd_name l')) by (apply (once_fields _ U); apply (common_fields_in _ _ _ H)).
    destruct H as [a b H|a b H]; (eapply type_complete; [exact H|]); unfold type_diff; apply in_or_app; left;
      unfold object_diff, interface_diff; rewrite !in_app_iff.
    - right; right; right; right; right; right; left. eapply common_complete; [exact ND|exact B|].
      destruct H as (_ & _ & E). cbn in E. now rewrite <- E.
    - right; right; right; right; left. eapply common_complete; [exact ND|exact B|].
      destruct H as (_ & _ & E). cbn in E. now rewrite <- E.
  Qed.
  Lemma field_complete t f g c : common_field old new t f g -> In c (field_diff t f g) -> In c (schema_diff old new).
  Proof using U. intros [l l' H B] K. eapply fields_complete; eassumption. Qed.
  Lemma argument_complete t f g a b c : common_argument old new t f g a b -> In c (argument_diff t f a b) -> In c (schema_diff old new).
  Proof using U.
    intros (H & B) K. eapply field_complete; [exact H|]. unfold field_diff. rewrite !in_app_iff.
    right; right; right; right; left. eapply common_complete; [|exact B|exact K].
    apply (once_inputs _ U). apply common_field_in in H as (_ & (l & H & K')). eapply ii_field; eassumption.
  Qed.
  Lemma enum_value_complete d e v w c : common_enum_value old new d e v w -> In c (enum_value_diff d v w) -> In c (schema_diff old new).
  Proof using U.
    intros (H & B) K. eapply type_complete; [exact H|]. unfold type_diff, enum_diff. rewrite !in_app_iff.
    left. right; right; right; right; left. eapply common_complete; [|exact B|exact K].
    apply (once_enum_values _ U). apply H.
  Qed.
  Lemma input_field_complete d e f g c : common_input_field old new d e f g -> In c (input_field_diff d e f g) -> In c (schema_diff old new).
  Proof using U.
    intros (H & B) K. eapply type_complete; [exact H|]. unfold type_diff, input_diff. rewrite !in_app_iff.
    left. right; right; right; right; left. eapply common_complete; [|exact B|exact K].
    apply (once_inputs _ U). constructor. apply H.
  Qed.
  Lemma ddef_complete d e c : common_ddef old new d e -> In c (ddef_diff d e) -> In c (schema_diff old new).
  Proof using U.
    intros H K. unfold schema_diff. rewrite !in_app_iff. do 7 right.
    eapply common_complete; [apply once_ddefs; exact U|exact H|exact K].
  Qed.
  Lemma ddef_argument_complete d e a b c : common_ddef_argument old new d e a b -> In c (ddef_argument_diff e a b) -> In c (schema_diff old new).
  Proof using U.
    intros (H & B) K. eapply ddef_complete; [exact H|]. unfold ddef_diff. rewrite !in_app_iff. do 5 right.
    eapply common_complete; [|exact B|exact K]. apply (once_inputs _ U). constructor. apply H.
  Qed.

  Lemma annotated_added l m ds ds' c : annotated l m ds ds' \/ annotated_schema old new l m ds ds' ->
    In c (directives_added l m ds ds') -> In c (schema_diff old new).
  Proof using U.
    intros [H|H] K.
    - destruct H as [a b H|a b H|a b H|a b H|a b H|t f g H|t f g a b H|d e v w H];
        [eapply type_complete; [exact H|]..|eapply field_complete; [exact H|]|eapply argument_complete; [exact H|]|eapply enum_value_complete; [exact H|]];
        unfold type_diff, object_diff, interface_diff, union_diff, enum_diff, input_diff, field_diff, argument_diff, enum_value_diff;
        rewrite !in_app_iff; tauto.
    - destruct H. unfold schema_diff. rewrite !in_app_iff. tauto.
  Qed.
  Lemma annotated_removed l m ds ds' c : annotated l m ds ds' \/ annotated_schema old new l m ds ds' ->
    In c (directives_removed l m ds ds') -> In c (schema_diff old new).
  Proof using U.
    intros [H|H] K.
    - destruct H as [a b H|a b H|a b H|a b H|a b H|t f g H|t f g a b H|d e v w H];
        [eapply type_complete; [exact H|]..|eapply field_complete; [exact H|]|eapply argument_complete; [exact H|]|eapply enum_value_complete; [exact H|]];
        unfold type_diff, object_diff, interface_diff, union_diff, enum_diff, input_diff, field_diff, argument_diff, enum_value_diff;
        rewrite !in_app_iff; tauto.
    - destruct H. unfold schema_diff. rewrite !in_app_iff. tauto.
  Qed.
  Lemma annotated_common l m ds ds' c : annotated l m ds ds' \/ annotated_input_field old new l m ds ds' ->
    In c (common_directive_changes ds ds') -> In c (schema_diff old new).
  Proof using U.
    intros [H|H] K.
    - destruct H as [a b H|a b H|a b H|a b H|a b H|t f g H|t f g a b H|d e v w H];
        [eapply type_complete; [exact H|]..|eapply field_complete; [exact H|]|eapply argument_complete; [exact H|]|eapply enum_value_complete; [exact H|]];
        unfold type_diff, object_diff, interface_diff, union_diff, enum_diff, input_diff, field_diff, argument_diff, enum_value_diff;
        rewrite !in_app_iff; tauto.
    - destruct H as [d e f g H]. eapply input_field_complete; [exact H|]. unfold input_field_diff. rewrite !in_app_iff. tauto.
  Qed.
  Lemma directive_complete l m ds ds' d e c : annotated l m ds ds' \/ annotated_input_field old new l m ds ds' ->
    both dir_name ds ds' d e -> In c (directive_diff d e) -> In c (schema_diff old new).
  Proof using U.
    intros H B K. eapply annotated_common; [exact H|]. eapply common_complete; [|exact B|exact K].
    apply (once_directives _ U). apply (annotated_in l m ds ds'). unfold anything_annotated. tauto.
  Qed.

  Lemma schema_complete c : real c -> overlooked old new c \/ In c (schema_diff old new).
  Proof using Fo Fn U.
    intros H. destruct H as
      [t H|t H|t u H K|t u H K|n l l' f H K|n l l' f H K|n f g H K|n f g H K|n f g a H K|n f g a H K|n f g a b H K|n f g a b H K|n f g a b H K
      |a b i H K K'|a b i H K K'|a b v H K|a b v H K|a b v w H K|a b m H K K'|a b m H K K'|a b f H K|a b f H K|a b f g H K|a b f g H K|a b f g H K
      |d H|d H|d e l H K K'|d e l H K K'|d e H K|d e a H K|d e a H K|d e a b H K|d e a b H K|d e a b H K
      |l m ds ds' d H K|l m ds ds' d H K|l m ds ds' d e a H B K|l m ds ds' d e a H B K|l m ds ds' d e a b H B B' K].
    - right. unfold schema_diff. rewrite !in_app_iff. left. apply in_map. now apply absent_In.
    - right. unfold schema_diff. rewrite !in_app_iff. right; left. apply in_map. now apply absent_In.
    - right. eapply type_complete; [exact H|]. unfold type_diff. apply in_or_app. left.
      destruct t, u; cbn in K; try congruence; now left.
    - right. eapply type_complete; [exact H|]. unfold type_diff. apply in_or_app. right. apply when_In. split; auto. now apply negb_opt_text.
    - right. destruct H as [a b H|a b H]; (eapply type_complete; [exact H|]); unfold type_diff, object_diff, interface_diff; rewrite !in_app_iff; left.
      + right; right; left. destruct H as (_ & _ & E). cbn in E. rewrite E. apply (in_map (fun f => FieldAdded f (ob_name b))). now apply absent_In.
      + left. apply (in_map (fun f => FieldAdded f (if_name a))). now apply absent_In.
    - right. destruct H as [a b H|a b H]; (eapply type_complete; [exact H|]); unfold type_diff, object_diff, interface_diff; rewrite !in_app_iff; left.
      + right; right; right; left. destruct H as (_ & _ & E). cbn in E. rewrite E. apply (in_map (fun f => FieldRemoved f (ob_name b))). now apply absent_In.
      + right; left. destruct H as (_ & _ & E). cbn in E. rewrite E. apply (in_map (fun f => FieldRemoved f (if_name b))). now apply absent_In.
    - right. eapply field_complete; [exact H|]. unfold field_diff. rewrite !in_app_iff. left. apply when_In. split; auto. now apply negb_opt_text.
    - right. eapply field_complete; [exact H|]. unfold field_diff. rewrite !in_app_iff. right; left. apply when_In. split; auto. now apply negb_tref.
    - right. eapply field_complete; [exact H|]. unfold field_diff. rewrite !in_app_iff. right; right; left. apply in_map. now apply absent_In.
    - right. eapply field_complete; [exact H|]. unfold field_diff. rewrite !in_app_iff. right; right; right; left. apply in_map. now apply absent_In.
    - right. eapply argument_complete; [exact H|]. unfold argument_diff. rewrite !in_app_iff. left. apply when_In. split; auto. now apply negb_opt_text.
    - right. eapply argument_complete; [exact H|]. unfold argument_diff. rewrite !in_app_iff. right; right; left. apply when_In. split; auto.
      destruct (common_argument_in _ _ _ _ _ H) as (Ia & Ib). now apply (defaults_iff a b Ia Ib).
    - right. eapply argument_complete; [exact H|]. unfold argument_diff. rewrite !in_app_iff. right; left. apply when_In. split; auto. now apply negb_tref.
    - right. eapply type_complete; [exact H|]. unfold type_diff, object_diff. rewrite !in_app_iff. left. left. apply in_map. now apply absent_In, only_id.
    - right. eapply type_complete; [exact H|]. unfold type_diff, object_diff. rewrite !in_app_iff. left. right; left. apply in_map. now apply absent_In, only_id.
    - right. eapply type_complete; [exact H|]. unfold type_diff, enum_diff. rewrite !in_app_iff. left. left. apply in_map. now apply absent_In.
    - right. eapply type_complete; [exact H|]. unfold type_diff, enum_diff. rewrite !in_app_iff. left. right; left. apply in_map. now apply absent_In.
    - right. eapply enum_value_complete; [exact H|]. unfold enum_value_diff. rewrite !in_app_iff. left. apply when_In. split; auto. now apply negb_opt_text.
    - right. eapply type_complete; [exact H|]. unfold type_diff, union_diff. rewrite !in_app_iff. left. left. apply in_map. now apply absent_In, only_id.
    - right. eapply type_complete; [exact H|]. unfold type_diff, union_diff. rewrite !in_app_iff. left. right; left. apply in_map. now apply absent_In, only_id.
    - right. eapply type_complete; [exact H|]. unfold type_diff, input_diff. rewrite !in_app_iff. left. left. apply in_map. now apply absent_In.
    - right. eapply type_complete; [exact H|]. unfold type_diff, input_diff. rewrite !in_app_iff. left. right; left. apply in_map. now apply absent_In.
    - right. eapply input_field_complete; [exact H|]. unfold input_field_diff. rewrite !in_app_iff. left. apply when_In. split; auto. now apply negb_opt_text.
    - right. eapply input_field_complete; [exact H|]. unfold input_field_diff. rewrite !in_app_iff. right; left. apply when_In. split; auto. now apply negb_tref.
    - right. eapply input_field_complete; [exact H|]. unfold input_field_diff. rewrite !in_app_iff. right; right; left. apply when_In. split; auto.
      destruct (common_input_field_in _ _ _ _ H) as (Ia & Ib). now apply (defaults_iff f g Ia Ib).
    - right. unfold schema_diff. rewrite !in_app_iff. do 4 right. left. apply in_map. now apply absent_In.
    - right. unfold schema_diff. rewrite !in_app_iff. do 3 right. left. apply in_map. now apply absent_In.
    - right. eapply ddef_complete; [exact H|]. unfold ddef_diff. rewrite !in_app_iff. right; left. apply in_map. now apply locations_In.
    - right. eapply ddef_complete; [exact H|]. unfold ddef_diff. rewrite !in_app_iff. right; right; left. apply in_map. now apply locations_In.
    - right. eapply ddef_complete; [exact H|]. unfold ddef_diff. rewrite !in_app_iff. left. apply when_In. split; auto. now apply negb_opt_text.
    - destruct (dd_args d) eqn:E; [left; destruct K as (K & _); eapply ov_first_ddef_argument; eassumption|]. right.
      eapply ddef_complete; [exact H|]. unfold ddef_diff. rewrite !in_app_iff. do 3 right. left. apply in_map.
      unfold ddef_argument_additions. rewrite E. now apply absent_In.
    - destruct (dd_args e) eqn:E; [left; destruct K as (K & _); eapply ov_all_ddef_arguments; eassumption|]. right.
      eapply ddef_complete; [exact H|]. unfold ddef_diff. rewrite !in_app_iff. do 4 right. left. apply in_map.
      unfold ddef_argument_removals. rewrite E. now apply absent_In.
    - right. eapply ddef_argument_complete; [exact H|]. unfold ddef_argument_diff. rewrite !in_app_iff. left. apply when_In. split; auto. now apply negb_opt_text.
    - right. eapply ddef_argument_complete; [exact H|]. unfold ddef_argument_diff. rewrite !in_app_iff. right; right. apply when_In. split; auto.
      destruct (common_ddef_argument_in _ _ _ _ H) as (Ia & Ib). now apply (defaults_iff a b Ia Ib).
    - right. eapply ddef_argument_complete; [exact H|]. unfold ddef_argument_diff. rewrite !in_app_iff. right; left. apply when_In. split; auto. now apply negb_tref.
    - assert (Q : (annotated l m ds ds' \/ annotated_schema old new l m ds ds') \/
        (annotated_input_field old new l m ds ds' \/ annotated_scalar old new l m ds ds' \/ annotated_ddef_argument old new l m ds ds'))
        by (unfold anything_annotated in H; tauto).
      destruct Q as [Q|Q]; [right|left; eapply ov_added; eassumption].
      eapply annotated_added; [exact Q|]. apply in_map. now apply absent_In.
    - assert (Q : (annotated l m ds ds' \/ annotated_schema old new l m ds ds') \/
        (annotated_input_field old new l m ds ds' \/ annotated_scalar old new l m ds ds' \/ annotated_ddef_argument old new l m ds ds'))
        by (unfold anything_annotated in H; tauto).
      destruct Q as [Q|Q]; [right|left; eapply ov_removed; eassumption].
      eapply annotated_removed; [exact Q|]. apply in_map. now apply absent_In.
    - assert (Q : (annotated l m ds ds' \/ annotated_input_field old new l m ds ds') \/
        (annotated_schema old new l m ds ds' \/ annotated_scalar old new l m ds ds' \/ annotated_ddef_argument old new l m ds ds'))
        by (unfold anything_annotated in H; tauto).
      destruct Q as [Q|Q]; [right|left; destruct K; eapply ov_arg_added; eassumption].
      eapply directive_complete; [exact Q|exact B|]. unfold directive_diff. rewrite !in_app_iff. left. apply in_map. now apply absent_In.
    - assert (Q : (annotated l m ds ds' \/ annotated_input_field old new l m ds ds') \/
        (annotated_schema old new l m ds ds' \/ annotated_scalar old new l m ds ds' \/ annotated_ddef_argument old new l m ds ds'))
        by (unfold anything_annotated in H; tauto).
      destruct Q as [Q|Q]; [|left; destruct K; eapply ov_arg_removed; eassumption].
      destruct (dir_args e) eqn:E; [left; destruct K; eapply ov_all_arguments; eassumption|right].
      eapply directive_complete; [exact Q|exact B|]. unfold directive_diff. rewrite !in_app_iff. right; left. apply in_map.
      unfold argument_removals. rewrite E. now apply absent_In.
    - assert (Q : (annotated l m ds ds' \/ annotated_input_field old new l m ds ds') \/
        (annotated_schema old new l m ds ds' \/ annotated_scalar old new l m ds ds' \/ annotated_ddef_argument old new l m ds ds'))
        by (unfold anything_annotated in H; tauto).
      destruct Q as [Q|Q]; [right|left; eapply ov_arg_value; eassumption].
      eapply directive_complete; [exact Q|exact B|]. unfold directive_diff. rewrite !in_app_iff. right; right.
      eapply common_complete; [|exact B'|].
      + destruct B as (_ & He & _). eapply (once_directive_arguments _ U); [|exact He]. apply (annotated_in l m ds ds'). exact H.
      + apply when_In. split; auto. eapply directive_values; eassumption.
  Qed.
  Lemma misplaced_reported c : misplaced old new c -> In c (schema_diff old new).
  Proof using U.
    intros [a b f g d H K|a b f g d H K]; (eapply input_field_complete; [exact H|]); unfold input_field_diff; rewrite !in_app_iff.
    - do 3 right. left. apply in_map. now apply absent_In.
    - do 4 right. left. apply in_map. now apply absent_In.
  Qed.
End Pair.

(** ** a schema and itself *)
Section Same.
  Variable s : schema.
  Hypothesis U : names_once s.
  Hypothesis N : without_nan s.

  Lemma both_same {A} (nm : A -> name) l x y : NoDup (map nm l) -> both nm l l x y -> x = y.
  Proof using Type.
    intros ND (Hx & Hy & E). assert (F := find_unique nm l x x ND Hx eq_refl). rewrite (find_unique nm l x y ND Hy E) in F. congruence.
  Qed.
  Lemma only_in_self {A} (nm : A -> name) l x : ~ only_in nm l l x.
  Proof using Type. intros (H & K). now apply (K x). Qed.
  Lemma same_type t u : common_type s s t u -> t = u.
  Proof using U. apply both_same, (once_types _ U). Qed.
  Lemma same_fields t l l' : common_fields s s t l l' -> l = l'.
  Proof using U. intros [a b H|a b H]; apply same_type in H; congruence. Qed.
  Lemma same_field t f g : common_field s s t f g -> f = g.
  Proof using U.
    intros [l l' H B]. pose proof (common_fields_in _ _ _ _ _ H) as (I & _). apply same_fields in H. subst.
    eapply both_same; [|exact B]. now apply (once_fields _ U).
  Qed.
  Lemma same_argument t f g a b : common_argument s s t f g a b -> a = b.
  Proof using U.
    intros (H & B). destruct (common_field_in _ _ _ _ _ H) as ((l & I & J) & _). apply same_field in H. subst.
    eapply both_same; [|exact B]. apply (once_inputs _ U). eapply ii_field; eassumption.
  Qed.
  Lemma same_input_field d e a b : common_input_field s s d e a b -> a = b.
  Proof using U.
    intros (H & B). pose proof H as (I & _). apply same_type in H. injection H as <-.
    eapply both_same; [|exact B]. apply (once_inputs _ U). now constructor.
  Qed.
  Lemma same_enum_value d e a b : common_enum_value s s d e a b -> a = b.
  Proof using U.
    intros (H & B). pose proof H as (I & _). apply same_type in H. injection H as <-.
    eapply both_same; [|exact B]. now apply (once_enum_values _ U).
  Qed.
  Lemma same_ddef d e : common_ddef s s d e -> d = e.
  Proof using U. apply both_same, (once_ddefs _ U). Qed.
  Lemma same_ddef_argument d e a b : common_ddef_argument s s d e a b -> a = b.
  Proof using U.
    intros (H & B). pose proof H as (I & _). apply same_ddef in H. subst.
    eapply both_same; [|exact B]. apply (once_inputs _ U). now constructor.
  Qed.
  Lemma same_annotated l m ds ds' : anything_annotated s s l m ds ds' -> ds = ds'.
  Proof using U.
    intros [H|[H|[H|[H|H]]]].
    - destruct H as [a b H|a b H|a b H|a b H|a b H|t f g H|t f g a b H|d e v w H]; try (apply same_type in H; congruence).
      + apply same_field in H; congruence.
      + apply same_argument in H; congruence.
      + apply same_enum_value in H; congruence.
    - now destruct H.
    - destruct H as [d e f g H]. apply same_input_field in H; congruence.
    - destruct H as [a b H]. apply same_type in H; congruence.
    - destruct H as [d e f g H]. apply same_ddef_argument in H; congruence.
  Qed.
  Lemma no_default_differs i : (exists l, inputs_in s l /\ In i l) -> ~ default_differs (iv_default i) (iv_default i).
  Proof using N.
    intros (l & H & K). destruct (iv_default i) as [v|] eqn:E; cbn; auto. intros D. apply D, same_refl, N. eapply vi_default; eassumption.
  Qed.
  Lemma nothing_real c : ~ real s s c.
  Proof using U N.
    intros H. destruct H as
      [t H|t H|t u H K|t u H K|n l l' f H K|n l l' f H K|n f g H K|n f g H K|n f g a H K|n f g a H K|n f g a b H K|n f g a b H K|n f g a b H K
      |a b i H K K'|a b i H K K'|a b v H K|a b v H K|a b v w H K|a b m H K K'|a b m H K K'|a b f H K|a b f H K|a b f g H K|a b f g H K|a b f g H K
      |d H|d H|d e l H K K'|d e l H K K'|d e H K|d e a H K|d e a H K|d e a b H K|d e a b H K|d e a b H K
      |l m ds ds' d H K|l m ds ds' d H K|l m ds ds' d e a H B K|l m ds ds' d e a H B K|l m ds ds' d e a b H B B' K];
      try (now apply only_in_self in H);
      try (apply same_type in H; try (injection H as <-); first [congruence | contradiction | now apply only_in_self in K]);
      try (apply same_fields in H; subst; now apply only_in_self in K);
      try (apply same_field in H; subst; first [congruence | now apply only_in_self in K]);
      try (apply same_argument in H; congruence); try (apply same_input_field in H; congruence);
      try (apply same_enum_value in H; congruence); try (apply same_ddef_argument in H; congruence);
      try (apply same_ddef in H; subst; first [congruence | contradiction | now apply only_in_self in K]);
      try (apply same_annotated in H; subst; now apply only_in_self in K).
    - destruct (common_argument_in _ _ _ _ _ _ _ H) as (I & _). apply same_argument in H. subst. now apply no_default_differs in K.
    - destruct (common_input_field_in _ _ _ _ _ _ H) as (I & _). apply same_input_field in H. subst. now apply no_default_differs in K.
    - destruct (common_ddef_argument_in _ _ _ _ _ _ H) as (I & _). apply same_ddef_argument in H. subst. now apply no_default_differs in K.
    - destruct (annotated_in _ _ _ _ _ _ H) as (I & _). apply same_annotated in H. subst ds'.
      apply both_same in B; [subst e; now apply only_in_self in K|now apply (once_directives _ U)].
    - destruct (annotated_in _ _ _ _ _ _ H) as (I & _). apply same_annotated in H. subst ds'.
      apply both_same in B; [subst e; now apply only_in_self in K|now apply (once_directives _ U)].
    - destruct (annotated_in _ _ _ _ _ _ H) as (I & _). apply same_annotated in H. subst ds'. pose proof B as (Hd & _).
      apply both_same in B; [subst e|now apply (once_directives _ U)]. pose proof B' as (Ha & _).
      apply both_same in B'; [subst b|eapply (once_directive_arguments _ U); eassumption].
      apply K, same_refl, N. destruct a as [k v]. eapply vi_argument; eassumption.
  Qed.
  Lemma nothing_misplaced c : ~ misplaced s s c.
  Proof using U.
    intros [a b f g d (H & _) K|a b f g d (H & _) K]; apply same_type in H; injection H as <-; now apply only_in_self in K.
  Qed.
End Same.

(** ** sorting *)
Lemma insert_perm c l : Permutation (insert c l) (c :: l).
Proof. induction l as [|x l IH]; cbn; auto. destruct (before c x); auto. rewrite IH. apply perm_swap. Qed.
Lemma sort_perm l : Permutation (sort_changes l) l.
Proof. induction l as [|x l IH]; cbn; auto. now rewrite insert_perm, IH. Qed.
Lemma compare_In old new c : In c (compare old new) <-> In c (schema_diff old new).
Proof. unfold compare. split; apply Permutation_in; [|symmetry]; apply sort_perm. Qed.


(** [a] need not stand after [b]: a higher rank comes first, then a greater reason *)
Lemma criticality_cmp_sym a b : criticality_cmp b a = CompOpp (criticality_cmp a b).
Proof. unfold criticality_cmp. rewrite (Nat.compare_antisym (rank a) (rank b)). destruct (Nat.compare (rank a) (rank b)); cbn; auto. apply tcmp_sym. Qed.
Lemma before_total a b : before a b = false -> before b a = true.
Proof. unfold before. rewrite (criticality_cmp_sym (criticality_of b) (criticality_of a)). now destruct (criticality_cmp (criticality_of b) (criticality_of a)). Qed.
Lemma before_spec a b : before a b = true <->
  rank (criticality_of b) < rank (criticality_of a) \/
  rank (criticality_of b) = rank (criticality_of a) /\
    (tlt (reason_of (criticality_of b)) (reason_of (criticality_of a)) \/ reason_of (criticality_of b) = reason_of (criticality_of a)).
Proof.
  unfold before, criticality_cmp, tlt. destruct (Nat.compare_spec (rank (criticality_of b)) (rank (criticality_of a))) as [E|L|L].
  - rewrite <- tcmp_eq. destruct (tcmp _ _) eqn:Q; split; auto; intros H; try discriminate; exfalso; destruct H as [H|(_ & [H|H])]; try lia; discriminate.
  - split; auto.
  - split; [discriminate|lia].
Qed.
Lemma before_trans a b c : before a b = true -> before b c = true -> before a c = true.
Proof.
  rewrite !before_spec. intros [L|(E & H)] [L'|(E' & H')]; try (left; lia). right. split; [lia|].
  destruct H as [H|H], H' as [H'|H']; [left; eapply tcmp_lt_trans; eassumption|rewrite H'; auto|rewrite <- H; auto|right; congruence].
Qed.
Lemma insert_sorted c l : StronglySorted (fun a b => before a b = true) l -> StronglySorted (fun a b => before a b = true) (insert c l).
Proof.
  induction 1 as [|x l S IH F]; cbn; [constructor; constructor|]. destruct (before c x) eqn:B.
  - constructor; [now constructor|]. constructor; auto. eapply Forall_impl; [|exact F]. cbn. intros y Hy. eapply before_trans; eassumption.
  - apply before_total in B. constructor; auto. rewrite Forall_forall in F |- *. intros y Hy.
    apply (Permutation_in _ (insert_perm c l)) in Hy as [<-|Hy]; auto.
Qed.
Lemma sort_sorted l : StronglySorted (fun a b => before a b = true) (sort_changes l).
Proof. induction l; cbn; [constructor|now apply insert_sorted]. Qed.
(** changes with the same criticality and reason keep their order *)
Lemma insert_stable (p : change -> bool) c l :
  (forall x, p x = true -> p c = true -> before c x = true) -> filter p (insert c l) = filter p (c :: l).
Proof.
  intros H. induction l as [|x l IH]; [reflexivity|]. cbn [insert]. destruct (before c x) eqn:B; [reflexivity|].
  cbn [filter] in *. rewrite IH. destruct (p x) eqn:X, (p c) eqn:C; auto. rewrite (H x X eq_refl) in B. discriminate.
Qed.
Lemma sort_stable k l : let p := fun c => match criticality_cmp (criticality_of c) k with Eq => true | _ => false end in
  filter p (sort_changes l) = filter p l.
Proof.
  intros p. induction l as [|c l IH]; [reflexivity|]. cbn [sort_changes fold_right]. change (fold_right insert [] l) with (sort_changes l).
  rewrite insert_stable; [cbn [filter]; now rewrite IH|].
  assert (E : forall x, p x = true -> rank (criticality_of x) = rank k /\ reason_of (criticality_of x) = reason_of k).
  { intros x. unfold p, criticality_cmp. destruct (Nat.compare_spec (rank (criticality_of x)) (rank k)) as [E|L|L]; try discriminate.
    destruct (tcmp _ _) eqn:Q; try discriminate. apply tcmp_eq in Q. auto. }
  intros x Hx Hc. apply before_spec. apply E in Hx as (? & ?). apply E in Hc as (? & ?). right. split; [congruence|right; congruence].
Qed.

(** ** safe changes *)
Lemma result_change {A} (is_a : A -> name -> Prop) : forall t u, change_safe_for_field t u = true -> forall r, result_of is_a u r -> result_of is_a t r.
Proof.
  induction t as [b q|i IH q]; destruct u as [c p|j p]; cbn; try discriminate; rewrite andb_true_iff, orb_true_iff, negb_true_iff; intros (Q & H) r R.
  - apply teqb_eq in H as ->. inversion R; subst; cbn in *; constructor; auto. cbn. destruct Q; congruence.
  - inversion R; subst; cbn in *; constructor; cbn; eauto. destruct Q; congruence.
Qed.
Lemma result_change_needed : forall t u, change_safe_for_field t u = false ->
  exists r, result_of (@eq name) u r /\ ~ result_of (@eq name) t r.
Proof.
  induction t as [b q|i IH q]; destruct u as [c p|j p]; cbn.
  - rewrite andb_false_iff, orb_false_iff, negb_false_iff. intros [(-> & ->)|H].
    + exists RNull. split; [now constructor|]. intros R. inversion R; subst; cbn in *; discriminate.
    + apply teqb_neq in H. exists (ROne c). split; [now constructor|]. intros R. inversion R; subst. congruence.
  - intros _. exists (RMany []). split; [constructor; intros ? []|]. intros R. inversion R.
  - intros _. exists (ROne c). split; [now constructor|]. intros R. inversion R.
  - rewrite andb_false_iff, orb_false_iff, negb_false_iff. intros [(-> & ->)|H].
    + exists RNull. split; [now constructor|]. intros R. inversion R; subst; cbn in *; discriminate.
    + apply IH in H as (r & R & NR). exists (RMany [r]). split; [constructor; now intros x [<-|[]]|].
      intros R'. inversion R'; subst. apply NR. match goal with K : forall x, _ -> _ |- _ => apply K end. now left.
Qed.

(** ** inputs *)
Section Inputs.
  Variable acc : name -> value -> Prop.
  Variables str_enum one_of : bool.

  Lemma conforms_change S : forall t u, change_safe_for_input t u = true ->
    forall v, conforms acc str_enum one_of S t v -> conforms acc str_enum one_of S u v.
  Proof.
    induction t as [b q|i IH q]; destruct u as [c p|j p]; cbn; try discriminate; rewrite andb_true_iff, orb_true_iff, negb_true_iff; intros (Q & H) v C.
    - apply teqb_eq in H as <-. inversion C; subst; cbn in *; try (econstructor; eassumption). constructor. cbn. destruct Q; congruence.
    - assert (NP : forall x, no_promotion i x -> no_promotion j x).
      { intros x. destruct i, j; cbn in H; try discriminate; auto. }
      inversion C; subst; cbn in *; try (econstructor; eauto; fail).
      + constructor. cbn. destruct Q; congruence.
      + constructor. intros x Hx. match goal with K : forall x, In x _ -> _ |- _ => destruct (K x Hx) end. auto.
  Qed.

  Variable n : name.
  Variable f : ivd.
  Variable s : schema.
  Hypothesis NR : iv_required f = false.
  Hypothesis FRESH : forall d, In (DInput d) (s_types s) -> io_name d = n -> ~ In (iv_name f) (map iv_name (io_fields d)).
  Lemma with_get_type m : get_type (with_input_field n f s) m =
    match get_type s m with
    | Some (DInput d) => Some (if teqb (io_name d) n
                               then DInput {| io_name := io_name d; io_desc := io_desc d; io_dirs := io_dirs d; io_fields := io_fields d ++ [f] |}
                               else DInput d)
    | o => o
    end.
  Proof using Type.
    clear FRESH. unfold get_type, with_input_field. cbn [s_types]. induction (s_types s) as [|t l IH]; [reflexivity|]. cbn [map find].
    assert (E : td_name (match t with
      | DInput d => if teqb (io_name d) n then DInput {| io_name := io_name d; io_desc := io_desc d; io_dirs := io_dirs d; io_fields := io_fields d ++ [f] |} else t
      | _ => t end) = td_name t).
    { destruct t as [| | |d| | |]; try reflexivity. now destruct (teqb (io_name d) n). }
    rewrite E. destruct (teqb (td_name t) m); [|exact IH]. now destruct t as [| | |d| | |].
  Qed.
  Lemma conforms_with_field : forall v t, conforms acc str_enum one_of s t v -> conforms acc str_enum one_of (with_input_field n f s) t v.
  Proof using NR FRESH.
    induction v as [x|z|x|x|x| |x|vs IH|es IH] using value_ind'; induction t as [b q|i IHt q]; intros C;
      inversion C; subst;
      try (constructor; assumption);
      try (match goal with K : get_type s _ = Some (DBuiltin _) |- _ => eapply c_builtin; [rewrite with_get_type, K; reflexivity|assumption] end);
      try (match goal with K : get_type s _ = Some (DScalar _) |- _ => eapply c_scalar; [rewrite with_get_type, K; reflexivity|assumption..] end);
      try (match goal with K : get_type s _ = Some (DEnum _) |- _ => eapply c_enum; [rewrite with_get_type, K; reflexivity|assumption] end);
      try (apply c_promote; auto; fail).
    - constructor. intros x Hx. rewrite Forall_forall in IH. match goal with K : forall x, In x _ -> _ |- _ => destruct (K x Hx) end. split; auto.
    - match goal with K : get_type s _ = Some (DInput ?d0), ND : NoDup _, KN : forall k v, In (k, v) es -> _, KC : forall i v, _ -> _ -> conforms _ _ _ _ _ _, KR : forall i, In i _ -> tref_required _ = true -> _, KO : marked_one_of _ _ -> _ |- _ =>
        rename K into G, d0 into d, ND into HND, KN into HKN, KC into HKC, KR into HKR, KO into HKO end.
      rewrite Forall_forall in IH.
      destruct (teqb (io_name d) n) eqn:T.
      + eapply c_object; [rewrite with_get_type, G, T; reflexivity|assumption|..]; cbn [io_fields].
        * intros k v Hk. destruct (HKN k v Hk) as (i & Hi & E). exists i. split; auto. apply in_or_app. auto.
        * intros i v Hi Hk. apply in_app_or in Hi as [Hi|[<-|[]]]; [apply (IH (iv_name i, v)); auto|].
          exfalso. destruct (HKN _ _ Hk) as (i & Hi & E). apply get_type_Some in G as (G & _). apply teqb_eq in T.
          apply (FRESH d G T). rewrite <- E. now apply in_map.
        * intros i Hi R D. apply in_app_or in Hi as [Hi|[<-|[]]]; [eauto|]. unfold iv_required in NR. rewrite D in NR. congruence.
        * exact HKO.
      + eapply c_object; [rewrite with_get_type, G, T; reflexivity|assumption|assumption|..]; auto.
        intros i v Hi Hk. apply (IH (iv_name i, v)); auto.
  Qed.
End Inputs.
