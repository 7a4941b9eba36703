(** Lookups through the visibility layer give what the scoped schema has. *)
From Coq Require Import Sorted.
From Verif Require Import Base Ast CoercionSpec Graph Maps ResolveSpec Doc DocSpec DocRules DocRulesSpec OperationSpec DocVariablesSpec Visibility VisibilitySpec VisibilityProofs VisibilityProps
  CompareSpec CompareProofs CompatSpec CompatProofs ScopedSpec.

Set Default Proof Using "Type".

(** * Lists *)
Lemma find_narrow {A} (nm : A -> name) (f : A -> A) (p : A -> bool) l n : NoDup (map nm l) -> (forall x, nm (f x) = nm x) ->
  find (fun y => teqb (nm y) n) (map f (filter p l)) = match find (fun y => teqb (nm y) n) l with Some x => if p x then Some (f x) else None | None => None end.
Proof.
  intros ND E. induction l as [|x l IH]; [reflexivity|]. cbn [map find filter] in *. inversion ND as [|? ? N ND']; subst. specialize (IH ND').
  destruct (teqb (nm x) n) eqn:Q.
  - destruct (p x) eqn:Px; cbn [map find]; [now rewrite E, Q|]. apply teqb_eq in Q. subst n.
    destruct (find _ (map f (filter p l))) as [y|] eqn:F; [|reflexivity]. apply find_some in F as (I & T). apply in_map_iff in I as (z & <- & I). apply filter_In in I as (I & _).
    apply teqb_eq in T. rewrite E in T. destruct N. rewrite <- T. now apply in_map.
  - destruct (p x); cbn [map find]; [rewrite E, Q|]; exact IH.
Qed.
Lemma find_map {A B} (f : A -> B) (p : B -> bool) l : find p (map f l) = option_map f (find (fun x => p (f x)) l).
Proof. induction l as [|x l IH]; [reflexivity|]. cbn. destruct (p (f x)); auto. Qed.
Lemma map_numbered_from {A B} (f : A -> B) l n : map (fun x => f (snd x)) (numbered_from n l) = map f l.
Proof. revert n. induction l as [|x l IH]; intros n; cbn; [reflexivity|]. now rewrite IH. Qed.
Lemma map_numbered {A B} (f : A -> B) l : map (fun x => f (snd x)) (numbered l) = map f l.
Proof. apply map_numbered_from. Qed.
Lemma nth_numbered {A} (l : list A) k x : nth_error l k = Some x -> nth_error (numbered l) k = Some (k, x).
Proof.
  unfold numbered. assert (H : forall n, nth_error l k = Some x -> nth_error (numbered_from n l) k = Some (n + k, x)); [|exact (H 0)].
  revert k. induction l as [|y l IH]; intros [|k] n E; cbn in *; try discriminate.
  - injection E as ->. now rewrite Nat.add_0_r.
  - rewrite (IH k (Datatypes.S n) E). do 2 f_equal. lia.
Qed.
Lemma In_numbered {A} (l : list A) x : In x l -> exists k, In (k, x) (numbered l).
Proof. intros H. apply In_nth_error in H as (k & H). exists k. eapply nth_error_In. now apply nth_numbered. Qed.
Lemma numbered_sound {A} (l : list A) k x : In (k, x) (numbered l) -> In x l.
Proof.
  unfold numbered. generalize 0. induction l as [|y l IH]; intros n H; [destruct H|]. destruct H as [H|H]; [left; congruence|right; eauto].
Qed.
Lemma NoDup_filter_map {A B} (nm : A -> name) (nm' : B -> name) (f : A -> option B) l : (forall x y, f x = Some y -> nm' y = nm x) -> NoDup (map nm l) -> NoDup (map nm' (filter_map f l)).
Proof.
  intros E. induction l as [|x l IH]; cbn; intros H; [constructor|]. inversion H as [|? ? N ND]; subst. destruct (f x) as [y|] eqn:F; [|auto]. cbn. constructor; [|auto].
  intros I. apply in_map_iff in I as (z & Ez & I). apply filter_map_In in I as (u & I & Fu). apply N. rewrite (E _ _ F) in Ez. rewrite (E _ _ Fu) in Ez. rewrite <- Ez. now apply in_map.
Qed.
Lemma filter_map_map {A B C} (g : B -> C) (f : A -> option B) l : map g (filter_map f l) = filter_map (fun x => option_map g (f x)) l.
Proof. induction l as [|x l IH]; [reflexivity|]. cbn. destruct (f x); cbn; now rewrite IH. Qed.
Lemma flat_map_filter_map {A B C} (g : B -> list C) (f : A -> option B) l : flat_map g (filter_map f l) = flat_map (fun x => match f x with Some y => g y | None => [] end) l.
Proof. induction l as [|x l IH]; [reflexivity|]. cbn. destruct (f x); cbn; now rewrite IH. Qed.

Lemma flat_map_of_map {A B C} (g : B -> list C) (f : A -> B) l : flat_map g (map f l) = flat_map (fun x => g (f x)) l.
Proof. induction l as [|x l IH]; [reflexivity|]. cbn. now rewrite IH. Qed.

Section Proofs.
  Variables (S : schema) (W : warden).
  Hypothesis P : proper S W.
  Notation V := (scoped S W).

  Lemma narrow_name t : td_name (narrow_type S W t) = td_name t.
  Proof. now destruct t. Qed.
  Lemma narrow_kind t : same_kind t (narrow_type S W t).
  Proof. now destruct t. Qed.
  Lemma narrow_desc t : td_desc (narrow_type S W t) = td_desc t.
  Proof. now destruct t. Qed.
  Lemma scoped_type n : get_type V n = option_map (narrow_type S W) (visible_type S W n).
  Proof using P.
    unfold get_type, scoped. cbn [s_types]. rewrite find_narrow; [|apply (p_types _ _ P)|apply narrow_name]. unfold visible_type, get_type.
    destruct (find _ (s_types S)) as [t|]; [|reflexivity]. now destruct (type_visible W t).
  Qed.
  Lemma scoped_ddef n : get_ddef V n = option_map (narrow_ddef S W) (visible_ddef S W n).
  Proof using P.
    unfold get_ddef, scoped. cbn [s_ddefs]. rewrite find_narrow; [|apply (p_ddefs _ _ P)|reflexivity]. unfold visible_ddef, get_ddef.
    destruct (find _ (s_ddefs S)) as [t|]; [|reflexivity]. now destruct (w_ddef W t).
  Qed.
  (** ** members *)
  Lemma narrow_td_fields t : td_fields (narrow_type S W t) = narrow_fields S W (td_name t) (td_fields t).
  Proof. destruct t; reflexivity. Qed.
  Lemma narrow_td_interfaces t : td_interfaces (narrow_type S W t) = map if_name (visible_interfaces S W (td_name t) (td_interfaces t)).
  Proof. destruct t; reflexivity. Qed.
  Lemma visible_type_name n t : visible_type S W n = Some t -> td_name t = n.
  Proof using P. intros H. now apply visible_type_Some in H. Qed.
  Lemma narrow_get_field t l n : get_field (narrow_fields S W t l) n = option_map (narrow_field S W t) (find (fun x => teqb (fd_name (fst x)) n) (visible_fields S W t l)).
  Proof. unfold get_field, narrow_fields. now rewrite find_map. Qed.
  Lemma visible_field_names t l : NoDup (map fd_name l) -> NoDup (map (fun x => fd_name (fst x)) (visible_fields S W t l)).
  Proof.
    apply NoDup_filter_map. intros f y. destruct (w_field W t f); [|discriminate]. destruct (visible_ref S W (fd_type f)); [|discriminate]. intros E. injection E as <-. reflexivity.
  Qed.
  Lemma scoped_field t f x : visible_field S W t f x -> exists d, get_type V t = Some (narrow_type S W d) /\ get_field (td_fields (narrow_type S W d)) f = Some (narrow_field S W t x).
  Proof using P.
    intros (d & Vt & I & E). exists d. rewrite scoped_type, Vt. split; [reflexivity|]. rewrite narrow_td_fields, (visible_type_name _ _ Vt), narrow_get_field.
    assert (ND : NoDup (map (fun x => fd_name (fst x)) (visible_fields S W t (td_fields d)))).
    { apply visible_field_names. apply (p_fields _ _ P). now apply visible_type_Some in Vt. }
    rewrite (find_unique (fun x => fd_name (fst x)) _ x f ND I E). reflexivity.
  Qed.
  Lemma scoped_inputs p l : inputs_at S W p l -> plain_inputs_at V p = Some (narrow_inputs S W p l).
  Proof using P.
    intros [t f x H|t d H|d e H]; cbn [plain_inputs_at].
    - pose proof H as (_ & _ & _ & E). destruct (scoped_field t f x H) as (u & -> & ->). cbn. now rewrite <- E.
    - rewrite scoped_type, H. cbn. now rewrite (visible_type_name _ _ H : io_name d = t).
    - rewrite scoped_ddef, H. cbn. apply visible_ddef_Some in H as (_ & <- & _); auto.
  Qed.
  Lemma narrow_inputs_nth p l k x : nth_error (visible_inputs S W p l) k = Some x -> nth_error (narrow_inputs S W p l) k = Some (narrow_input S W p (k, x)).
  Proof. intros H. unfold narrow_inputs. now rewrite nth_error_map, (nth_numbered _ _ _ H). Qed.
  Lemma narrow_own t : own_directives (narrow_type S W t) = narrow_directives S W (OnType (td_name t)) (own_directives t).
  Proof. destruct t; reflexivity. Qed.
  Lemma scoped_directives p l : directives_at S W p l -> plain_directives_at V p = Some (narrow_directives S W p l).
  Proof using P.
    intros [|t d H|t f x H|t d k v H N|q m k x A N]; cbn [plain_directives_at].
    - reflexivity.
    - rewrite scoped_type, H. cbn [option_map]. now rewrite narrow_own, (visible_type_name _ _ H).
    - pose proof H as (_ & _ & _ & E). destruct (scoped_field t f x H) as (u & -> & ->). cbn. now rewrite <- E.
    - rewrite scoped_type, H. cbn [option_map narrow_type en_values]. rewrite (visible_type_name _ _ H : en_name d = t), nth_error_map, (nth_numbered _ _ _ N). reflexivity.
    - rewrite (scoped_inputs _ _ A), (narrow_inputs_nth _ _ _ _ N). reflexivity.
  Qed.
  Lemma narrow_inputs_data p l : map (fun x => input_data (fst x)) (visible_inputs S W p l) = map input_data (narrow_inputs S W p l).
  Proof. unfold narrow_inputs. rewrite map_map. rewrite <- (map_numbered (fun x => input_data (fst x)) (visible_inputs S W p l)). reflexivity. Qed.
  Lemma scoped_object n o : visible_object S W n = Some o -> ob_name o = n /\ exists o', get_type V n = Some (DObject o').
  Proof using P.
    intros H. unfold visible_object in H. destruct (visible_type S W n) as [[]|] eqn:E; try discriminate. injection H as ->. split; [exact (visible_type_name _ _ E)|].
    rewrite scoped_type, E. cbn. eauto.
  Qed.
  Lemma scoped_implementors n : map ob_name (visible_implementors S W n) = map ob_name (implementors V n).
  Proof using P.
    unfold visible_implementors, implementors at 1. unfold implementors, scoped. cbn [s_types].
    assert (Q : forall t, In t (s_types S) -> In t (s_types S)) by auto. revert Q. generalize (s_types S) at 1 3 4. intros l. induction l as [|t l IH]; intros Q; [reflexivity|].
    cbn [flat_map filter]. assert (IH' := IH (fun t H => Q t (or_intror H))). clear IH.
    assert (FM : forall A B (f : A -> option B) (a b : list A), filter_map f (a ++ b) = filter_map f a ++ filter_map f b).
    { intros A B f a b. induction a as [|x a IHa]; [reflexivity|]. cbn. destruct (f x); cbn; now rewrite IHa. }
    rewrite FM, map_app, IH'. destruct t as [b|d|o|d|d|d|d]; try (cbn [type_visible]; destruct (w_type W _); reflexivity); [reflexivity|].
    cbn [type_visible]. destruct (w_type W (DObject o)) eqn:Vo; cbn [map flat_map].
    - rewrite map_app. f_equal. cbn [narrow_type ob_ifaces]. rewrite flat_map_of_map.
      set (e := existsb (fun i => teqb (if_name i) n) (visible_interfaces S W (ob_name o) (ob_ifaces o))).
      assert (G : forall ns, (forall i, In i ns -> In i (ob_ifaces o)) ->
        map ob_name (filter_map (fun o0 => if w_type W (DObject o0) && existsb (fun i => teqb (if_name i) n) (visible_interfaces S W (ob_name o0) (ob_ifaces o0)) then Some o0 else None)
          (flat_map (fun i => if teqb i n then [o] else []) ns)) =
        map ob_name (flat_map (fun x => if teqb (if_name x) n then [{| ob_name := ob_name o; ob_desc := ob_desc o; ob_ifaces := map if_name (visible_interfaces S W (ob_name o) (ob_ifaces o));
          ob_dirs := narrow_directives S W (OnType (ob_name o)) (ob_dirs o); ob_fields := narrow_fields S W (ob_name o) (ob_fields o); ob_builtin := ob_builtin o |}] else [])
          (visible_interfaces S W (ob_name o) ns))).
      { induction ns as [|i ns IHn]; intros Hn; [reflexivity|]. cbn [flat_map]. rewrite FM, map_app, (IHn (fun j H => Hn j (or_intror H))).
        change (visible_interfaces S W (ob_name o) (i :: ns)) with (match (if w_implements W (ob_name o) i then visible_interface S W i else None) with
          | Some y => y :: visible_interfaces S W (ob_name o) ns | None => visible_interfaces S W (ob_name o) ns end).
        destruct (teqb i n) eqn:Ei; cbn [filter_map]; fold e.
        - apply teqb_eq in Ei. subst i. rewrite Vo. cbn [andb]. destruct e eqn:He; unfold e in He.
          + apply existsb_exists in He as (j & Hj & Ej). apply teqb_eq in Ej. apply visible_interfaces_In in Hj as (_ & Wi & Vi); auto. rewrite Ej in Wi, Vi. rewrite Wi, Vi. cbn [flat_map].
            rewrite Ej, teqb_refl. cbn. reflexivity.
          + cbn [map app]. destruct (w_implements W (ob_name o) n) eqn:Wi; [|reflexivity]. destruct (visible_interface S W n) as [j|] eqn:Vi; [|reflexivity]. exfalso.
            assert (Ej : if_name j = n) by (apply visible_interface_Some in Vi as (_ & E & _); auto).
            assert (X : existsb (fun i => teqb (if_name i) n) (visible_interfaces S W (ob_name o) (ob_ifaces o)) = true); [|congruence].
            apply existsb_exists. exists j. split; [|rewrite Ej; apply teqb_refl]. apply visible_interfaces_In; auto. rewrite Ej. split; [apply Hn; now left|auto].
        - cbn [map app]. destruct (w_implements W (ob_name o) i); [|reflexivity]. destruct (visible_interface S W i) as [j|] eqn:Vi; [|reflexivity]. cbn [flat_map].
          apply visible_interface_Some in Vi as (_ & Ej & _); auto. rewrite Ej, Ei. reflexivity. }
      apply G. auto.
    - assert (G : forall ns, filter_map (fun o0 => if w_type W (DObject o0) && existsb (fun i => teqb (if_name i) n) (visible_interfaces S W (ob_name o0) (ob_ifaces o0)) then Some o0 else None)
          (flat_map (fun i => if teqb i n then [o] else []) ns) = []).
      { induction ns as [|i ns IHn]; [reflexivity|]. cbn [flat_map]. rewrite FM, IHn. destruct (teqb i n); [|reflexivity]. cbn [filter_map]. now rewrite Vo. }
      rewrite G. reflexivity.
  Qed.

  (** ** C76: the view *)
  Lemma answers_gives o a : visible_object S W (s_query S) <> None -> answers S W o a -> o <> OTypes -> o <> ODirectiveDefs -> gives V o a.
  Proof using P.
    intros Qv H N1 N2. destruct H as [n|n|l H|l H| | | |t d Vt|t d n Vt|t d Vt|t d Vt|t d Vt|t l A|t f l A|d l A|i|p l D|p l k x A N|p l k x D N]; try congruence; cbn [gives].
    - rewrite scoped_type. destruct (visible_type S W n) as [t|]; cbn; [|exact I]. rewrite narrow_name, narrow_desc. auto using narrow_kind.
    - rewrite scoped_ddef. destruct (visible_ddef S W n); reflexivity.
    - change (s_query V) with (s_query S). destruct (visible_object S W (s_query S)) as [o|] eqn:E; [|congruence]. cbn. now apply scoped_object.
    - change (s_mutation V) with (narrow_root S W (s_mutation S)). unfold narrow_root. destruct (s_mutation S) as [n|]; cbn; [|exact I].
      destruct (visible_object S W n) as [o|] eqn:E; cbn; [|exact I]. now apply scoped_object.
    - change (s_subscription V) with (narrow_root S W (s_subscription S)). unfold narrow_root. destruct (s_subscription S) as [n|]; cbn; [|exact I].
      destruct (visible_object S W n) as [o|] eqn:E; cbn; [|exact I]. now apply scoped_object.
    - exists (narrow_type S W d). rewrite scoped_type, Vt. split; [reflexivity|]. rewrite narrow_td_fields, (visible_type_name _ _ Vt). unfold narrow_fields. rewrite map_map. apply map_ext. reflexivity.
    - exists (narrow_type S W d). rewrite scoped_type, Vt. split; [reflexivity|]. rewrite narrow_td_fields, (visible_type_name _ _ Vt), narrow_get_field.
      now destruct (find _ (visible_fields S W t (td_fields d))).
    - exists (narrow_type S W d). rewrite scoped_type, Vt. split; [reflexivity|]. now rewrite narrow_td_interfaces, (visible_type_name _ _ Vt).
    - eexists. rewrite scoped_type, Vt. split; [reflexivity|]. cbn. now rewrite (visible_type_name _ _ Vt : un_name d = t).
    - eexists. rewrite scoped_type, Vt. split; [reflexivity|]. cbn. rewrite (visible_type_name _ _ Vt : en_name d = t), map_map.
      rewrite <- (map_numbered value_data (visible_values W t (en_values d))). reflexivity.
    - exists (narrow_inputs S W (PInputField t) l). split; [now apply scoped_inputs|apply narrow_inputs_data].
    - exists (narrow_inputs S W (PArgument t f) l). split; [now apply scoped_inputs|apply narrow_inputs_data].
    - exists (narrow_inputs S W (PDirectiveArgument d) l). split; [now apply scoped_inputs|apply narrow_inputs_data].
    - apply scoped_implementors.
    - exists (narrow_directives S W p l). split; [now apply scoped_directives|]. unfold narrow_directives. rewrite map_map. apply map_ext. reflexivity.
    - exists (narrow_inputs S W p l). eexists. split; [now apply scoped_inputs|]. split; [exact (narrow_inputs_nth _ _ _ _ N)|reflexivity].
    - exists (narrow_directives S W p l). eexists. split; [now apply scoped_directives|]. split; [unfold narrow_directives; now rewrite nth_error_map, N|reflexivity].
  Qed.
End Proofs.
