(** Proofs about visibility: every cache holds what the specification says, whatever was looked up before. *)
From Coq Require Import Sorted.
From Verif Require Import Base Ast Maps Resolve ResolveSpec ResolveProofs DocRules Visibility VisibilitySpec.

Set Default Proof Using "Type".

(** * Filtering *)
Lemma filter_map_In {A B} (f : A -> option B) l y : In y (filter_map f l) <-> exists x, In x l /\ f x = Some y.
Proof.
  induction l as [|x l IH]; cbn; [split; [tauto | intros (x & [] & _)]|]. destruct (f x) as [z|] eqn:E; cbn; rewrite IH; split.
  - intros [<-|(u & I & F)]; [exists x; auto | exists u; auto].
  - intros (u & [<-|I] & F); [left; congruence | right; eauto].
  - intros (u & I & F). exists u; auto.
  - intros (u & [<-|I] & F); [congruence | eauto].
Qed.

Section Proofs.
  Variable S : schema.
  Variable W : warden.
  Hypothesis P : proper S W.

  Lemma get_type_In t : In t (s_types S) -> get_type S (td_name t) = Some t.
  Proof using P.
    intros I. destruct (get_type S (td_name t)) as [u|] eqn:E.
    - apply get_type_Some in E as (J & E). f_equal. apply (NoDup_key_inj td_name (s_types S)); auto. apply P.
    - rewrite get_type_None in E. now apply E in I.
  Qed.
  Lemma get_ddef_Some n d : get_ddef S n = Some d -> In d (s_ddefs S) /\ dd_name d = n.
  Proof. unfold get_ddef. intros H. apply find_some in H as [H1 H2]. apply teqb_eq in H2. auto. Qed.
  Lemma get_ddef_In d : In d (s_ddefs S) -> get_ddef S (dd_name d) = Some d.
  Proof using P.
    intros I. destruct (get_ddef S (dd_name d)) as [u|] eqn:E.
    - apply get_ddef_Some in E as (J & E). f_equal. apply (NoDup_key_inj dd_name (s_ddefs S)); auto. apply P.
    - unfold get_ddef in E. apply (find_none _ _ E) in I. cbn in I. now rewrite teqb_refl in I.
  Qed.
  Lemma visible_type_Some n t : visible_type S W n = Some t <-> In t (s_types S) /\ td_name t = n /\ type_visible W t = true.
  Proof using P.
    unfold visible_type. split.
    - destruct (get_type S n) as [u|] eqn:E; [|discriminate]. destruct (type_visible W u) eqn:V; [|discriminate]. intros [= <-].
      apply get_type_Some in E as (? & ?). auto.
    - intros (I & <- & V). now rewrite (get_type_In _ I), V.
  Qed.
  Lemma visible_ddef_Some n d : visible_ddef S W n = Some d <-> In d (s_ddefs S) /\ dd_name d = n /\ w_ddef W d = true.
  Proof using P.
    unfold visible_ddef. split.
    - destruct (get_ddef S n) as [u|] eqn:E; [|discriminate]. destruct (w_ddef W u) eqn:V; [|discriminate]. intros [= <-].
      apply get_ddef_Some in E as (? & ?). auto.
    - intros (I & <- & V). now rewrite (get_ddef_In _ I), V.
  Qed.
  Lemma visible_object_Some n o : visible_object S W n = Some o <-> In (DObject o) (s_types S) /\ ob_name o = n /\ w_type W (DObject o) = true.
  Proof using P.
    unfold visible_object. split.
    - destruct (visible_type S W n) as [u|] eqn:E; [|discriminate]. destruct u; try discriminate. intros [= <-]. now apply visible_type_Some in E.
    - intros H. change (In (DObject o) (s_types S) /\ td_name (DObject o) = n /\ type_visible W (DObject o) = true) in H.
      apply visible_type_Some in H. now rewrite H.
  Qed.
  Lemma visible_interface_Some n i : visible_interface S W n = Some i <-> In (DInterface i) (s_types S) /\ if_name i = n /\ w_type W (DInterface i) = true.
  Proof using P.
    unfold visible_interface. split.
    - destruct (visible_type S W n) as [u|] eqn:E; [|discriminate]. destruct u; try discriminate. intros [= <-]. now apply visible_type_Some in E.
    - intros H. change (In (DInterface i) (s_types S) /\ td_name (DInterface i) = n /\ type_visible W (DInterface i) = true) in H.
      apply visible_type_Some in H. now rewrite H.
  Qed.
  Lemma visible_ref_Some r x : visible_ref S W r = Some x -> fst x = r /\ visible_type S W (tref_base r) = Some (snd x).
  Proof. unfold visible_ref. destruct (visible_type S W (tref_base r)); [|discriminate]. intros [= <-]. auto. Qed.
  Lemma visible_fields_In t l x : In x (visible_fields S W t l) <-> In (fst x) l /\ w_field W t (fst x) = true /\ visible_ref S W (fd_type (fst x)) = Some (snd x).
  Proof.
    unfold visible_fields. rewrite filter_map_In. split.
    - intros (f & I & E). destruct (w_field W t f) eqn:F; [|discriminate]. destruct (visible_ref S W (fd_type f)) eqn:R; [|discriminate].
      injection E as <-. cbn. auto.
    - destruct x as [f r]. cbn. intros (I & F & R). exists f. rewrite F, R. auto.
  Qed.
  Lemma visible_inputs_In p l x : In x (visible_inputs S W p l) <-> In (fst x) l /\ w_input W p (fst x) = true /\ visible_ref S W (iv_type (fst x)) = Some (snd x).
  Proof.
    unfold visible_inputs. rewrite filter_map_In. split.
    - intros (f & I & E). destruct (w_input W p f) eqn:F; [|discriminate]. destruct (visible_ref S W (iv_type f)) eqn:R; [|discriminate].
      injection E as <-. cbn. auto.
    - destruct x as [f r]. cbn. intros (I & F & R). exists f. rewrite F, R. auto.
  Qed.
  Lemma visible_interfaces_In t l i : In i (visible_interfaces S W t l) <-> In (if_name i) l /\ w_implements W t (if_name i) = true /\ visible_interface S W (if_name i) = Some i.
  Proof using P.
    unfold visible_interfaces. rewrite filter_map_In. split.
    - intros (n & I & E). destruct (w_implements W t n) eqn:F; [|discriminate]. pose proof E as E'. apply visible_interface_Some in E' as (_ & <- & _). auto.
    - intros (I & F & E). exists (if_name i). rewrite F. auto.
  Qed.
  Lemma visible_members_In t l m : In m (visible_members S W t l) <-> In (fst m) l /\ w_member W t (fst m) = true /\ visible_object S W (fst m) = Some (snd m).
  Proof.
    unfold visible_members. rewrite filter_map_In. split.
    - intros (n & I & E). destruct (w_member W t n) eqn:F; [|discriminate]. destruct (visible_object S W n) eqn:R; [|discriminate]. injection E as <-. auto.
    - destruct m as [n o]. cbn. intros (I & F & R). exists n. rewrite F, R. auto.
  Qed.
  Lemma visible_directives_In l x : In x (visible_directives S W l) <-> In (fst x) l /\ visible_ddef S W (dir_name (fst x)) = Some (snd x).
  Proof.
    unfold visible_directives. rewrite filter_map_In. split.
    - intros (d & I & E). destruct (visible_ddef S W (dir_name d)) eqn:F; [|discriminate]. injection E as <-. auto.
    - destruct x as [d e]. cbn. intros (I & E). exists d. rewrite E. auto.
  Qed.
  Lemma implementors_In n o : In o (implementors S n) <-> In (DObject o) (s_types S) /\ In n (ob_ifaces o).
  Proof.
    unfold implementors. rewrite in_flat_map. split.
    - intros (t & I & J). destruct t; try contradiction. apply in_flat_map in J as (i & J & K). destruct (teqb_spec i n) as [->|]; [|contradiction].
      destruct K as [<-|[]]. auto.
    - intros (I & J). exists (DObject o). split; auto. apply in_flat_map. exists n. rewrite teqb_refl. cbn. auto.
  Qed.
  Lemma visible_implementors_In n o : In o (visible_implementors S W n) <->
    In (DObject o) (s_types S) /\ In n (ob_ifaces o) /\ w_type W (DObject o) = true /\ exists i, In i (visible_interfaces S W (ob_name o) (ob_ifaces o)) /\ if_name i = n.
  Proof.
    unfold visible_implementors. rewrite filter_map_In. split.
    - intros (o' & I & E). destruct (type_visible W (DObject o') && _) eqn:F in E; [|discriminate]. injection E as ->. apply andb_true_iff in F as (V & F).
      apply existsb_exists in F as (i & J & K). apply teqb_eq in K. apply implementors_In in I as (I & I'). eauto 8.
    - intros (I & I' & V & i & J & K). exists o. split; [now apply implementors_In|]. cbn [type_visible]. rewrite V. cbn [andb].
      assert (E : existsb (fun i => teqb (if_name i) n) (visible_interfaces S W (ob_name o) (ob_ifaces o)) = true); [|now rewrite E].
      apply existsb_exists. exists i. split; auto. now apply teqb_eq.
  Qed.
  (** one field of each name *)
  Lemma visible_field_unique t f x y : visible_field S W t f x -> visible_field S W t f y -> x = y.
  Proof using P.
    intros (d & V & I & E) (d' & V' & I' & E'). rewrite V in V'. injection V' as <-. apply visible_fields_In in I as (I & F & R).
    apply visible_fields_In in I' as (I' & F' & R'). apply visible_type_Some in V as (J & _ & _).
    assert (Q : fst x = fst y) by (apply (NoDup_key_inj fd_name (td_fields d)); auto; [now apply (p_fields _ _ P) | congruence]).
    destruct x as [a b], y as [a' b']. cbn in *. subst a'. rewrite R in R'. injection R' as <-. reflexivity.
  Qed.
  Lemma inputs_at_unique p l l' : inputs_at S W p l -> inputs_at S W p l' -> l = l'.
  Proof using P.
    intros H H'. destruct H; inversion H'; subst.
    - f_equal. f_equal. eapply visible_field_unique; eauto.
    - congruence.
    - congruence.
  Qed.
  Lemma directives_at_unique p l l' : directives_at S W p l -> directives_at S W p l' -> l = l'.
  Proof using P.
    intros H H'. destruct H; inversion H'; subst; auto.
    - congruence.
    - f_equal. f_equal. eapply visible_field_unique; eauto.
    - congruence.
    - match goal with A : inputs_at _ _ _ _, B : inputs_at _ _ _ _ |- _ => pose proof (inputs_at_unique _ _ _ A B); subst end. congruence.
  Qed.
  Lemma inputs_at_defined p l i : inputs_at S W p l -> In i l -> value_defined (s_types S) (s_ddefs S) i.
  Proof using P.
    intros H I. destruct H as [t f x (d & V & J & _) | t d V | d e V].
    - apply visible_type_Some in V as (V & _). apply visible_fields_In in J as (J & _). eapply vd_argument; eauto.
    - apply visible_type_Some in V as (V & _). eapply vd_input_field; eauto.
    - apply visible_ddef_Some in V as (V & _). eapply vd_directive_argument; eauto.
  Qed.
  Lemma directives_at_used p l d : directives_at S W p l -> p <> OnSchema -> In d l -> exists e, get_ddef S (dir_name d) = Some e.
  Proof using P.
    intros H N I. assert (U : directive_used (s_types S) (s_ddefs S) d).
    { destruct H as [|t u V|t f x (u & V & J & _)|t u k v V E|q m k x A E]; [congruence|..].
      - apply visible_type_Some in V as (V & _). eapply du_type; eauto.
      - apply visible_type_Some in V as (V & _). apply visible_fields_In in J as (J & _). eapply du_field; eauto.
      - apply visible_type_Some in V as (V & _). apply nth_error_In in E. apply filter_In in E as (E & _). eapply du_enum_value; eauto.
      - apply nth_error_In in E. apply visible_inputs_In in E as (E & _). eapply du_value; eauto. eapply inputs_at_defined; eauto. }
    destruct (ro_directives _ _ (p_references _ _ P) d U) as (e & J & <-). exists e. now apply get_ddef_In.
  Qed.

  (** * What the caches hold *)
  Definition complete (v : visited) : Prop :=
    (StronglySorted tlt (map fst (fst v)) /\ forall n t, In (n, t) (fst v) <-> n = td_name t /\ reached S W (inl t)) /\
    (StronglySorted tlt (map fst (snd v)) /\ forall n d, In (n, d) (snd v) <-> n = dd_name d /\ reached S W (inr d)).
  Record Inv (c : cache) : Prop := {
    i_types : forall n t, lookup name_dec n (c_types c) = Some t -> visible_type S W n = Some t;
    i_ddefs : forall n d, lookup name_dec n (c_ddefs c) = Some d -> visible_ddef S W n = Some d;
    i_index : forall t f x, lookup pair_dec (t, f) (c_index c) = Some x -> visible_field S W t f x;
    i_fields : forall t l, lookup name_dec t (c_fields c) = Some l -> exists d, visible_type S W t = Some d /\ l = visible_fields S W t (td_fields d);
    i_ifaces : forall t l, lookup name_dec t (c_ifaces c) = Some l -> exists d, visible_type S W t = Some d /\ l = visible_interfaces S W t (td_interfaces d);
    i_members : forall t l, lookup name_dec t (c_members c) = Some l -> exists d, visible_type S W t = Some (DUnion d) /\ l = visible_members S W t (un_members d);
    i_values : forall t l, lookup name_dec t (c_values c) = Some l -> exists d, visible_type S W t = Some (DEnum d) /\ l = visible_values W t (en_values d);
    i_inputs : forall p l, lookup place_dec p (c_inputs c) = Some l -> exists l0, inputs_at S W p l0 /\ l = visible_inputs S W p l0;
    i_dirs : forall p l, lookup dplace_dec p (c_dirs c) = Some l -> exists l0, directives_at S W p l0 /\ l = visible_directives S W l0;
    i_impls : forall i l, lookup name_dec i (c_impls c) = Some l -> l = visible_implementors S W i;
    i_all : forall v, c_all c = Some v -> complete v }.
  Lemma fresh_Inv : Inv fresh.
  Proof. constructor; cbn; congruence. Qed.

  (** [m] keeps the invariant, does not run out of fuel, and panics only if [pan] *)
  Definition triple (pan : Prop) {A} (m : M A) (Q : A -> Prop) : Prop :=
    forall c, Inv c -> match m c with Ok a c' => Inv c' /\ Q a | Panic => pan | NoFuel => False end.
  Lemma triple_ret pan A (a : A) (Q : A -> Prop) : Q a -> triple pan (ret a) Q.
  Proof. intros H c I. cbn. auto. Qed.
  Lemma triple_bind pan A B (m : M A) (k : A -> M B) (Q : A -> Prop) (R : B -> Prop) :
    triple pan m Q -> (forall a, Q a -> triple pan (k a) R) -> triple pan (bind m k) R.
  Proof. intros H K c I. unfold bind. specialize (H c I). destruct (m c) as [a c'| |]; auto. destruct H as (I' & q). exact (K a q c' I'). Qed.
  Lemma triple_eq pan A B (m : M A) (k : A -> M B) a (R : B -> Prop) : triple pan m (eq a) -> triple pan (k a) R -> triple pan (bind m k) R.
  Proof. intros H K. eapply triple_bind; [exact H|]. now intros b <-. Qed.
  Lemma triple_weaken (pan pan' : Prop) A (m : M A) (Q Q' : A -> Prop) : triple pan m Q -> (pan -> pan') -> (forall a, Q a -> Q' a) -> triple pan' m Q'.
  Proof. intros H Hp Hq c I. specialize (H c I). destruct (m c); auto. destruct H. auto. Qed.
  Lemma triple_unwrap (pan : Prop) A (o : option A) (Q : A -> Prop) : (forall a, o = Some a -> Q a) -> (o = None -> pan) -> triple pan (unwrap o) Q.
  Proof. intros H N. destruct o; cbn; intros c I; cbn; auto. Qed.
  Lemma triple_filter_map pan A B (f : A -> M (option B)) g l :
    (forall x, In x l -> triple pan (f x) (eq (g x))) -> triple pan (filter_mapM f l) (eq (filter_map g l)).
  Proof.
    induction l as [|x l IH]; cbn [filter_mapM filter_map]; intros H; [now apply triple_ret|].
    eapply triple_eq; [apply H; now left|]. eapply triple_eq; [apply IH; intros; apply H; now right|]. apply triple_ret. now destruct (g x).
  Qed.
  Lemma memo pan K A dec (get : cache -> list (K * A)) set k init a :
    (forall c b, Inv c -> lookup dec k (get c) = Some b -> b = a) ->
    (forall c, Inv c -> Inv (set ((k, a) :: get c) c)) ->
    triple pan init (eq a) -> triple pan (get_or_init dec get set k init) (eq a).
  Proof.
    intros HG HS HI c I. unfold get_or_init. destruct (lookup dec k (get c)) as [b|] eqn:E; [split; auto; symmetry; eauto|].
    specialize (HI c I). destruct (init c) as [b c'| |]; auto. destruct HI as (I' & <-). auto.
  Qed.
  Lemma lookup_cons K A dec (k k' : K) (a : A) l : lookup dec k ((k', a) :: l) = if dec k k' then Some a else lookup dec k l.
  Proof. reflexivity. Qed.
  Ltac keep I := destruct I; constructor; cbn [set_types set_ddefs set_index set_fields set_ifaces set_members set_values set_inputs set_dirs set_impls set_all
    c_types c_ddefs c_index c_fields c_ifaces c_members c_values c_inputs c_dirs c_impls c_all]; auto.

  Lemma types_equal_refl t : types_equal W t t = true.
  Proof using P. destruct t; cbn; try apply P. apply teqb_refl. Qed.
  Lemma create_type pan t : In t (s_types S) -> triple pan (get_or_create_type W t) (eq (if type_visible W t then Some t else None)).
  Proof using P.
    intros H c I. unfold get_or_create_type. destruct (lookup name_dec (td_name t) (c_types c)) as [e|] eqn:E.
    - apply (i_types _ I), visible_type_Some in E as (J & N & V).
      assert (e = t) by (apply (NoDup_key_inj td_name (s_types S)); auto; apply P). subst e. rewrite types_equal_refl, V. auto.
    - change (type_new W t) with (type_visible W t). destruct (type_visible W t) eqn:V; [|auto]. split; auto.
      keep I. intros n u. rewrite lookup_cons. destruct (name_dec n (td_name t)) as [->|]; auto. intros [= <-]. now apply visible_type_Some.
  Qed.
  Lemma create_type_as pan t n : In t (s_types S) -> td_name t = n -> triple pan (get_or_create_type W t) (eq (visible_type S W n)).
  Proof using P.
    intros I <-. apply (triple_weaken pan _ _ _ _ _ (create_type pan t I)); [auto|]. intros a <-. unfold visible_type. now rewrite (get_type_In _ I).
  Qed.
  Lemma create_ddef pan d : In d (s_ddefs S) -> triple pan (get_or_create_ddef W d) (eq (visible_ddef S W (dd_name d))).
  Proof using P.
    intros H c I. unfold get_or_create_ddef, visible_ddef. rewrite (get_ddef_In _ H). destruct (lookup name_dec (dd_name d) (c_ddefs c)) as [e|] eqn:E.
    - apply (i_ddefs _ I), visible_ddef_Some in E as (J & N & V).
      assert (e = d) by (apply (NoDup_key_inj dd_name (s_ddefs S)); auto; apply P). subst e. rewrite V. auto.
    - destruct (w_ddef W d) eqn:V; [|auto]. split; auto.
      keep I. intros n u. rewrite lookup_cons. destruct (name_dec n (dd_name d)) as [->|]; auto. intros [= <-]. now apply visible_ddef_Some.
  Qed.
  Lemma visible_ref_list i q : visible_ref S W (TList i q) = match visible_ref S W i with Some (i', u) => Some (TList i' q, u) | None => None end.
  Proof. unfold visible_ref. cbn [tref_base]. now destruct (visible_type S W (tref_base i)). Qed.
  Lemma output_type_gives pan r : (exists u, In u (s_types S) /\ td_name u = tref_base r /\ td_is_output u = true) -> triple pan (output_type S W r) (eq (visible_ref S W r)).
  Proof using P.
    induction r as [n q|i IH q]; intros (u & I & N & O); cbn [output_type].
    - cbn [tref_base] in N. subst n. eapply triple_bind with (Q := eq u).
      + apply triple_unwrap; unfold output_lookup; cbn [tref_base]; rewrite (get_type_In _ I), O; congruence.
      + intros a <-. eapply triple_eq; [now apply create_type_as|]. unfold visible_ref. cbn [tref_base].
        destruct (visible_type S W (td_name u)) as [t|] eqn:V; [|now apply triple_ret]. apply visible_type_Some in V as (J & N & _).
        assert (t = u) by (apply (NoDup_key_inj td_name (s_types S)); auto; apply P). subst t. destruct u; try discriminate; now apply triple_ret.
    - eapply triple_eq; [apply IH; eauto|]. rewrite visible_ref_list. apply triple_ret. now destruct (visible_ref S W i) as [[]|].
  Qed.
  Lemma input_type_gives pan r : (exists u, In u (s_types S) /\ td_name u = tref_base r /\ td_is_input u = true) -> triple pan (input_type S W r) (eq (visible_ref S W r)).
  Proof using P.
    induction r as [n q|i IH q]; intros (u & I & N & O); cbn [input_type].
    - cbn [tref_base] in N. subst n. eapply triple_bind with (Q := eq u).
      + apply triple_unwrap; unfold input_lookup; cbn [tref_base]; rewrite (get_type_In _ I), O; congruence.
      + intros a <-. eapply triple_eq; [now apply create_type_as|]. unfold visible_ref. cbn [tref_base].
        destruct (visible_type S W (td_name u)) as [t|] eqn:V; [|now apply triple_ret]. apply visible_type_Some in V as (J & N & _).
        assert (t = u) by (apply (NoDup_key_inj td_name (s_types S)); auto; apply P). subst t. destruct u; try discriminate; now apply triple_ret.
    - eapply triple_eq; [apply IH; eauto|]. rewrite visible_ref_list. apply triple_ret. now destruct (visible_ref S W i) as [[]|].
  Qed.
  Lemma field_new_gives pan t d f : visible_type S W t = Some d -> In f (td_fields d) ->
    triple pan (field_new S W t f) (eq (if w_field W t f then option_map (pair f) (visible_ref S W (fd_type f)) else None)).
  Proof using P.
    intros V I. unfold field_new. destruct (w_field W t f); [|now apply triple_ret].
    eapply triple_eq; [apply output_type_gives | now apply triple_ret]. apply visible_type_Some in V as (V & _). exact (ro_fields _ _ (p_references _ _ P) d f V I).
  Qed.
  Lemma index_insert_gives pan t x : visible_field S W t (fd_name (fst x)) x -> triple pan (index_insert t x) (eq x).
  Proof.
    intros V c I. cbn. split; auto. keep I. intros t' f' y. rewrite lookup_cons. destruct (pair_dec (t', f') (t, fd_name (fst x))) as [[= -> ->]|]; auto.
    intros [= <-]. exact V.
  Qed.
  Lemma fields_gives pan t d : visible_type S W t = Some d -> triple pan (fields S W t (td_fields d)) (eq (visible_fields S W t (td_fields d))).
  Proof using P.
    intros V. unfold fields. apply memo.
    - intros c b I E. apply (i_fields _ I) in E as (d' & V' & ->). congruence.
    - intros c I. keep I. intros t' l. rewrite lookup_cons. destruct (name_dec t' t) as [->|]; auto. intros [= <-]. eauto.
    - apply triple_filter_map. intros f J. destruct (w_field W t f) eqn:F; [|now apply triple_ret].
      eapply triple_bind with (Q := fun o => forall x, o = Some x -> visible_field S W t (fd_name f) x).
      + intros c I. cbn. split; auto. intros x E. exact (i_index _ I _ _ _ E).
      + intros [x|] H.
        * apply triple_ret. specialize (H x eq_refl). destruct H as (d' & V' & K & N). rewrite V in V'. injection V' as <-.
          apply visible_fields_In in K as (K & _ & R).
          assert (E : fst x = f) by (apply (NoDup_key_inj fd_name (td_fields d)); auto; apply (p_fields _ _ P); now apply visible_type_Some in V).
          subst f. rewrite R. now destruct x.
        * eapply triple_eq; [eapply field_new_gives; eauto|]. rewrite F. destruct (visible_ref S W (fd_type f)) as [r|] eqn:R; cbn [option_map]; [|now apply triple_ret].
          eapply triple_eq; [|now apply triple_ret]. apply index_insert_gives. exists d. split; [auto|]. split; [|reflexivity]. apply visible_fields_In. auto.
  Qed.
  Lemma field_get_gives pan t d n : visible_type S W t = Some d ->
    triple pan (field_get S W t n (td_fields d)) (eq (find (fun x => teqb (fd_name (fst x)) n) (visible_fields S W t (td_fields d)))).
  Proof using P.
    intros V. unfold field_get.
    assert (FF : forall x, In x (visible_fields S W t (td_fields d)) -> fd_name (fst x) = n ->
                 find (fun x => teqb (fd_name (fst x)) n) (visible_fields S W t (td_fields d)) = Some x).
    { intros x I E. destruct (find _ _) as [y|] eqn:F.
      - apply find_some in F as (J & F). apply teqb_eq in F. f_equal. apply (visible_field_unique t n); exists d; auto.
      - apply (find_none _ _ F) in I. cbn in I. apply teqb_neq in I. congruence. }
    eapply triple_bind with (Q := fun o => forall x, o = Some x -> visible_field S W t n x).
    { intros c I. cbn. split; auto. intros x E. exact (i_index _ I _ _ _ E). }
    intros [x|] H.
    - apply triple_ret. specialize (H x eq_refl). destruct H as (d' & V' & K & N). rewrite V in V'. injection V' as <-. now apply FF.
    - clear H. eapply triple_bind with (Q := eq (find (fun x => teqb (fd_name (fst x)) n) (visible_fields S W t (td_fields d)))).
      + clear FF. assert (J : forall f, In f (td_fields d) -> In f (td_fields d)) by auto. revert J. generalize (td_fields d) at 1 3 4.
        intros l. induction l as [|f l IH]; intros J; cbn [filter find_mapM]; [now apply triple_ret|].
        assert (IH' := IH (fun g K => J g (or_intror K))). clear IH. unfold visible_fields in *. cbn [filter_map].
        destruct (teqb (fd_name f) n) eqn:E; cbn [find_mapM].
        * eapply triple_eq; [eapply field_new_gives; [exact V | apply J; now left]|].
          destruct (w_field W t f); [|exact IH']. destruct (visible_ref S W (fd_type f)); cbn [option_map]; [|exact IH'].
          cbn [find fst]. rewrite E. now apply triple_ret.
        * destruct (w_field W t f); [|exact IH']. destruct (visible_ref S W (fd_type f)); cbn [option_map]; [|exact IH']. cbn [find fst]. rewrite E. exact IH'.
      + intros a <-. destruct (find _ _) as [x|] eqn:F; [|now apply triple_ret]. apply find_some in F as (I & E). apply teqb_eq in E.
        eapply triple_eq; [|now apply triple_ret]. apply index_insert_gives. exists d. auto.
  Qed.
  Lemma inputs_gives pan p l : inputs_at S W p l -> triple pan (inputs S W p l) (eq (visible_inputs S W p l)).
  Proof using P.
    intros H. unfold inputs. apply memo.
    - intros c b I E. apply (i_inputs _ I) in E as (l0 & A & ->). now rewrite (inputs_at_unique _ _ _ H A).
    - intros c I. keep I. intros t' l'. rewrite lookup_cons. destruct (place_dec t' p) as [->|]; auto. intros [= <-]. eauto.
    - apply triple_filter_map. intros i J. unfold input_new. destruct (w_input W p i); [|now apply triple_ret].
      eapply triple_eq; [apply input_type_gives | now apply triple_ret]. apply (ro_values _ _ (p_references _ _ P)). eapply inputs_at_defined; eauto.
  Qed.
  Lemma interfaces_gives pan t d : visible_type S W t = Some d -> triple pan (interfaces S W t (td_interfaces d)) (eq (visible_interfaces S W t (td_interfaces d))).
  Proof using P.
    intros V. unfold interfaces. apply memo.
    - intros c b I E. apply (i_ifaces _ I) in E as (d' & V' & ->). congruence.
    - intros c I. keep I. intros t' l'. rewrite lookup_cons. destruct (name_dec t' t) as [->|]; auto. intros [= <-]. eauto.
    - apply triple_filter_map. intros n J. unfold implements_new. destruct (w_implements W t n); [|now apply triple_ret].
      apply visible_type_Some in V as (V & _). assert (Hi : implements d n) by (destruct d; auto).
      destruct (ro_interfaces _ _ (p_references _ _ P) d n V Hi) as (i & Ii & <-).
      eapply triple_bind with (Q := eq i).
      + pose proof (get_type_In _ Ii) as G. cbn [td_name] in G. apply triple_unwrap; unfold interface_lookup; rewrite G; congruence.
      + intros a <-. eapply triple_eq; [now apply (create_type_as pan (DInterface i) (if_name i))|]. unfold visible_interface.
        destruct (visible_type S W (if_name i)) as [u|] eqn:E; [|now apply triple_ret]. apply visible_type_Some in E as (Iu & E & _).
        assert (u = DInterface i) by (apply (NoDup_key_inj td_name (s_types S)); auto; apply P). subst u. now apply triple_ret.
  Qed.
  Lemma find_object n : object_named (s_types S) n -> exists o, member_lookup S n = Some o /\ In (DObject o) (s_types S) /\ ob_name o = n.
  Proof using P.
    intros (o & I & <-). exists o. pose proof (get_type_In _ I) as G. cbn [td_name] in G. unfold member_lookup. now rewrite G.
  Qed.
  Lemma create_object pan o : In (DObject o) (s_types S) ->
    triple pan (get_or_create_type W (DObject o)) (fun x => match x with Some (DObject o') => visible_object S W (ob_name o) = Some o' | Some _ => False | None => visible_object S W (ob_name o) = None end).
  Proof using P.
    intros I. apply (triple_weaken pan _ _ _ _ _ (create_type_as pan (DObject o) (ob_name o) I eq_refl)); [auto|]. intros a <-. unfold visible_object.
    destruct (visible_type S W (ob_name o)) as [u|] eqn:E; [|reflexivity]. apply visible_type_Some in E as (Iu & E & _).
    assert (u = DObject o) by (apply (NoDup_key_inj td_name (s_types S)); auto; apply P). now subst u.
  Qed.
  Lemma members_gives pan t d : visible_type S W t = Some (DUnion d) -> triple pan (members S W t (un_members d)) (eq (visible_members S W t (un_members d))).
  Proof using P.
    intros V. unfold members. apply memo.
    - intros c b I E. apply (i_members _ I) in E as (d' & V' & ->). congruence.
    - intros c I. keep I. intros t' l'. rewrite lookup_cons. destruct (name_dec t' t) as [->|]; auto. intros [= <-]. eauto.
    - apply triple_filter_map. intros n J. unfold member_new. destruct (w_member W t n); [|now apply triple_ret].
      apply visible_type_Some in V as (V & _). destruct (find_object n (ro_members _ _ (p_references _ _ P) d n V J)) as (o & L & Io & <-).
      rewrite L. eapply triple_bind with (Q := eq o); [now apply triple_ret|]. intros a <-.
      eapply triple_bind; [now apply create_object|]. intros [u|]; cbn beta iota.
      + destruct u; try contradiction. intros ->. now apply triple_ret.
      + intros ->. now apply triple_ret.
  Qed.
  Lemma filter_map_filter {A} (f : A -> bool) l : filter_map (fun x => if f x then Some x else None) l = filter f l.
  Proof. induction l as [|x l IH]; cbn; auto. destruct (f x); now rewrite IH. Qed.
  Lemma values_gives pan t d : visible_type S W t = Some (DEnum d) -> triple pan (values W t (en_values d)) (eq (visible_values W t (en_values d))).
  Proof.
    intros V. unfold values. apply memo.
    - intros c b I E. apply (i_values _ I) in E as (d' & V' & ->). congruence.
    - intros c I. keep I. intros t' l'. rewrite lookup_cons. destruct (name_dec t' t) as [->|]; auto. intros [= <-]. eauto.
    - unfold visible_values. rewrite <- filter_map_filter. apply triple_filter_map. intros v J. now apply triple_ret.
  Qed.
  Lemma directives_gives (pan : Prop) p l : directives_at S W p l -> (p = OnSchema -> pan) -> triple pan (directives S W p l) (eq (visible_directives S W l)).
  Proof using P.
    intros H Hp. unfold directives. apply memo.
    - intros c b I E. apply (i_dirs _ I) in E as (l0 & A & ->). now rewrite (directives_at_unique _ _ _ H A).
    - intros c I. keep I. intros t' l'. rewrite lookup_cons. destruct (dplace_dec t' p) as [->|]; auto. intros [= <-]. eauto.
    - apply triple_filter_map. intros d J. unfold directive_lookup.
      eapply triple_bind with (Q := fun e => get_ddef S (dir_name d) = Some e).
      + apply triple_unwrap; [auto|]. intros E. destruct (dplace_dec p OnSchema) as [Ep|Ep]; [auto|].
        destruct (directives_at_used _ _ _ H Ep J) as (e & E'). congruence.
      + intros e E. apply get_ddef_Some in E as (Ie & <-). eapply triple_eq; [now apply create_ddef|]. now apply triple_ret.
  Qed.
  Lemma implementors_gives pan n : triple pan (scoped_implementors S W n) (eq (visible_implementors S W n)).
  Proof using P.
    unfold scoped_implementors. apply memo.
    - intros c b I E. now apply (i_impls _ I) in E.
    - intros c I. keep I. intros t' l'. rewrite lookup_cons. destruct (name_dec t' n) as [->|]; auto. now intros [= <-].
    - apply triple_filter_map. intros o J. apply implementors_In in J as (Io & _).
      eapply triple_eq; [now apply create_type|]. destruct (type_visible W (DObject o)) eqn:V; [|now apply triple_ret].
      eapply triple_eq; [apply (interfaces_gives pan (ob_name o) (DObject o)); now apply visible_type_Some|]. now apply triple_ret.
  Qed.
  Lemma scoped_type_gives pan n : triple pan (scoped_type W n) (eq (visible_type S W n)).
  Proof using P.
    intros c I. unfold scoped_type. destruct (lookup name_dec n (c_types c)) as [t|] eqn:E; [split; auto; now apply (i_types _ I)|].
    assert (H : triple pan (find_mapM (get_or_create_type W) (w_candidates W n)) (eq (visible_type S W n))); [|exact (H c I)]. clear c I E.
    pose proof (p_candidates _ _ P n) as C. unfold visible_type.
    destruct (get_type S n) as [t|] eqn:G.
    - assert (In t (w_candidates W n)) by now apply C. assert (C' : forall u, In u (w_candidates W n) -> u = t) by (intros u Hu; apply C in Hu; congruence).
      clear C. apply get_type_Some in G as (I & _). induction (w_candidates W n) as [|u l IH]; [destruct H|]. cbn [find_mapM].
      assert (u = t) by (apply C'; now left). subst u. eapply triple_eq; [now apply create_type|]. destruct (type_visible W t) eqn:V; [now apply triple_ret|].
      destruct l as [|u l]; [now apply triple_ret|]. apply IH; [left; apply C'; cbn; auto | intros; apply C'; now right].
    - assert (w_candidates W n = []) as ->. { destruct (w_candidates W n) as [|u l]; auto. specialize (proj1 (C u) (or_introl eq_refl)). discriminate. }
      now apply triple_ret.
  Qed.
  Lemma scoped_ddef_gives pan n : triple pan (scoped_ddef S W n) (eq (visible_ddef S W n)).
  Proof using P.
    intros c I. unfold scoped_ddef. destruct (lookup name_dec n (c_ddefs c)) as [t|] eqn:E; [split; auto; now apply (i_ddefs _ I)|].
    destruct (get_ddef S n) as [d|] eqn:G.
    - apply get_ddef_Some in G as (J & <-). exact (create_ddef pan d J c I).
    - split; auto. unfold visible_ddef. now rewrite G.
  Qed.

  (** * The roots *)
  Record roots_ok (r : roots) : Prop := {
    k_query : visible_object S W (s_query S) = Some (r_query r);
    k_mutation : r_mutation r = match s_mutation S with Some n => visible_object S W n | None => None end;
    k_subscription : r_subscription r = match s_subscription S with Some n => visible_object S W n | None => None end }.
  Lemma root_object_gives pan n : object_named (s_types S) n -> triple pan (root_object S W n) (eq (visible_object S W n)).
  Proof using P.
    intros H. destruct (find_object n H) as (o & L & I & <-). unfold root_object. rewrite L. eapply triple_bind with (Q := eq o); [now apply triple_ret|].
    intros a <-. eapply triple_bind; [now apply create_object|]. intros [u|]; cbn beta iota.
    - destruct u; try contradiction. intros ->. now apply triple_ret.
    - intros ->. now apply triple_ret.
  Qed.
  Lemma new_schema_gives pan : triple pan (new_schema S W) (fun o =>
    match o with Some r => roots_ok r | None => visible_object S W (s_query S) = None end).
  Proof using P.
    destruct (p_roots _ _ P) as (Q & Mu & Su). unfold new_schema. eapply triple_eq; [now apply root_object_gives|].
    destruct (visible_object S W (s_query S)) as [q|] eqn:E; [|now apply triple_ret].
    assert (O : forall n, (forall m, n = Some m -> object_named (s_types S) m) ->
      triple pan (optional_root S W n) (eq (match n with Some n => visible_object S W n | None => None end))).
    { intros [n|] H; cbn [optional_root]; [apply root_object_gives; auto | now apply triple_ret]. }
    eapply triple_eq; [now apply O|]. eapply triple_eq; [now apply O|]. apply triple_ret. constructor; auto.
  Qed.

  (** * The reachable part *)
  Definition in_schema (x : node) : Prop :=
    match x with inl t => visible_type S W (td_name t) = Some t | inr d => visible_ddef S W (dd_name d) = Some d end.
  Lemma in_schema_ref r x : visible_ref S W r = Some x -> in_schema (inl (snd x)).
  Proof using P. intros H. apply visible_ref_Some in H as (_ & H). cbn. pose proof H as H'. apply visible_type_Some in H' as (_ & -> & _). exact H. Qed.
  Lemma in_schema_directive l z : directive_of S W l z -> in_schema z.
  Proof using P.
    intros [d e I]. apply visible_directives_In in I as (_ & E). cbn in *. pose proof E as E'. apply visible_ddef_Some in E' as (_ & -> & _). exact E.
  Qed.
  Lemma in_schema_input p l z : input_of S W p l z -> in_schema z.
  Proof using P.
    intros [x z' I D|x I]; [now apply in_schema_directive in D|]. apply visible_inputs_In in I as (_ & _ & R). eapply in_schema_ref; eauto.
  Qed.
  Lemma in_schema_field t l z : field_of S W t l z -> in_schema z.
  Proof using P.
    intros [x z' I D|x z' I D|x I]; [now apply in_schema_directive in D | now apply in_schema_input in D|].
    apply visible_fields_In in I as (_ & _ & R). eapply in_schema_ref; eauto.
  Qed.
  Lemma in_schema_mentions x y : mentions S W x y -> in_schema y.
  Proof using P.
    intros [t z D|o z D|i z D|t i I|i o I|u m I|e v z I D|i z D|d z D].
    - now apply in_schema_directive in D.
    - now apply in_schema_field in D.
    - now apply in_schema_field in D.
    - apply visible_interfaces_In in I as (_ & _ & I). apply visible_interface_Some in I as (I & _ & V). now apply visible_type_Some.
    - apply visible_implementors_In in I as (I & _ & V & _). now apply visible_type_Some.
    - apply visible_members_In in I as (_ & _ & I). apply visible_object_Some in I as (I & _ & V). now apply visible_type_Some.
    - now apply in_schema_directive in D.
    - now apply in_schema_input in D.
    - now apply in_schema_input in D.
  Qed.
  Lemma in_schema_reached x : reached S W x -> in_schema x.
  Proof using P.
    induction 1 as [n o _ V|d I V _|x y _ _ M'].
    - apply visible_object_Some in V as (I & _ & V). now apply visible_type_Some.
    - now apply visible_ddef_Some.
    - now apply in_schema_mentions in M'.
  Qed.

  Definition listed (x : node) (v : visited) : Prop :=
    match x with inl t => In (td_name t, t) (fst v) | inr d => In (dd_name d, d) (snd v) end.
  Record sound (v : visited) : Prop := {
    so_t : StronglySorted tlt (map fst (fst v));
    so_d : StronglySorted tlt (map fst (snd v));
    so_tr : forall n t, In (n, t) (fst v) -> n = td_name t /\ reached S W (inl t);
    so_dr : forall n d, In (n, d) (snd v) -> n = dd_name d /\ reached S W (inr d) }.
  Definition extends (v v' : visited) : Prop := forall x, listed x v -> listed x v'.
  (** what [v'] has and [v] has not is followed up in [v'] *)
  Definition followed (v v' : visited) : Prop := forall x, listed x v' -> listed x v \/ forall z, mentions S W x z -> listed z v'.
  Definition all_nodes : list node := map inl (s_types S) ++ map inr (s_ddefs S).
  Definition has (v : visited) (x : node) : bool :=
    match x with inl t => tmem (td_name t) (map fst (fst v)) | inr d => tmem (dd_name d) (map fst (snd v)) end.
  Definition left_over (v : visited) : nat := length (filter (fun x => negb (has v x)) all_nodes).
  Lemma filter_le {A} (f g : A -> bool) l : (forall x, In x l -> f x = true -> g x = true) -> length (filter f l) <= length (filter g l).
  Proof.
    induction l as [|x l IH]; cbn; intros H; auto. assert (length (filter f l) <= length (filter g l)) by (apply IH; auto).
    destruct (f x) eqn:E; [rewrite (H x (or_introl eq_refl) E); cbn; lia|]. destruct (g x); cbn; lia.
  Qed.
  Lemma filter_lt {A} (f g : A -> bool) l y : (forall x, In x l -> f x = true -> g x = true) -> In y l -> f y = false -> g y = true -> length (filter f l) < length (filter g l).
  Proof.
    induction l as [|x l IH]; cbn; intros H I Fy Gy; [tauto|].
    assert (L : length (filter f l) <= length (filter g l)) by (apply filter_le; auto).
    destruct I as [->|I]; [rewrite Fy, Gy; cbn; lia|]. specialize (IH (fun x J => H x (or_intror J)) I Fy Gy).
    destruct (f x) eqn:E; [rewrite (H x (or_introl eq_refl) E); cbn; lia|]. destruct (g x); cbn; lia.
  Qed.
  Lemma has_listed v x : sound v -> in_schema x -> has v x = true <-> listed x v.
  Proof using P.
    intros Sv Vx. destruct x as [t|d]; cbn in *; rewrite tmem_In, in_map_iff; split.
    - intros ((n & u) & E & I). cbn in E. subst n. destruct (so_tr _ Sv _ _ I) as (E & R). apply in_schema_reached in R. cbn in R.
      rewrite <- E, Vx in R. injection R as <-. exact I.
    - intros I. eexists; split; [|exact I]. reflexivity.
    - intros ((n & u) & E & I). cbn in E. subst n. destruct (so_dr _ Sv _ _ I) as (E & R). apply in_schema_reached in R. cbn in R.
      rewrite <- E, Vx in R. injection R as <-. exact I.
    - intros I. eexists; split; [|exact I]. reflexivity.
  Qed.
  Lemma extends_has v v' x : sound v -> extends v v' -> has v x = true -> has v' x = true.
  Proof.
    intros Sv E. destruct x as [t|d]; cbn; rewrite !tmem_In, !in_map_iff.
    - intros ((n & u) & Q & I). destruct (so_tr _ Sv _ _ I) as (Q' & _). specialize (E (inl u)). cbn in *. rewrite Q' in I, Q. apply E in I. eexists; split; [|exact I]. auto.
    - intros ((n & u) & Q & I). destruct (so_dr _ Sv _ _ I) as (Q' & _). specialize (E (inr u)). cbn in *. rewrite Q' in I, Q. apply E in I. eexists; split; [|exact I]. auto.
  Qed.
  Lemma extends_left v v' : sound v -> extends v v' -> left_over v' <= left_over v.
  Proof.
    intros Sv E. apply filter_le. intros x _ H. rewrite negb_true_iff in *. destruct (has v x) eqn:Q; auto. now rewrite (extends_has _ _ _ Sv E Q) in H.
  Qed.

  (** [m] visits at least [T], when at most [N] definitions are left *)
  Definition visits (N : nat) (m : visited -> M visited) (T : node -> Prop) : Prop :=
    forall v, left_over v <= N -> sound v ->
      triple False (m v) (fun v' => extends v v' /\ sound v' /\ (forall z, T z -> listed z v') /\ followed v v').
  Lemma followed_refl v : followed v v.
  Proof. intros x H. auto. Qed.
  Lemma followed_trans v v' v'' : extends v' v'' -> followed v v' -> followed v' v'' -> followed v v''.
  Proof. intros E F G x H. destruct (G x H) as [H'|H']; auto. destruct (F x H') as [K|K]; auto. Qed.
  Lemma visits_ret N T : (forall z, ~ T z) -> visits N ret T.
  Proof.
    intros H v L Sv. apply triple_ret. split; [now intros x|]. split; [auto|]. split; [|apply followed_refl]. intros z Hz. destruct (H z Hz).
  Qed.
  Lemma visits_seq N m m' (T T' T'' : node -> Prop) : visits N m T -> visits N m' T' -> (forall z, T'' z -> T z \/ T' z) -> visits N (fun v => let! v' := m v in m' v') T''.
  Proof.
    intros H H' HT v L Sv. eapply triple_bind; [now apply H|]. intros v' (E & Sv' & A & F). eapply triple_weaken; [apply H' | auto|]; auto.
    - pose proof (extends_left _ _ Sv E). lia.
    - intros v'' (E' & Sv'' & A' & F'). split; [intros x Hx; auto|]. split; [auto|]. split; [|eapply followed_trans; eauto].
      intros z Hz. destruct (HT z Hz) as [K|K]; auto.
  Qed.
  Lemma visits_eq N {A} (m : M A) a (k : A -> visited -> M visited) T : triple False m (eq a) -> visits N (k a) T -> visits N (fun v => let! x := m in k x v) T.
  Proof. intros H K v L Sv. eapply triple_eq; [exact H|]. now apply K. Qed.
  Lemma visits_weaken N m (T T' : node -> Prop) : visits N m T -> (forall z, T' z -> T z) -> visits N m T'.
  Proof. intros H HT v L Sv. eapply triple_weaken; [now apply H | auto|]. intros v' (? & ? & A & ?). auto 6. Qed.
  Lemma visits_fold N A (f : A -> visited -> M visited) l (T : A -> node -> Prop) (T' : node -> Prop) :
    (forall x, In x l -> visits N (f x) (T x)) -> (forall z, T' z -> exists x, In x l /\ T x z) -> visits N (foldM f l) T'.
  Proof.
    revert T'. induction l as [|x l IH]; intros T' H HT; cbn [foldM].
    - apply visits_ret. intros z Hz. destruct (HT z Hz) as (x & [] & _).
    - eapply (visits_seq N (f x) (foldM f l) (T x) (fun z => exists x, In x l /\ T x z)).
      + apply H. now left.
      + apply IH; auto. intros y Hy. apply H. now right.
      + intros z Hz. destruct (HT z Hz) as (y & [->|I] & K); eauto.
  Qed.

  Section Visit.
    Variable visit : node -> visited -> M visited.
    Variable N : nat.
    Hypothesis HV : forall x, reached S W x -> visits N (visit x) (eq x).
    Lemma visit_directives_visits p l : directives_at S W p l -> p <> OnSchema -> (forall z, directive_of S W l z -> reached S W z) ->
      visits N (visit_directives S W visit p l) (directive_of S W l).
    Proof using P HV.
      intros H Hp R. unfold visit_directives. apply (visits_eq N (directives S W p l) _ (fun ds v => foldM _ ds v)
        (directive_of S W l) (directives_gives False p l H (fun E => Hp E))).
      apply (visits_fold N _ _ _ (fun d => eq (inr (snd d)))).
      - intros d I. pose proof I as I'. apply visible_directives_In in I' as (_ & E).
        apply (visits_eq N (scoped_ddef S W (dir_name (fst d))) _ (fun o v => match o with Some e => visit (inr e) v | None => ret v end) _ (scoped_ddef_gives False _)).
        rewrite E. apply HV, R. destruct d. econstructor. exact I.
      - intros z [d e I]. exists (d, e). auto.
    Qed.
    Lemma numbered_from_In A (l : list A) n k x : In (k, x) (numbered_from n l) -> n <= k /\ nth_error l (k - n) = Some x.
    Proof.
      revert n. induction l as [|y l IH]; cbn [numbered_from]; intros n; [intros []|]. intros [[= <- <-]|I].
      - split; [lia|]. now rewrite Nat.sub_diag.
      - apply IH in I as (L & E). split; [lia|]. replace (k - n) with (Datatypes.S (k - Datatypes.S n)) by lia. exact E.
    Qed.
    Lemma numbered_In A (l : list A) k x : In (k, x) (numbered l) -> nth_error l k = Some x.
    Proof. intros I. apply numbered_from_In in I as (_ & E). now rewrite Nat.sub_0_r in E. Qed.
    Lemma In_numbered_from A (l : list A) x n : In x l -> exists k, In (k, x) (numbered_from n l).
    Proof. revert n. induction l as [|y l IH]; cbn; intros n; [tauto|]. intros [->|I]; [eauto|]. destruct (IH (Datatypes.S n) I) as (k & K). eauto. Qed.
    Lemma visit_inputs_visits p l : inputs_at S W p l -> (forall z, input_of S W p l z -> reached S W z) ->
      visits N (visit_inputs S W visit p l) (input_of S W p l).
    Proof using P HV.
      intros H R. unfold visit_inputs. apply (visits_eq N (inputs S W p l) _ (fun is v => foldM _ (numbered is) v) (input_of S W p l) (inputs_gives False p l H)).
      apply (visits_fold N _ _ _ (fun x z => directive_of S W (iv_dirs (fst (snd x))) z \/ z = inl (snd (snd (snd x))))).
      - intros (k & x) I. apply numbered_In in I. pose proof (nth_error_In _ _ I) as J. cbn [fst snd].
        eapply visits_seq.
        + apply visit_directives_visits.
          * eapply da_input; eauto.
          * discriminate.
          * intros z Hz. apply R. eapply io_directive; eauto.
        + apply HV. apply R. now apply io_type.
        + intros z [Hz| ->]; auto.
      - intros z [x z' I D|x I].
        + destruct (In_numbered_from _ _ x 0 I) as (k & K). exists (k, x). auto.
        + destruct (In_numbered_from _ _ x 0 I) as (k & K). exists (k, x). auto.
    Qed.
    Lemma visit_fields_visits t d : visible_type S W t = Some d -> (forall z, field_of S W t (td_fields d) z -> reached S W z) ->
      visits N (visit_fields S W visit t (td_fields d)) (field_of S W t (td_fields d)).
    Proof using P HV.
      intros V R. unfold visit_fields. apply (visits_eq N (fields S W t (td_fields d)) _ (fun fs v => foldM _ fs v) (field_of S W t (td_fields d)) (fields_gives False t d V)).
      apply (visits_fold N _ _ _ (fun x z => directive_of S W (fd_dirs (fst x)) z \/ input_of S W (PArgument t (fd_name (fst x))) (fd_args (fst x)) z \/ z = inl (snd (snd x)))).
      - intros x I. assert (F : visible_field S W t (fd_name (fst x)) x) by (exists d; auto).
        apply (visits_seq N (visit_directives S W visit (OnField t (fd_name (fst x))) (fd_dirs (fst x)))
          (fun v1 => let! v2 := visit_inputs S W visit (PArgument t (fd_name (fst x))) (fd_args (fst x)) v1 in visit (inl (snd (snd x))) v2)
          (directive_of S W (fd_dirs (fst x))) (fun z => input_of S W (PArgument t (fd_name (fst x))) (fd_args (fst x)) z \/ z = inl (snd (snd x)))); auto.
        + apply visit_directives_visits.
          * now apply da_field.
          * discriminate.
          * intros z Hz. apply R. eapply fo_directive; eauto.
        + eapply visits_seq.
          * apply visit_inputs_visits; [now apply ia_argument|]. intros z Hz. apply R. eapply fo_argument; eauto.
          * apply HV, R. now apply fo_type.
          * intros z [Hz| ->]; auto.
      - intros z [x z' I D|x z' I D|x I]; exists x; auto.
    Qed.
    Lemma visit_interfaces_visits t d : visible_type S W t = Some d -> (forall i, In i (visible_interfaces S W t (td_interfaces d)) -> reached S W (inl (DInterface i))) ->
      visits N (visit_interfaces S W visit t (td_interfaces d)) (fun z => exists i, In i (visible_interfaces S W t (td_interfaces d)) /\ z = inl (DInterface i)).
    Proof using P HV.
      intros V R. unfold visit_interfaces. apply (visits_eq N (interfaces S W t (td_interfaces d)) _ (fun is v => foldM _ is v) _ (interfaces_gives False t d V)).
      apply (visits_fold N _ _ _ (fun i => eq (inl (DInterface i)))); [auto|]. intros z (i & I & ->). eauto.
    Qed.
    Lemma visit_members_visits t : visible_type S W (td_name t) = Some t -> (forall z, mentions S W (inl t) z -> reached S W z) ->
      visits N (visit_members S W visit t) (mentions S W (inl t)).
    Proof using P HV.
      intros V R.
      assert (HD : visits N (visit_directives S W visit (OnType (td_name t)) (own_directives t)) (directive_of S W (own_directives t))).
      { apply visit_directives_visits; [now apply da_type | discriminate|]. intros z Hz. apply R. now apply mn_directive. }
      destruct t as [b|d|d|d|d|d|d]; cbn [visit_members]; cbn [td_name own_directives] in *.
      - apply visits_ret. intros z Hz. inversion Hz; subst; cbn in *; [|contradiction].
        match goal with H : directive_of _ _ _ _ |- _ => destruct H as [? ? []] end.
      - eapply visits_weaken; [exact HD|]. intros z Hz. inversion Hz; subst; cbn in *; [auto | contradiction].
      - apply (visits_seq N (visit_directives S W visit (OnType (ob_name d)) (ob_dirs d))
          (fun v1 => let! v2 := visit_fields S W visit (ob_name d) (ob_fields d) v1 in visit_interfaces S W visit (ob_name d) (ob_ifaces d) v2)
          _ (fun z => field_of S W (ob_name d) (ob_fields d) z \/ exists i, In i (visible_interfaces S W (ob_name d) (ob_ifaces d)) /\ z = inl (DInterface i)) _ HD).
        + eapply visits_seq.
          * apply (visit_fields_visits (ob_name d) (DObject d) V). intros z Hz. apply R. now apply mn_object_field.
          * apply (visit_interfaces_visits (ob_name d) (DObject d) V). intros i Hi. apply R. now apply mn_interface.
          * intros z [H|H]; auto.
        + intros z Hz. inversion Hz; subst; cbn in *; eauto 6.
      - apply (visits_seq N (visit_directives S W visit (OnType (io_name d)) (io_dirs d)) (visit_inputs S W visit (PInputField (io_name d)) (io_fields d))
          _ (input_of S W (PInputField (io_name d)) (io_fields d)) _ HD).
        + apply visit_inputs_visits; [now apply ia_input_field|]. intros z Hz. apply R. now apply mn_input.
        + intros z Hz. inversion Hz; subst; cbn in *; auto; contradiction.
      - apply (visits_seq N (visit_directives S W visit (OnType (en_name d)) (en_dirs d))
          (fun v1 => let! vs := values W (en_name d) (en_values d) in foldM (fun x v => visit_directives S W visit (OnValue (en_name d) (fst x)) (ev_dirs (snd x)) v) (numbered vs) v1)
          _ (fun z => exists v, In v (visible_values W (en_name d) (en_values d)) /\ directive_of S W (ev_dirs v) z) _ HD).
        + apply (visits_eq N (values W (en_name d) (en_values d)) _ (fun vs v => foldM _ (numbered vs) v) _ (values_gives False (en_name d) d V)).
          apply (visits_fold N _ _ _ (fun x => directive_of S W (ev_dirs (snd x)))).
          * intros (k & x) I. apply numbered_In in I. cbn [fst snd]. apply visit_directives_visits.
            -- eapply da_value; eauto.
            -- discriminate.
            -- intros z Hz. apply R. apply nth_error_In in I. eapply mn_value; eauto.
          * intros z (v & I & D). destruct (In_numbered_from _ _ v 0 I) as (k & K). exists (k, v). auto.
        + intros z Hz. inversion Hz; subst; cbn in *; eauto; contradiction.
      - apply (visits_seq N (visit_directives S W visit (OnType (un_name d)) (un_dirs d))
          (fun v1 => let! ms := members S W (un_name d) (un_members d) in foldM (fun m v => visit (inl (DObject (snd m))) v) ms v1)
          _ (fun z => exists m, In m (visible_members S W (un_name d) (un_members d)) /\ z = inl (DObject (snd m))) _ HD).
        + apply (visits_eq N (members S W (un_name d) (un_members d)) _ (fun ms v => foldM _ ms v) _ (members_gives False (un_name d) d V)).
          apply (visits_fold N _ _ _ (fun m => eq (inl (DObject (snd m))))).
          * intros m I. apply HV, R. now apply mn_member.
          * intros z (m & I & ->). eauto.
        + intros z Hz. inversion Hz; subst; cbn in *; eauto; contradiction.
      - apply (visits_seq N (visit_directives S W visit (OnType (if_name d)) (if_dirs d))
          (fun v1 => let! v2 := visit_fields S W visit (if_name d) (if_fields d) v1 in
                     let! v3 := visit_interfaces S W visit (if_name d) (if_ifaces d) v2 in
                     let! os := scoped_implementors S W (if_name d) in foldM (fun o v => visit (inl (DObject o)) v) os v3)
          _ (fun z => field_of S W (if_name d) (if_fields d) z \/ (exists i, In i (visible_interfaces S W (if_name d) (if_ifaces d)) /\ z = inl (DInterface i)) \/
                      exists o, In o (visible_implementors S W (if_name d)) /\ z = inl (DObject o)) _ HD).
        + apply (visits_seq N (visit_fields S W visit (if_name d) (if_fields d))
            (fun v2 => let! v3 := visit_interfaces S W visit (if_name d) (if_ifaces d) v2 in
                       let! os := scoped_implementors S W (if_name d) in foldM (fun o v => visit (inl (DObject o)) v) os v3)
            (field_of S W (if_name d) (if_fields d)) (fun z => (exists i, In i (visible_interfaces S W (if_name d) (if_ifaces d)) /\ z = inl (DInterface i)) \/
                      exists o, In o (visible_implementors S W (if_name d)) /\ z = inl (DObject o))); [| |tauto].
          * apply (visit_fields_visits (if_name d) (DInterface d) V). intros z Hz. apply R. now apply mn_interface_field.
          * eapply visits_seq.
            -- apply (visit_interfaces_visits (if_name d) (DInterface d) V). intros i Hi. apply R. now apply mn_interface.
            -- apply (visits_eq N (scoped_implementors S W (if_name d)) _ (fun os v => foldM _ os v)
                 (fun z => exists o, In o (visible_implementors S W (if_name d)) /\ z = inl (DObject o)) (implementors_gives False (if_name d))).
               apply (visits_fold N _ _ _ (fun o => eq (inl (DObject o)))).
               ++ intros o I. apply HV, R. now apply mn_implementor.
               ++ intros z (o & I & ->). eauto.
            -- auto.
        + intros z Hz. inversion Hz; subst; cbn in *; eauto 7.
    Qed.
  End Visit.

  Lemma listed_insert_t t v x : sound v -> has v (inl t) = false -> listed x (tinsert (td_name t) t (fst v), snd v) <-> x = inl t \/ listed x v.
  Proof.
    intros Sv H. destruct x as [u|d]; cbn; [|intuition congruence]. cbn in H. apply tmem_false in H. split.
    - intros I. apply tinsert_In in I as [(_ & ->)|I]; auto.
    - assert (A := fun y => tinsert_assoc (td_name t) t (fst v) y (so_t _ Sv)). intros [[= ->]|I].
      + apply assoc_In. rewrite A. now rewrite teqb_refl.
      + apply assoc_In. rewrite A. destruct (teqb_spec (td_name u) (td_name t)) as [E|_].
        * exfalso. apply H. rewrite <- E. apply (in_map fst) in I. exact I.
        * apply assoc_NoDup; auto. apply sorted_NoDup, Sv.
  Qed.
  Lemma listed_insert_d t v x : sound v -> has v (inr t) = false -> listed x (fst v, tinsert (dd_name t) t (snd v)) <-> x = inr t \/ listed x v.
  Proof.
    intros Sv H. destruct x as [d|u]; cbn; [intuition congruence|]. cbn in H. apply tmem_false in H. split.
    - intros I. apply tinsert_In in I as [(_ & ->)|I]; auto.
    - assert (A := fun y => tinsert_assoc (dd_name t) t (snd v) y (so_d _ Sv)). intros [[= ->]|I].
      + apply assoc_In. rewrite A. now rewrite teqb_refl.
      + apply assoc_In. rewrite A. destruct (teqb_spec (dd_name u) (dd_name t)) as [E|_].
        * exfalso. apply H. rewrite <- E. apply (in_map fst) in I. exact I.
        * apply assoc_NoDup; auto. apply sorted_NoDup, Sv.
  Qed.
  Lemma sound_insert_t t v : sound v -> reached S W (inl t) -> sound (tinsert (td_name t) t (fst v), snd v).
  Proof.
    intros [A B C D] R. constructor; cbn [fst snd]; auto.
    - now apply tinsert_sorted.
    - intros n u I. apply tinsert_In in I as [(-> & ->)|I]; auto.
  Qed.
  Lemma sound_insert_d t v : sound v -> reached S W (inr t) -> sound (fst v, tinsert (dd_name t) t (snd v)).
  Proof.
    intros [A B C D] R. constructor; cbn [fst snd]; auto.
    - now apply tinsert_sorted.
    - intros n u I. apply tinsert_In in I as [(-> & ->)|I]; auto.
  Qed.
  (** a new node is put in and then followed up *)
  Lemma visits_new N x v v0 m : in_schema x -> sound v -> sound v0 -> (forall y, listed y v0 <-> y = x \/ listed y v) -> has v x = false ->
    visits N m (mentions S W x) -> left_over v <= Datatypes.S N ->
    triple False (m v0) (fun v' => extends v v' /\ sound v' /\ (forall z, x = z -> listed z v') /\ followed v v').
  Proof using P.
    intros Vx Sv S0 L H Hm HN. assert (E : extends v v0) by (intros y Hy; apply L; auto).
    assert (LT : left_over v0 < left_over v).
    { apply (filter_lt _ _ _ x).
      - intros y _ Hy. rewrite negb_true_iff in *. destruct (has v y) eqn:Q; auto. now rewrite (extends_has _ _ _ Sv E Q) in Hy.
      - unfold all_nodes. apply in_app_iff. destruct x as [t|d]; cbn in Vx; [left | right]; apply in_map.
        + now apply visible_type_Some in Vx. + now apply visible_ddef_Some in Vx.
      - rewrite negb_false_iff. apply has_listed; auto. apply L. auto.
      - now rewrite H. }
    eapply triple_weaken; [apply Hm; [lia|exact S0] | auto|]. intros v' (E' & S' & A & F). split; [intros y Hy; auto|]. split; [auto|]. split.
    - intros z <-. apply E', L. auto.
    - intros y Hy. destruct (F y Hy) as [Hy'|Hy']; auto. apply L in Hy' as [->|Hy']; auto.
  Qed.
  Lemma visit_visits fuel x : reached S W x -> forall v, left_over v < fuel -> sound v ->
    triple False (visit S W fuel x v) (fun v' => extends v v' /\ sound v' /\ (forall z, x = z -> listed z v') /\ followed v v').
  Proof using P.
    revert x. induction fuel as [|fuel IH]; intros x R v L Sv; [lia|]. cbn [visit].
    assert (HV : fuel = 0 \/ forall x, reached S W x -> visits (Nat.pred fuel) (visit S W fuel x) (eq x)).
    { destruct fuel as [|fuel]; [now left | right]. intros y Ry w Lw Sw. apply IH; auto. cbn in Lw. lia. }
    pose proof (in_schema_reached x R) as Vx. pose proof (has_listed v x Sv Vx) as HL.
    assert (stop : has v x = true -> triple False (ret v) (fun v' => extends v v' /\ sound v' /\ (forall z, x = z -> listed z v') /\ followed v v')).
    { intros H. apply triple_ret. split; [now intros y|]. split; [auto|]. split; [|apply followed_refl]. intros z <-. now apply HL. }
    assert (HF : has v x = false -> fuel <> 0).
    { intros H ->. assert (0 < left_over v); [|lia]. apply (Nat.le_lt_trans _ (length (filter (fun _ : node => false) all_nodes))); [lia|].
      apply (filter_lt _ _ _ x); [discriminate| |reflexivity|now rewrite H]. unfold all_nodes. apply in_app_iff.
      destruct x as [t|d]; cbn in Vx; [left | right]; apply in_map.
      - now apply visible_type_Some in Vx. - now apply visible_ddef_Some in Vx. }
    destruct x as [t|d].
    - destruct (assoc (td_name t) (fst v)) as [u|] eqn:E.
      + apply stop. cbn. apply tmem_In. apply assoc_In in E. apply (in_map fst) in E. exact E.
      + assert (H : has v (inl t) = false) by (cbn; apply tmem_false; now apply assoc_None).
        destruct HV as [->|HV]; [now destruct (HF H)|].
        apply (visits_new (Nat.pred fuel) (inl t) v); auto.
        * now apply sound_insert_t.
        * intros y. now apply listed_insert_t.
        * apply visit_members_visits; auto. intros z Hz. eapply re_step; eauto.
        * specialize (HF H). lia.
    - destruct (assoc (dd_name d) (snd v)) as [u|] eqn:E.
      + apply stop. cbn. apply tmem_In. apply assoc_In in E. apply (in_map fst) in E. exact E.
      + assert (H : has v (inr d) = false) by (cbn; apply tmem_false; now apply assoc_None).
        destruct HV as [->|HV]; [now destruct (HF H)|].
        apply (visits_new (Nat.pred fuel) (inr d) v); auto.
        * now apply sound_insert_d.
        * intros y. now apply listed_insert_d.
        * eapply visits_weaken; [apply (visit_inputs_visits (visit S W fuel) (Nat.pred fuel) HV (PDirectiveArgument (dd_name d)) (dd_args d))|].
          -- now apply ia_directive.
          -- intros z Hz. eapply re_step; [exact R|]. now apply mn_ddef.
          -- intros z Hz. now inversion Hz.
        * specialize (HF H). lia.
  Qed.
  Lemma left_over_bound v : left_over v <= length (s_types S) + length (s_ddefs S).
  Proof.
    unfold left_over. assert (B : forall (f : node -> bool) l, length (filter f l) <= length l).
    { intros f l. induction l as [|y l IH]; cbn; auto. destruct (f y); cbn; lia. }
    etransitivity; [apply B|]. unfold all_nodes. rewrite app_length, !map_length. lia.
  Qed.
  Lemma executable_used d : dd_builtin d || existsb dloc_executable (dd_locs d) = true <-> dd_builtin d = true \/ (exists l, In l (dd_locs d) /\ in_documents l).
  Proof.
    rewrite orb_true_iff, existsb_exists. assert (E : forall l, dloc_executable l = true <-> in_documents l).
    { intros l. unfold in_documents. destruct l; cbn; split; try tauto; try discriminate; intros H; repeat destruct H as [H|H]; try discriminate H; destruct H. }
    split; (intros [H|(l & H & K)]; [now left|right; exists l; split; auto; now apply E]).
  Qed.
  Lemma visit_schema_gives r : roots_ok r -> triple False (visit_schema S W r) complete.
  Proof using P.
    intros K. unfold visit_schema. set (fuel := Datatypes.S (length (s_types S) + length (s_ddefs S))).
    set (N := length (s_types S) + length (s_ddefs S)).
    assert (HV : forall x, reached S W x -> visits N (visit S W fuel x) (eq x)).
    { intros x R v L Sv. apply visit_visits; auto. unfold fuel. fold N. lia. }
    set (start := fun x : node => (exists n o, (s_query S = n \/ s_mutation S = Some n \/ s_subscription S = Some n) /\ visible_object S W n = Some o /\ x = inl (DObject o)) \/
      (exists d, x = inr d /\ In d (s_ddefs S) /\ w_ddef W d = true /\ (dd_builtin d = true \/ (exists l, In l (dd_locs d) /\ in_documents l)))).
    assert (V : visits N (fun v0 => let! v := foldM (fun d v =>
      if dd_builtin d || existsb dloc_executable (dd_locs d) then
        let! o := get_or_create_ddef W d in
        match o with Some e => visit S W fuel (inr e) v | None => ret v end
      else ret v) (s_ddefs S) v0 in
      let! v := visit S W fuel (inl (DObject (r_query r))) v in
      let! v := visit_root S W fuel (r_mutation r) v in
      visit_root S W fuel (r_subscription r) v) start).
    { set (root := fun o z => exists a : object_def, o = Some a /\ z = inl (DObject a) :> node).
      assert (HR : forall o, (forall a, o = Some a -> reached S W (inl (DObject a))) -> visits N (visit_root S W fuel o) (root o)).
      { intros [a|] H; cbn [visit_root].
        - eapply visits_weaken; [apply HV, H; reflexivity|]. intros z (b & [= <-] & ->). reflexivity.
        - apply visits_ret. intros z (b & E & _). discriminate. }
      eapply (visits_seq N _ (fun v => let! v := visit S W fuel (inl (DObject (r_query r))) v in
        let! v := visit_root S W fuel (r_mutation r) v in visit_root S W fuel (r_subscription r) v)
        (fun z => exists d, z = inr d /\ In d (s_ddefs S) /\ w_ddef W d = true /\ (dd_builtin d = true \/ (exists l, In l (dd_locs d) /\ in_documents l)))
        (fun z => root (Some (r_query r)) z \/ root (r_mutation r) z \/ root (r_subscription r) z)).
      - apply (visits_fold N _ _ _ (fun d z => z = inr d /\ w_ddef W d = true /\ (dd_builtin d = true \/ (exists l, In l (dd_locs d) /\ in_documents l)))).
        + intros d I. destruct (dd_builtin d || existsb dloc_executable (dd_locs d)) eqn:B.
          * assert (B' : dd_builtin d = true \/ (exists l, In l (dd_locs d) /\ in_documents l)) by (apply executable_used; exact B).
            apply (visits_eq N _ _ (fun o v => match o with Some e => visit S W fuel (inr e) v | None => ret v end) _ (create_ddef False d I)).
            unfold visible_ddef. rewrite (get_ddef_In _ I). destruct (w_ddef W d) eqn:E.
            -- eapply visits_weaken; [apply HV; now apply re_ddef|]. now intros z (-> & _).
            -- apply visits_ret. intros z (_ & F & _). congruence.
          * apply visits_ret. intros z (_ & _ & B'). apply executable_used in B'. congruence.
        + intros z (d & -> & I & H). eauto.
      - eapply (visits_seq N _ (fun v => let! v := visit_root S W fuel (r_mutation r) v in visit_root S W fuel (r_subscription r) v)
          (root (Some (r_query r))) (fun z => root (r_mutation r) z \/ root (r_subscription r) z)); [| |tauto].
        + apply (HR (Some (r_query r))). intros a [= <-]. eapply re_root; [left; reflexivity|]. apply K.
        + eapply visits_seq; [apply HR | apply HR | auto].
          * intros a E. rewrite (k_mutation _ K) in E. destruct (s_mutation S) as [n|] eqn:Q; [|discriminate]. eapply re_root; [right; left; exact Q | exact E].
          * intros a E. rewrite (k_subscription _ K) in E. destruct (s_subscription S) as [n|] eqn:Q; [|discriminate]. eapply re_root; [right; right; exact Q | exact E].
      - intros z [(n & o & C & Vo & ->)|H]; [right|left; exact H]. unfold root. destruct C as [<-|[C|C]].
        + left. exists o. split; auto. now rewrite (k_query _ K) in Vo.
        + right; left. exists o. split; auto. now rewrite (k_mutation _ K), C.
        + right; right. exists o. split; auto. now rewrite (k_subscription _ K), C. }
    assert (S0 : sound ([], [])) by (constructor; cbn; try constructor; contradiction).
    eapply triple_weaken; [exact (V ([], []) (left_over_bound _) S0) | auto|].
    intros v (_ & Sv & A & F).
    assert (G : forall x, reached S W x -> listed x v).
    { induction 1 as [n o C Vo|d I E B|x y R IH M']; [apply A; left; eauto 6 | apply A; right; eauto 6|].
      destruct (F x IH) as [H|H]; [destruct x; destruct H | auto]. }
    split; (split; [apply Sv|]); intros n x; split.
    - apply Sv. - intros (-> & R). exact (G _ R). - apply Sv. - intros (-> & R). exact (G _ R).
  Qed.
  Lemma all_definitions_gives r : roots_ok r -> triple False (all_definitions S W r) complete.
  Proof using P.
    intros K c I. unfold all_definitions. destruct (c_all c) as [v|] eqn:E; [split; auto; now apply (i_all _ I)|].
    pose proof (visit_schema_gives r K c I) as H. destruct (visit_schema S W r c) as [v c'| |]; auto. destruct H as (I' & C). split; auto.
    keep I'. now intros w [= <-].
  Qed.
  Lemma complete_types v : complete v -> lists_types S W (map snd (fst v)).
  Proof.
    intros ((So & A) & _). assert (E : map td_name (map snd (fst v)) = map fst (fst v)).
    { rewrite map_map. apply map_ext_in. intros (n & t) I. apply A in I as (-> & _). reflexivity. }
    split; [now rewrite E|]. intros t. rewrite in_map_iff. split.
    - intros ((n & u) & <- & I). now apply A in I.
    - intros R. exists (td_name t, t). split; auto. now apply A.
  Qed.
  Lemma complete_ddefs v : complete v -> lists_ddefs S W (map snd (snd v)).
  Proof.
    intros (_ & So & A). assert (E : map dd_name (map snd (snd v)) = map fst (snd v)).
    { rewrite map_map. apply map_ext_in. intros (n & t) I. apply A in I as (-> & _). reflexivity. }
    split; [now rewrite E|]. intros t. rewrite in_map_iff. split.
    - intros ((n & u) & <- & I). now apply A in I.
    - intros R. exists (dd_name t, t). split; auto. now apply A.
  Qed.

  (** * Every lookup *)
  Lemma run_gives r o c m : roots_ok r -> Inv c -> run S W r o c = Some m ->
    match m with Ok a c' => Inv c' /\ answers S W o a | Panic => o = ODirectives OnSchema | NoFuel => False end.
  Proof using P.
    intros K I.
    assert (go : forall pan A (k : A -> answer) (m : M A) Q (R : Prop), triple pan m Q -> (pan -> R) -> (forall a, Q a -> answers S W o (k a)) ->
      match answered k m c with Ok a c' => Inv c' /\ answers S W o a | Panic => R | NoFuel => False end).
    { intros pan A k m' Q R T HR H. unfold answered, bind. specialize (T c I). destruct (m' c); auto. destruct T. cbn. auto. }
    assert (hd : forall t d, held t c = Some d -> visible_type S W t = Some d) by (intros t d E; exact (i_types _ I _ _ E)).
    destruct o; cbn [run].
    - intros [= <-]. apply (go False _ _ _ _ _ (scoped_type_gives False n)); [tauto|]. intros a <-. constructor.
    - intros [= <-]. apply (go False _ _ _ _ _ (scoped_ddef_gives False n)); [tauto|]. intros a <-. constructor.
    - intros [= <-]. apply (go False _ (fun v => ATypes (map snd (fst v))) _ _ _ (all_definitions_gives r K)); [tauto|]. intros a C. constructor. now apply complete_types.
    - intros [= <-]. apply (go False _ (fun v => ADirectiveDefs (map snd (snd v))) _ _ _ (all_definitions_gives r K)); [tauto|]. intros a C. constructor. now apply complete_ddefs.
    - intros [= <-]. split; auto. rewrite <- (k_query _ K). constructor.
    - intros [= <-]. split; auto. rewrite (k_mutation _ K). constructor.
    - intros [= <-]. split; auto. rewrite (k_subscription _ K). constructor.
    - destruct (held t c) as [d|] eqn:E; [|discriminate]. apply hd in E. destruct (td_composite d); [|discriminate]. intros [= <-].
      apply (go False _ _ _ _ _ (fields_gives False t d E)); [tauto|]. intros a <-. now constructor.
    - destruct (held t c) as [d|] eqn:E; [|discriminate]. apply hd in E. destruct (td_composite d); [|discriminate]. intros [= <-].
      apply (go False _ _ _ _ _ (field_get_gives False t d n E)); [tauto|]. intros a <-. now constructor.
    - destruct (held t c) as [d|] eqn:E; [|discriminate]. apply hd in E. destruct d; try discriminate; intros [= <-];
      (apply (go False _ _ _ _ _ (interfaces_gives False t _ E)); [tauto|]; intros a <-; now constructor).
    - destruct (held t c) as [d|] eqn:E; [|discriminate]. apply hd in E. destruct d; try discriminate; intros [= <-].
      apply (go False _ _ _ _ _ (members_gives False t _ E)); [tauto|]; intros a <-; now constructor.
    - destruct (held t c) as [d|] eqn:E; [|discriminate]. apply hd in E. destruct d; try discriminate; intros [= <-].
      apply (go False _ _ _ _ _ (values_gives False t _ E)); [tauto|]; intros a <-; now constructor.
    - destruct (held t c) as [d|] eqn:E; [|discriminate]. apply hd in E. destruct d; try discriminate; intros [= <-].
      assert (A := ia_input_field S W t _ E). apply (go False _ _ _ _ _ (inputs_gives False _ _ A)); [tauto|]; intros a <-; now constructor.
    - destruct (lookup pair_dec (t, f) (c_index c)) as [x|] eqn:E; [|discriminate]. intros [= <-]. apply (i_index _ I) in E.
      assert (A := ia_argument S W t f x E). apply (go False _ _ _ _ _ (inputs_gives False _ _ A)); [tauto|]; intros a <-; now constructor.
    - destruct (lookup name_dec d (c_ddefs c)) as [x|] eqn:E; [|discriminate]. intros [= <-]. apply (i_ddefs _ I) in E.
      assert (A := ia_directive S W d x E). apply (go False _ _ _ _ _ (inputs_gives False _ _ A)); [tauto|]; intros a <-; now constructor.
    - destruct (held i c) as [d|] eqn:E; [|discriminate]. destruct d; try discriminate; intros [= <-].
      apply (go False _ _ _ _ _ (implementors_gives False i)); [tauto|]; intros a <-; now constructor.
    - assert (D : forall p l, directives_at S W p l -> forall m, Some (answered ADirectives (directives S W p l) c) = Some m ->
        match m with Ok a c' => Inv c' /\ answers S W (ODirectives p) a | Panic => ODirectives p = ODirectives OnSchema | NoFuel => False end).
      { intros q l A m' [= <-]. pose proof (directives_gives (q = OnSchema) q l A (fun E => E) c I) as T. unfold answered, bind.
        destruct (directives S W q l c) as [a c'| |]; auto; [destruct T as (? & <-); cbn; split; auto; now constructor | now rewrite T]. }
      destruct p as [|t|t f|t k|q k]; cbn [run_directives].
      + apply D. constructor.
      + destruct (held t c) as [d|] eqn:E; [|discriminate]. apply hd in E. destruct d; try discriminate; apply D, (da_type S W t _ E).
      + destruct (lookup pair_dec (t, f) (c_index c)) as [x|] eqn:E; [|discriminate]. apply D. constructor. now apply (i_index _ I).
      + destruct (lookup name_dec t (c_values c)) as [l|] eqn:E; [|discriminate]. destruct (nth_error l k) as [v|] eqn:Nk; [|discriminate].
        apply D. apply (i_values _ I) in E as (d & V & ->). econstructor; eauto.
      + destruct (lookup place_dec q (c_inputs c)) as [l|] eqn:E; [|discriminate]. destruct (nth_error l k) as [v|] eqn:Nk; [|discriminate].
        apply D. apply (i_inputs _ I) in E as (d & V & ->). econstructor; eauto.
    - destruct (lookup place_dec p (c_inputs c)) as [l|] eqn:E; [|discriminate]. destruct (nth_error l k) as [v|] eqn:Nk; [|discriminate]. intros [= <-]. split; auto.
      apply (i_inputs _ I) in E as (d & V & ->). econstructor; eauto.
    - destruct (lookup dplace_dec p (c_dirs c)) as [l|] eqn:E; [|discriminate]. destruct (nth_error l k) as [v|] eqn:Nk; [|discriminate]. intros [= <-]. split; auto.
      apply (i_dirs _ I) in E as (d & V & ->). econstructor; eauto.
  Qed.
  Lemma history_Inv r c : history S W r c -> roots_ok r /\ Inv c.
  Proof using P.
    induction 1 as [c H|c o a c' _ (K & I) H].
    - pose proof (new_schema_gives False fresh fresh_Inv) as T. rewrite H in T. tauto.
    - split; auto. exact (proj1 (run_gives r o c _ K I H)).
  Qed.
  (** an answer is determined by the lookup *)
  Lemma sorted_ext {A} (key : A -> name) l l' : StronglySorted tlt (map key l) -> StronglySorted tlt (map key l') -> (forall x, In x l <-> In x l') -> l = l'.
  Proof.
    revert l'. induction l as [|x l IH]; intros l' H H' E.
    - destruct l' as [|y l']; auto. destruct (proj2 (E y) (or_introl eq_refl)).
    - destruct l' as [|y l']; [destruct (proj1 (E x) (or_introl eq_refl))|]. cbn in H, H'. inversion_clear H as [|? ? Hs Hf]. inversion_clear H' as [|? ? Hs' Hf'].
      rewrite Forall_forall in Hf, Hf'.
      assert (x = y).
      { destruct (proj1 (E x) (or_introl eq_refl)) as [->|I]; auto. destruct (proj2 (E y) (or_introl eq_refl)) as [->|J]; auto.
        apply (in_map key), Hf' in I. apply (in_map key), Hf in J. exfalso. eapply tlt_irrefl, tlt_trans; eauto. }
      subst y. f_equal. apply IH; auto. intros z. specialize (E z). cbn in E. split; intros I.
      + destruct (proj1 E (or_intror I)) as [<-|]; auto. exfalso. apply (in_map key), Hf in I. now apply tlt_irrefl in I.
      + destruct (proj2 E (or_intror I)) as [<-|]; auto. exfalso. apply (in_map key), Hf' in I. now apply tlt_irrefl in I.
  Qed.
  Lemma answers_unique o a a' : answers S W o a -> answers S W o a' -> a = a'.
  Proof using P.
    intros H H'. destruct H; inversion H'; subst; auto; try congruence.
    - f_equal. match goal with A : lists_types _ _ _, B : lists_types _ _ _ |- _ => destruct A as (So & E), B as (So' & E') end.
      apply (sorted_ext td_name); auto. intros x. now rewrite E, E'.
    - f_equal. match goal with A : lists_ddefs _ _ _, B : lists_ddefs _ _ _ |- _ => destruct A as (So & E), B as (So' & E') end.
      apply (sorted_ext dd_name); auto. intros x. now rewrite E, E'.
    - f_equal. f_equal. eapply inputs_at_unique; eauto.
    - f_equal. f_equal. eapply inputs_at_unique; eauto.
    - f_equal. f_equal. eapply inputs_at_unique; eauto.
    - f_equal. f_equal. eapply directives_at_unique; eauto.
    - match goal with A : inputs_at _ _ _ _, B : inputs_at _ _ _ _ |- _ => pose proof (inputs_at_unique _ _ _ A B); subst end. congruence.
    - match goal with A : directives_at _ _ _ _, B : directives_at _ _ _ _ |- _ => pose proof (directives_at_unique _ _ _ A B); subst end. congruence.
  Qed.
End Proofs.
